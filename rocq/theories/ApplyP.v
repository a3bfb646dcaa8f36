(* ApplyP.v -- building a gate and applying it; one-qubit measurement. *)
From Coq Require Import Reals Lra Psatz ZArith Bool List Lia Arith.
From Coquelicot Require Import Complex.
From Verif Require Import Num State DD Gates Measure RNum Wf Sums Err Inv Wp Make Add MulV Canon GateP StateP Spec SpecP Readout MeasureP MeasOneP.
Import ListNotations.
Open Scope Z_scope.

Section ApplyP.
Context (tau : R) {HTol : Tol tau}.
Let Htau : (0 <= tau < 1 / 2)%R := tol_ok.
#[local] Hint Extern 0 NumOps => exact (RNum tau) : typeclass_instances.
Context {CF : Cfg}.
Notation table := (@table (RNum tau)).
Notation state := (@state (RNum tau)).
Notation edge := (@edge (RNum tau)).
Notation node := (@node (RNum tau)).
Notation val := (val tau).
Notation valp := (valp tau).
Notation wfe := (wfe tau).
Notation wfp := (wfp tau).
Notation reg := (reg tau).
Notation TInv := (TInv tau).
Notation Inv := (Inv tau).
Notation rel := (rel tau).
Notation dn := (dn tau).
Notation pext := (pext tau).
Notation E := (@E (RNum tau)).
Ltac toR := change (@num (RNum tau)) with R in *.

Lemma weight_bound k t n (e : edge) F err B : TInv k t -> dnt tau k t n e F err -> (forall ix, Cmod (F ix) <= B)%R ->
  (0 <= B + err)%R -> (Cmod (ew e) <= B + err)%R.
Proof.
  intros HT [Hw Hd] HF Hpos. destruct Hw as [Hw|[Hz _]].
  - destruct (valp_max tau k t HT n (en e) Hw) as (ix & _ & H1).
    assert (Hv : Cmod (val k t n e ix) = Cmod (ew e)). { unfold Wf.val. rewrite Cmod_mult, H1. ring. }
    rewrite <- Hv. replace (val k t n e ix) with (Cplus (F ix) (Cminus (val k t n e ix) (F ix))) by ring.
    eapply Rle_trans; [apply Cmod_triangle|]. apply Rplus_le_compat; auto.
  - rewrite Hz. change (@c0 (RNum tau)) with (RtoC 0). rewrite Cmod_0. exact Hpos.
Qed.

(* error of applying an approximate operator *)
Definition eapply' (n : nat) (B err w : R) : R := (emv tau n (B + err) w + 2 ^ n * (err * w))%R.
Lemma eapply_pos n B err w : (0 <= B)%R -> (0 <= err)%R -> (0 <= w)%R -> (0 <= eapply' n B err w)%R.
Proof.
  intros HB He Hw. unfold eapply'. apply Rplus_le_le_0_compat; [apply (emv_pos tau); lra|].
  apply Rmult_le_pos; [apply pow_le; lra|apply Rmult_le_pos; auto].
Qed.
Lemma eapply_0 n B w : tau = 0%R -> eapply' n B 0 w = 0%R.
Proof. intros H. unfold eapply'. rewrite (emv_0 tau) by auto. ring. Qed.

Lemma wpr_mv_apply n s g (r : edge) F err B : Inv s -> Z.of_nat n <= NQUBITS -> dn KM n F err g s ->
  (forall ix, Cmod (F ix) <= B)%R -> (0 <= B)%R -> (0 <= err)%R -> wfp KV (tb s KV) n (en r) ->
  wpr tau (mv_multiply g r) (dn KV n (mvF n F (val KV (tb s KV) n r)) (eapply' n B err (Cmod (ew r)))) s.
Proof.
  intros HI Hn Hg HF HB He Hr. pose proof (inv_tb _ _ HI KV) as HTv. pose proof (inv_tb _ _ HI KM) as HTm.
  destruct Hg as [Hwg Hdg].
  pose proof (weight_bound KM _ n g F err B HTm (conj Hwg Hdg) HF ltac:(lra)) as Hwb.
  apply (wpr_mono tau _ (dn KV n (mvF n (val KM (tb s KM) n g) (val KV (tb s KV) n r)) (emv tau n (Cmod (ew g)) (Cmod (ew r))))).
  - exact HI.
  - intros e s' Hrel Hd. unfold dn in *.
    apply (dnt_weaken tau _ _ _ _ _ (emv tau n (Cmod (ew g)) (Cmod (ew r)) + 2 ^ n * (err * Cmod (ew r)))%R).
    + unfold eapply'. apply Rplus_le_compat_r. apply (emv_mono tau); split; try apply Cmod_ge_0; auto. apply Rle_refl.
    + apply (dnt_err tau _ _ _ _ (mvF n (val KM (tb s KM) n g) (val KV (tb s KV) n r))); [|exact Hd].
      intros ix. replace (Cminus (mvF n (val KM (tb s KM) n g) (val KV (tb s KV) n r) ix) (mvF n F (val KV (tb s KV) n r) ix))
        with (mvF n (fun k => Cminus (val KM (tb s KM) n g k) (F k)) (val KV (tb s KV) n r) ix).
      2:{ unfold mvF. rewrite <- bsum_minus. apply bsum_ext. intros k. ring. }
      apply mvF_bound; [exact He|exact Hdg|]. intros k. apply (val_le tau KV _ n r k HTv). left. exact Hr.
  - apply (wpr_mv_multiply tau); auto.
Qed.

Lemma hb_probq t n (e : edge) ii b :
  (Cmod (ew e) ^ 2 * hb tau t ii n (en e) b = probq n (vecF (val KV t n e)) ii b)%R.
Proof.
  unfold hb, probq. rewrite rbsum_rsum.
  assert (H : forall N f, (Cmod (ew e) ^ 2 * rsum N f = rsum N (fun i => Cmod (ew e) ^ 2 * f i))%R).
  { induction N; intros f; cbn [rsum]; [ring|]. rewrite <- IHN. ring. }
  rewrite H. apply rsum_ext. intros i _. unfold bix at 1. destruct (Nat.eqb (bit i ii) b); [|ring].
  unfold vecF. rewrite val_sq. reflexivity.
Qed.
Lemma probq_total n v k : (probq n v k 0 + probq n v k 1 = norm2v n v)%R.
Proof.
  unfold probq, norm2v. generalize (2 ^ n)%nat. induction n0; cbn [rsum]; [ring|].
  rewrite <- IHn0. pose proof (bit_lt2 n0 k). destruct (bit n0 k) as [|[|x]]; cbn [Nat.eqb]; [ring|ring|lia].
Qed.
Lemma probq_nonneg n v k b : (0 <= probq n v k b)%R.
Proof.
  unfold probq. generalize (2 ^ n)%nat. induction n0; cbn [rsum]; [lra|]. destruct (Nat.eqb (bit n0 k) b); [|lra].
  pose proof (pow2_ge_0 (Cmod (v n0))). lra.
Qed.
Lemma norm_pos s n (e : edge) : Inv s -> wfp KV (tb s KV) n (en e) -> ew e <> c0 -> (0 < norm2v n (vecF (val KV (tb s KV) n e)))%R.
Proof.
  intros HI Hw He. pose proof (psum_pos tau _ (inv_tb _ _ HI KV) _ _ Hw) as Hp.
  assert (H : norm2v n (vecF (val KV (tb s KV) n e)) = (Cmod (ew e) ^ 2 * psum tau (tb s KV) n (en e))%R).
  { unfold Inv.psum. rewrite <- rbsum_scal, rbsum_rsum. apply rsum_ext. intros i _. unfold vecF. apply val_sq. }
  rewrite H. apply Rmult_lt_0_compat; [|exact Hp]. apply pow_lt. apply Cmod_gt_0. exact He.
Qed.

Definition projM (b : nat) : matrix := fun i j => if (Nat.eqb i b && Nat.eqb j b)%bool then RtoC 1 else RtoC 0.
Definition projG (z : bool) : nat -> nat -> C := if z then @proj0 (RNum tau) else @proj1 (RNum tau).
Lemma proj_spec (z : bool) : meq 1 (projG z) (projM (if z then 0 else 1)).
Proof.
  intros i j Hi Hj. cbn in Hi, Hj. destruct z; destruct i as [|[|i]]; try lia; destruct j as [|[|j]]; try lia; reflexivity.
Qed.
Lemma Cmod_projG z i j : (Cmod (projG z i j) <= 1)%R.
Proof.
  assert (H1 : (Cmod (@c1 (RNum tau)) <= 1)%R) by (change (@c1 (RNum tau)) with (RtoC 1); rewrite Cmod_1; lra).
  assert (H0 : (Cmod (@c0 (RNum tau)) <= 1)%R) by (change (@c0 (RNum tau)) with (RtoC 0); rewrite Cmod_0; lra).
  destruct z; destruct i as [|[|i]]; destruct j as [|[|j]]; assumption.
Qed.
Lemma project_action n t b v : (t < n)%nat -> (b < 2)%nat -> veq n (mv n (gate1 n (projM b) t []) v) (project t b v).
Proof.
  intros Ht Hb i Hi. rewrite (gate1_action n t Ht) by auto. cbn [ctl_ok forallb]. unfold project, projM.
  pose proof (bit_lt2 i t). pose proof (setb_self i t) as Hs.
  destruct b as [|[|b]]; [| |lia]; destruct (bit i t) as [|[|x]]; try lia; cbn [Nat.eqb andb]; rewrite ?Hs; ring.
Qed.
Definition eproj (n : nat) (w : R) : R := eapply' n 1 (egate tau n 1) w.
Lemma eproj_0 n w : tau = 0%R -> eproj n w = 0%R.
Proof. intros H. unfold eproj. rewrite (egate_0 tau) by auto. apply eapply_0. exact H. Qed.

Theorem measureOneCollapsing_spec s n (e : edge) ii (epsilon th : R) : Inv s -> (ii < n)%nat -> Z.of_nat n <= NQUBITS ->
  wfp KV (tb s KV) n (en e) -> ew e <> c0 -> (0 <= th < 1)%R ->
  let v := vecF (val KV (tb s KV) n e) in
  if Rltb epsilon (Rabs (norm2v n v - 1)) then
    exists s', measureOneCollapsing e (Z.of_nat ii) epsilon th s = Some (Throw, s') /\ pext s s' /\ Inv s'
  else
    exists (b : bool) e' s1 s', measureOneCollapsing e (Z.of_nat ii) epsilon th s = Some (Ret (b, e'), s') /\
      let b' := if b then 1%nat else 0%nat in
      (b = false <-> (th < probq n v ii 0 / norm2v n v)%R) /\ (0 < probq n v ii b')%R /\
      pext s s1 /\ Inv s1 /\ rel s1 s' /\ wfe KV (tb s' KV) n e' /\
      vclose n (eproj n (Cmod (ew e)) / sqrt (probq n v ii b')) (vecF (val KV (tb s' KV) n e'))
         (fun i => Cdiv (project ii b' v i) (RtoC (sqrt (probq n v ii b')))).
Proof.
  intros HI Hii Hn Hw He Hth v. unfold measureOneCollapsing.
  destruct (detProbs_spec tau s n e ii HI Hii Hn Hw) as (s1 & -> & Hpe & HI1 & Hpr).
  rewrite !hb_probq. fold v. cbv zeta.
  assert (Hsum : @nadd (RNum tau) (probq n v ii 0) (probq n v ii 1) = norm2v n v) by apply probq_total.
  rewrite Hsum. change (@nltb (RNum tau) epsilon (@nabs (RNum tau) (@nsub (RNum tau) (norm2v n v) n1))) with (Rltb epsilon (Rabs (norm2v n v - 1))).
  destruct (Rltb epsilon (Rabs (norm2v n v - 1))); [exists s1; auto|].
  pose proof (norm_pos s n e HI Hw He) as Hnp. fold v in Hnp.
  change (@nltb (RNum tau) th (@ndiv (RNum tau) (probq n v ii 0) (norm2v n v))) with (Rltb th (probq n v ii 0 / norm2v n v)).
  set (zero := Rltb th (probq n v ii 0 / norm2v n v)).
  set (b' := if zero then 0%nat else 1%nat).
  assert (Hf : (if zero then probq n v ii 0 else probq n v ii 1) = probq n v ii b') by (unfold b'; destruct zero; reflexivity).
  assert (Hpos : (0 < probq n v ii b')%R).
  { pose proof (probq_nonneg n v ii 0). pose proof (probq_nonneg n v ii 1). pose proof (probq_total n v ii).
    unfold b', zero. destruct (Rltb_spec th (probq n v ii 0 / norm2v n v)) as [Hd|Hd].
    - apply Rnot_le_lt. intros X. assert (Hz : probq n v ii 0 = 0%R) by lra. rewrite Hz in Hd. unfold Rdiv in Hd. rewrite Rmult_0_l in Hd. lra.
    - apply Rnot_le_lt. intros X. apply Hd. assert (Hz : probq n v ii 0 = norm2v n v) by lra. rewrite Hz.
      replace (norm2v n v / norm2v n v)%R with 1%R by (field; lra). lra. }
  pose proof Hw as Hw1. rewrite <- (pe_tb _ _ _ Hpe) in Hw1.
  destruct n as [|m]; [lia|]. rewrite (getVarV tau s1 m (en e) Hw1).
  replace (Z.of_nat m + 1) with (Z.of_nat (S m)) by lia. set (n := S m) in *.
  assert (Hgate : wpr tau (makeGate (Z.of_nat n) (if zero then proj0 else proj1) (Z.of_nat ii) [])
      (fun g s' => dn KM n (opF n [ii] (g1F ii (projG zero)) (RtoC 1) []) (egate tau n 1) g s') s1).
  { apply (wpr_makeGate tau n ii (projG zero) [] 1%R s1); auto.
    - constructor.
    - intros x [].
    - lra.
    - intros i j. apply (Cmod_projG zero). }
  destruct (wpr_run tau _ _ _ HI1 Hgate) as (g & s2 & Hrun & Hrel & Hdg). rewrite Hrun.
  pose proof (rel_inv tau _ _ Hrel) as HI2.
  assert (Hw2 : wfp KV (tb s2 KV) n (en e)). { exact (wfp_ext tau KV _ _ n _ (rel_ext tau _ _ KV Hrel) Hw1). }
  pose proof (wpr_mv_apply n s2 g e _ _ 1%R HI2 Hn Hdg) as Hap.
  assert (HFb : forall ix, (Cmod (opF n [ii] (g1F ii (projG zero)) (RtoC 1) [] ix) <= 1)%R).
  { intros ix. apply opF_bound; [lra|rewrite Cmod_1; lra|]. intros r c. unfold g1F, selG.
    destruct (_ && _)%bool; [apply (Cmod_projG zero)|rewrite Cmod_0; lra]. }
  specialize (Hap HFb ltac:(lra) (egate_pos tau n 1 ltac:(lra)) Hw2).
  destruct (wpr_run tau _ _ _ HI2 Hap) as (e2 & s3 & Hrun2 & Hrel2 & Hd2). rewrite Hrun2.
  exists (negb zero), (E (cmul (ew e2) (sqrt (1 / probq n v ii b'), 0%R)) (en e2)), s1, s3.
  split. { rewrite <- Hf. reflexivity. }
  assert (Hb' : (if negb zero then 1%nat else 0%nat) = b') by (unfold b'; destruct zero; reflexivity).
  cbv zeta. rewrite Hb'. split.
  { unfold zero. destruct (Rltb_spec th (probq n v ii 0 / norm2v n v)); cbn; split; auto; try discriminate; intros; contradiction. }
  split; [exact Hpos|]. split; [exact Hpe|]. split; [exact HI1|]. split; [exact (rel_trans tau _ _ _ Hrel Hrel2)|].
  destruct Hd2 as [Hwf2 Hd2]. split; [apply wfe_scale_r; exact Hwf2|].
  intros i Hi. specialize (Hd2 (bix i)).
  assert (Hmv : mvF n (opF n [ii] (g1F ii (projG zero)) (RtoC 1) []) (val KV (tb s2 KV) n e) (bix i) = project ii b' v i).
  { change (mvF n (opF n [ii] (g1F ii (projG zero)) (RtoC 1) []) (val KV (tb s2 KV) n e) (bix i))
      with (vecF (mvF n (opF n [ii] (g1F ii (projG zero)) (RtoC 1) []) (val KV (tb s2 KV) n e)) i).
    rewrite mvF_mv, opF_gate1 by (intros x []).
    rewrite (mv_ext n _ (gate1 n (projM b') ii []) _ _ i Hi (gate1_meq n ii _ _ [] (proj_spec zero)) (veq_refl n _)).
    rewrite (project_action n ii b' _ Hii) by (auto; unfold b'; destruct zero; lia).
    unfold project. destruct (Nat.eqb (bit i ii) b'); [|reflexivity]. unfold v, vecF.
    rewrite (val_ext tau KV (tb s1 KV) (tb s2 KV)).
    - rewrite (pe_tb _ _ _ Hpe). reflexivity.
    - exact (inv_tb _ _ HI1 KV).
    - exact (rel_ext tau _ _ KV Hrel).
    - left. exact Hw1. }
  rewrite Hmv in Hd2. unfold vecF.
  set (x := sqrt (probq n v ii b')). assert (Hx : (0 < x)%R) by (apply sqrt_lt_R0; exact Hpos).
  assert (Hinv : sqrt (1 / probq n v ii b') = (/ x)%R).
  { unfold Rdiv. rewrite Rmult_1_l. rewrite sqrt_inv. reflexivity. }
  rewrite Hinv.
  assert (Hval : val KV (tb s3 KV) n (E (cmul (ew e2) (/ x, 0)%R) (en e2)) (bix i) = Cmult (RtoC (/ x)) (val KV (tb s3 KV) n e2 (bix i))).
  { unfold Wf.val. cbn [ew en]. rewrite (cmul_C tau (ew e2) ((/ x)%R, 0%R)). change ((/ x)%R, 0%R) with (RtoC (/ x)). ring. }
  rewrite Hval. unfold Cdiv. rewrite <- RtoC_inv by lra.
  replace (Cminus (Cmult (RtoC (/ x)) (val KV (tb s3 KV) n e2 (bix i))) (Cmult (project ii b' v i) (RtoC (/ x))))
    with (Cmult (Cminus (val KV (tb s3 KV) n e2 (bix i)) (project ii b' v i)) (RtoC (/ x))) by ring.
  rewrite Cmod_mult, Cmod_R, Rabs_pos_eq by (apply Rlt_le, Rinv_0_lt_compat; exact Hx).
  unfold Rdiv. apply Rmult_le_compat_r; [apply Rlt_le, Rinv_0_lt_compat; exact Hx|exact Hd2].
Qed.

Theorem measureOne_spec s n (e : edge) ii (epsilon : R) : Inv s -> (ii < n)%nat -> Z.of_nat n <= NQUBITS ->
  wfp KV (tb s KV) n (en e) ->
  let v := vecF (val KV (tb s KV) n e) in
  exists s', pext s s' /\ Inv s' /\
    measureOne e (Z.of_nat ii) epsilon s =
      Some (if Rltb epsilon (Rabs (norm2v n v - 1)) then Throw else Ret (probq n v ii 0 / norm2v n v)%R, s').
Proof.
  intros HI Hii Hn Hw v. unfold measureOne.
  destruct (detProbs_spec tau s n e ii HI Hii Hn Hw) as (s1 & -> & Hpe & HI1 & Hpr).
  rewrite !hb_probq. fold v. cbv zeta.
  assert (Hsum : @nadd (RNum tau) (probq n v ii 0) (probq n v ii 1) = norm2v n v) by apply probq_total.
  rewrite Hsum. exists s1. split; [exact Hpe|]. split; [exact HI1|].
  change (@nltb (RNum tau) epsilon (@nabs (RNum tau) (@nsub (RNum tau) (norm2v n v) n1))) with (Rltb epsilon (Rabs (norm2v n v - 1))).
  destruct (Rltb epsilon (Rabs (norm2v n v - 1))); reflexivity.
Qed.
End ApplyP.
