(* ApiP.v -- every reachable client state satisfies the invariant, and every
   in-contract call is safe. *)
From Coq Require Import Reals Lra Psatz ZArith Bool List Lia Arith.
From Coquelicot Require Import Complex.
From Verif Require Import Num State DD Gates GC Measure Api RNum Wf Sums Err Inv Wp Make Add MulV Canon MM MM2 MMTol MMTol2
  GateP StateP Kron Spec SpecP Readout GCP MeasureP MeasAllP MeasOneP ApplyP.
Import ListNotations.
Open Scope Z_scope.

Section ApiP.
Context (tau : R) {HTol : Tol tau}.
Let Htau : (0 <= tau < 1 / 2)%R := tol_ok.
#[local] Hint Extern 0 NumOps => exact (RNum tau) : typeclass_instances.
Context {CF : Cfg}.
Notation table := (@table (RNum tau)).
Notation state := (@state (RNum tau)).
Notation edge := (@edge (RNum tau)).
Notation node := (@node (RNum tau)).
Notation val := (val tau).
Notation valp := (valp tau).
Notation wfe := (wfe tau).
Notation wfp := (wfp tau).
Notation reg := (reg tau).
Notation TInv := (TInv tau).
Notation Inv := (Inv tau).
Notation rel := (rel tau).
Notation dn := (dn tau).
Notation pext := (pext tau).
Notation E := (@E (RNum tau)).
Notation handle := (@handle (RNum tau)).
Ltac toR := change (@num (RNum tau)) with R in *.

(* ---- operands that may be the zero terminal ---- *)
Lemma wfe_cases_V t n (e : edge) : wfe KV t n e -> (1 <= n)%nat ->
  (wfp KV t n (en e) /\ is_term (en e) = false) \/ (e = zeroE).
Proof.
  intros [Hw|[H1 H2]] Hn.
  - left. split; auto. destruct n as [|m]; [lia|]. destruct Hw as (a & nd & -> & _). reflexivity.
  - right. destruct e as [w p]. cbn in *. subst. reflexivity.
Qed.
Lemma isz0 : iszero (ew (@zeroE (RNum tau))) = true.
Proof. apply (iszero_c0 tau). lra. Qed.
Lemma dn_exact k n (e : edge) (F : (nat -> nat) -> C) err s : (0 <= err)%R -> wfe k (tb s k) n e ->
  (forall ix, val k (tb s k) n e ix = F ix) -> dn k n F err e s.
Proof.
  intros He Hw Hv. split; auto. intros ix. rewrite Hv. replace (Cminus (F ix) (F ix)) with (RtoC 0) by ring.
  rewrite Cmod_0. exact He.
Qed.

Theorem wpr_vv_add' lim n s l r : Inv s -> (1 <= n)%nat -> Z.of_nat n <= NQUBITS ->
  wfe KV (tb s KV) n l -> wfe KV (tb s KV) n r ->
  wpr tau (vv_add lim l r)
    (dn KV n (fun ix => Cplus (val KV (tb s KV) n l ix) (val KV (tb s KV) n r ix))
       (eadd tau n (Cmod (ew l) + Cmod (ew r)))) s.
Proof.
  intros HI Hn1 Hn Hl Hr.
  assert (He : (0 <= eadd tau n (Cmod (ew l) + Cmod (ew r)))%R).
  { apply eadd_pos; auto. pose proof (Cmod_ge_0 (ew l)); pose proof (Cmod_ge_0 (ew r)); lra. }
  destruct (wfe_cases_V _ _ _ Hl Hn1) as [[Hl' Htl]|Hl'], (wfe_cases_V _ _ _ Hr Hn1) as [[Hr' Htr]|Hr'].
  - apply (wpr_vv_add tau); auto.
  - subst r. unfold vv_add. rewrite Htl. cbn [andb]. cbn [wpr]. intros s1 R1. cbn [en zeroE readn].
    eexists; split; [reflexivity|]. cbn [nv]. change (Z.to_nat (-1 + 1)) with 0%nat.
    cbn [vv_add2]. rewrite isz0. replace (if iszero (ew l) then CRet zeroE else CRet l) with
      (CRet (if iszero (ew l) then zeroE else l)) by (destruct (iszero (ew l)); reflexivity).
    apply (wpr_ret tau). intros s2 R2. pose proof (rel_trans _ _ _ _ R1 R2) as R3.
    eapply (dn_stable tau); [exact HI|exact R3|].
    eapply (dnt_weaken tau); [|apply (dn_snap tau KV n _ 0 l s HI)].
    + pose proof (eadd_ge2 tau n (Cmod (ew l) + Cmod (ew (@zeroE (RNum tau)))))%R as Hg.
      pose proof (eps_pos tau). pose proof (Cmod_ge_0 (ew l)); pose proof (Cmod_ge_0 (ew (@zeroE (RNum tau)))).
      specialize (Hg ltac:(lra)). lra.
    + apply dn_exact; [lra|auto|]. intros ix. rewrite (val_zeroE tau). toC. ring.
    + lra.
  - subst l. unfold vv_add. rewrite Htr. rewrite andb_false_r. destruct n as [|m]; [lia|].
    destruct Hr' as (a & nd & Ha & Hreg & Hnv). rewrite Ha.
    eapply (wpr_read tau); [exact HI|exact Hreg|]. rewrite Hnv.
    replace (Z.to_nat (Z.of_nat m + 1)) with (S m) by lia. cbn [vv_add2]. rewrite isz0.
    replace (if iszero (ew r) then CRet zeroE else CRet r) with
      (CRet (if iszero (ew r) then zeroE else r)) by (destruct (iszero (ew r)); reflexivity).
    apply (wpr_ret tau). intros s2 R2.
    eapply (dn_stable tau); [exact HI|exact R2|].
    eapply (dnt_weaken tau); [|apply (dn_snap tau KV (S m) _ 0 r s HI)].
    + pose proof (eadd_ge2 tau (S m) (Cmod (ew (@zeroE (RNum tau))) + Cmod (ew r)))%R as Hg.
      pose proof (eps_pos tau). pose proof (Cmod_ge_0 (ew r)); pose proof (Cmod_ge_0 (ew (@zeroE (RNum tau)))).
      specialize (Hg ltac:(lra)). lra.
    + apply dn_exact; [lra|auto|]. intros ix. rewrite (val_zeroE tau). toC. ring.
    + lra.
  - subst l r. unfold vv_add. cbn [en zeroE is_term andb]. apply (wpr_ret tau). intros s2 R2.
    apply dn_exact; [exact He| |].
    + right. split; auto. cbn [ew zeroE]. rewrite (cadd_C tau). change (@c0 (RNum tau)) with (RtoC 0). toC. ring.
    + intros ix. rewrite !(val_zeroE tau). rewrite (val_zw tau).
      * toC. ring.
      * cbn [ew zeroE]. rewrite (cadd_C tau). change (@c0 (RNum tau)) with (RtoC 0). toC. ring.
Qed.

Theorem wpr_mv_multiply' n s g r : Inv s -> (1 <= n)%nat -> Z.of_nat n <= NQUBITS ->
  wfe KM (tb s KM) n g -> wfe KV (tb s KV) n r ->
  wpr tau (mv_multiply g r)
    (dn KV n (mvF n (val KM (tb s KM) n g) (val KV (tb s KV) n r)) (emv tau n (Cmod (ew g)) (Cmod (ew r)))) s.
Proof.
  intros HI Hn1 Hn Hg Hr.
  assert (He : (0 <= emv tau n (Cmod (ew g)) (Cmod (ew r)))%R).
  { apply emv_pos; auto using Cmod_ge_0. }
  destruct (wfe_cases_V _ _ _ Hr Hn1) as [[Hr' Htr]|Hr'].
  - apply (wpr_mv_multiply tau); auto.
  - subst r.
    assert (Hzero : forall e, en e = Term -> ew e = c0 ->
       wpr tau (CRet e) (dn KV n (mvF n (val KM (tb s KM) n g) (val KV (tb s KV) n zeroE)) (emv tau n (Cmod (ew g)) (Cmod (ew (@zeroE (RNum tau)))))) s).
    { intros e H1 H2. apply (wpr_ret tau). intros s2 R2. apply dn_exact; [exact He| |].
      - right. auto.
      - intros ix. rewrite (val_zw tau) by exact H2. unfold mvF. symmetry. rewrite bsum_csum.
        apply csum_zero. intros i _. rewrite (val_zeroE tau). toC. ring. }
    assert (Hm0 : forall x, cmul (@c0 (RNum tau)) x = c0) by (intros; apply (cmul_c0_l tau)).
    assert (Hm1 : forall x, cmul x (@c0 (RNum tau)) = c0) by (intros; apply (cmul_c0_r tau)).
    unfold mv_multiply. cbn [en zeroE is_term]. rewrite andb_true_r.
    destruct (is_term (en g)) eqn:Htg.
    + apply Hzero; cbn [en ew zeroE]; auto.
    + cbn [wpr]. intros s1 R1. cbn [readn]. eexists; split; [reflexivity|]. cbn [nv].
      change (Z.to_nat (-1 + 1)) with 0%nat. cbn [mv_multiply2]. rewrite Htg.
      destruct (edge_eqb g zeroE).
      * eapply (wpr_rel tau); [exact R1|]. apply Hzero; reflexivity.
      * rewrite isz0, orb_true_r. eapply (wpr_rel tau); [exact R1|]. apply Hzero; reflexivity.
Qed.

(* ---- gates ---- *)
Definition clip2 (g : nat -> nat -> C) : nat -> nat -> C :=
  @mk2 (RNum tau) (g 0%nat 0%nat) (g 0%nat 1%nat) (g 1%nat 0%nat) (g 1%nat 1%nat).
Lemma clip2_eq g : meq 1 (clip2 g) g.
Proof. intros [|[|i]] [|[|j]] Hi Hj; cbn in *; try lia; reflexivity. Qed.
Lemma clip2_bound g B : (forall i j, (i < 2)%nat -> (j < 2)%nat -> (Cmod (g i j) <= B)%R) ->
  forall i j, (Cmod (clip2 g i j) <= B)%R.
Proof. intros Hb [|i] [|j]; cbn; apply Hb; lia. Qed.
Definition clip4 (g : nat -> nat -> C) : nat -> nat -> C := fun i j => g (Nat.min i 3) (Nat.min j 3).
Lemma clip4_eq g : meq 2 (clip4 g) g.
Proof. intros i j Hi Hj. cbn in Hi, Hj. unfold clip4. rewrite !Nat.min_l by lia. reflexivity. Qed.
Lemma clip4_bound g B : (forall i j, (i < 4)%nat -> (j < 4)%nat -> (Cmod (g i j) <= B)%R) ->
  forall i j, (Cmod (clip4 g i j) <= B)%R.
Proof. intros Hb i j. apply Hb; lia. Qed.

Lemma forallb_In {A} (f : A -> bool) l l' : (forall x, In x l <-> In x l') -> forallb f l = forallb f l'.
Proof.
  intros Hi. apply eq_true_iff_eq. rewrite !forallb_forall. split; intros Hf x Hx; apply Hf, Hi; exact Hx.
Qed.
Lemma ctl_ok_mk l i : NoDup (map fst l) -> ctl_ok (mkControls l) i = ctl_ok l i.
Proof. intros Hn. apply forallb_In, mkControls_spec, Hn. Qed.

Lemma ctl_range n T l : controls_ok n T l -> forall x, In x (mkControls l) -> 0 <= fst x < Z.of_nat n.
Proof. intros [Hn Hc] x Hx. apply (proj2 (mkControls_spec l Hn)) in Hx. now destruct (Hc _ Hx). Qed.
Lemma ctl_notin n T l : controls_ok n T l -> forall x, In x (mkControls l) -> ~ In (fst x) T.
Proof. intros [Hn Hc] x Hx. apply (proj2 (mkControls_spec l Hn)) in Hx. now destruct (Hc _ Hx). Qed.

Definition g1op n (g : @gmat (RNum tau)) t l := opF n [Z.to_nat t] (g1F (Z.to_nat t) (clip2 g)) (RtoC 1) (mkControls l).
Definition g2op n (g : @gmat (RNum tau)) t0 t1 l := let a := Z.to_nat t0 in let b := Z.to_nat t1 in
  opF n [Nat.max a b; Nat.min a b] (g2F b a (clip4 g)) (RtoC 1) (mkControls l).
Lemma g1op_spec n g t l : controls_ok n [t] l -> meq n (matF (g1op n g t l)) (gate1 n g (Z.to_nat t) l).
Proof.
  intros Hc. unfold g1op. rewrite opF_gate1 by (eapply ctl_range; eauto). intros i j Hi Hj. unfold gate1.
  rewrite ctl_ok_mk by apply Hc. destruct (agree_off _ _ _ _); auto. destruct (ctl_ok l i); auto.
  apply clip2_eq; apply (Nat.lt_le_trans _ 2); try apply bit_lt; cbn; lia.
Qed.
Lemma g1op_bound n g t l B : (1 <= B)%R -> (forall i j, (i < 2)%nat -> (j < 2)%nat -> (Cmod (g i j) <= B)%R) ->
  forall ix, (Cmod (g1op n g t l ix) <= B)%R.
Proof.
  intros HB Hg ix. apply opF_bound; auto.
  - rewrite Cmod_1. lra.
  - intros r c. unfold g1F, selG. destruct (_ && _)%bool; [now apply clip2_bound|]. rewrite Cmod_0. lra.
Qed.
Theorem wpr_gate1' n g t l B s : Inv s -> size_ok n -> qubit n t -> controls_ok n [t] l -> (1 <= B)%R ->
  (forall i j, (i < 2)%nat -> (j < 2)%nat -> (Cmod (g i j) <= B)%R) ->
  wpr tau (makeGate (Z.of_nat n) g t (mkControls l)) (dn KM n (g1op n g t l) (egate tau n B)) s.
Proof.
  intros HI [Hn1 Hn] Ht Hc HB Hg. unfold qubit in Ht.
  assert (Hmk : makeGate (Z.of_nat n) g t (mkControls l) = makeGate (Z.of_nat n) (clip2 g : @gmat (RNum tau)) t (mkControls l)) by reflexivity.
  rewrite Hmk. replace t with (Z.of_nat (Z.to_nat t)) at 1 by lia.
  apply (wpr_makeGate tau) with (B := B); auto; try lia.
  - apply mkControls_spec, Hc.
  - intros x Hx. eapply ctl_range in Hx; eauto. lia.
  - intros x Hx Hf. apply (ctl_notin _ _ _ Hc x Hx). rewrite Hf. left. lia.
  - now apply clip2_bound.
Qed.
Theorem wpr_gate1 n g t l B s : Inv s -> size_ok n -> qubit n t -> controls_ok n [t] l -> (1 <= B)%R ->
  (forall i j, (i < 2)%nat -> (j < 2)%nat -> (Cmod (g i j) <= B)%R) ->
  exists F, meq n (matF F) (gate1 n g (Z.to_nat t) l) /\ (forall ix, Cmod (F ix) <= B)%R /\
    wpr tau (makeGate (Z.of_nat n) g t (mkControls l)) (dn KM n F (egate tau n B)) s.
Proof.
  intros. exists (g1op n g t l). split; [now apply g1op_spec|]. split; [now apply g1op_bound|]. now apply wpr_gate1'.
Qed.

Lemma g2op_spec n g t0 t1 l : controls_ok n [t0; t1] l -> meq n (matF (g2op n g t0 t1 l)) (gate2 n g (Z.to_nat t0) (Z.to_nat t1) l).
Proof.
  intros Hc. unfold g2op. set (a := Z.to_nat t0). set (b := Z.to_nat t1). cbv zeta.
  rewrite opF_gate2 by (eapply ctl_range; eauto). intros i j Hi Hj. unfold gate2.
  rewrite ctl_ok_mk by apply Hc. destruct (agree_off _ _ _ _); auto. destruct (ctl_ok l i); auto.
  pose proof (bit_lt i a); pose proof (bit_lt i b); pose proof (bit_lt j a); pose proof (bit_lt j b).
  apply clip4_eq; cbn; lia.
Qed.
Lemma g2op_bound n g t0 t1 l B : (1 <= B)%R -> (forall i j, (i < 4)%nat -> (j < 4)%nat -> (Cmod (g i j) <= B)%R) ->
  forall ix, (Cmod (g2op n g t0 t1 l ix) <= B)%R.
Proof.
  intros HB Hg ix. apply opF_bound; auto.
  - rewrite Cmod_1. lra.
  - intros r c. unfold g2F. destruct (_ && _)%bool; [now apply clip4_bound|]. rewrite Cmod_0. lra.
Qed.
Theorem wpr_gate2' n g t0 t1 l B s : Inv s -> size_ok n -> qubit n t0 -> qubit n t1 -> t0 <> t1 ->
  controls_ok n [t0; t1] l -> (1 <= B)%R ->
  (forall i j, (i < 4)%nat -> (j < 4)%nat -> (Cmod (g i j) <= B)%R) ->
  wpr tau (makeTwoQubitGate (Z.of_nat n) g t0 t1 (mkControls l)) (dn KM n (g2op n g t0 t1 l) (egate tau n B)) s.
Proof.
  intros HI [Hn1 Hn] Ht0 Ht1 Hne Hc HB Hg. unfold qubit in Ht0, Ht1. unfold g2op.
  set (a := Z.to_nat t0). set (b := Z.to_nat t1). cbv zeta.
  assert (Hmk : makeTwoQubitGate (Z.of_nat n) g t0 t1 (mkControls l) = makeTwoQubitGate (Z.of_nat n) (clip4 g : @gmat (RNum tau)) t0 t1 (mkControls l)) by reflexivity.
  rewrite Hmk. replace t0 with (Z.of_nat a) by lia. replace t1 with (Z.of_nat b) by lia.
  apply (wpr_makeTwoQubitGate tau) with (B := B); auto; try lia.
  - apply mkControls_spec, Hc.
  - intros x Hx. eapply ctl_range in Hx; eauto. lia.
  - intros x Hx Hf. apply (ctl_notin _ _ _ Hc x Hx). rewrite Hf. left. lia.
  - intros x Hx Hf. apply (ctl_notin _ _ _ Hc x Hx). rewrite Hf. right; left. lia.
  - now apply clip4_bound.
Qed.
Theorem wpr_gate2 n g t0 t1 l B s : Inv s -> size_ok n -> qubit n t0 -> qubit n t1 -> t0 <> t1 ->
  controls_ok n [t0; t1] l -> (1 <= B)%R ->
  (forall i j, (i < 4)%nat -> (j < 4)%nat -> (Cmod (g i j) <= B)%R) ->
  exists F, meq n (matF F) (gate2 n g (Z.to_nat t0) (Z.to_nat t1) l) /\ (forall ix, Cmod (F ix) <= B)%R /\
    wpr tau (makeTwoQubitGate (Z.of_nat n) g t0 t1 (mkControls l)) (dn KM n F (egate tau n B)) s.
Proof.
  intros. exists (g2op n g t0 t1 l). split; [now apply g2op_spec|]. split; [now apply g2op_bound|]. now apply wpr_gate2'.
Qed.

Lemma bound2 (g : nat -> nat -> C) k : exists B, (1 <= B)%R /\ forall i j, (i < k)%nat -> (j < k)%nat -> (Cmod (g i j) <= B)%R.
Proof.
  set (f := fun i => Rmax 1 (fold_right Rmax 1%R (map (fun j => Cmod (g i j)) (seq 0 k)))).
  assert (Hf : forall (h : nat -> R) l j, In j l -> (h j <= fold_right Rmax 1%R (map h l))%R).
  { intros h l j. induction l as [|x l IH]; [intros []|]. intros [->|Hi]; cbn.
    - apply Rmax_l.
    - eapply Rle_trans; [apply IH, Hi|apply Rmax_r]. }
  exists (Rmax 1 (fold_right Rmax 1%R (map f (seq 0 k)))). split; [apply Rmax_l|].
  intros i j Hi Hj. eapply Rle_trans; [|apply Rmax_r]. eapply Rle_trans; [|apply (Hf f _ i); apply in_seq; lia].
  unfold f. eapply Rle_trans; [|apply Rmax_r]. apply (Hf (fun j => Cmod (g i j)) _ j). apply in_seq; lia.
Qed.

(* ---- the exchange gate at every tolerance, on one thread ---- *)
Lemma mmF_diff m F G F' G' ix a b d e : (0 <= a)%R -> (0 <= d)%R ->
  (forall k, Cmod (F k) <= a)%R -> (forall k, Cmod (G' k) <= b)%R ->
  (forall k, Cmod (Cminus (F k) (F' k)) <= d)%R -> (forall k, Cmod (Cminus (G k) (G' k)) <= e)%R ->
  (Cmod (Cminus (mmF m F G ix) (mmF m F' G' ix)) <= 2 ^ m * (a * e + d * b))%R.
Proof.
  intros Ha Hd H1 H2 H3 H4.
  replace (Cminus (mmF m F G ix) (mmF m F' G' ix)) with
    (bsum m (fun k => Cplus (Cmult (F (comb (rowix ix) k)) (Cminus (G (comb k (colix ix))) (G' (comb k (colix ix)))))
                            (Cmult (Cminus (F (comb (rowix ix) k)) (F' (comb (rowix ix) k))) (G' (comb k (colix ix)))))).
  2: { unfold mmF. rewrite <- bsum_minus. apply bsum_ext. intros k. ring. }
  apply bsum_bound. intros k. eapply Rle_trans; [apply Cmod_triangle|]. rewrite !Cmod_mult.
  apply Rplus_le_compat; apply Rmult_le_compat; auto using Cmod_ge_0.
Qed.
Definition eswap2 (n : nat) : R :=
  let g := egate tau n 1 in (emm tau n (1 + g) (1 + g) + 2 ^ n * ((1 + g) * g + g * 1))%R.
Definition eswap (n : nat) : R :=
  let g := egate tau n 1 in let p := eswap2 n in
  (emm tau n (1 + g) (2 ^ n + p) + 2 ^ n * ((1 + g) * p + g * 2 ^ n))%R.
Lemma eswap2_pos n : (0 <= eswap2 n)%R.
Proof.
  unfold eswap2. pose proof (egate_pos tau n 1 ltac:(lra)) as Hg. pose proof (pow2_ge1 tau n).
  pose proof (emm_pos tau n (1 + egate tau n 1) (1 + egate tau n 1) ltac:(lra) ltac:(lra)).
  assert (0 <= 2 ^ n * ((1 + egate tau n 1) * egate tau n 1 + egate tau n 1 * 1))%R by nra. lra.
Qed.
Lemma eswap_0 n : tau = 0%R -> eswap n = 0%R.
Proof. intros H0. unfold eswap, eswap2. rewrite !(egate_0 tau n 1 H0), !(emm_0 tau _ _ _ H0). ring. Qed.

Theorem run_makeSwap i n s t0 t1 : Inv s -> size_ok n -> qubit n t0 -> qubit n t1 -> t0 <> t1 ->
  let F1 := g1op n (@Xmat (RNum tau)) t1 [(t0, true)] in
  let F2 := g1op n (@Xmat (RNum tau)) t0 [(t1, true)] in
  exists e s', run_on i (makeSwap (Z.of_nat n) t0 t1) s = Some (e, s') /\ rel s s' /\
    dnt tau KM (tb s' KM) n e (mmF n F1 (mmF n F2 F1)) (eswap n).
Proof.
  intros HI Hs Hq0 Hq1 Hne F1 F2.
  assert (HX : forall i j, (i < 2)%nat -> (j < 2)%nat -> (Cmod (@Xmat (RNum tau) i j) <= 1)%R).
  { intros x y Hx Hy. destruct x as [|[|]], y as [|[|]]; try lia;
   (change (Cmod (RtoC 0) <= 1)%R || change (Cmod (RtoC 1) <= 1)%R); rewrite ?Cmod_0, ?Cmod_1; lra. }
  assert (Hc : forall t c, qubit n c -> t <> c -> controls_ok n [t] [(c, true)]).
  { intros. split; [repeat constructor; auto|]. intros x [<-|[]]. split; auto. cbn. intros [?|[]]; auto. }
  set (g := egate tau n 1). assert (Hg : (0 <= g)%R) by (apply (egate_pos tau); lra).
  assert (B1 : forall ix, (Cmod (F1 ix) <= 1)%R) by (apply g1op_bound; auto; lra).
  assert (B2 : forall ix, (Cmod (F2 ix) <= 1)%R) by (apply g1op_bound; auto; lra).
  pose proof (pow2_ge1 tau n) as Hp2.
  assert (B21 : forall ix, (Cmod (mmF n F2 F1 ix) <= 2 ^ n)%R).
  { intros ix. eapply Rle_trans; [apply (mmF_bound n F2 F1 ix 1 1); auto; lra|lra]. }
  pose proof (eswap2_pos n) as Hp.
  unfold makeSwap. rewrite run_on_bind.
  destruct (wpr_run_on tau i _ s _ HI (wpr_gate1' n (@Xmat (RNum tau)) t1 [(t0, true)] 1 s HI Hs Hq1 (Hc _ _ Hq0 (not_eq_sym Hne)) ltac:(lra) HX))
    as (e1 & s1 & X1 & R1 & D1). change (mkControls [(t0, true)]) with [(t0, true)] in X1. rewrite X1. clear X1.
  pose proof (rel_inv _ _ _ R1) as I1.
  rewrite run_on_bind.
  destruct (wpr_run_on tau i _ s1 _ I1 (wpr_gate1' n (@Xmat (RNum tau)) t0 [(t1, true)] 1 s1 I1 Hs Hq0 (Hc _ _ Hq1 Hne) ltac:(lra) HX))
    as (e2 & s2 & X2 & R2 & D2). change (mkControls [(t1, true)]) with [(t1, true)] in X2. rewrite X2. clear X2.
  pose proof (rel_inv _ _ _ R2) as I2.
  assert (D1' : dn KM n F1 g e1 s2) by (eapply (dn_stable tau); [exact I1|exact R2|exact D1]).
  rewrite run_on_bind.
  destruct (run_mm_multiply tau i n s2 e2 e1 I2 (Logic.proj2 Hs) (Logic.proj1 D2) (Logic.proj1 D1')) as (e3 & s3 & X3 & R3 & D3).
  rewrite X3. clear X3. pose proof (rel_inv _ _ _ R3) as I3.
  assert (T2 : TInv KM (tb s2 KM)) by apply I2. assert (T3 : TInv KM (tb s3 KM)) by apply I3.
  pose proof (dnt_wbound tau KM _ _ _ _ _ _ T2 D1' B1) as W1. pose proof (dnt_wbound tau KM _ _ _ _ _ _ T2 D2 B2) as W2.
  fold g in W2.
  assert (D3' : dnt tau KM (tb s3 KM) n e3 (mmF n F2 F1) (eswap2 n)).
  { unfold eswap2. cbv zeta. fold g.
    apply (dnt_weaken tau) with (err := (emm tau n (Cmod (ew e2)) (Cmod (ew e1)) + 2 ^ n * ((1 + g) * g + g * 1))%R).
    { apply Rplus_le_compat_r. apply (emm_mono tau); auto; split; auto using Cmod_ge_0. }
    apply (dnt_err tau) with (F := mulF tau (tb s2 KM) e2 e1 n); [|exact D3].
    intros ix. unfold mulF. apply mmF_diff; try lra; auto.
    - intros k. eapply Rle_trans; [|exact W2]. apply (val_le tau); auto. apply D2.
    - intros k. apply D2.
    - intros k. apply D1'. }
  assert (D1'' : dn KM n F1 g e1 s3) by (eapply (dn_stable tau); [exact I2|exact R3|exact D1']).
  destruct (run_mm_multiply tau i n s3 e1 e3 I3 (Logic.proj2 Hs) (Logic.proj1 D1'') (Logic.proj1 D3)) as (e4 & s4 & X4 & R4 & D4).
  exists e4, s4. split; auto. split.
  { eapply rel_trans; [exact R1|]. eapply rel_trans; [exact R2|]. eapply rel_trans; eauto. }
  pose proof (dnt_wbound tau KM _ _ _ _ _ _ T3 D3' B21) as W3.
  unfold eswap. cbv zeta. fold g.
  apply (dnt_weaken tau) with (err := (emm tau n (Cmod (ew e1)) (Cmod (ew e3)) + 2 ^ n * ((1 + g) * eswap2 n + g * 2 ^ n))%R).
  { apply Rplus_le_compat_r. apply (emm_mono tau); auto; split; auto using Cmod_ge_0. }
  apply (dnt_err tau) with (F := mulF tau (tb s3 KM) e1 e3 n); [|exact D4].
  intros ix. unfold mulF. apply mmF_diff; try lra; auto.
  - intros k. eapply Rle_trans; [|exact W1]. apply (val_le tau); auto. apply D1''.
  - intros k. apply D1''.
  - intros k. apply D3'.
Qed.

(* ---- the invariant of client states ---- *)
Definition hok (s : state) (h : handle) : Prop :=
  Z.of_nat (h_n h) <= NQUBITS /\ (h_k h = KV -> (1 <= h_n h)%nat) /\ wfe (h_k h) (tb s (h_k h)) (h_n h) (h_e h).
Definition Aok (c : @client (RNum tau)) : Prop := Inv (fst c) /\ forall h, In h (snd c) -> hok (fst c) h.

Lemma hok_rel s s' h : Inv s -> rel s s' -> hok s h -> hok s' h.
Proof.
  intros HI Hr (H1 & H2 & H3). repeat split; auto. eapply wfe_ext; [|exact H3]. apply rel_ext; exact Hr.
Qed.
Lemma hok_tb s s' h : tb s' = tb s -> hok s h -> hok s' h.
Proof. intros Hr (H1 & H2 & H3). repeat split; auto. rewrite Hr. exact H3. Qed.

Lemma ntol_0 : @ntol (RNum tau) = @n0 (RNum tau) -> tau = 0%R.
Proof. intros H0. exact H0. Qed.

Lemma wfp_nt t n (e : edge) : wfe KV t n e -> is_term (en e) = false -> wfp KV t n (en e).
Proof. intros [Hw|[_ Hw]] Ht; auto. rewrite Hw in Ht. discriminate. Qed.

(* a matrix operation on one thread *)
Theorem seq_den i s hs n c : Inv s -> (forall h, In h hs -> hok s h) -> seq_call hs n c ->
  Z.of_nat n <= NQUBITS /\
  exists F err, (0 <= err)%R /\ (tau = 0%R -> err = 0%R) /\
    forall s2, Inv s2 -> tb s2 = tb s -> exists e s', run_on i c s2 = Some (e, s') /\ rel s2 s' /\ dn KM n F err e s'.
Proof.
  intros HI Hh Hc. destruct Hc as [n a b Ha Hb|n a b Ha Hb|n t0 t1 Hs Hq0 Hq1 Hne].
  - destruct (Hh _ Ha) as (A1 & A2 & A3). destruct (Hh _ Hb) as (B1 & B2 & B3). cbn in A1, A3, B3.
    split; auto. exists (sumF tau (tb s KM) a b n), (eaddm tau n (wsum tau a b)).
    split; [apply (eaddm_pos tau), wsum_pos|]. split; [intros H0; apply (eaddm_0 tau); auto|].
    intros s2 I2 T2. rewrite <- T2 in A3, B3 |- *. now apply (run_mm_add tau).
  - destruct (Hh _ Ha) as (A1 & A2 & A3). destruct (Hh _ Hb) as (B1 & B2 & B3). cbn in A1, A3, B3.
    split; auto. exists (mulF tau (tb s KM) a b n), (emm tau n (Cmod (ew a)) (Cmod (ew b))).
    split; [apply (emm_pos tau); apply Cmod_ge_0|]. split; [intros H0; apply (emm_0 tau); auto|].
    intros s2 I2 T2. rewrite <- T2 in A3, B3 |- *. now apply (run_mm_multiply tau).
  - split; [apply Hs|]. eexists _, (eswap n). split.
    { pose proof (egate_pos tau n 1 ltac:(lra)). pose proof (eswap2_pos n). pose proof (pow2_ge1 tau n).
      unfold eswap. cbv zeta. pose proof (emm_pos tau n (1 + egate tau n 1) (2 ^ n + eswap2 n) ltac:(lra) ltac:(lra)).
      assert (0 <= (1 + egate tau n 1) * eswap2 n)%R by (apply Rmult_le_pos; lra).
      assert (0 <= egate tau n 1 * 2 ^ n)%R by (apply Rmult_le_pos; lra).
      assert (0 <= 2 ^ n * ((1 + egate tau n 1) * eswap2 n + egate tau n 1 * 2 ^ n))%R by (apply Rmult_le_pos; lra). lra. }
    split; [apply eswap_0|]. intros s2 I2 _. apply (run_makeSwap i n s2 t0 t1); auto.
Qed.

(* what a call denotes, whatever the caches contain and whatever the schedule *)
Theorem call_den s hs k n c : Inv s -> (forall h, In h hs -> hok s h) -> call hs k n c ->
  Z.of_nat n <= NQUBITS /\ (k = KV -> (1 <= n)%nat) /\
  exists F err, (0 <= err)%R /\ (tau = 0%R -> err = 0%R) /\
    forall s2, Inv s2 -> tb s2 = tb s -> wpr tau c (dn k n F err) s2.
Proof.
  intros HI Hh Hc.
  assert (Hgate : forall n g t l, size_ok n -> qubit n t -> controls_ok n [t] l ->
    exists F err, (0 <= err)%R /\ (tau = 0%R -> err = 0%R) /\ forall s2, Inv s2 ->
    wpr tau (makeGate (Z.of_nat n) g t (mkControls l)) (dn KM n F err) s2).
  { intros n1 g t l Hs Hq Hl. destruct (bound2 g 2) as (B & HB & Hg).
    exists (g1op n1 g t l), (egate tau n1 B).
    split; [apply (egate_pos tau); auto; lra|]. split; [intros H00; apply (egate_0 tau n1 B H00)|]. intros s2 I2.
    exact (wpr_gate1' n1 g t l B s2 I2 Hs Hq Hl HB Hg). }
  assert (Hgate2 : forall n g t0 t1 l, size_ok n -> qubit n t0 -> qubit n t1 -> t0 <> t1 -> controls_ok n [t0; t1] l ->
    exists F err, (0 <= err)%R /\ (tau = 0%R -> err = 0%R) /\ forall s2, Inv s2 ->
    wpr tau (makeTwoQubitGate (Z.of_nat n) g t0 t1 (mkControls l)) (dn KM n F err) s2).
  { intros n1 g t0 t1 l Hs Hq0 Hq1 Hne Hl. destruct (bound2 g 4) as (B & HB & Hg).
    exists (g2op n1 g t0 t1 l), (egate tau n1 B).
    split; [apply (egate_pos tau); auto; lra|]. split; [intros H00; apply (egate_0 tau n1 B H00)|]. intros s2 I2.
    exact (wpr_gate2' n1 g t0 t1 l B s2 I2 Hs Hq0 Hq1 Hne Hl HB Hg). }
  assert (Hone : forall n t c, qubit n c -> t <> c -> controls_ok n [t] [(c, true)]).
  { intros. split; [repeat constructor; auto|]. intros x [<-|[]]. split; auto. cbn. intros [?|[]]; auto. }
  destruct Hc as [n Hs|n Hs|n g t l Hs Hq Hl|n g t0 t1 l Hs Hq0 Hq1 Hne Hl|n t c Hs Hq0 Hq1 Hne|n t0 t1 Ht Hs Hq0 Hq1 Hne|n t0 t1 c Hs Hq0 Hq1 Hqc Hne Hc0 Hc1|n t0 t1 Hs Hq0 Hq1 Hne
    |n a b lim Ha Hb|n g v Ha Hb|n a b Ht Ha Hb|n a b Ht Ha Hb|na nb a b Ha Hb Hta Htb Hn|k n e a Ha|n Hs].
  - destruct Hs as [H1 H2]. split; auto. split; auto. exists (bsF n (fun _ => 0%nat)), 0%R.
    split; [lra|]. split; auto. intros s2 I2 _. eapply (wpr_makeZeroState tau) with (b := fun _ => 0%nat); auto.
    intros e s' _ (_ & Hw & Hv). apply dn_exact; [lra|left; exact Hw|exact Hv].
  - destruct Hs as [H1 H2]. split; auto. split; auto. exists (bsF n (fun _ => 1%nat)), 0%R.
    split; [lra|]. split; auto. intros s2 I2 _. eapply (wpr_makeOneState tau) with (b := fun _ => 1%nat); auto.
    intros e s' _ (_ & Hw & Hv). apply dn_exact; [lra|left; exact Hw|exact Hv].
  - split; [apply Hs|]. split; [discriminate|]. destruct (Hgate n g t l Hs Hq Hl) as (F & err & X1 & X2 & X3). exists F, err. auto.
  - split; [apply Hs|]. split; [discriminate|]. destruct (Hgate2 n g t0 t1 l Hs Hq0 Hq1 Hne Hl) as (F & err & X1 & X2 & X3). exists F, err. auto.
  - split; [apply Hs|]. split; [discriminate|].
    destruct (Hgate n (@Xmat (RNum tau)) t [(c, true)] Hs Hq0) as (F & err & X1 & X2 & X3); auto. exists F, err. auto.
  - split; [apply Hs|]. split; [discriminate|].
    destruct (Hgate n (@Xmat (RNum tau)) t1 [(t0, true)] Hs Hq1) as (F1 & err1 & X1 & X2 & X3); auto.
    destruct (Hgate n (@Xmat (RNum tau)) t0 [(t1, true)] Hs Hq0) as (F2 & err2 & Y1 & Y2 & Y3); auto.
    specialize (X2 Ht). specialize (Y2 Ht). subst err1 err2.
    exists (mmF n F1 (mmF n F2 F1)), 0%R. split; [lra|]. split; auto. intros s0 I0 _. unfold makeSwap.
    apply wpr_bind; auto.
    eapply (wpr_mono tau); [exact I0| |apply (X3 s0 I0)].
    intros e1 s1 R1 D1. pose proof (rel_inv _ _ _ R1) as I1.
    apply wpr_bind; auto.
    eapply (wpr_mono tau); [exact I1| |apply (Y3 s1 I1)].
    intros e2 s2 R2 D2. pose proof (rel_inv _ _ _ R2) as I2.
    assert (D1' : dn KM n F1 0 e1 s2) by (eapply (dn_stable tau); [exact I1|exact R2|exact D1]).
    apply wpr_bind; auto.
    eapply (wpr_mono tau); [exact I2| |apply (wpr_mm_multiply tau n); auto; [apply Hs|apply D2|apply D1']].
    intros e3 s3 R3 Q3. pose proof (rel_inv _ _ _ R3) as I3.
    assert (D1'' : dn KM n F1 0 e1 s3) by (eapply (dn_stable tau); [exact I2|exact R3|exact D1']).
    pose proof (Q3 n (le_n _) (Logic.proj1 D2) (Logic.proj1 D1')) as D3.
    eapply (wpr_mono tau); [exact I3| |apply (wpr_mm_multiply tau n); auto; [apply Hs|apply D1''|apply D3]].
    intros e4 s4 R4 Q4. pose proof (Q4 n (le_n _) (Logic.proj1 D1'') (Logic.proj1 D3)) as D4.
    eapply (dnt_F tau); [|exact D4]. intros ix. unfold mulF. apply mmF_ext.
    + intros k. now apply (dnt_exact tau KM _ _ _ _ D1'').
    + intros k. rewrite (dnt_exact tau KM _ _ _ _ D3). unfold mulF. apply mmF_ext; intros k'.
      * now apply (dnt_exact tau KM _ _ _ _ D2).
      * now apply (dnt_exact tau KM _ _ _ _ D1').
  - split; [apply Hs|]. split; [discriminate|].
    destruct (Hgate2 n (@swap_matrix (RNum tau)) t0 t1 [(c, true)] Hs Hq0 Hq1 Hne) as (F & err & X1 & X2 & X3); [|exists F, err; auto].
    split; [repeat constructor; auto|]. intros x [<-|[]]. split; auto. cbn. intros [?|[?|[]]]; auto.
  - split; [apply Hs|]. split; [discriminate|].
    destruct (Hgate2 n (@iswap_matrix (RNum tau)) t0 t1 [] Hs Hq0 Hq1 Hne) as (F & err & X1 & X2 & X3); [|exists F, err; auto].
    split; [constructor|]. intros x [].
  - destruct (Hh _ Ha) as (A1 & A2 & A3). destruct (Hh _ Hb) as (B1 & B2 & B3). cbn in *.
    split; auto. split; auto. eexists _, (eadd tau n (Cmod (ew a) + Cmod (ew b))).
    split; [apply (eadd_pos tau); auto; pose proof (Cmod_ge_0 (ew a)); pose proof (Cmod_ge_0 (ew b)); lra|].
    split; [intros H00; apply (eadd_0 tau); exact H00|]. intros s2 I2 T2. rewrite <- T2 in A3, B3. 
    pose proof (wpr_vv_add' lim n s2 a b I2 (A2 eq_refl) A1 A3 B3) as Hw. rewrite T2 in Hw. exact Hw.
  - destruct (Hh _ Ha) as (A1 & A2 & A3). destruct (Hh _ Hb) as (B1 & B2 & B3). cbn in *.
    split; auto. split; auto. eexists _, (emv tau n (Cmod (ew g)) (Cmod (ew v))).
    split; [apply (emv_pos tau); auto using Cmod_ge_0|]. split; [intros H00; apply (emv_0 tau); exact H00|].
    intros s2 I2 T2. rewrite <- T2 in A3, B3.
    pose proof (wpr_mv_multiply' n s2 g v I2 (B2 eq_refl) A1 A3 B3) as Hw. rewrite T2 in Hw. exact Hw.
  - destruct (Hh _ Ha) as (A1 & A2 & A3). destruct (Hh _ Hb) as (B1 & B2 & B3). cbn in *.
    split; auto. split; [discriminate|]. exists (sumF tau (tb s KM) a b n), 0%R. split; [lra|]. split; auto.
    intros s2 I2 T2. rewrite <- T2 in A3, B3.
    eapply (wpr_mono tau); [exact I2| |apply (wpr_mm_add tau n); auto]. intros e s' _ Hd.
    rewrite <- T2. exact (Hd n (le_n _) A3 B3).
  - destruct (Hh _ Ha) as (A1 & A2 & A3). destruct (Hh _ Hb) as (B1 & B2 & B3). cbn in *.
    split; auto. split; [discriminate|]. exists (mulF tau (tb s KM) a b n), 0%R. split; [lra|]. split; auto.
    intros s2 I2 T2. rewrite <- T2 in A3, B3.
    eapply (wpr_mono tau); [exact I2| |apply (wpr_mm_multiply tau n); auto]. intros e s' _ Hd.
    rewrite <- T2. exact (Hd n (le_n _) A3 B3).
  - destruct (Hh _ Ha) as (A1 & A2 & A3). destruct (Hh _ Hb) as (B1 & B2 & B3). cbn [h_k h_n h_e] in *.
    specialize (A2 eq_refl). specialize (B2 eq_refl).
    split; auto. split; [lia|].
    eexists _, (egate tau na (Cmod (ew a) * Cmod (ew b))).
    split; [apply (egate_pos tau); auto; apply Rmult_le_pos; apply Cmod_ge_0|]. split; [intros H00; apply (egate_0 tau); exact H00|].
    intros s2 I2 T2. rewrite <- T2 in A3, B3.
    apply (wpr_vv_kronecker tau na nb); auto using wfp_nt. intros e s' _ Hd. rewrite T2 in Hd. exact Hd.
  - destruct (Hh _ Ha) as (A1 & A2 & A3). cbn [h_k h_n h_e] in *. split; auto. split; auto.
    exists (fun ix => Cmult (ncos a, nsin a) (val k (tb s k) n e ix)), 0%R. split; [lra|]. split; auto.
    intros s2 I2 T2. rewrite <- T2 in A3.
    apply (wpr_ret tau). intros s' Hr. apply dn_exact; [lra| |].
    + unfold applyGlobal. apply (wfe_scale_r tau). eapply wfe_ext; [|exact A3]. apply rel_ext, Hr.
    + intros ix. rewrite (val_applyGlobal tau). apply (f_equal (Cmult _)). rewrite <- T2.
      apply (val_ext tau); auto; [apply I2|apply rel_ext, Hr].
  - split; [apply Hs|]. split; [discriminate|]. exists (idF n), 0%R. split; [lra|]. split; auto. intros s2 I2 T2.
    apply (wpr_ret tau). intros s' Hr. apply dn_exact; [lra|left; now left|].
    intros ix. unfold val. cbn [oneE ew en]. rewrite (valp_idF tau). change (@c1 (RNum tau)) with (RtoC 1). ring.
Qed.
Theorem call_wpr s hs k n c : Inv s -> (forall h, In h hs -> hok s h) -> call hs k n c ->
  Z.of_nat n <= NQUBITS /\ (k = KV -> (1 <= n)%nat) /\ wpr tau c (fun e s' => wfe k (tb s' k) n e) s.
Proof.
  intros HI Hh Hc. destruct (call_den _ _ _ _ _ HI Hh Hc) as (H1 & H2 & F & err & _ & _ & Hw).
  split; auto. split; auto. eapply (wpr_mono tau); [exact HI| |apply (Hw s HI eq_refl)]. intros e s' _ Hd. apply Hd.
Qed.

Lemma in_rehandle k ns (es : list edge) h : In h (rehandle k ns es) -> exists n e, h = H k n e /\ In (n, e) (combine ns es).
Proof.
  unfold rehandle. rewrite in_map_iff. intros ([n e] & <- & Hi). exists n, e. auto.
Qed.
Lemma combine_F2 {A B D} (P : B -> D -> Prop) : forall (ns : list A) es es', Forall2 P es es' ->
  forall n e', In (n, e') (combine ns es') -> exists e, In (n, e) (combine ns es) /\ P e e'.
Proof.
  induction ns as [|n0 ns IH]; intros es es' HF n e' Hi; [destruct Hi|].
  destruct HF as [|e e0 es es' He HF]; [destruct Hi|]. cbn in Hi. destruct Hi as [Hi|Hi].
  - inversion Hi; subst. exists e. split; auto. now left.
  - destruct (IH es es' HF n e' Hi) as (e1 & H1 & H2). exists e1. split; auto. now right.
Qed.
Lemma keeps_F2 k t t' b es es' : keeps tau k t t' b es es' ->
  Forall2 (fun e e' => forall n, wfe k t n e -> wfe k t' n e') es es'.
Proof.
  unfold keeps. destruct es as [|e r], es' as [|e' r']; try contradiction; [constructor|].
  intros [H1 H2]. constructor.
  - intros n Hw. now apply H1.
  - induction H2 as [|a b' l l' Hk _ IH]; constructor; auto. intros n Hw. now apply Hk.
Qed.
Lemma live_of k s ns (es : list edge) ms : length ns = length es ->
  (forall h, In h (rehandle k ns es ++ ms) -> hok s h) -> live tau k (tb s k) es.
Proof.
  intros Hl Hh e He. destruct (In_nth _ _ zeroE He) as (i & Hi & <-).
  assert (Hin : In (nth i ns 0%nat, nth i es zeroE) (combine ns es)).
  { rewrite <- combine_nth by auto. apply nth_In. rewrite combine_length. lia. }
  destruct (Hh (H k (nth i ns 0%nat) (nth i es zeroE))) as (A1 & A2 & A3).
  { apply in_or_app; left. unfold rehandle. apply in_map_iff. eexists; split; [|exact Hin]. reflexivity. }
  exists (nth i ns 0%nat). cbn in *. split; auto. unfold NQUBITS in A1. lia.
Qed.

Lemma unif_R x : unif x -> (0 <= x < 1)%R.
Proof. intros [H1 H2]. apply Rleb_true in H1. apply Rltb_true in H2. split; auto. Qed.

Lemma evict_inv s s' : Inv s -> evicted s s' -> Inv s'.
Proof.
  intros HI (E1 & E2 & E3 & E4 & E5 & E6 & E7). constructor.
  - rewrite E1. apply HI.
  - intros i k lv key e He. rewrite E1. eapply HI. apply E5, He.
  - intros i k lv key e He Hv. rewrite E1. eapply HI; [apply E6; eauto|auto].
  - intros p x Hp. rewrite E1, E2. rewrite E2 in Hp. now apply HI.
  - intros i k lv key. rewrite E7. apply HI.
Qed.

Lemma isbs_wfe n b e s : isbs tau n b e s -> wfe KV (tb s KV) n e.
Proof. intros (_ & Hw & _). left; exact Hw. Qed.

Theorem Aok_step c c' : astep c c' -> Aok c -> Aok c'.
Proof.
  intros Hs [HI Hh]. destruct Hs as [s hs k n c e s' Hc Hst|s hs hs' Hi|s hs n m e Hi Hnm Hm|s ns es ms i force es' s' Hl Hk Hg|s ns es vs i force es' s' Hl Hk Hg
    |s hs v m|s hs n e l s' Hi Ht Hn Hp|s hs n e col ths r e' s' Hi Ht Hw Hl Hu Hm|s hs n e q eps th r s' Hi Ht Hw Hq Hu Hm|s hs n e q eps r s' Hi Ht Hq Hm|s hs s' He|s hs n c i e s' Hc Hx];
    cbn [fst snd] in *.
  - destruct (call_wpr _ _ _ _ _ HI Hh Hc) as (A1 & A2 & Hw).
    destruct (wpr_result tau _ _ _ _ _ HI Hw Hst) as [Hr Hq]. split; [apply Hr|].
    cbn [fst snd]. intros h [<-|Hin].
    + repeat split; auto.
    + eapply hok_rel; eauto.
  - split; auto. cbn. auto.
  - split; auto. cbn. intros h [<-|Hin]; auto. destruct (Hh _ Hi) as (A1 & A2 & A3). cbn in *.
    repeat split; auto; cbn; [discriminate|]. eapply (wfe_KM_up tau); eauto.
  - pose proof (live_of _ _ _ _ _ Hl Hh) as Hlv.
    destruct (gc_spec tau i es force s HI Hlv) as (es1 & s1 & G1 & G2 & G3 & G4 & _).
    rewrite G1 in Hg. inversion Hg; subst es1 s1. split; auto. cbn. intros h Hin. apply in_app_or in Hin as [Hin|Hin].
    + apply in_rehandle in Hin as (n & e' & -> & Hin).
      destruct (combine_F2 _ _ _ _ (keeps_F2 _ _ _ _ _ _ G4) _ _ Hin) as (e & Hin' & Hw).
      destruct (Hh (H KV n e)) as (A1 & A2 & A3).
      { apply in_or_app; left. unfold rehandle. apply in_map_iff. exists (n, e). auto. }
      repeat split; auto.
    + destruct (Hh h (in_or_app _ _ _ (or_intror Hin))) as (A1 & A2 & A3). rewrite (Hk _ Hin) in *.
      repeat split; auto; rewrite (Hk _ Hin); [discriminate|]. rewrite G3. exact A3.
  - pose proof (live_of _ _ _ _ _ Hl Hh) as Hlv.
    destruct (gc_mat_spec tau i es force s HI Hlv) as (es1 & s1 & G1 & G2 & G3 & G4 & _).
    rewrite G1 in Hg. inversion Hg; subst es1 s1. split; auto. cbn. intros h Hin. apply in_app_or in Hin as [Hin|Hin].
    + apply in_rehandle in Hin as (n & e' & -> & Hin).
      destruct (combine_F2 _ _ _ _ (keeps_F2 _ _ _ _ _ _ G4) _ _ Hin) as (e & Hin' & Hw).
      destruct (Hh (H KM n e)) as (A1 & A2 & A3).
      { apply in_or_app; left. unfold rehandle. apply in_map_iff. exists (n, e). auto. }
      repeat split; auto.
    + destruct (Hh h (in_or_app _ _ _ (or_intror Hin))) as (A1 & A2 & A3). rewrite (Hk _ Hin) in *.
      repeat split; auto; rewrite (Hk _ Hin); auto. rewrite G3. exact A3.
  - split; auto. destruct HI as [I1 I2 I3 I4]. constructor; auto.
  - destruct (Hh _ Hi) as (A1 & A2 & A3). cbn in *. specialize (A2 eq_refl).
    destruct (probabilities_spec tau s n e HI ltac:(lia) (wfp_nt _ _ _ A3 Ht)) as (s1 & P1 & P2 & P3).
    rewrite P1 in Hp. inversion Hp; subst. split; auto. cbn. intros h Hin. eapply hok_tb; [apply P2|auto].
  - destruct (Hh _ Hi) as (A1 & A2 & A3). cbn [h_k h_n h_e] in *. specialize (A2 eq_refl).
    destruct (measureAll_spec tau s n e col ths HI A2 A1 (wfp_nt _ _ _ A3 Ht) Hw Hl) as (B & e1 & s1 & s2 & P1 & P2 & P3 & P4 & P5 & P6 & P7 & P8 & P9).
    { intros th Hth. apply unif_R. auto. }
    rewrite P1 in Hm. inversion Hm; subst. split; auto. cbn [fst snd].
    assert (Hold : forall h, In h hs -> hok s' h).
    { intros h Hin. eapply hok_rel; [exact P6|exact P8|]. eapply hok_tb; [apply P5|auto]. }
    intros h [<-|Hin]; auto.
    repeat split; auto. cbn [h_k h_n h_e]. destruct col.
    + eapply isbs_wfe; eauto.
    + destruct P9 as [-> ->]. rewrite (pe_tb _ _ _ P5). exact A3.
  - destruct (Hh _ Hi) as (A1 & A2 & A3). cbn [h_k h_n h_e] in *. specialize (A2 eq_refl).
    unfold qubit in Hq.
    pose proof (measureOneCollapsing_spec tau s n e (Z.to_nat q) eps th HI ltac:(lia) A1 (wfp_nt _ _ _ A3 Ht) Hw (unif_R _ Hu)) as HM.
    cbv zeta in HM. rewrite Z2Nat.id in HM by lia. destruct (Rltb eps _).
    + destruct HM as (s1 & M1 & M2 & M3). rewrite M1 in Hm. inversion Hm; subst. split; auto. cbn.
      intros h Hin. eapply hok_tb; [apply M2|auto].
    + destruct HM as (b & e1 & s1 & s2 & M1 & _ & _ & M2 & M3 & M4 & M5 & _). rewrite M1 in Hm. inversion Hm; subst.
      split; [apply M4|]. cbn [fst snd].
      assert (Hold : forall h, In h hs -> hok s' h).
      { intros h Hin. eapply hok_rel; [exact M3|exact M4|]. eapply hok_tb; [apply M2|auto]. }
      intros h [<-|Hin]; auto. repeat split; auto.
  - destruct (Hh _ Hi) as (A1 & A2 & A3). cbn [h_k h_n h_e] in *. specialize (A2 eq_refl).
    unfold qubit in Hq.
    pose proof (measureOne_spec tau s n e (Z.to_nat q) eps HI ltac:(lia) A1 (wfp_nt _ _ _ A3 Ht)) as HM.
    cbv zeta in HM. rewrite Z2Nat.id in HM by lia. destruct HM as (s1 & M1 & M2 & M3).
    rewrite M3 in Hm. inversion Hm; subst. split; auto. cbn. intros h Hin. eapply hok_tb; [apply M1|auto].
  - split; [eapply evict_inv; eauto|]. cbn. intros h Hin. eapply hok_tb; [apply He|auto].
  - destruct (seq_den i s hs n c HI Hh Hc) as (A1 & F & err & _ & _ & Hd).
    destruct (Hd s HI eq_refl) as (e1 & s1 & X1 & R1 & D1). rewrite X1 in Hx. injection Hx as <- <-.
    split; [apply (rel_inv _ _ _ R1)|]. cbn [fst snd]. intros h [<-|Hin].
    + split; [exact A1|]. split; [discriminate|apply D1].
    + eapply hok_rel; eauto.
Qed.

Theorem reachable_ok c : reachable c -> Aok c.
Proof.
  induction 1 as [|c c' _ IH Hs].
  - split; [apply (Inv_init tau)|]. intros h [].
  - eapply Aok_step; eauto.
Qed.
End ApiP.
