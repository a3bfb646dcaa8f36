(* FpCirc.v -- C67: accuracy of circuit simulation over a rounded arithmetic, under
   every schedule, with collections and other activity in between. *)
From Coq Require Import Reals Lra Psatz ZArith Bool List Lia Arith FunctionalExtensionality.
From Coquelicot Require Import Complex.
From Verif Require Import Num State DD Gates GC Measure Api RNum Wf Sums Err Inv Wp Make Add MulV GateP StateP Kron Spec SpecP Readout MeasAllP
  ApiP Obs Circuit FpA FpE FpW FpM FpAdd FpMul FpMM FpMM2 FpGate FpState FpRead FpMeas FpOne FpGC FpKron.
Import ListNotations.
Open Scope Z_scope.

Section FpCirc.
Context {NO : NumOps} {AC : Accur NO} {CF : Cfg}.
Notation dl := (@dl NO AC).
Notation Gr := (@Gr NO AC).
Notation Gp := (@Gp NO AC).
Notation state := (@State.state NO).
Notation edge := (@State.edge NO).
Notation handle := (@Api.handle NO).
Notation comp := (@DD.comp NO).

(* ---- operands that may be the zero terminal ---- *)
Lemma wfe_cases_V t n (e : edge) : wfe KV t n e -> (1 <= n)%nat ->
  (wfp KV t n (en e) /\ is_term (en e) = false) \/ (e = zeroE).
Proof.
  intros [Hw|[H1 H2]] Hn.
  - left. split; auto. destruct n as [|m]; [lia|]. destruct Hw as (a & nd & -> & _). reflexivity.
  - right. destruct e as [w p]. cbn in *. subst. apply cv_z in H1. now subst.
Qed.
Lemma isz0 : iszero (ew (@zeroE NO)) = true. Proof. apply z_0. cbn [ew zeroE]. apply cv_0. Qed.
Lemma dn_exact k n (e : edge) (F : (nat -> nat) -> C) err s : (0 <= err)%R -> wfe k (tb s k) n e ->
  (forall ix, val k (tb s k) n e ix = F ix) -> dn k n F err e s.
Proof.
  intros He Hw Hv. split; auto. intros ix. rewrite Hv. replace (Cminus (F ix) (F ix)) with (RtoC 0) by ring.
  rewrite Cmod_0. exact He.
Qed.
Theorem wpr_vv_add' lim n s l r : Inv s -> (1 <= n)%nat -> Z.of_nat n <= NQUBITS ->
  wfe KV (tb s KV) n l -> wfe KV (tb s KV) n r ->
  wpr (vv_add lim l r)
    (dn KV n (fun ix => Cplus (val KV (tb s KV) n l ix) (val KV (tb s KV) n r ix))
       (eadd n (Cmod (cv (ew l)) + Cmod (cv (ew r))))) s.
Proof.
  intros HI Hn1 Hn Hl Hr.
  assert (Hp : (0 <= Cmod (cv (ew l)) + Cmod (cv (ew r)))%R) by (pose proof (Cmod_ge_0 (cv (ew l))); pose proof (Cmod_ge_0 (cv (ew r))); lra).
  assert (He : (0 <= eadd n (Cmod (cv (ew l)) + Cmod (cv (ew r))))%R) by (apply eadd_pos; auto).
  pose proof (eadd_ge2 n _ Hp) as Hg.
  assert (Hd : (0 <= dl * Gp n)%R) by (apply Rmult_le_pos; [apply dl_pos|apply Grp]).
  assert (Hds : (0 <= dl * (Cmod (cv (ew l)) + Cmod (cv (ew r))) * Gp n)%R) by (apply Rmult_le_pos; [apply Rmult_le_pos; [apply dl_pos|exact Hp]|apply Grp]).
  destruct (wfe_cases_V _ _ _ Hl Hn1) as [[Hl' Htl]|Hl'], (wfe_cases_V _ _ _ Hr Hn1) as [[Hr' Htr]|Hr'].
  - apply wpr_vv_add; auto.
  - subst r. unfold vv_add. rewrite Htl. cbn [andb]. cbn [wpr]. intros s1 R1. cbn [en zeroE readn].
    eexists; split; [reflexivity|]. cbn [nv]. change (Z.to_nat (-1 + 1)) with 0%nat.
    cbn [vv_add2]. rewrite isz0. replace (if iszero (ew l) then CRet zeroE else CRet l) with
      (CRet (if iszero (ew l) then zeroE else l)) by (destruct (iszero (ew l)); reflexivity).
    apply wpr_ret. intros s2 R2. pose proof (rel_trans _ _ _ R1 R2) as R3.
    eapply dn_stable; [exact HI|exact R3|].
    eapply dnt_weaken; [|apply (dn_snap KV n _ 0 l s HI)].
    + lra.
    + apply dn_exact; [lra|auto|]. intros ix. rewrite val_zeroE. ring.
    + lra.
  - subst l. unfold vv_add. rewrite Htr. rewrite andb_false_r. destruct n as [|m]; [lia|].
    destruct Hr' as (a & nd & Ha & Hreg & Hnv). rewrite Ha.
    eapply wpr_read; [exact HI|exact Hreg|]. rewrite Hnv.
    replace (Z.to_nat (Z.of_nat m + 1)) with (S m) by lia. cbn [vv_add2]. rewrite isz0.
    replace (if iszero (ew r) then CRet zeroE else CRet r) with
      (CRet (if iszero (ew r) then zeroE else r)) by (destruct (iszero (ew r)); reflexivity).
    apply wpr_ret. intros s2 R2.
    eapply dn_stable; [exact HI|exact R2|].
    eapply dnt_weaken; [|apply (dn_snap KV (S m) _ 0 r s HI)].
    + lra.
    + apply dn_exact; [lra|auto|]. intros ix. rewrite val_zeroE. ring.
    + lra.
  - subst l r. unfold vv_add. cbn [en zeroE is_term andb]. apply wpr_ret. intros s2 R2.
    assert (Hz : cv (cadd (ew (@zeroE NO)) (ew (@zeroE NO))) = RtoC 0).
    { pose proof (cadd_err (ew (@zeroE NO)) (ew (@zeroE NO))) as Hx. cbn [ew zeroE] in *. rewrite cv_0 in Hx.
      rewrite Cmod_0 in Hx. apply Cmod_eq_0. replace (cv (cadd c0 c0)) with (Cminus (cv (cadd c0 c0)) (Cplus (RtoC 0) (RtoC 0))) by ring.
      pose proof (Cmod_ge_0 (Cminus (cv (cadd c0 c0)) (Cplus (RtoC 0) (RtoC 0)))). lra. }
    apply dn_exact; [exact He| |].
    + right. split; auto.
    + intros ix. rewrite !val_zeroE. rewrite val_zw; [ring|exact Hz].
Qed.
Theorem wpr_mv_multiply' n s g r : Inv s -> (1 <= n)%nat -> Z.of_nat n <= NQUBITS ->
  wfe KM (tb s KM) n g -> wfe KV (tb s KV) n r ->
  wpr (mv_multiply g r)
    (dn KV n (mvF n (val KM (tb s KM) n g) (val KV (tb s KV) n r)) (emv n (Cmod (cv (ew g))) (Cmod (cv (ew r))))) s.
Proof.
  intros HI Hn1 Hn Hg Hr.
  assert (He : (0 <= emv n (Cmod (cv (ew g))) (Cmod (cv (ew r))))%R).
  { apply emv_pos; auto using Cmod_ge_0. }
  destruct (wfe_cases_V _ _ _ Hr Hn1) as [[Hr' Htr]|Hr'].
  - apply wpr_mv_multiply; auto.
  - subst r.
    assert (Hzero : forall e, en e = Term -> cv (ew e) = RtoC 0 ->
       wpr (CRet e) (dn KV n (mvF n (val KM (tb s KM) n g) (val KV (tb s KV) n zeroE)) (emv n (Cmod (cv (ew g))) (Cmod (cv (ew (@zeroE NO)))))) s).
    { intros e H1 H2. apply wpr_ret. intros s2 R2. apply dn_exact; [exact He| |].
      - right. auto.
      - intros ix. rewrite val_zw by exact H2. unfold mvF. symmetry. rewrite bsum_csum.
        apply csum_zero. intros i _. rewrite val_zeroE. ring. }
    unfold mv_multiply. cbn [en zeroE is_term]. rewrite andb_true_r.
    destruct (is_term (en g)) eqn:Htg.
    + apply Hzero; cbn [en ew zeroE]; auto. apply cmul_zr. apply cv_0.
    + cbn [wpr]. intros s1 R1. cbn [readn]. eexists; split; [reflexivity|]. cbn [nv].
      change (Z.to_nat (-1 + 1)) with 0%nat. cbn [mv_multiply2]. rewrite Htg.
      destruct (edge_eqb g zeroE).
      * eapply wpr_rel; [exact R1|]. apply Hzero; [reflexivity|apply cv_0].
      * rewrite isz0, orb_true_r. eapply wpr_rel; [exact R1|]. apply Hzero; [reflexivity|apply cv_0].
Qed.

(* ---- gates ---- *)
Definition fclip2 (g : @gmat NO) : @gmat NO := mk2 (g 0%nat 0%nat) (g 0%nat 1%nat) (g 1%nat 0%nat) (g 1%nat 1%nat).
Definition fclip4 (g : @gmat NO) : @gmat NO := fun i j => g (Nat.min i 3) (Nat.min j 3).
Definition cvm (g : @gmat NO) : matrix := fun i j => cv (g i j).
Lemma fclip2_eq g i j : (i < 2)%nat -> (j < 2)%nat -> fclip2 g i j = g i j.
Proof. intros Hi Hj. destruct i as [|[|i]], j as [|[|j]]; try lia; reflexivity. Qed.
Lemma fclip4_eq g i j : (i < 4)%nat -> (j < 4)%nat -> fclip4 g i j = g i j.
Proof. intros Hi Hj. unfold fclip4. rewrite !Nat.min_l by lia. reflexivity. Qed.
Lemma fclip2_bound g B : (forall i j, (i < 2)%nat -> (j < 2)%nat -> (Cmod (cv (g i j)) <= B)%R) -> forall i j, (Cmod (cv (fclip2 g i j)) <= B)%R.
Proof. intros Hb [|i] [|j]; cbn; apply Hb; lia. Qed.
Lemma fclip4_bound g B : (forall i j, (i < 4)%nat -> (j < 4)%nat -> (Cmod (cv (g i j)) <= B)%R) -> forall i j, (Cmod (cv (fclip4 g i j)) <= B)%R.
Proof. intros Hb i j. apply Hb; lia. Qed.
Theorem wpr_gate1 n g t l B s : Inv s -> size_ok n -> qubit n t -> controls_ok n [t] l -> (1 <= B)%R ->
  (forall i j, (i < 2)%nat -> (j < 2)%nat -> (Cmod (cv (g i j)) <= B)%R) ->
  exists F, meq n (matF F) (gate1 n (cvm g) (Z.to_nat t) l) /\
    wpr (makeGate (Z.of_nat n) g t (mkControls l)) (dn KM n F (egate n B)) s.
Proof.
  intros HI [Hn1 Hn] Ht Hc HB Hg. unfold qubit in Ht.
  exists (opF n [Z.to_nat t] (g1F (Z.to_nat t) (fun i j => cv (fclip2 g i j))) (RtoC 1) (mkControls l)). split.
  - rewrite opF_gate1 by (eapply ctl_range; eauto). intros i j Hi Hj. unfold gate1.
    rewrite ctl_ok_mk by apply Hc. destruct (agree_off _ _ _ _); auto. destruct (ctl_ok l i); auto.
    unfold cvm. rewrite fclip2_eq; auto; apply bit_lt.
  - assert (Hmk : makeGate (Z.of_nat n) g t (mkControls l) = makeGate (Z.of_nat n) (fclip2 g) t (mkControls l)) by reflexivity.
    rewrite Hmk. replace t with (Z.of_nat (Z.to_nat t)) at 1 by lia.
    apply wpr_makeGate with (B := B); auto; try lia.
    + apply mkControls_spec, Hc.
    + intros x Hx. eapply ctl_range in Hx; eauto. lia.
    + intros x Hx Hf. apply (ctl_notin _ _ _ Hc x Hx). rewrite Hf. left. lia.
    + now apply fclip2_bound.
Qed.
(* makeSwap: two CNOTs and two products, on one thread *)
Definition fg1 n (g : @gmat NO) t l := opF n [Z.to_nat t] (g1F (Z.to_nat t) (fun i j => cv (fclip2 g i j))) (RtoC 1) (mkControls l).
Lemma wpr_fg1 n g t l B s : Inv s -> size_ok n -> qubit n t -> controls_ok n [t] l -> (1 <= B)%R ->
  (forall i j, (i < 2)%nat -> (j < 2)%nat -> (Cmod (cv (g i j)) <= B)%R) ->
  meq n (matF (fg1 n g t l)) (gate1 n (cvm g) (Z.to_nat t) l) /\ (forall ix, (Cmod (fg1 n g t l ix) <= B)%R) /\
  wpr (makeGate (Z.of_nat n) g t (mkControls l)) (dn KM n (fg1 n g t l) (egate n B)) s.
Proof.
  intros HI [Hn1 Hn] Ht Hc HB Hg. unfold qubit in Ht. split; [|split].
  - unfold fg1. rewrite opF_gate1 by (eapply ctl_range; eauto). intros i j Hi Hj. unfold gate1.
    rewrite ctl_ok_mk by apply Hc. destruct (agree_off _ _ _ _); auto. destruct (ctl_ok l i); auto.
    unfold cvm. rewrite fclip2_eq; auto; apply bit_lt.
  - intros ix. apply FpGate.opF_bound; auto; [rewrite Cmod_1; lra|]. intros r c. unfold g1F, selG. destruct (_ && _)%bool; [now apply fclip2_bound|rewrite Cmod_0; lra].
  - assert (Hmk : makeGate (Z.of_nat n) g t (mkControls l) = makeGate (Z.of_nat n) (fclip2 g) t (mkControls l)) by reflexivity.
    rewrite Hmk. replace t with (Z.of_nat (Z.to_nat t)) at 1 by lia.
    apply wpr_makeGate with (B := B); auto; try lia.
    + apply mkControls_spec, Hc.
    + intros x Hx. eapply ctl_range in Hx; eauto. lia.
    + intros x Hx Hf. apply (ctl_notin _ _ _ Hc x Hx). rewrite Hf. left. lia.
    + now apply fclip2_bound.
Qed.
Definition eswap2 (n : nat) : R :=
  (emm n (1 + egate n 1) (1 + egate n 1) + 2 ^ n * ((1 + egate n 1) * egate n 1 + egate n 1 * 1))%R.
Definition eswap (n : nat) : R :=
  (emm n (1 + egate n 1) (2 ^ n + eswap2 n) + 2 ^ n * ((1 + egate n 1) * eswap2 n + egate n 1 * 2 ^ n))%R.
Lemma X_bound i j : (Cmod (cv (@Xmat NO i j)) <= 1)%R.
Proof.
  assert (H0 : (Cmod (cv c0) <= 1)%R) by (rewrite cv_0, Cmod_0; lra).
  assert (H1 : (Cmod (cv c1) <= 1)%R) by (rewrite cv_1, Cmod_1; lra).
  destruct i as [|[|i]], j as [|[|j]]; assumption.
Qed.
Lemma dn_near k n F err B (e : edge) s ix : dn k n F err e s -> (Cmod (F ix) <= B)%R -> (Cmod (val k (tb s k) n e ix) <= B + err)%R.
Proof.
  intros [_ Hd] HB. specialize (Hd ix).
  replace (val k (tb s k) n e ix) with (Cplus (F ix) (Cminus (val k (tb s k) n e ix) (F ix))) by ring.
  eapply Rle_trans; [apply Cmod_triangle|]. lra.
Qed.
Theorem run_makeSwap i n s t0 t1 : Inv s -> size_ok n -> qubit n t0 -> qubit n t1 -> t0 <> t1 ->
  let Fa := fg1 n (@Xmat NO) t1 [(t0, true)] in
  let Fb := fg1 n (@Xmat NO) t0 [(t1, true)] in
  exists e s', run_on i (makeSwap (Z.of_nat n) t0 t1) s = Some (e, s') /\ rel s s' /\
    dnt KM (tb s' KM) n e (mmF n Fa (mmF n Fb Fa)) (eswap n).
Proof.
  intros HI Hs Hq0 Hq1 Hne Fa Fb.
  assert (HX : forall i j, (i < 2)%nat -> (j < 2)%nat -> (Cmod (cv (@Xmat NO i j)) <= 1)%R) by (intros; apply X_bound).
  assert (Hc : forall t c, qubit n c -> t <> c -> controls_ok n [t] [(c, true)]).
  { intros. split; [repeat constructor; auto|]. intros x [<-|[]]. split; auto. cbn. intros [?|[]]; auto. }
  set (g := egate n 1). assert (Hg : (0 <= g)%R) by (apply egate_pos; lra).
  assert (Hp2 : (1 <= 2 ^ n)%R) by (apply pow_R1_Rle; lra).
  unfold makeSwap. rewrite run_on_bind.
  destruct (wpr_fg1 n (@Xmat NO) t1 [(t0, true)] 1 s HI Hs Hq1 (Hc _ _ Hq0 (not_eq_sym Hne)) ltac:(lra) HX) as (_ & B1 & W1').
  fold Fa in B1, W1'.
  destruct (wpr_run_on i _ s _ HI W1') as (e1 & s1 & X1 & R1 & D1). change (mkControls [(t0, true)]) with [(t0, true)] in X1. rewrite X1. clear X1 W1'.
  pose proof (rel_inv _ _ R1) as I1.
  rewrite run_on_bind.
  destruct (wpr_fg1 n (@Xmat NO) t0 [(t1, true)] 1 s1 I1 Hs Hq0 (Hc _ _ Hq1 Hne) ltac:(lra) HX) as (_ & B2 & W2').
  fold Fb in B2, W2'.
  destruct (wpr_run_on i _ s1 _ I1 W2') as (e2 & s2 & X2 & R2 & D2). change (mkControls [(t1, true)]) with [(t1, true)] in X2. rewrite X2. clear X2 W2'.
  pose proof (rel_inv _ _ R2) as I2.
  assert (B21 : forall ix, (Cmod (mmF n Fb Fa ix) <= 2 ^ n)%R).
  { intros ix. eapply Rle_trans; [apply (MMTol2.mmF_bound n Fb Fa ix 1 1); auto; lra|lra]. }
  assert (D1' : dn KM n Fa g e1 s2) by (eapply dn_stable; [exact I1|exact R2|exact D1]).
  rewrite run_on_bind.
  destruct (run_mm_multiply i n s2 e2 e1 I2 (Logic.proj2 Hs) (Logic.proj1 D2) (Logic.proj1 D1')) as (e3 & s3 & X3 & R3 & D3).
  rewrite X3. clear X3. pose proof (rel_inv _ _ R3) as I3.
  assert (T2 : TInv KM (tb s2 KM)) by apply I2. assert (T3 : TInv KM (tb s3 KM)) by apply I3.
  pose proof (dnt_wbound KM _ _ _ _ _ _ T2 D1' B1) as W1. pose proof (dnt_wbound KM _ _ _ _ _ _ T2 D2 B2) as W2.
  assert (Hp : (0 <= eswap2 n)%R).
  { unfold eswap2. fold g. pose proof (emm_pos n (1 + g) (1 + g) ltac:(lra) ltac:(lra)).
    assert (0 <= 2 ^ n * ((1 + g) * g + g * 1))%R.
    { apply Rmult_le_pos; [lra|]. apply Rplus_le_le_0_compat; apply Rmult_le_pos; lra. } lra. }
  assert (D3' : dnt KM (tb s3 KM) n e3 (mmF n Fb Fa) (eswap2 n)).
  { unfold eswap2. fold g.
    apply (dnt_weaken) with (err := (emm n (Cmod (cv (ew e2))) (Cmod (cv (ew e1))) + 2 ^ n * ((1 + g) * g + g * 1))%R).
    { apply Rplus_le_compat_r. apply emm_mono; auto; split; auto using Cmod_ge_0. }
    apply (dnt_err) with (F := FpMM2.mulF (tb s2 KM) e2 e1 n); [|exact D3].
    intros ix. unfold FpMM2.mulF. apply mmF_diff; try lra; auto.
    - intros k. eapply dn_near; [exact D2|apply B2].
    - intros k. apply D2.
    - intros k. apply D1'. }
  assert (D1'' : dn KM n Fa g e1 s3) by (eapply dn_stable; [exact I2|exact R3|exact D1']).
  destruct (run_mm_multiply i n s3 e1 e3 I3 (Logic.proj2 Hs) (Logic.proj1 D1'') (Logic.proj1 D3)) as (e4 & s4 & X4 & R4 & D4).
  exists e4, s4. split; auto. split.
  { eapply rel_trans; [exact R1|]. eapply rel_trans; [exact R2|]. eapply rel_trans; eauto. }
  pose proof (dnt_wbound KM _ _ _ _ _ _ T3 D3' B21) as W3.
  unfold eswap. fold g.
  apply (dnt_weaken) with (err := (emm n (Cmod (cv (ew e1))) (Cmod (cv (ew e3))) + 2 ^ n * ((1 + g) * eswap2 n + g * 2 ^ n))%R).
  { apply Rplus_le_compat_r. apply emm_mono; auto; split; auto using Cmod_ge_0. }
  apply (dnt_err) with (F := FpMM2.mulF (tb s3 KM) e1 e3 n); [|exact D4].
  intros ix. unfold FpMM2.mulF. apply mmF_diff; try lra; auto.
  - intros k. eapply dn_near; [exact D1''|apply B1].
  - intros k. apply D1''.
  - intros k. apply D3'.
Qed.
Theorem wpr_gate2 n g t0 t1 l B s : Inv s -> size_ok n -> qubit n t0 -> qubit n t1 -> t0 <> t1 -> controls_ok n [t0; t1] l -> (1 <= B)%R ->
  (forall i j, (i < 4)%nat -> (j < 4)%nat -> (Cmod (cv (g i j)) <= B)%R) ->
  exists F, meq n (matF F) (gate2 n (cvm g) (Z.to_nat t0) (Z.to_nat t1) l) /\
    wpr (makeTwoQubitGate (Z.of_nat n) g t0 t1 (mkControls l)) (dn KM n F (egate n B)) s.
Proof.
  intros HI [Hn1 Hn] Ht0 Ht1 Hne Hc HB Hg. unfold qubit in Ht0, Ht1.
  set (a := Z.to_nat t0). set (b := Z.to_nat t1).
  exists (opF n [Nat.max a b; Nat.min a b] (g2F b a (fun i j => cv (fclip4 g i j))) (RtoC 1) (mkControls l)). split.
  - rewrite opF_gate2 by (eapply ctl_range; eauto). intros i j Hi Hj. unfold gate2.
    rewrite ctl_ok_mk by apply Hc. destruct (agree_off _ _ _ _); auto. destruct (ctl_ok l i); auto.
    pose proof (bit_lt i a); pose proof (bit_lt i b); pose proof (bit_lt j a); pose proof (bit_lt j b).
    unfold cvm. rewrite fclip4_eq; auto; lia.
  - assert (Hmk : makeTwoQubitGate (Z.of_nat n) g t0 t1 (mkControls l) = makeTwoQubitGate (Z.of_nat n) (fclip4 g) t0 t1 (mkControls l)) by reflexivity.
    rewrite Hmk. replace t0 with (Z.of_nat a) by lia. replace t1 with (Z.of_nat b) by lia.
    apply wpr_makeTwoQubitGate with (B := B); auto; try lia.
    + apply mkControls_spec, Hc.
    + intros x Hx. eapply ctl_range in Hx; eauto. lia.
    + intros x Hx Hf. apply (ctl_notin _ _ _ Hc x Hx). rewrite Hf. left. lia.
    + intros x Hx Hf. apply (ctl_notin _ _ _ Hc x Hx). rewrite Hf. right. left. lia.
    + now apply fclip4_bound.
Qed.
(* a bound on the entries always exists *)
Fixpoint msum (g : @gmat NO) (l : list (nat * nat)) : R :=
  match l with [] => 1%R | x :: r => (Cmod (cv (g (fst x) (snd x))) + msum g r)%R end.
Lemma msum_ge1 g l : (1 <= msum g l)%R.
Proof. induction l as [|x r IH]; cbn; [lra|]. pose proof (Cmod_ge_0 (cv (g (fst x) (snd x)))). lra. Qed.
Lemma msum_in g l x : In x l -> (Cmod (cv (g (fst x) (snd x))) <= msum g l)%R.
Proof.
  induction l as [|y r IH]; intros Hx; [destruct Hx|]. cbn. pose proof (msum_ge1 g r). pose proof (Cmod_ge_0 (cv (g (fst y) (snd y)))).
  destruct Hx as [->|Hx]; [lra|]. specialize (IH Hx). lra.
Qed.
Lemma entries_bound g m : exists B, (1 <= B)%R /\ forall i j, (i < m)%nat -> (j < m)%nat -> (Cmod (cv (g i j)) <= B)%R.
Proof.
  exists (msum g (list_prod (seq 0 m) (seq 0 m))). split; [apply msum_ge1|]. intros i j Hi Hj.
  apply (msum_in g _ (i, j)). apply in_prod; apply in_seq; lia.
Qed.

(* ---- clients ---- *)
Definition hok (s : state) (h : handle) : Prop :=
  Z.of_nat (h_n h) <= NQUBITS /\ (h_k h = KV -> (1 <= h_n h)%nat) /\ wfe (h_k h) (tb s (h_k h)) (h_n h) (h_e h).
Definition Aok (c : state * list handle) : Prop := Inv (fst c) /\ forall h, In h (snd c) -> hok (fst c) h.
Lemma hok_ext s s' h : Inv s -> sext s s' -> hok s h -> hok s' h.
Proof. intros HI Hr (H1 & H2 & H3). split; [exact H1|]. split; [exact H2|]. eapply wfe_ext; [apply Hr|exact H3]. Qed.
Lemma hok_rel s s' h : Inv s -> rel s s' -> hok s h -> hok s' h.
Proof. intros HI Hr. apply hok_ext; auto. intros k. apply (rel_ext _ _ _ Hr). Qed.

(* What a client does: calls (under any schedule), dropping handles, reading a gate as
   one on more qubits, collections, changing the thresholds, cache eviction.  Like
   Api.call and Api.astep; the operations on pairs of matrices (mm_add, mm_multiply,
   makeSwap) run on the thread that calls them, as in Api.a_run. *)
Inductive fcall (hs : list handle) : kind -> nat -> comp -> Prop :=
| f_zero n : size_ok n -> fcall hs KV n (makeZeroState n)
| f_one n : size_ok n -> fcall hs KV n (makeOneState n)
| f_gate n g t l : size_ok n -> qubit n t -> controls_ok n [t] l -> fcall hs KM n (makeGate (Z.of_nat n) g t (mkControls l))
| f_gate2 n g t0 t1 l : size_ok n -> qubit n t0 -> qubit n t1 -> t0 <> t1 -> controls_ok n [t0; t1] l ->
    fcall hs KM n (makeTwoQubitGate (Z.of_nat n) g t0 t1 (mkControls l))
| f_add n a b lim : In (H KV n a) hs -> In (H KV n b) hs -> fcall hs KV n (vv_add lim a b)
| f_mul n g v : In (H KM n g) hs -> In (H KV n v) hs -> fcall hs KV n (mv_multiply g v)
| f_kron na nb a b : In (H KV na a) hs -> In (H KV nb b) hs -> is_term (en a) = false -> is_term (en b) = false ->
    Z.of_nat (na + nb) <= NQUBITS -> fcall hs KV (na + nb) (vv_kronecker a b)
| f_global k n e a : In (H k n e) hs -> fcall hs k n (CRet (applyGlobal e a))
| f_ident n : size_ok n -> fcall hs KM n makeIdent.
Inductive fstep : state * list handle -> state * list handle -> Prop :=
| fs_call s hs k n c e s' : fcall hs k n c -> steps (Cfg_ok c s) (Cfg_ok (CRet e) s') -> fstep (s, hs) (s', H k n e :: hs)
| fs_drop s hs hs' : incl hs' hs -> fstep (s, hs) (s, hs')
| fs_resize s hs n m e : In (H KM n e) hs -> (n <= m)%nat -> Z.of_nat m <= NQUBITS -> fstep (s, hs) (s, H KM m e :: hs)
| fs_gc s ns es ms i force es' s' : length ns = length es -> of_kind KM ms -> gc i es force s = Some (es', s') ->
    fstep (s, rehandle KV ns es ++ ms) (s', rehandle KV ns es' ++ ms)
| fs_gc_mat s ns es vs i force es' s' : length ns = length es -> of_kind KV vs -> gc_mat i es force s = Some (es', s') ->
    fstep (s, rehandle KM ns es ++ vs) (s', rehandle KM ns es' ++ vs)
| fs_thr s hs v m : fstep (s, hs) (set_gc_thr v m s, hs)
| fs_evict s hs s' : evicted s s' -> fstep (s, hs) (s', hs)
| fs_probs s hs n e l s' : In (H KV n e) hs -> is_term (en e) = false -> (n <= 30)%nat ->
    probabilities e s = Some (l, s') -> fstep (s, hs) (s', hs)
| fs_all s hs n e col ths r e' s' : In (H KV n e) hs -> is_term (en e) = false -> cv (ew e) <> RtoC 0 ->
    (n <= length ths)%nat -> (forall x, In x ths -> unif x) ->
    measureAll e col ths s = Some (r, e', s') -> fstep (s, hs) (s', H KV n e' :: hs)
| fs_one s hs n e q eps th r s' : In (H KV n e) hs -> is_term (en e) = false -> qubit n q ->
    measureOneCollapsing e q eps th s = Some (r, s') ->
    fstep (s, hs) (s', match r with Ret (_, e') => H KV n e' :: hs | Throw => hs end)
| fs_one' s hs n e q eps r s' : In (H KV n e) hs -> is_term (en e) = false -> qubit n q ->
    measureOne e q eps s = Some (r, s') -> fstep (s, hs) (s', hs)
| fs_run s hs n c i e s' : seq_call hs n c -> run_on i c s = Some (e, s') -> fstep (s, hs) (s', H KM n e :: hs).
Inductive freach : state * list handle -> Prop :=
| fr_init : freach (state_init, [])
| fr_step c c' : freach c -> fstep c c' -> freach c'.

Lemma wfp_nt t n (e : edge) : wfe KV t n e -> is_term (en e) = false -> wfp KV t n (en e).
Proof. intros [Hw|[_ Hw]] Ht; auto. rewrite Hw in Ht. discriminate. Qed.
Lemma dn_wfe k n F err e s : dn k n F err e s -> wfe k (tb s k) n e. Proof. intros [h _]. exact h. Qed.
Definition SE (k : kind) (n : nat) : edge -> state -> Prop := fun e s => wfe k (tb s k) n e.
Lemma wpr_SE k n F err c s : Inv s -> wpr c (dn k n F err) s -> wpr c (SE k n) s.
Proof. intros HI Hw. eapply wpr_mono; [exact HI| |exact Hw]. intros e s' _ Hd. eapply dn_wfe; eauto. Qed.
Theorem seq_s i s hs n c : Inv s -> (forall h, In h hs -> hok s h) -> seq_call hs n c ->
  Z.of_nat n <= NQUBITS /\ exists e s', run_on i c s = Some (e, s') /\ rel s s' /\ wfe KM (tb s' KM) n e.
Proof.
  intros HI Hh Hc. destruct Hc as [n a b Ha Hb|n a b Ha Hb|n t0 t1 Hs Hq0 Hq1 Hne].
  - destruct (Hh _ Ha) as (A1 & _ & A3). destruct (Hh _ Hb) as (_ & _ & B3). cbn [h_k h_n h_e] in *.
    split; [exact A1|]. destruct (run_mm_add i n s a b HI A1 A3 B3) as (e & s' & X & R & D). exists e, s'. split; [exact X|]. split; [exact R|apply D].
  - destruct (Hh _ Ha) as (A1 & _ & A3). destruct (Hh _ Hb) as (_ & _ & B3). cbn [h_k h_n h_e] in *.
    split; [exact A1|]. destruct (run_mm_multiply i n s a b HI A1 A3 B3) as (e & s' & X & R & D). exists e, s'. split; [exact X|]. split; [exact R|apply D].
  - split; [apply Hs|]. destruct (run_makeSwap i n s t0 t1 HI Hs Hq0 Hq1 Hne) as (e & s' & X & R & D). exists e, s'. split; [exact X|]. split; [exact R|apply D].
Qed.
Theorem fcall_s s hs k n c : Inv s -> (forall h, In h hs -> hok s h) -> fcall hs k n c ->
  Z.of_nat n <= NQUBITS /\ (k = KV -> (1 <= n)%nat) /\ wpr c (SE k n) s.
Proof.
  intros HI Hh Hc.
  destruct Hc as [n Hs|n Hs|n g t l Hs Hq Hl|n g t0 t1 l Hs Hq0 Hq1 Hne Hl|n a b lim Ha Hb|n g v Ha Hb|na nb a b Ha Hb Hta Htb Hn|k n e a Ha|n Hs].
  - destruct Hs as [H1 H2]. split; [exact H2|]. split; [auto|]. apply wpr_makeZeroState with (b := fun _ => 0%nat); auto.
    intros e s' _ (_ & Hw & _). now left.
  - destruct Hs as [H1 H2]. split; [exact H2|]. split; [auto|]. apply wpr_makeOneState with (b := fun _ => 1%nat); auto.
    intros e s' _ (_ & Hw & _). now left.
  - split; [apply Hs|]. split; [discriminate|]. destruct (entries_bound g 2) as (B & HB & Hg).
    destruct (wpr_gate1 n g t l B s HI Hs Hq Hl HB Hg) as (F & _ & Hw). eapply wpr_SE; eauto.
  - split; [apply Hs|]. split; [discriminate|]. destruct (entries_bound g 4) as (B & HB & Hg).
    destruct (wpr_gate2 n g t0 t1 l B s HI Hs Hq0 Hq1 Hne Hl HB Hg) as (F & _ & Hw). eapply wpr_SE; eauto.
  - destruct (Hh _ Ha) as (A1 & A2 & A3). destruct (Hh _ Hb) as (B1 & B2 & B3). cbn [h_k h_n h_e] in *.
    split; [exact A1|]. split; [exact A2|]. eapply wpr_SE; [exact HI|]. apply wpr_vv_add'; auto.
  - destruct (Hh _ Ha) as (A1 & A2 & A3). destruct (Hh _ Hb) as (B1 & B2 & B3). cbn [h_k h_n h_e] in *.
    split; [exact A1|]. split; [exact B2|]. eapply wpr_SE; [exact HI|]. apply wpr_mv_multiply'; auto.
  - destruct (Hh _ Ha) as (A1 & A2 & A3). destruct (Hh _ Hb) as (B1 & B2 & B3). cbn [h_k h_n h_e] in *.
    specialize (A2 eq_refl). specialize (B2 eq_refl).
    split; [exact Hn|]. split; [lia|]. apply (wpr_vv_kronecker na nb); auto using wfp_nt. intros e s' _ Hd. eapply dn_wfe; eauto.
  - destruct (Hh _ Ha) as (A1 & A2 & A3). cbn [h_k h_n h_e] in *. split; [exact A1|]. split; [exact A2|].
    apply wpr_ret. intros s' Hr. unfold SE. eapply wfe_ext; [apply (rel_ext _ _ _ Hr)|]. unfold applyGlobal. now apply wfe_scale_r.
  - split; [apply Hs|]. split; [discriminate|]. apply wpr_ret. intros s' _. left. now left.
Qed.
Lemma in_rehandle k ns (es : list edge) h : In h (rehandle k ns es) -> exists n e, h = H k n e /\ In (n, e) (combine ns es).
Proof. unfold rehandle. rewrite in_map_iff. intros ([n e] & <- & Hi). exists n, e. auto. Qed.
Lemma combine_F2 {A B D} (P : B -> D -> Prop) : forall (ns : list A) es es', Forall2 P es es' ->
  forall n e', In (n, e') (combine ns es') -> exists e, In (n, e) (combine ns es) /\ P e e'.
Proof.
  induction ns as [|m ns IH]; intros es es' HF n e' Hi; [destruct Hi|].
  destruct HF as [|e e0 es es' He HF]; [destruct Hi|]. cbn in Hi. destruct Hi as [Hi|Hi].
  - inversion Hi; subst. exists e. split; auto. now left.
  - destruct (IH es es' HF n e' Hi) as (e1 & H1 & H2). exists e1. split; auto. now right.
Qed.
Lemma live_of k s ns (es : list edge) ms : length ns = length es ->
  (forall h, In h (rehandle k ns es ++ ms) -> hok s h) -> live k (tb s k) es.
Proof.
  intros Hl Hh e He. destruct (In_nth _ _ zeroE He) as (i & Hi & <-).
  assert (Hin : In (nth i ns 0%nat, nth i es zeroE) (combine ns es)).
  { rewrite <- combine_nth by auto. apply nth_In. rewrite combine_length. lia. }
  destruct (Hh (H k (nth i ns 0%nat) (nth i es zeroE))) as (A1 & A2 & A3).
  { apply in_or_app; left. unfold rehandle. apply in_map_iff. eexists; split; [|exact Hin]. reflexivity. }
  exists (nth i ns 0%nat). cbn [h_k h_n h_e] in *. split; [unfold NQUBITS in A1; lia|exact A3].
Qed.
Lemma evict_inv s s' : Inv s -> evicted s s' -> Inv s'.
Proof.
  intros HI (E1 & E2 & E3 & E4 & E5 & E6 & E7). constructor.
  - rewrite E1. apply HI.
  - intros i k lv key e He. rewrite E1. eapply HI. apply E5, He.
  - intros i k lv key e He Hv. rewrite E1. eapply HI; [apply E6; eauto|auto].
  - rewrite E1, E2. apply HI.
  - intros i k lv key. rewrite E7. apply HI.
Qed.
Lemma tb_sext s s' : tb s' = tb s -> sext s s'.
Proof. intros H k. rewrite H. apply ext_refl. Qed.
Lemma gc_Aok s ns es ms i force es' s' : length ns = length es -> of_kind KM ms -> gc i es force s = Some (es', s') ->
  Aok (s, rehandle KV ns es ++ ms) -> Aok (s', rehandle KV ns es' ++ ms) /\ keeps KV (tb s KV) (tb s' KV) true es es'.
Proof.
  intros Hl Hk Hg [HI Hh]. cbn [fst snd] in *. pose proof (live_of _ _ _ _ _ Hl Hh) as Hlv.
  destruct (gc_s i es force s HI Hlv) as (es1 & s1 & G1 & G2 & G3 & G4).
  rewrite G1 in Hg. inversion Hg; subst es1 s1. split; [|exact G4]. split; [exact G2|]. cbn [fst snd]. intros h Hin. apply in_app_or in Hin as [Hin|Hin].
  - apply in_rehandle in Hin as (n & e' & -> & Hin).
    destruct (combine_F2 _ _ _ _ (keeps_F2 _ _ _ _ _ _ G4) _ _ Hin) as (e & Hin' & _ & Hw).
    destruct (Hh (H KV n e)) as (A1 & A2 & A3).
    { apply in_or_app; left. unfold rehandle. apply in_map_iff. exists (n, e). auto. }
    split; [exact A1|]. split; [exact A2|]. apply Hw. exact A3.
  - destruct (Hh h (in_or_app _ _ _ (or_intror Hin))) as (A1 & A2 & A3). rewrite (Hk _ Hin) in *.
    split; [exact A1|]. rewrite (Hk _ Hin). split; [discriminate|]. rewrite G3. exact A3.
Qed.
Lemma gc_mat_Aok s ns es vs i force es' s' : length ns = length es -> of_kind KV vs -> gc_mat i es force s = Some (es', s') ->
  Aok (s, rehandle KM ns es ++ vs) -> Aok (s', rehandle KM ns es' ++ vs) /\ tb s' KV = tb s KV.
Proof.
  intros Hl Hk Hg [HI Hh]. cbn [fst snd] in *. pose proof (live_of _ _ _ _ _ Hl Hh) as Hlv.
  destruct (gc_mat_s i es force s HI Hlv) as (es1 & s1 & G1 & G2 & G3 & G4).
  rewrite G1 in Hg. inversion Hg; subst es1 s1. split; [|exact G3]. split; [exact G2|]. cbn [fst snd]. intros h Hin. apply in_app_or in Hin as [Hin|Hin].
  - apply in_rehandle in Hin as (n & e' & -> & Hin).
    destruct (combine_F2 _ _ _ _ (keeps_F2 _ _ _ _ _ _ G4) _ _ Hin) as (e & Hin' & _ & Hw).
    destruct (Hh (H KM n e)) as (A1 & A2 & A3).
    { apply in_or_app; left. unfold rehandle. apply in_map_iff. exists (n, e). auto. }
    split; [exact A1|]. split; [exact A2|]. apply Hw. exact A3.
  - destruct (Hh h (in_or_app _ _ _ (or_intror Hin))) as (A1 & A2 & A3). rewrite (Hk _ Hin) in *.
    split; [exact A1|]. rewrite (Hk _ Hin). split; [exact A2|]. rewrite G3. exact A3.
Qed.
Lemma unif_nr (x : num) : unif x <-> (0 <= nr x < 1)%R.
Proof. unfold unif. rewrite nr_le, nr_lt, nr_0, nr_1. tauto. Qed.
Lemma probabilities_tb s n e l s' : Inv s -> (1 <= n <= 30)%nat -> wfp KV (tb s KV) n (en e) -> probabilities e s = Some (l, s') ->
  Inv s' /\ tb s' = tb s.
Proof.
  intros HI Hn Hw Hp. destruct (probabilities_spec s n e HI Hn Hw) as (l' & s1 & P1 & P2 & P3 & _).
  rewrite Hp in P1. injection P1 as <- <-. split; [exact P3|exact (pe_tb _ _ P2)].
Qed.
(* either no collapse, and the handle is returned as it is, or a basis state *)
Lemma measureAll_tb s n e col ths r e' s' : Inv s -> (1 <= n)%nat -> Z.of_nat n <= NQUBITS -> wfp KV (tb s KV) n (en e) -> cv (ew e) <> RtoC 0 ->
  (n <= length ths)%nat -> (forall x, In x ths -> unif x) -> measureAll e col ths s = Some (r, e', s') ->
  exists s1, Inv s1 /\ tb s1 = tb s /\ rel s1 s' /\ wfp KV (tb s' KV) n (en e').
Proof.
  intros HI Hn HQ Hw Hz Hl Hu Hm. destruct (measureAll_spec s n e HI Hn HQ Hw Hz) as (T & _ & _ & _ & HT).
  destruct (HT col ths Hl (fun x Hx => Logic.proj1 (unif_nr x) (Hu x Hx))) as (B & e1 & s1 & s2 & M1 & _ & _ & _ & M2 & M3 & M4 & M5 & M6).
  rewrite Hm in M1. injection M1 as -> -> ->. exists s1. split; [exact M3|]. split; [exact (pe_tb _ _ M2)|]. split; [exact M5|].
  destruct col; [apply M6|]. destruct M6 as [-> ->]. rewrite (pe_tb _ _ M2). exact Hw.
Qed.
(* the measurement of one qubit, whatever the numbers are *)
Lemma detProbs_tb s n e q pz po s' : Inv s -> Z.of_nat n <= NQUBITS -> wfp KV (tb s KV) n (en e) -> detProbs e q s = Some (pz, po, s') ->
  Inv s' /\ tb s' = tb s.
Proof.
  intros HI Hn Hw H. unfold detProbs in H. destruct (bfs _ _ _ _) as [[pm qq]|]; [|discriminate].
  destruct (probs s (en e)) as [x|] eqn:Hx.
  - destruct (sumq s pm qq n0 n0) as [[z o]|]; [|discriminate]. injection H as <- <- <-. auto.
  - destruct (assignP_spec PFUEL n e s HI (or_introl Hw)) as (x & s1 & A1 & A2 & A3 & _).
    { unfold PFUEL. unfold NQUBITS in Hn. lia. }
    { exact Hn. }
    assert (HA : assignProbabilities e s = Some (x, s1)) by (unfold assignProbabilities; exact A1). clear A1. rewrite HA in H. destruct (sumq s1 pm qq n0 n0) as [[z o]|]; [|discriminate]. injection H as <- <- <-.
    split; [exact A3|exact (pe_tb _ _ A2)].
Qed.
Lemma measureOne_tb s n e q eps r s' : Inv s -> Z.of_nat n <= NQUBITS -> wfp KV (tb s KV) n (en e) -> measureOne e q eps s = Some (r, s') ->
  Inv s' /\ tb s' = tb s.
Proof.
  intros HI Hn Hw H. unfold measureOne in H. destruct (detProbs e q s) as [[[pz po] s1]|] eqn:Hd; [|discriminate].
  destruct (detProbs_tb s n e q pz po s1 HI Hn Hw Hd) as [A B]. cbv zeta in H. destruct (nltb _ _); injection H as <- <-; auto.
Qed.
Lemma proj_bound (z : bool) i j : (i < 2)%nat -> (j < 2)%nat -> (Cmod (cv ((if z then proj0 else proj1) i j)) <= 1)%R.
Proof.
  intros Hi Hj. assert (H1 : (Cmod (cv c1) <= 1)%R) by (rewrite cv_1, Cmod_1; lra). assert (H0 : (Cmod (cv c0) <= 1)%R) by (rewrite cv_0, Cmod_0; lra).
  destruct z; destruct i as [|[|i]]; destruct j as [|[|j]]; first [assumption|lia].
Qed.
Lemma noctl n q : controls_ok n [q] [].
Proof. split; [constructor|intros x []]. Qed.
Lemma measureOneCollapsing_tb s n e q eps th r s' : Inv s -> (1 <= n)%nat -> Z.of_nat n <= NQUBITS -> qubit n q -> wfp KV (tb s KV) n (en e) ->
  measureOneCollapsing e q eps th s = Some (r, s') ->
  exists s1, Inv s1 /\ tb s1 = tb s /\ rel s1 s' /\ (forall b e', r = Ret (b, e') -> wfe KV (tb s' KV) n e').
Proof.
  intros HI Hn1 Hn Hq Hw H. unfold measureOneCollapsing in H. destruct (detProbs e q s) as [[[pz po] s1]|] eqn:Hd; [|discriminate].
  destruct (detProbs_tb s n e q pz po s1 HI Hn Hw Hd) as [HI1 Htb]. cbv zeta in H.
  destruct (nltb eps _).
  - injection H as <- <-. exists s1. split; [exact HI1|]. split; [exact Htb|]. split; [now apply rel_refl|]. intros b e' X. discriminate.
  - set (zero := nltb th _) in H. pose proof Hw as Hw1. rewrite <- Htb in Hw1. destruct n as [|m]; [lia|]. rewrite (getVarV s1 m (en e) Hw1) in H.
    replace (Z.of_nat m + 1) with (Z.of_nat (S m)) in H by lia.
    destruct (wpr_gate1 (S m) (if zero then proj0 else proj1) q [] 1%R s1 HI1 (conj Hn1 Hn) Hq (noctl _ _) ltac:(lra) (proj_bound zero)) as (F & _ & Hg).
    change (mkControls []) with (@nil control) in Hg.
    destruct (wpr_run _ _ _ HI1 Hg) as (g & s2 & Hrun & Hrel & Hdg). match type of H with context [run ?c s1] => assert (Hrun' : run c s1 = Some (g, s2)) by exact Hrun; rewrite Hrun' in H end. pose proof (rel_inv _ _ Hrel) as HI2.
    assert (Hw2 : wfp KV (tb s2 KV) (S m) (en e)) by exact (wfp_ext KV _ _ _ _ (rel_ext _ _ KV Hrel) Hw1).
    pose proof (wpr_mv_multiply' (S m) s2 g e HI2 Hn1 Hn (dn_wfe _ _ _ _ _ _ Hdg) (or_introl Hw2)) as Hap.
    destruct (wpr_run _ _ _ HI2 Hap) as (e2 & s3 & Hrun2 & Hrel2 & Hd2). rewrite Hrun2 in H. injection H as <- <-.
    exists s1. split; [exact HI1|]. split; [exact Htb|]. split; [exact (rel_trans _ _ _ Hrel Hrel2)|].
    intros b e' X. injection X as <- <-. apply wfe_scale_r. exact (dn_wfe _ _ _ _ _ _ Hd2).
Qed.
Theorem Aok_step c c' : fstep c c' -> Aok c -> Aok c'.
Proof.
  intros Hs HA. destruct Hs as [s hs k n c e s' Hc Hst|s hs hs' Hi|s hs n m e Hi Hnm Hm|s ns es ms i force es' s' Hl Hk Hg|s ns es vs i force es' s' Hl Hk Hg
    |s hs v m|s hs s' He|s hs n e l s' Hin Ht Hn Hp|s hs n e col ths r e' s' Hin Ht Hz Hl Hu Hm
    |s hs n e q eps th r s' Hin Ht Hq Hm|s hs n e q eps r s' Hin Ht Hq Hm|s hs n c i e s' Hc Hx]; pose proof HA as [HI Hh]; cbn [fst snd] in *.
  - destruct (fcall_s _ _ _ _ _ HI Hh Hc) as (A1 & A2 & Hw).
    destruct (wpr_result _ _ _ _ _ HI Hw Hst) as [Hr Hq]. split; [exact (rel_inv _ _ Hr)|].
    cbn [fst snd]. intros h [<-|Hin].
    + split; [exact A1|]. split; [exact A2|exact Hq].
    + eapply hok_rel; eauto.
  - split; [exact HI|]. cbn [fst snd]. auto.
  - split; [exact HI|]. cbn [fst snd]. intros h [<-|Hin]; auto. destruct (Hh _ Hi) as (A1 & A2 & A3). cbn [h_k h_n h_e] in *.
    split; [exact Hm|]. split; [discriminate|]. eapply wfe_KM_up; eauto.
  - eapply gc_Aok; eauto.
  - eapply gc_mat_Aok; eauto.
  - split; [|exact Hh]. destruct HI as [I1 I2 I3 I4 I5]. constructor; auto.
  - split; [eapply evict_inv; eauto|]. cbn [fst snd]. intros h Hin. eapply hok_ext; [eauto|apply tb_sext, He|auto].
  - destruct (Hh _ Hin) as (J1 & J2 & J3). cbn [h_k h_n h_e] in *. specialize (J2 eq_refl).
    destruct (probabilities_tb s n e l s' HI (conj J2 Hn) (wfp_nt _ _ _ J3 Ht) Hp) as [HI' Htb].
    split; [exact HI'|]. cbn [fst snd]. intros h Hh'. eapply (hok_ext s); [exact HI|now apply tb_sext|auto].
  - destruct (Hh _ Hin) as (J1 & J2 & J3). cbn [h_k h_n h_e] in *. specialize (J2 eq_refl).
    destruct (measureAll_tb s n e col ths r e' s' HI J2 J1 (wfp_nt _ _ _ J3 Ht) Hz Hl Hu Hm) as (s1 & HI1 & Htb & Hrel & Hw').
    split; [exact (rel_inv _ _ Hrel)|]. cbn [fst snd]. intros h [<-|Hh'].
    + split; [exact J1|]. split; [auto|]. left. exact Hw'.
    + eapply hok_rel; [exact HI1|exact Hrel|]. eapply hok_ext; [exact HI|now apply tb_sext|auto].
  - destruct (Hh _ Hin) as (J1 & J2 & J3). cbn [h_k h_n h_e] in *. specialize (J2 eq_refl).
    destruct (measureOneCollapsing_tb s n e q eps th r s' HI J2 J1 Hq (wfp_nt _ _ _ J3 Ht) Hm) as (s1 & HI1 & Htb & Hrel & Hw').
    split; [exact (rel_inv _ _ Hrel)|]. cbn [fst snd].
    assert (Hold : forall h, In h hs -> hok s' h).
    { intros h Hh'. eapply hok_rel; [exact HI1|exact Hrel|]. eapply hok_ext; [exact HI|now apply tb_sext|auto]. }
    destruct r as [[b e']|]; [|exact Hold]. intros h [<-|Hh']; [|auto]. split; [exact J1|]. split; [auto|]. exact (Hw' b e' eq_refl).
  - destruct (Hh _ Hin) as (J1 & J2 & J3). cbn [h_k h_n h_e] in *. specialize (J2 eq_refl).
    destruct (measureOne_tb s n e q eps r s' HI J1 (wfp_nt _ _ _ J3 Ht) Hm) as [HI' Htb].
    split; [exact HI'|]. cbn [fst snd]. intros h Hh'. eapply (hok_ext s); [exact HI|now apply tb_sext|auto].
  - destruct (seq_s i _ _ _ _ HI Hh Hc) as (A1 & e2 & s2 & Hx2 & Hr & Hw). rewrite Hx in Hx2. injection Hx2 as <- <-.
    split; [exact (rel_inv _ _ Hr)|]. cbn [fst snd]. intros h [<-|Hin].
    + split; [exact A1|]. split; [discriminate|exact Hw].
    + eapply hok_rel; eauto.
Qed.
Theorem freach_Aok c : freach c -> Aok c.
Proof.
  induction 1 as [|c c' _ IH Hs].
  - split; [apply Inv_init|]. intros h [].
  - eapply Aok_step; eauto.
Qed.
End FpCirc.
