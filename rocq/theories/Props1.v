(* Props1.v -- properties C01-C08, C11, C12, C15 (calls), C24, C26, C27, C55, C56:
   what each call returns, from every reachable client state, under every
   schedule.  The vocabulary is that of Spec.v (linear algebra), Api.v (clients)
   and Obs.v (observations). *)
From Coq Require Import Reals Lra Psatz ZArith Bool List Lia Arith FunctionalExtensionality.
From Coquelicot Require Import Complex.
From Verif Require Import Num State DD Gates GC Measure Api RNum Wf Sums Err Inv Wp Make Add MulV Canon MM MM2 MMTol MMTol2
  GateP StateP Kron Spec SpecP Readout MeasureP MeasAllP ApplyP ApiP Obs.
Import ListNotations.
Open Scope Z_scope.

Section Props1.
Context (tau : R) {HTol : Tol tau}.
Let Htau : (0 <= tau < 1 / 2)%R := tol_ok.
#[local] Hint Extern 0 NumOps => exact (RNum tau) : typeclass_instances.
Context {CF : Cfg}.
Notation state := (@state (RNum tau)).
Notation edge := (@edge (RNum tau)).
Notation handle := (@handle (RNum tau)).
Notation Inv := (Inv tau).
Notation rel := (rel tau).
Notation dn := (dn tau).
Notation val := (val tau).
Notation wfe := (wfe tau).
Notation wfp := (wfp tau).
Notation returns := (returns tau).
Notation returns_on := (returns_on tau).
Notation reads_v := (reads_v tau).
Notation reads_m := (reads_m tau).
Notation reads_v_upto := (reads_v_upto tau).
Notation reads_m_upto := (reads_m_upto tau).
Notation gmat := (@gmat (RNum tau)).
Ltac toR := change (@num (RNum tau)) with R in *.

Lemma reach_Inv s hs : reachable (s, hs) -> Inv s.
Proof. intros H. exact (Logic.proj1 (reachable_ok tau _ H)). Qed.
Lemma reach_hok s hs k n e : reachable (s, hs) -> In (H k n e) hs -> hok tau s (H k n e).
Proof. intros Hr Hi. exact (Logic.proj2 (reachable_ok tau _ Hr) _ Hi). Qed.
Lemma reach_V s hs n e : reachable (s, hs) -> In (H KV n e) hs -> Z.of_nat n <= NQUBITS /\ (1 <= n)%nat /\ wfe KV (tb s KV) n e.
Proof. intros Hr Hi. destruct (reach_hok _ _ _ _ _ Hr Hi) as (A & B & D). cbn in *. auto. Qed.
Lemma reach_M s hs n e : reachable (s, hs) -> In (H KM n e) hs -> Z.of_nat n <= NQUBITS /\ wfe KM (tb s KM) n e.
Proof. intros Hr Hi. destruct (reach_hok _ _ _ _ _ Hr Hi) as (A & B & D). cbn in *. auto. Qed.

(* Every live handle can be read: it has a vector / matrix. *)
Theorem handle_reads_v s hs n e : reachable (s, hs) -> In (H KV n e) hs -> exists v, reads_v s n e v.
Proof.
  intros Hr Hi. destruct (reach_V _ _ _ _ Hr Hi) as (A & B & D). eexists. apply (reads_vecof tau); eauto using reach_Inv.
Qed.
Theorem handle_reads_m s hs n e : reachable (s, hs) -> In (H KM n e) hs -> exists A, reads_m s n e A.
Proof.
  intros Hr Hi. destruct (reach_M _ _ _ _ Hr Hi) as (A & D). eexists. apply (reads_matof tau); eauto using reach_Inv.
Qed.

(* ---- C01, C02 ---- *)
Theorem C01_makeZeroState s hs n : reachable (s, hs) -> size_ok n ->
  returns (makeZeroState n) s (fun e s' => reads_v s' n e (basis 0)).
Proof.
  intros Hr [H1 H2]. pose proof (reach_Inv _ _ Hr) as HI.
  eapply (wpr_returns tau) with (Q := isbs tau n (fun _ => 0%nat)); [exact HI| |].
  - eapply (wpr_makeZeroState tau) with (b := fun _ => 0%nat); auto.
  - intros e s' R' (W & Hp & Hv). pose proof (rel_inv _ _ _ R') as I'.
    eapply (reads_v_veq tau); [|apply (reads_vecof tau); [exact I'|exact H1|left; exact Hp]].
    intros i Hi. unfold vecof, vecF. rewrite Hv, <- bix_0. apply bsF_basis; auto.
    pose proof (Nat.pow_nonzero 2 n). lia.
Qed.
Theorem C02_makeOneState s hs n : reachable (s, hs) -> size_ok n ->
  returns (makeOneState n) s (fun e s' => reads_v s' n e (basis (2 ^ n - 1))).
Proof.
  intros Hr [H1 H2]. pose proof (reach_Inv _ _ Hr) as HI.
  eapply (wpr_returns tau) with (Q := isbs tau n (fun _ => 1%nat)); [exact HI| |].
  - eapply (wpr_makeOneState tau) with (b := fun _ => 1%nat); auto.
  - intros e s' R' (W & Hp & Hv). pose proof (rel_inv _ _ _ R') as I'.
    eapply (reads_v_veq tau); [|apply (reads_vecof tau); [exact I'|exact H1|left; exact Hp]].
    intros i Hi. unfold vecof, vecF. rewrite Hv.
    rewrite (bsF_ext n _ (bix (2 ^ n - 1))).
    + apply bsF_basis; auto. lia.
    + intros l Hl. unfold bix, bit. 
      replace (2 ^ n - 1)%nat with (Nat.ones n) by (rewrite Nat.ones_equiv; lia).
      rewrite Nat.ones_spec_low by lia. reflexivity.
Qed.

(* makeIdent: the edge mEdge::one reads as the identity on any number of qubits *)
Lemma idF_mix n i j : idF n (mix i j) = if agree_off n [] i j then RtoC 1 else RtoC 0.
Proof.
  induction n as [|n IH]; [reflexivity|]. cbn [idF]. rewrite IH. unfold agree_off. rewrite seq_S, forallb_app. cbn [forallb existsb orb plus].
  rewrite andb_true_r. destruct (forallb _ (seq 0 n)); cbn [andb]; [|ring].
  unfold mix, bit. destruct (Nat.testbit i n), (Nat.testbit j n); cbn; ring.
Qed.
Lemma agree_all n i j : (i < 2 ^ n)%nat -> (j < 2 ^ n)%nat -> agree_off n [] i j = Nat.eqb i j.
Proof.
  intros Hi Hj. destruct (Nat.eqb_spec i j) as [->|Hne]; [apply agree_off_refl|].
  destruct (agree_off n [] i j) eqn:Ha; auto. exfalso. apply Hne. apply Nat.bits_inj. intros l.
  rewrite agree_off_spec in Ha. destruct (Nat.ltb_spec l n) as [Hl|Hl]; [apply Ha; auto; intros []|].
  rewrite (pow2_bits_high n i l Hi Hl), (pow2_bits_high n j l Hj Hl). reflexivity.
Qed.
Theorem C03_makeIdent s hs n : reachable (s, hs) -> reads_m s n oneE ident.
Proof.
  intros Hr. pose proof (reach_Inv _ _ Hr) as HI. eapply (reads_m_meq tau); [|apply (reads_matof tau s n oneE HI); left; now left].
  intros i j Hi Hj. unfold matof, matF, val. cbn [oneE ew en]. rewrite (valp_idF tau), idF_mix, agree_all by auto.
  change (@c1 (RNum tau)) with (RtoC 1). unfold ident. destruct (Nat.eqb i j); ring.
Qed.

(* ---- C03, C04 : gates ---- *)
Theorem C03_makeGate s hs n (g : gmat) t l B : reachable (s, hs) -> size_ok n -> qubit n t -> controls_ok n [t] l ->
  (1 <= B)%R -> (forall i j, (i < 2)%nat -> (j < 2)%nat -> (Cmod (g i j) <= B)%R) ->
  returns (makeGate (Z.of_nat n) g t (mkControls l)) s (fun e s' =>
    reads_m_upto (egate tau n B) s' n e (gate1 n g (Z.to_nat t) l) /\
    (tau = 0%R -> reads_m s' n e (gate1 n g (Z.to_nat t) l))).
Proof.
  intros Hr Hs Hq Hl HB Hg. pose proof (reach_Inv _ _ Hr) as HI.
  destruct (wpr_gate1 tau n g t l B s HI Hs Hq Hl HB Hg) as (F & H1 & H2 & H3).
  eapply (wpr_returns tau); [exact HI|exact H3|]. intros e s' R' D.
  pose proof (dn_reads_m tau s' n e F _ _ (rel_inv _ _ _ R') D H1) as Hu. split; auto.
  intros H0. eapply (upto_0_m tau); [|exact Hu]. apply (egate_0 tau); exact H0.
Qed.
Theorem C04_makeTwoQubitGate s hs n (g : gmat) t0 t1 l B : reachable (s, hs) -> size_ok n -> qubit n t0 -> qubit n t1 -> t0 <> t1 ->
  controls_ok n [t0; t1] l -> (1 <= B)%R -> (forall i j, (i < 4)%nat -> (j < 4)%nat -> (Cmod (g i j) <= B)%R) ->
  returns (makeTwoQubitGate (Z.of_nat n) g t0 t1 (mkControls l)) s (fun e s' =>
    reads_m_upto (egate tau n B) s' n e (gate2 n g (Z.to_nat t0) (Z.to_nat t1) l) /\
    (tau = 0%R -> reads_m s' n e (gate2 n g (Z.to_nat t0) (Z.to_nat t1) l))).
Proof.
  intros Hr Hs Hq0 Hq1 Hne Hl HB Hg. pose proof (reach_Inv _ _ Hr) as HI.
  destruct (wpr_gate2 tau n g t0 t1 l B s HI Hs Hq0 Hq1 Hne Hl HB Hg) as (F & H1 & H2 & H3).
  eapply (wpr_returns tau); [exact HI|exact H3|]. intros e s' R' D.
  pose proof (dn_reads_m tau s' n e F _ _ (rel_inv _ _ _ R') D H1) as Hu. split; auto.
  intros H0. eapply (upto_0_m tau); [|exact Hu]. apply (egate_0 tau); exact H0.
Qed.

(* ---- C12 : the root weight is the largest modulus, and is attained ---- *)
Theorem C12_root_weight_max_v s hs n e v : reachable (s, hs) -> In (H KV n e) hs -> reads_v s n e v ->
  (forall i, (i < 2 ^ n)%nat -> (Cmod (v i) <= Cmod (ew e))%R) /\
  (exists i, (i < 2 ^ n)%nat /\ Cmod (v i) = Cmod (ew e)).
Proof.
  intros Hr Hi Hv. destruct (reach_V _ _ _ _ Hr Hi) as (A & B & D). pose proof (reach_Inv _ _ Hr) as HI.
  destruct Hv as (Hv & _). split.
  - intros i Hl. rewrite <- Hv by exact Hl. apply (val_le tau); auto. apply HI.
  - destruct (val_max tau KV _ n e (inv_tb _ _ HI KV) D) as (ix & Hix & Hm).
    destruct (ofbits n ix) as (b & Hb & Hx); [exact Hix|]. exists b. split; auto.
    rewrite <- Hv by exact Hb. unfold vecof, vecF. rewrite (val_loc tau KV _ n e _ _ Hx). exact Hm.
Qed.
Theorem C12_root_weight_max_m s hs n e A : reachable (s, hs) -> In (H KM n e) hs -> reads_m s n e A ->
  (forall i j, (i < 2 ^ n)%nat -> (j < 2 ^ n)%nat -> (Cmod (A i j) <= Cmod (ew e))%R) /\
  (exists i j, (i < 2 ^ n)%nat /\ (j < 2 ^ n)%nat /\ Cmod (A i j) = Cmod (ew e)).
Proof.
  intros Hr Hi Hv. destruct (reach_M _ _ _ _ Hr Hi) as (_ & D). pose proof (reach_Inv _ _ Hr) as HI.
  destruct Hv as (Hv & _). split.
  - intros i j Hl Hl'. rewrite <- Hv by assumption. apply (val_le tau); auto. apply HI.
  - destruct (val_max tau KM _ n e (inv_tb _ _ HI KM) D) as (ix & Hix & Hm). cbn [arity] in Hix.
    destruct (ofbits n (fun l => Nat.modulo (ix l / 2) 2)) as (a & Ha & Hx); [intros; apply Nat.mod_upper_bound; lia|].
    destruct (ofbits n (fun l => Nat.modulo (ix l) 2)) as (b & Hb & Hy); [intros; apply Nat.mod_upper_bound; lia|].
    exists a, b. split; auto. split; auto. rewrite <- Hv by assumption. unfold matof, matF.
    rewrite (val_loc tau KM _ n e (mix a b) ix); [exact Hm|]. intros l Hl. unfold mix. specialize (Hx l Hl). specialize (Hy l Hl).
    unfold bix in Hx, Hy. rewrite Hx, Hy. specialize (Hix l). destruct (ix l) as [|[|[|[|]]]]; try lia; reflexivity.
Qed.

(* ---- C05, C06 ---- *)
Theorem C05_mv_multiply s hs n g v A x a b : reachable (s, hs) -> In (H KM n g) hs -> In (H KV n v) hs ->
  reads_m s n g A -> reads_v s n v x ->
  (forall i j, (i < 2 ^ n)%nat -> (j < 2 ^ n)%nat -> (Cmod (A i j) <= a)%R) ->
  (forall i, (i < 2 ^ n)%nat -> (Cmod (x i) <= b)%R) ->
  returns (mv_multiply g v) s (fun e s' =>
    reads_v_upto (emv tau n a b) s' n e (mv n A x) /\ (tau = 0%R -> reads_v s' n e (mv n A x))).
Proof.
  intros Hr Hg Hv RA Rx Ha Hb. pose proof (reach_Inv _ _ Hr) as HI.
  destruct (reach_M _ _ _ _ Hr Hg) as (G1 & G2). destruct (reach_V _ _ _ _ Hr Hv) as (V1 & V2 & V3).
  destruct (C12_root_weight_max_m _ _ _ _ _ Hr Hg RA) as (_ & i & j & Hi & Hj & Ew).
  destruct (C12_root_weight_max_v _ _ _ _ _ Hr Hv Rx) as (_ & k & Hk & Ev).
  assert (Hle : (Cmod (ew g) <= a)%R) by (rewrite <- Ew; auto).
  assert (Hle' : (Cmod (ew v) <= b)%R) by (rewrite <- Ev; auto).
  eapply (wpr_returns tau); [exact HI|apply (wpr_mv_multiply' tau n s g v HI V2 V1 G2 V3)|].
  intros e s' R' D. pose proof (rel_inv _ _ _ R') as I'.
  assert (Hu : reads_v_upto (emv tau n a b) s' n e (mv n A x)).
  { eapply (dn_reads_v tau); [exact I'|exact V2| |].
    - eapply (dnt_weaken tau); [|exact D]. apply (emv_mono tau); split; auto using Cmod_ge_0.
    - rewrite mvF_mv. intros m Hm. apply mv_ext; auto. exact (Logic.proj1 RA). exact (Logic.proj1 Rx). }
  split; auto. intros H0. eapply (upto_0_v tau); [|exact Hu]. apply (emv_0 tau); exact H0.
Qed.
Theorem C06_vv_add s hs n lim a b x y B : reachable (s, hs) -> In (H KV n a) hs -> In (H KV n b) hs ->
  reads_v s n a x -> reads_v s n b y ->
  (forall i j, (i < 2 ^ n)%nat -> (j < 2 ^ n)%nat -> (Cmod (x i) + Cmod (y j) <= B)%R) ->
  returns (vv_add lim a b) s (fun e s' =>
    reads_v_upto (eadd tau n B) s' n e (fun i => Cplus (x i) (y i)) /\
    (tau = 0%R -> reads_v s' n e (fun i => Cplus (x i) (y i)))).
Proof.
  intros Hr Hg Hv RA Rx HB. pose proof (reach_Inv _ _ Hr) as HI.
  destruct (reach_V _ _ _ _ Hr Hg) as (G1 & G2 & G3). destruct (reach_V _ _ _ _ Hr Hv) as (V1 & V2 & V3).
  destruct (C12_root_weight_max_v _ _ _ _ _ Hr Hg RA) as (_ & i & Hi & Ew).
  destruct (C12_root_weight_max_v _ _ _ _ _ Hr Hv Rx) as (_ & k & Hk & Ev).
  assert (Hle : (Cmod (ew a) + Cmod (ew b) <= B)%R) by (rewrite <- Ew, <- Ev; auto).
  eapply (wpr_returns tau); [exact HI|apply (wpr_vv_add' tau lim n s a b HI V2 V1 G3 V3)|].
  intros e s' R' D. pose proof (rel_inv _ _ _ R') as I'.
  assert (Hu : reads_v_upto (eadd tau n B) s' n e (fun i => Cplus (x i) (y i))).
  { eapply (dn_reads_v tau); [exact I'|exact V2| |].
    - eapply (dnt_weaken tau); [|exact D]. apply (eadd_mono tau). pose proof (Cmod_ge_0 (ew a)). pose proof (Cmod_ge_0 (ew b)). lra.
    - intros m Hm. unfold vecF. rewrite <- (Logic.proj1 RA m Hm), <- (Logic.proj1 Rx m Hm). reflexivity. }
  split; auto. intros H0. eapply (upto_0_v tau); [|exact Hu]. apply (eadd_0 tau); exact H0.
Qed.

(* ---- C07, C08 : with exact comparison ---- *)
Theorem C07_mm_multiply s hs n a b A B : tau = 0%R -> reachable (s, hs) -> In (H KM n a) hs -> In (H KM n b) hs ->
  reads_m s n a A -> reads_m s n b B ->
  returns (mm_multiply a b) s (fun e s' => reads_m s' n e (mm n A B)).
Proof.
  intros H0 Hr Ha Hb RA RB. pose proof (reach_Inv _ _ Hr) as HI.
  destruct (reach_M _ _ _ _ Hr Ha) as (A1 & A2). destruct (reach_M _ _ _ _ Hr Hb) as (B1 & B2).
  eapply (wpr_returns tau); [exact HI|apply (wpr_mm_multiply tau n); auto|].
  intros e s' R' Q. pose proof (Q n (le_n _) A2 B2) as D.
  eapply (upto_0_m tau); [reflexivity|]. eapply (dn_reads_m tau); [exact (rel_inv _ _ _ R')|exact D|].
  unfold mulF. rewrite mmF_mm. apply mm_ext; [exact (Logic.proj1 RA)|exact (Logic.proj1 RB)].
Qed.
Theorem C08_mm_add s hs n a b A B : tau = 0%R -> reachable (s, hs) -> In (H KM n a) hs -> In (H KM n b) hs ->
  reads_m s n a A -> reads_m s n b B ->
  returns (mm_add a b) s (fun e s' => reads_m s' n e (fun i j => Cplus (A i j) (B i j))).
Proof.
  intros H0 Hr Ha Hb RA RB. pose proof (reach_Inv _ _ Hr) as HI.
  destruct (reach_M _ _ _ _ Hr Ha) as (A1 & A2). destruct (reach_M _ _ _ _ Hr Hb) as (B1 & B2).
  eapply (wpr_returns tau); [exact HI|apply (wpr_mm_add tau n); auto|].
  intros e s' R' Q. pose proof (Q n (le_n _) A2 B2) as D.
  eapply (upto_0_m tau); [reflexivity|]. eapply (dn_reads_m tau); [exact (rel_inv _ _ _ R')|exact D|].
  intros i j Hi Hj. unfold sumF, matF. rewrite <- (Logic.proj1 RA i j Hi Hj), <- (Logic.proj1 RB i j Hi Hj). reflexivity.
Qed.

(* at every tolerance, executed on one thread *)
Theorem C07_mm_multiply_on s hs i n a b A B x y : reachable (s, hs) -> In (H KM n a) hs -> In (H KM n b) hs ->
  reads_m s n a A -> reads_m s n b B ->
  (forall i j, (i < 2 ^ n)%nat -> (j < 2 ^ n)%nat -> (Cmod (A i j) <= x)%R) ->
  (forall i j, (i < 2 ^ n)%nat -> (j < 2 ^ n)%nat -> (Cmod (B i j) <= y)%R) ->
  returns_on i (mm_multiply a b) s (fun e s' =>
    reads_m_upto (emm tau n x y) s' n e (mm n A B) /\ (tau = 0%R -> reads_m s' n e (mm n A B))).
Proof.
  intros Hr Ha Hb RA RB Hx Hy. pose proof (reach_Inv _ _ Hr) as HI.
  destruct (reach_M _ _ _ _ Hr Ha) as (A1 & A2). destruct (reach_M _ _ _ _ Hr Hb) as (B1 & B2).
  destruct (C12_root_weight_max_m _ _ _ _ _ Hr Ha RA) as (_ & i1 & j1 & Hi1 & Hj1 & Ea).
  destruct (C12_root_weight_max_m _ _ _ _ _ Hr Hb RB) as (_ & i2 & j2 & Hi2 & Hj2 & Eb).
  assert (Hle : (Cmod (ew a) <= x)%R) by (rewrite <- Ea; auto).
  assert (Hle' : (Cmod (ew b) <= y)%R) by (rewrite <- Eb; auto).
  destruct (run_mm_multiply tau i n s a b HI A1 A2 B2) as (e & s' & X & R' & D).
  exists e, s'. split; auto.
  assert (Hu : reads_m_upto (emm tau n x y) s' n e (mm n A B)).
  { eapply (dn_reads_m tau); [exact (rel_inv _ _ _ R')| |].
    - eapply (dnt_weaken tau); [|exact D]. apply (emm_mono tau); auto; split; auto using Cmod_ge_0.
    - unfold mulF. rewrite mmF_mm. apply mm_ext; [exact (Logic.proj1 RA)|exact (Logic.proj1 RB)]. }
  split; auto. intros H0. eapply (upto_0_m tau); [|exact Hu]. apply (emm_0 tau); exact H0.
Qed.
Theorem C08_mm_add_on s hs i n a b A B y : reachable (s, hs) -> In (H KM n a) hs -> In (H KM n b) hs ->
  reads_m s n a A -> reads_m s n b B ->
  (forall i j k l, (i < 2 ^ n)%nat -> (j < 2 ^ n)%nat -> (k < 2 ^ n)%nat -> (l < 2 ^ n)%nat ->
     (Cmod (A i j) + Cmod (B k l) <= y)%R) ->
  returns_on i (mm_add a b) s (fun e s' =>
    reads_m_upto (eaddm tau n y) s' n e (fun i j => Cplus (A i j) (B i j)) /\
    (tau = 0%R -> reads_m s' n e (fun i j => Cplus (A i j) (B i j)))).
Proof.
  intros Hr Ha Hb RA RB Hy. pose proof (reach_Inv _ _ Hr) as HI.
  destruct (reach_M _ _ _ _ Hr Ha) as (A1 & A2). destruct (reach_M _ _ _ _ Hr Hb) as (B1 & B2).
  destruct (C12_root_weight_max_m _ _ _ _ _ Hr Ha RA) as (_ & i1 & j1 & Hi1 & Hj1 & Ea).
  destruct (C12_root_weight_max_m _ _ _ _ _ Hr Hb RB) as (_ & i2 & j2 & Hi2 & Hj2 & Eb).
  assert (Hle : (Cmod (ew a) + Cmod (ew b) <= y)%R) by (rewrite <- Ea, <- Eb; auto).
  destruct (run_mm_add tau i n s a b HI A1 A2 B2) as (e & s' & X & R' & D).
  exists e, s'. split; auto.
  assert (Hu : reads_m_upto (eaddm tau n y) s' n e (fun i j => Cplus (A i j) (B i j))).
  { eapply (dn_reads_m tau); [exact (rel_inv _ _ _ R')| |].
    - eapply (dnt_weaken tau); [|exact D]. apply (eaddm_mono tau). split; [apply wsum_pos|exact Hle].
    - intros k l Hk Hl. unfold sumF, matF. rewrite <- (Logic.proj1 RA k l Hk Hl), <- (Logic.proj1 RB k l Hk Hl). reflexivity. }
  split; auto. intros H0. eapply (upto_0_m tau); [|exact Hu]. apply (eaddm_0 tau); exact H0.
Qed.

(* ---- C11 : canonicity ---- *)
Definition nonzero_v n (v : vector) := exists i, (i < 2 ^ n)%nat /\ v i <> RtoC 0.
Definition nonzero_m n (A : matrix) := exists i j, (i < 2 ^ n)%nat /\ (j < 2 ^ n)%nat /\ A i j <> RtoC 0.
Theorem C11_canonical_v s hs n a b x y : tau = 0%R -> reachable (s, hs) -> In (H KV n a) hs -> In (H KV n b) hs ->
  reads_v s n a x -> reads_v s n b y -> nonzero_v n x -> (veq n x y <-> a = b).
Proof.
  intros H0 Hr Ha Hb RA RB Hnz. pose proof (reach_Inv _ _ Hr) as HI.
  destruct (reach_V _ _ _ _ Hr Ha) as (A1 & A2 & A3). destruct (reach_V _ _ _ _ Hr Hb) as (B1 & B2 & B3).
  split.
  - intros Hxy. destruct (canon_edge tau KV (tb s KV) n a b H0 (inv_tb _ _ HI KV) A3 B3) as [He|[He _]]; auto.
    + apply (veq_val tau s n a b HI A3 B3). eapply veq_trans; [exact (Logic.proj1 RA)|].
      eapply veq_trans; [exact Hxy|]. apply veq_sym. exact (Logic.proj1 RB).
    + exfalso. destruct Hnz as (i & Hi & Hn). apply Hn. rewrite <- (Logic.proj1 RA i Hi). unfold vecof, vecF, val.
      rewrite He. change (@c0 (RNum tau)) with (RtoC 0). ring.
  - intros ->. eapply (reads_v_det tau); eauto.
Qed.
Theorem C11_canonical_m s hs n a b x y : tau = 0%R -> reachable (s, hs) -> In (H KM n a) hs -> In (H KM n b) hs ->
  reads_m s n a x -> reads_m s n b y -> nonzero_m n x -> (meq n x y <-> a = b).
Proof.
  intros H0 Hr Ha Hb RA RB Hnz. pose proof (reach_Inv _ _ Hr) as HI.
  destruct (reach_M _ _ _ _ Hr Ha) as (A1 & A3). destruct (reach_M _ _ _ _ Hr Hb) as (B1 & B3).
  split.
  - intros Hxy. destruct (canon_edge tau KM (tb s KM) n a b H0 (inv_tb _ _ HI KM) A3 B3) as [He|[He _]]; auto.
    + apply (meq_val tau s n a b HI A3 B3). eapply meq_trans; [exact (Logic.proj1 RA)|].
      eapply meq_trans; [exact Hxy|]. apply meq_sym. exact (Logic.proj1 RB).
    + exfalso. destruct Hnz as (i & j & Hi & Hj & Hn). apply Hn. rewrite <- (Logic.proj1 RA i j Hi Hj). unfold matof, matF, val.
      rewrite He. change (@c0 (RNum tau)) with (RtoC 0). ring.
  - intros ->. eapply (reads_m_det tau); eauto.
Qed.
(* the unique table: no two registered slots hold the same node *)
Theorem C11_no_duplicate_nodes s hs k v v' key key' a b nd : tau = 0%R -> reachable (s, hs) ->
  In a (chain (tb s k) v key) -> In b (chain (tb s k) v' key') ->
  heap (tb s k) a = Some nd -> heap (tb s k) b = Some nd -> a = b.
Proof.
  intros H0 Hr Ha Hb Ea Eb. pose proof (inv_tb _ _ (reach_Inv _ _ Hr) k) as HT.
  destruct (ti_chain _ _ _ HT _ _ _ Ha) as (nd1 & E1 & V1 & K1 & _).
  destruct (ti_chain _ _ _ HT _ _ _ Hb) as (nd2 & E2 & V2 & K2 & _).
  rewrite Ea in E1. injection E1 as <-. rewrite Eb in E2. injection E2 as <-. subst v v' key key'.
  apply (ti_uniq _ _ _ HT H0 a b nd); split; auto.
Qed.

(* ---- C26 : global phase ---- *)
Theorem C26_applyGlobal_v s hs n e v (a : R) : reachable (s, hs) -> In (H KV n e) hs -> reads_v s n e v ->
  reads_v s n (applyGlobal e a) (fun i => Cmult (cos a, sin a) (v i)).
Proof.
  intros Hr Hi Hv. pose proof (reach_Inv _ _ Hr) as HI. destruct (reach_V _ _ _ _ Hr Hi) as (A1 & A2 & A3).
  eapply (reads_v_veq tau); [|apply (reads_vecof tau); [exact HI|exact A2|]].
  - intros i Hl. unfold vecof, vecF. rewrite (val_applyGlobal tau). rewrite <- (Logic.proj1 Hv i Hl). reflexivity.
  - unfold applyGlobal. destruct A3 as [A3|[W Ht]]; [left; exact A3|]. right. cbn [ew en]. split; auto.
    rewrite W. apply (cmul_c0_l tau) || apply (cmul_c0_r tau).
Qed.
Theorem C26_applyGlobal_m s hs n e A (a : R) : reachable (s, hs) -> In (H KM n e) hs -> reads_m s n e A ->
  reads_m s n (applyGlobal e a) (fun i j => Cmult (cos a, sin a) (A i j)).
Proof.
  intros Hr Hi Hv. pose proof (reach_Inv _ _ Hr) as HI. destruct (reach_M _ _ _ _ Hr Hi) as (A1 & A3).
  eapply (reads_m_meq tau); [|apply (reads_matof tau); [exact HI|]].
  - intros i j Hl Hj. unfold matof, matF. rewrite (val_applyGlobal tau). rewrite <- (Logic.proj1 Hv i j Hl Hj). reflexivity.
  - unfold applyGlobal. destruct A3 as [A3|[W Ht]]; [left; exact A3|]. right. cbn [ew en]. split; auto.
    rewrite W. apply (cmul_c0_l tau) || apply (cmul_c0_r tau).
Qed.
(* ... hence no probability changes *)
Lemma Cmod_phase (a : R) : Cmod (cos a, sin a) = 1%R.
Proof.
  unfold Cmod. cbn [fst snd]. replace (cos a ^ 2 + sin a ^ 2)%R with 1%R; [apply sqrt_1|].
  pose proof (sin2_cos2 a) as Hs. unfold Rsqr in Hs. cbn. lra.
Qed.
Theorem C26_phase_invisible s hs n e v w (a : R) : reachable (s, hs) -> In (H KV n e) hs -> reads_v s n e v ->
  reads_v s n (applyGlobal e a) w -> forall i, (i < 2 ^ n)%nat -> Cmod (w i) = Cmod (v i).
Proof.
  intros Hr Hi Hv Hw i Hl. pose proof (C26_applyGlobal_v s hs n e v a Hr Hi Hv) as Hu.
  rewrite (reads_v_det tau _ _ _ _ _ Hw Hu i Hl). rewrite Cmod_mult, Cmod_phase. ring.
Qed.

(* ---- C27 : tensor product of states ---- *)
Theorem C27_vv_kronecker s hs na nb a b x y X Y : reachable (s, hs) -> In (H KV na a) hs -> In (H KV nb b) hs ->
  is_term (en a) = false -> is_term (en b) = false -> Z.of_nat (na + nb) <= NQUBITS ->
  reads_v s na a x -> reads_v s nb b y ->
  (forall i, (i < 2 ^ na)%nat -> (Cmod (x i) <= X)%R) -> (forall i, (i < 2 ^ nb)%nat -> (Cmod (y i) <= Y)%R) ->
  returns (vv_kronecker a b) s (fun e s' =>
    reads_v_upto (egate tau na (X * Y)) s' (na + nb) e (kronv nb x y) /\
    (tau = 0%R -> reads_v s' (na + nb) e (kronv nb x y))).
Proof.
  intros Hr Ha Hb Ta Tb Hn RA RB HX HY. pose proof (reach_Inv _ _ Hr) as HI.
  destruct (reach_V _ _ _ _ Hr Ha) as (A1 & A2 & A3). destruct (reach_V _ _ _ _ Hr Hb) as (B1 & B2 & B3).
  destruct (C12_root_weight_max_v _ _ _ _ _ Hr Ha RA) as (_ & i & Hi & Ew).
  destruct (C12_root_weight_max_v _ _ _ _ _ Hr Hb RB) as (_ & k & Hk & Ev).
  assert (Hle : (Cmod (ew a) * Cmod (ew b) <= X * Y)%R).
  { apply Rmult_le_compat; auto using Cmod_ge_0; rewrite <- ?Ew, <- ?Ev; auto. }
  pose proof (wfp_nt tau _ _ _ A3 Ta) as Wa. pose proof (wfp_nt tau _ _ _ B3 Tb) as Wb.
  set (F := kvF nb (val KV (tb s KV) na a) (val KV (tb s KV) nb b)).
  eapply (wpr_returns tau) with (Q := dn KV (na + nb) F (egate tau na (Cmod (ew a) * Cmod (ew b)))); [exact HI| |].
  - eapply (wpr_vv_kronecker tau na nb a b s); auto.
  - intros e s' R' D. pose proof (rel_inv _ _ _ R') as I'.
    assert (Hm : forall n B B', (0 <= B <= B')%R -> (egate tau n B <= egate tau n B')%R).
    { induction n as [|n IH]; intros u u' Hu; cbn [egate]; [lra|].
      pose proof (IH u u' Hu) as Hi2. pose proof (mkerr_mono tau (u + egate tau n u) (u' + egate tau n u') ltac:(lra)). lra. }
    assert (Hu : reads_v_upto (egate tau na (X * Y)) s' (na + nb) e (kronv nb x y)).
    { eapply (dn_reads_v tau); [exact I'|lia| |].
      - eapply (dnt_weaken tau); [|exact D]. apply Hm. split; auto. apply Rmult_le_pos; apply Cmod_ge_0.
      - intros m Hm'. unfold vecF, F, kvF, kronv.
        assert (Hd : (m / 2 ^ nb < 2 ^ na)%nat).
        { apply Nat.div_lt_upper_bound; [apply Nat.pow_nonzero; lia|]. rewrite <- Nat.pow_add_r. replace (nb + na)%nat with (na + nb)%nat by lia. exact Hm'. }
        assert (Hd' : (m mod 2 ^ nb < 2 ^ nb)%nat) by (apply Nat.mod_upper_bound, Nat.pow_nonzero; lia).
        rewrite <- (Logic.proj1 RA _ Hd), <- (Logic.proj1 RB _ Hd'). unfold vecof, vecF. f_equal.
        + apply (val_loc tau). intros l Hl. unfold shift, bix, bit.
          rewrite <- Nat.shiftr_div_pow2, Nat.shiftr_spec by lia. now rewrite Nat.add_comm.
        + apply (val_loc tau). intros l Hl. unfold bix, bit. rewrite Nat.mod_pow2_bits_low by lia. reflexivity. }
    split; auto. intros H0. eapply (upto_0_v tau); [|exact Hu]. apply (egate_0 tau); exact H0.
Qed.

(* ---- C24 : permutation gates ---- *)
(* the matrix that sends basis state j to basis state p j *)
Definition perm_matrix (p : nat -> nat) : matrix := fun i j => if Nat.eqb i (p j) then RtoC 1 else RtoC 0.
(* the documented maps of basis states, by their bits *)
Definition flips (t c i i' : nat) : Prop :=     (* flip bit t when bit c is set *)
  forall l, Nat.testbit i' l = if Nat.eqb l t && Nat.testbit i c then negb (Nat.testbit i t) else Nat.testbit i l.
Definition swaps (a b i i' : nat) : Prop :=     (* exchange bits a and b *)
  forall l, Nat.testbit i' l = Nat.testbit i (if Nat.eqb l a then b else if Nat.eqb l b then a else l).
Definition cswaps (a b c i i' : nat) : Prop :=  (* exchange bits a and b when bit c is set *)
  if Nat.testbit i c then swaps a b i i' else i' = i.
Definition cx_map (t c i : nat) : nat := if Nat.testbit i c then setb i t (1 - bit i t) else i.
Definition swap_map (a b i : nat) : nat := setb (setb i a (bit i b)) b (bit i a).
Definition cswap_map (a b c i : nat) : nat := if Nat.testbit i c then swap_map a b i else i.
Lemma cx_flips t c i : flips t c i (cx_map t c i).
Proof.
  intros l. unfold cx_map. destruct (Nat.testbit i c) eqn:Ec; [|now rewrite andb_false_r].
  rewrite setb_testbit, andb_true_r. destruct (Nat.eqb l t); auto. unfold bit. destruct (Nat.testbit i t); reflexivity.
Qed.
Lemma swap_swaps a b i : swaps a b i (swap_map a b i).
Proof.
  intros l. unfold swap_map. rewrite !setb_testbit. unfold bit.
  destruct (Nat.eqb_spec l b) as [Hb|Hb], (Nat.eqb_spec l a) as [Ha|Ha]; rewrite <- ?Ha, <- ?Hb; auto;
    destruct (Nat.testbit i l); auto; destruct (Nat.testbit i a), (Nat.testbit i b); reflexivity.
Qed.
Lemma cswap_cswaps a b c i : cswaps a b c i (cswap_map a b c i).
Proof. unfold cswaps, cswap_map. destruct (Nat.testbit i c); auto. apply swap_swaps. Qed.
Lemma cx_cx t c i : t <> c -> cx_map t c (cx_map t c i) = i.
Proof.
  intros Hne. apply Nat.bits_inj. intros l. rewrite !cx_flips. destruct (Nat.eqb_spec c t); [congruence|]. cbn [andb].
  rewrite Nat.eqb_refl. cbn [andb]. destruct (Nat.eqb_spec l t) as [->|]; cbn [andb]; auto.
  destruct (Nat.testbit i c), (Nat.testbit i t); reflexivity.
Qed.
Lemma swap_swap a b i : swap_map a b (swap_map a b i) = i.
Proof.
  apply Nat.bits_inj. intros l. rewrite !swap_swaps. f_equal.
  destruct (Nat.eqb_spec l a) as [->|H1].
  - destruct (Nat.eqb_spec b a) as [->|]; auto. now rewrite Nat.eqb_refl.
  - destruct (Nat.eqb_spec l b) as [->|H2]; [now rewrite Nat.eqb_refl|].
    apply Nat.eqb_neq in H1, H2. now rewrite H1, H2.
Qed.
Lemma cswap_cswap a b c i : a <> c -> b <> c -> cswap_map a b c (cswap_map a b c i) = i.
Proof.
  intros Ha Hb. unfold cswap_map at 2. destruct (Nat.testbit i c) eqn:Ec; unfold cswap_map.
  - rewrite swap_swaps. destruct (Nat.eqb_spec c a); [congruence|]. destruct (Nat.eqb_spec c b); [congruence|].
    rewrite Ec. apply swap_swap.
  - rewrite Ec. reflexivity.
Qed.
Lemma cx_lt n t c i : (i < 2 ^ n)%nat -> (t < n)%nat -> (cx_map t c i < 2 ^ n)%nat.
Proof. intros Hi Ht. unfold cx_map. destruct (Nat.testbit i c); auto. now apply setb_lt. Qed.
Lemma swap_lt n a b i : (i < 2 ^ n)%nat -> (a < n)%nat -> (b < n)%nat -> (swap_map a b i < 2 ^ n)%nat.
Proof. intros. unfold swap_map. now repeat apply setb_lt. Qed.
Lemma cswap_lt n a b c i : (i < 2 ^ n)%nat -> (a < n)%nat -> (b < n)%nat -> (cswap_map a b c i < 2 ^ n)%nat.
Proof. intros. unfold cswap_map. destruct (Nat.testbit i c); auto. now apply swap_lt. Qed.
(* an involution acting on the amplitudes *)
Lemma perm_of_action n p A : (forall i, (i < 2 ^ n)%nat -> p (p i) = i) ->
  (forall v i, (i < 2 ^ n)%nat -> mv n A v i = v (p i)) -> meq n A (perm_matrix p).
Proof.
  intros Hp Ha i j Hi Hj.
  assert (E : mv n A (basis j) i = A i j).
  { unfold mv. rewrite (csum_one _ _ j Hj).
    - unfold basis. rewrite Nat.eqb_refl. ring.
    - intros k Hk Hne. unfold basis. apply Nat.eqb_neq in Hne. rewrite Hne. ring. }
  rewrite <- E, Ha by exact Hi. unfold basis, perm_matrix.
  destruct (Nat.eqb_spec (p i) j) as [H1|H1], (Nat.eqb_spec i (p j)) as [H2|H2]; auto.
  - exfalso. apply H2. rewrite <- H1. now rewrite Hp.
  - exfalso. apply H1. rewrite H2. now rewrite Hp.
Qed.
Lemma cx_action n t c v i : (t < n)%nat -> (c < n)%nat -> t <> c -> (i < 2 ^ n)%nat ->
  mv n (gate1 n (@Xmat (RNum tau)) t [(Z.of_nat c, true)]) v i = v (cx_map t c i).
Proof.
  intros Ht Hc Hne Hi. rewrite gate1_action by auto. unfold ctl_ok. cbn [forallb fst snd]. rewrite Nat2Z.id, andb_true_r.
  unfold cx_map. destruct (Nat.testbit i c); cbn [Bool.eqb]; auto.
  unfold bit. destruct (Nat.testbit i t); cbn [Nat.sub].
  - change (@Xmat (RNum tau) 1%nat 0%nat) with (RtoC 1). change (@Xmat (RNum tau) 1%nat 1%nat) with (RtoC 0). ring.
  - change (@Xmat (RNum tau) 0%nat 0%nat) with (RtoC 0). change (@Xmat (RNum tau) 0%nat 1%nat) with (RtoC 1). ring.
Qed.
Lemma cx_perm n t c : (t < n)%nat -> (c < n)%nat -> t <> c ->
  meq n (gate1 n (@Xmat (RNum tau)) t [(Z.of_nat c, true)]) (perm_matrix (cx_map t c)).
Proof. intros. apply perm_of_action; [intros; now apply cx_cx|intros; now apply cx_action]. Qed.
Lemma cx3_swap a b i : a <> b -> cx_map b a (cx_map a b (cx_map b a i)) = swap_map a b i.
Proof.
  intros Hne. apply Nat.bits_inj. intros l. rewrite swap_swaps, !cx_flips, !Nat.eqb_refl.
  destruct (Nat.eqb_spec a b); [congruence|]. destruct (Nat.eqb_spec b a); [congruence|]. cbn [andb].
  destruct (Nat.eqb_spec l a) as [->|Ha].
  - destruct (Nat.eqb_spec a b); [congruence|]. cbn [andb]. destruct (Nat.testbit i a), (Nat.testbit i b); reflexivity.
  - destruct (Nat.eqb_spec l b) as [->|Hb]; cbn [andb]; auto.
    destruct (Nat.testbit i a), (Nat.testbit i b); reflexivity.
Qed.
Lemma cswap_action n a b c v i : (a < n)%nat -> (b < n)%nat -> (c < n)%nat -> a <> b -> a <> c -> b <> c -> (i < 2 ^ n)%nat ->
  mv n (gate2 n (@swap_matrix (RNum tau)) a b [(Z.of_nat c, true)]) v i = v (cswap_map a b c i).
Proof.
  intros Ha Hb Hc Hab Hac Hbc Hi. rewrite gate2_action by auto. unfold ctl_ok. cbn [forallb fst snd]. rewrite Nat2Z.id, andb_true_r.
  unfold cswap_map. destruct (Nat.testbit i c); cbn [Bool.eqb]; auto.
  unfold swap_map, idx2, set2. pose proof (bit_lt i a) as L1. pose proof (bit_lt i b) as L2.
  destruct (bit i a) as [|[|]], (bit i b) as [|[|]]; try lia; cbn [Nat.mul Nat.add].
  all: repeat match goal with |- context [@swap_matrix (RNum tau) ?x ?y] =>
     first [change (@swap_matrix (RNum tau) x y) with (RtoC 0) | change (@swap_matrix (RNum tau) x y) with (RtoC 1)] end; ring.
Qed.
Lemma cswap_perm n a b c : (a < n)%nat -> (b < n)%nat -> (c < n)%nat -> a <> b -> a <> c -> b <> c ->
  meq n (gate2 n (@swap_matrix (RNum tau)) a b [(Z.of_nat c, true)]) (perm_matrix (cswap_map a b c)).
Proof. intros. apply perm_of_action; [intros; now apply cswap_cswap|intros; now apply cswap_action]. Qed.

Lemma Xmat_le1 i j : (i < 2)%nat -> (j < 2)%nat -> (Cmod (@Xmat (RNum tau) i j) <= 1)%R.
Proof.
  intros. destruct i as [|[|]], j as [|[|]]; try lia;
   (change (Cmod (RtoC 0) <= 1)%R || change (Cmod (RtoC 1) <= 1)%R); rewrite ?Cmod_0, ?Cmod_1; lra.
Qed.
Lemma swap_le1 i j : (i < 4)%nat -> (j < 4)%nat -> (Cmod (@swap_matrix (RNum tau) i j) <= 1)%R.
Proof.
  intros. destruct i as [|[|[|[|]]]], j as [|[|[|[|]]]]; try lia;
   (change (Cmod (RtoC 0) <= 1)%R || change (Cmod (RtoC 1) <= 1)%R); rewrite ?Cmod_0, ?Cmod_1; lra.
Qed.
Lemma upto_meq_m err s n e A B : meq n A B -> reads_m_upto err s n e A -> reads_m_upto err s n e B.
Proof. intros HAB (D & H1 & H2). exists D. split; auto. intros i j Hi Hj. rewrite <- HAB by assumption. auto. Qed.

Theorem C24_CX s hs n t c : reachable (s, hs) -> size_ok n -> qubit n t -> qubit n c -> t <> c ->
  exists p, (forall i, (i < 2 ^ n)%nat -> flips (Z.to_nat t) (Z.to_nat c) i (p i)) /\
  returns (CX (Z.of_nat n) t c) s (fun e s' =>
    reads_m_upto (egate tau n 1) s' n e (perm_matrix p) /\ (tau = 0%R -> reads_m s' n e (perm_matrix p))).
Proof.
  intros Hr Hs Ht Hc Hne. exists (cx_map (Z.to_nat t) (Z.to_nat c)). split; [intros; apply cx_flips|].
  unfold qubit in *.
  assert (Hm : meq n (gate1 n (@Xmat (RNum tau)) (Z.to_nat t) [(c, true)]) (perm_matrix (cx_map (Z.to_nat t) (Z.to_nat c)))).
  { replace c with (Z.of_nat (Z.to_nat c)) at 1 by lia. apply cx_perm; lia. }
  eapply (returns_mono tau); [|apply (C03_makeGate s hs n (@Xmat (RNum tau)) t [(c, true)] 1 Hr Hs Ht)].
  - intros e s' [H1 H2]. split; [eapply upto_meq_m; eauto|]. intros H0. eapply (reads_m_meq tau); eauto.
  - split; [repeat constructor; auto|]. intros x [<-|[]]. split; auto. cbn. intros [?|[]]; auto.
  - lra.
  - apply Xmat_le1.
Qed.
Theorem C24_CSWAP s hs n t0 t1 c : reachable (s, hs) -> size_ok n -> qubit n t0 -> qubit n t1 -> qubit n c ->
  t0 <> t1 -> c <> t0 -> c <> t1 ->
  exists p, (forall i, (i < 2 ^ n)%nat -> cswaps (Z.to_nat t0) (Z.to_nat t1) (Z.to_nat c) i (p i)) /\
  returns (CSWAP (Z.of_nat n) t0 t1 c) s (fun e s' =>
    reads_m_upto (egate tau n 1) s' n e (perm_matrix p) /\ (tau = 0%R -> reads_m s' n e (perm_matrix p))).
Proof.
  intros Hr Hs H0 H1 Hc Hne N0 N1. exists (cswap_map (Z.to_nat t0) (Z.to_nat t1) (Z.to_nat c)). split; [intros; apply cswap_cswaps|].
  unfold qubit in *.
  assert (Hm : meq n (gate2 n (@swap_matrix (RNum tau)) (Z.to_nat t0) (Z.to_nat t1) [(c, true)]) (perm_matrix (cswap_map (Z.to_nat t0) (Z.to_nat t1) (Z.to_nat c)))).
  { replace c with (Z.of_nat (Z.to_nat c)) at 1 by lia. apply cswap_perm; lia. }
  eapply (returns_mono tau); [|apply (C04_makeTwoQubitGate s hs n (@swap_matrix (RNum tau)) t0 t1 [(c, true)] 1 Hr Hs H0 H1 Hne)].
  - intros e s' [U1 U2]. split; [eapply upto_meq_m; eauto|]. intros T0. eapply (reads_m_meq tau); eauto.
  - split; [repeat constructor; auto|]. intros x [<-|[]]. split; auto. cbn. intros [?|[?|[]]]; auto.
  - lra.
  - apply swap_le1.
Qed.
Lemma swap_product n t0 t1 : qubit n t0 -> qubit n t1 -> t0 <> t1 ->
  let F1 := g1op tau n (@Xmat (RNum tau)) t1 [(t0, true)] in
  let F2 := g1op tau n (@Xmat (RNum tau)) t0 [(t1, true)] in
  meq n (matF (mmF n F1 (mmF n F2 F1))) (perm_matrix (swap_map (Z.to_nat t0) (Z.to_nat t1))).
Proof.
    intros Hq0 Hq1 Hne F1 F2.
    rewrite !mmF_mm. unfold qubit in *.
    assert (M1 : meq n (matF F1) (gate1 n (@Xmat (RNum tau)) (Z.to_nat t1) [(Z.of_nat (Z.to_nat t0), true)])).
    { replace (Z.of_nat (Z.to_nat t0)) with t0 by lia. apply (g1op_spec tau).
      split; [repeat constructor; auto|]. intros x [<-|[]]. split; auto. cbn. intros [?|[]]; auto. }
    assert (M2 : meq n (matF F2) (gate1 n (@Xmat (RNum tau)) (Z.to_nat t0) [(Z.of_nat (Z.to_nat t1), true)])).
    { replace (Z.of_nat (Z.to_nat t1)) with t1 by lia. apply (g1op_spec tau).
      split; [repeat constructor; auto|]. intros x [<-|[]]. split; auto. cbn. intros [?|[]]; auto. }
    eapply meq_trans; [apply mm_ext; [exact M1|apply mm_ext; [exact M2|exact M1]]|].
    set (G1 := gate1 n (@Xmat (RNum tau)) (Z.to_nat t1) _). set (G2 := gate1 n (@Xmat (RNum tau)) (Z.to_nat t0) _).
    apply perm_of_action; [intros; apply swap_swap|]. intros v i Hi.
    rewrite (mv_mm n G1 (mm n G2 G1) v i Hi).
    assert (A1 : forall w j, (j < 2 ^ n)%nat -> mv n G1 w j = w (cx_map (Z.to_nat t1) (Z.to_nat t0) j)).
    { intros w j Hj. unfold G1. apply cx_action; auto; lia. }
    assert (A2 : forall w j, (j < 2 ^ n)%nat -> mv n G2 w j = w (cx_map (Z.to_nat t0) (Z.to_nat t1) j)).
    { intros w j Hj. unfold G2. apply cx_action; auto; lia. }
    rewrite A1 by exact Hi. rewrite (mv_mm n G2 G1 v) by (apply cx_lt; auto; lia).
    rewrite A2 by (apply cx_lt; auto; lia). rewrite A1 by (apply cx_lt; [apply cx_lt; auto; lia|lia]).
    rewrite cx3_swap by lia. reflexivity.
Qed.
Theorem C24_SWAP s hs n t0 t1 : tau = 0%R -> reachable (s, hs) -> size_ok n -> qubit n t0 -> qubit n t1 -> t0 <> t1 ->
  exists p, (forall i, (i < 2 ^ n)%nat -> swaps (Z.to_nat t0) (Z.to_nat t1) i (p i)) /\
  returns (makeSwap (Z.of_nat n) t0 t1) s (fun e s' => reads_m s' n e (perm_matrix p)).
Proof.
  intros H00 Hr Hs Hq0 Hq1 Hne. pose proof (reach_Inv _ _ Hr) as HI.
  exists (swap_map (Z.to_nat t0) (Z.to_nat t1)). split; [intros; apply swap_swaps|].
  assert (Hg : forall t c s1, Inv s1 -> qubit n t -> qubit n c -> t <> c ->
    wpr tau (CX (Z.of_nat n) t c) (dn KM n (g1op tau n (@Xmat (RNum tau)) t [(c, true)]) 0) s1).
  { intros t c s1 I1 Qt Qc Htc. rewrite <- (egate_0 tau n 1 H00). apply (wpr_gate1' tau n (@Xmat (RNum tau)) t [(c, true)] 1 s1); auto.
    - split; [repeat constructor; auto|]. intros x [<-|[]]. split; auto. cbn. intros [?|[]]; auto.
    - lra.
    - apply Xmat_le1. }
  set (F1 := g1op tau n (@Xmat (RNum tau)) t1 [(t0, true)]). set (F2 := g1op tau n (@Xmat (RNum tau)) t0 [(t1, true)]).
  eapply (wpr_returns tau) with (Q := dn KM n (mmF n F1 (mmF n F2 F1)) 0); [exact HI| |].
  - unfold makeSwap.
    apply (wpr_bind tau); auto.
    eapply (wpr_mono tau); [exact HI| |apply (Hg t1 t0 s HI); auto].
    intros e1 s1 R1 D1. pose proof (rel_inv _ _ _ R1) as I1.
    apply (wpr_bind tau); auto.
    eapply (wpr_mono tau); [exact I1| |apply (Hg t0 t1 s1 I1); auto].
    intros e2 s2 R2 D2. pose proof (rel_inv _ _ _ R2) as I2.
    assert (D1' : dn KM n F1 0 e1 s2) by (eapply (dn_stable tau); [exact I1|exact R2|exact D1]).
    apply (wpr_bind tau); auto.
    eapply (wpr_mono tau); [exact I2| |apply (wpr_mm_multiply tau n); auto; [apply Hs|apply D2|apply D1']].
    intros e3 s3 R3 Q3. pose proof (rel_inv _ _ _ R3) as I3.
    assert (D1'' : dn KM n F1 0 e1 s3) by (eapply (dn_stable tau); [exact I2|exact R3|exact D1']).
    pose proof (Q3 n (le_n _) (Logic.proj1 D2) (Logic.proj1 D1')) as D3.
    eapply (wpr_mono tau); [exact I3| |apply (wpr_mm_multiply tau n); auto; [apply Hs|apply D1''|apply D3]].
    intros e4 s4 R4 Q4. pose proof (Q4 n (le_n _) (Logic.proj1 D1'') (Logic.proj1 D3)) as D4.
    eapply (dnt_F tau); [|exact D4]. intros ix. unfold mulF. apply mmF_ext.
    + intros k. now apply (dnt_exact tau KM _ _ _ _ D1'').
    + intros k. rewrite (dnt_exact tau KM _ _ _ _ D3). unfold mulF. apply mmF_ext; intros k'.
      * now apply (dnt_exact tau KM _ _ _ _ D2).
      * now apply (dnt_exact tau KM _ _ _ _ D1').
  - intros e s' R' D. eapply (upto_0_m tau); [reflexivity|]. eapply (dn_reads_m tau); [exact (rel_inv _ _ _ R')|exact D|].
    apply swap_product; auto.
Qed.

(* at every tolerance, executed on one thread *)
Theorem C24_SWAP_on s hs i n t0 t1 : reachable (s, hs) -> size_ok n -> qubit n t0 -> qubit n t1 -> t0 <> t1 ->
  exists p, (forall i, (i < 2 ^ n)%nat -> swaps (Z.to_nat t0) (Z.to_nat t1) i (p i)) /\
  returns_on i (makeSwap (Z.of_nat n) t0 t1) s (fun e s' =>
    reads_m_upto (eswap tau n) s' n e (perm_matrix p) /\ (tau = 0%R -> reads_m s' n e (perm_matrix p))).
Proof.
  intros Hr Hs Hq0 Hq1 Hne. pose proof (reach_Inv _ _ Hr) as HI.
  exists (swap_map (Z.to_nat t0) (Z.to_nat t1)). split; [intros; apply swap_swaps|].
  destruct (run_makeSwap tau i n s t0 t1 HI Hs Hq0 Hq1 Hne) as (e & s' & X & R' & D).
  exists e, s'. split; auto.
  assert (Hu : reads_m_upto (eswap tau n) s' n e (perm_matrix (swap_map (Z.to_nat t0) (Z.to_nat t1)))).
  { eapply (dn_reads_m tau); [exact (rel_inv _ _ _ R')|exact D|]. now apply swap_product. }
  split; auto. intros H0. eapply (upto_0_m tau); [|exact Hu]. now apply (eswap_0 tau).
Qed.

(* ---- C55 : norm preservation (exact comparison) ---- *)
Theorem C55_norm_preserved s hs n g v A x : tau = 0%R -> reachable (s, hs) -> In (H KM n g) hs -> In (H KV n v) hs ->
  reads_m s n g A -> unitary n A -> reads_v s n v x ->
  returns (mv_multiply g v) s (fun e s' => exists y, reads_v s' n e y /\ norm2v n y = norm2v n x).
Proof.
  intros H0 Hr Hg Hv RA HU Rx.
  destruct (C12_root_weight_max_m _ _ _ _ _ Hr Hg RA) as (Ha & _).
  destruct (C12_root_weight_max_v _ _ _ _ _ Hr Hv Rx) as (Hb & _).
  eapply (returns_mono tau); [|apply (C05_mv_multiply s hs n g v A x _ _ Hr Hg Hv RA Rx Ha Hb)].
  intros e s' [_ H2]. exists (mv n A x). split; auto. now apply unitary_norm.
Qed.

(* ---- C56 : calls leave the other handles alone ---- *)
Theorem C56_frame s hs k n c e s' : reachable (s, hs) -> call hs k n c -> steps (Cfg_ok c s) (Cfg_ok (CRet e) s') ->
  (forall m h v, In (H KV m h) hs -> reads_v s m h v -> reads_v s' m h v) /\
  (forall m h A, In (H KM m h) hs -> reads_m s m h A -> reads_m s' m h A).
Proof.
  intros Hr Hc Hst. pose proof (reach_Inv _ _ Hr) as HI.
  destruct (reachable_ok tau _ Hr) as [_ Hh]. cbn [fst snd] in Hh.
  destruct (call_wpr tau s hs k n c HI Hh Hc) as (_ & _ & Hw).
  destruct (wpr_result tau _ _ _ _ _ HI Hw Hst) as [R' _]. pose proof (rel_inv _ _ _ R') as I'. split.
  - intros m h v Hi Hv. destruct (reach_V _ _ _ _ Hr Hi) as (A1 & A2 & A3).
    eapply (reads_v_veq tau); [exact (Logic.proj1 Hv)|]. rewrite <- (vecof_rel tau s s' m h HI R' A3).
    apply (reads_vecof tau); auto. eapply (wfe_ext tau); [apply (rel_ext _ _ _ KV R')|exact A3].
  - intros m h v Hi Hv. destruct (reach_M _ _ _ _ Hr Hi) as (A1 & A3).
    eapply (reads_m_meq tau); [exact (Logic.proj1 Hv)|]. rewrite <- (matof_rel tau s s' m h HI R' A3).
    apply (reads_matof tau); auto. eapply (wfe_ext tau); [apply (rel_ext _ _ _ KM R')|exact A3].
Qed.

Theorem C56_frame_on s hs i n c e s' : reachable (s, hs) -> seq_call hs n c -> run_on i c s = Some (e, s') ->
  (forall m h v, In (H KV m h) hs -> reads_v s m h v -> reads_v s' m h v) /\
  (forall m h A, In (H KM m h) hs -> reads_m s m h A -> reads_m s' m h A).
Proof.
  intros Hr Hc Hst. pose proof (reach_Inv _ _ Hr) as HI.
  destruct (reachable_ok tau _ Hr) as [_ Hh]. cbn [fst snd] in Hh.
  destruct (seq_den tau i s hs n c HI Hh Hc) as (_ & F & err & _ & _ & Hd).
  destruct (Hd s HI eq_refl) as (e1 & s1 & X1 & R' & _). rewrite X1 in Hst. injection Hst as <- <-.
  pose proof (rel_inv _ _ _ R') as I'. split.
  - intros m h v Hi Hv. destruct (reach_V _ _ _ _ Hr Hi) as (A1 & A2 & A3).
    eapply (reads_v_veq tau); [exact (Logic.proj1 Hv)|]. rewrite <- (vecof_rel tau s s1 m h HI R' A3).
    apply (reads_vecof tau); auto. eapply (wfe_ext tau); [apply (rel_ext _ _ _ KV R')|exact A3].
  - intros m h v Hi Hv. destruct (reach_M _ _ _ _ Hr Hi) as (A1 & A3).
    eapply (reads_m_meq tau); [exact (Logic.proj1 Hv)|]. rewrite <- (matof_rel tau s s1 m h HI R' A3).
    apply (reads_matof tau); auto. eapply (wfe_ext tau); [apply (rel_ext _ _ _ KM R')|exact A3].
Qed.

(* ---- C15 (calls), C52 : safety and termination under every schedule ---- *)
Theorem C15_calls_safe s hs k n c : reachable (s, hs) -> call hs k n c ->
  ~ steps (Cfg_ok c s) Wrong /\ (exists e s', run c s = Some (e, s')).
Proof.
  intros Hr Hc. pose proof (reach_Inv _ _ Hr) as HI. destruct (reachable_ok tau _ Hr) as [_ Hh]. cbn [fst snd] in Hh.
  destruct (call_wpr tau s hs k n c HI Hh Hc) as (_ & _ & Hw). split.
  - eapply (wpr_safe tau); eauto.
  - destruct (wpr_run tau _ _ _ HI Hw) as (e & s' & He & _). eauto.
Qed.
(* matrix operations at every tolerance: no failure on any thread *)
Theorem C15_seq_calls_safe s hs i n c : reachable (s, hs) -> seq_call hs n c ->
  exists e s', run_on i c s = Some (e, s').
Proof.
  intros Hr Hc. pose proof (reach_Inv _ _ Hr) as HI. destruct (reachable_ok tau _ Hr) as [_ Hh]. cbn [fst snd] in Hh.
  destruct (seq_den tau i s hs n c HI Hh Hc) as (_ & F & err & _ & _ & Hd).
  destruct (Hd s HI eq_refl) as (e1 & s1 & X1 & _). eauto.
Qed.
End Props1.
