(* Obs.v -- what a client can observe of a handle: the output of getVector /
   getMatrix, and, beyond the 30 qubits these support, the amplitude (entry)
   obtained by multiplying the weights along the path selected by the index. *)
From Coq Require Import Reals Lra Psatz ZArith Bool List Lia Arith FunctionalExtensionality.
From Coquelicot Require Import Complex.
From Verif Require Import Num State DD Gates GC Measure Api RNum Wf Sums Err Inv Wp Make Add MulV Canon
  GateP StateP Spec SpecP Readout MeasureP MeasAllP ApiP.
Import ListNotations.
Open Scope Z_scope.

Section Obs.
Context (tau : R) {HTol : Tol tau}.
Let Htau : (0 <= tau < 1 / 2)%R := tol_ok.
#[local] Hint Extern 0 NumOps => exact (RNum tau) : typeclass_instances.
Context {CF : Cfg}.
Notation state := (@state (RNum tau)).
Notation edge := (@edge (RNum tau)).
Notation handle := (@handle (RNum tau)).
Notation comp := (@comp (RNum tau)).
Notation Inv := (Inv tau).
Notation rel := (rel tau).
Notation dn := (dn tau).
Notation val := (val tau).
Notation wfe := (wfe tau).
Notation wfp := (wfp tau).

(* amplitude i / entry (i,j): the product of the weights along the path *)
Definition vecof (s : state) (n : nat) (e : edge) : vector := vecF (val KV (tb s KV) n e).
Definition matof (s : state) (n : nat) (e : edge) : matrix := matF (val KM (tb s KM) n e).

(* the handle reads exactly as v: every amplitude, and (up to 30 qubits) the
   list returned by getVector; the handle "terminal" only stands for zero *)
Definition reads_v (s : state) (n : nat) (e : edge) (v : vector) : Prop :=
  veq n (vecof s n e) v /\
  (is_term (en e) = true -> veq n v (fun _ => RtoC 0)) /\
  ((n <= 30)%nat -> is_term (en e) = false ->
     exists l, getVector s e = Some l /\ length l = (2 ^ n)%nat /\ veq n (vof l) v).
Definition reads_m (s : state) (n : nat) (e : edge) (A : matrix) : Prop :=
  meq n (matof s n e) A /\
  ((n <= 30)%nat ->
     exists l, getMatrix s e (Z.of_nat n) = Some l /\ length l = (2 ^ n)%nat /\
       (forall r, In r l -> length r = (2 ^ n)%nat) /\ meq n (mof l) A).
(* ... up to an entrywise error *)
Definition reads_v_upto (err : R) (s : state) (n : nat) (e : edge) (v : vector) : Prop :=
  exists w, reads_v s n e w /\ vclose n err w v.
Definition reads_m_upto (err : R) (s : state) (n : nat) (e : edge) (A : matrix) : Prop :=
  exists B, reads_m s n e B /\ mclose n err B A.

(* The call never goes wrong and cannot get stuck, its sequential execution
   returns, and under every schedule of its fibers what it returns satisfies P *)
Definition returns (c : comp) (s : state) (P : edge -> state -> Prop) : Prop :=
  (~ steps (Cfg_ok c s) Wrong) /\
  (exists e s', run c s = Some (e, s')) /\
  (forall e s', steps (Cfg_ok c s) (Cfg_ok (CRet e) s') -> P e s').

(* The call, executed on thread i without creating fibers, returns, and what it
   returns satisfies P *)
Definition returns_on (i : tid) (c : comp) (s : state) (P : edge -> state -> Prop) : Prop :=
  exists e s', run_on i c s = Some (e, s') /\ P e s'.

Lemma wpr_returns c s Q (P : edge -> state -> Prop) : Inv s -> wpr tau c Q s ->
  (forall e s', rel s s' -> Q e s' -> P e s') -> returns c s P.
Proof.
  intros HI Hw HP. split; [|split].
  - eapply (wpr_safe tau); eauto.
  - destruct (wpr_run tau c s Q HI Hw) as (e & s' & H1 & _). eauto.
  - intros e s' Hs. destruct (wpr_result tau c s Q e s' HI Hw Hs) as [H1 H2]. auto.
Qed.
Lemma returns_mono c s (P P' : edge -> state -> Prop) : (forall e s', P e s' -> P' e s') -> returns c s P -> returns c s P'.
Proof. intros H (A & B & D). split; auto. Qed.

Lemma reads_vecof s n e : Inv s -> (1 <= n)%nat -> wfe KV (tb s KV) n e -> reads_v s n e (vecof s n e).
Proof.
  intros HI Hn Hw. split; [apply veq_refl|]. split.
  - intros Ht i Hi. unfold vecof, vecF. destruct (wfe_cases_V tau _ _ _ Hw Hn) as [[_ H1]| ->].
    + rewrite Ht in H1. discriminate.
    + unfold val. cbn [ew]. change (ew (@zeroE (RNum tau))) with (RtoC 0). ring.
  - intros H30 Ht. pose proof (wfp_nt tau _ _ _ Hw Ht) as Hp.
    pose proof (getVector_spec tau s n e (inv_tb _ _ HI KV) Hp ltac:(lia)) as Hg.
    eexists. split; [exact Hg|]. split; [now rewrite map_length, seq_length|].
    intros i Hi. unfold vof, vecof, vecF.
    rewrite nth_indep with (d' := val KV (tb s KV) n e (bix 0)) by (rewrite map_length, seq_length; exact Hi).
    rewrite (map_nth (fun i => val KV (tb s KV) n e (bix i))), seq_nth by exact Hi. reflexivity.
Qed.
Lemma reads_matof s n e : Inv s -> wfe KM (tb s KM) n e -> reads_m s n e (matof s n e).
Proof.
  intros HI Hw. split; [apply meq_refl|]. intros H30.
  pose proof (getMatrix_spec tau s n e (inv_tb _ _ HI KM) Hw H30) as Hg.
  eexists. split; [exact Hg|]. split; [now rewrite map_length, seq_length|]. split.
  - intros r Hr. apply in_map_iff in Hr. destruct Hr as (i & <- & _). now rewrite map_length, seq_length.
  - intros i j Hi Hj. unfold mof, matof, matF.
    set (f := fun i => map (fun j => val KM (tb s KM) n e (mix i j)) (seq 0 (2 ^ n))).
    rewrite nth_indep with (d' := f 0%nat) (l := map f _) by (rewrite map_length, seq_length; exact Hi).
    rewrite (map_nth f), seq_nth by exact Hi. unfold f. cbn [Nat.add].
    rewrite nth_indep with (d' := val KM (tb s KM) n e (mix i 0)) by (rewrite map_length, seq_length; exact Hj).
    rewrite (map_nth (fun j => val KM (tb s KM) n e (mix i j))), seq_nth by exact Hj. reflexivity.
Qed.
Lemma reads_v_veq s n e v w : veq n v w -> reads_v s n e v -> reads_v s n e w.
Proof.
  intros H (A & B & D). split; [eapply veq_trans; eauto|]. split.
  - intros Ht. eapply veq_trans; [apply veq_sym; exact H|auto].
  - intros Hn Ht. destruct (D Hn Ht) as (l & L1 & L2 & L3). exists l. repeat split; auto. eapply veq_trans; eauto.
Qed.
Lemma reads_m_meq s n e v w : meq n v w -> reads_m s n e v -> reads_m s n e w.
Proof.
  intros H (A & D). split; [eapply meq_trans; eauto|].
  intros Hn. destruct (D Hn) as (l & L1 & L2 & L3 & L4). exists l. repeat split; auto. eapply meq_trans; eauto.
Qed.
Lemma reads_v_det s n e v w : reads_v s n e v -> reads_v s n e w -> veq n v w.
Proof. intros (A & _) (B & _). eapply veq_trans; [apply veq_sym; exact A|exact B]. Qed.
Lemma reads_m_det s n e v w : reads_m s n e v -> reads_m s n e w -> meq n v w.
Proof. intros (A & _) (B & _). eapply meq_trans; [apply meq_sym; exact A|exact B]. Qed.

Lemma dn_reads_v s n e F err v : Inv s -> (1 <= n)%nat -> dn KV n F err e s -> veq n (vecF F) v -> reads_v_upto err s n e v.
Proof.
  intros HI Hn [Hw Hd] Hv. exists (vecof s n e). split; [now apply reads_vecof|].
  intros i Hi. rewrite <- Hv by exact Hi. apply Hd.
Qed.
Lemma dn_reads_m s n e F err A : Inv s -> dn KM n F err e s -> meq n (matF F) A -> reads_m_upto err s n e A.
Proof.
  intros HI [Hw Hd] Hv. exists (matof s n e). split; [now apply reads_matof|].
  intros i j Hi Hj. rewrite <- Hv by assumption. apply Hd.
Qed.
Lemma Cmod_le0 (x y : C) : (Cmod (Cminus x y) <= 0)%R -> x = y.
Proof.
  intros H. pose proof (Cmod_ge_0 (Cminus x y)). assert (Hz : Cminus x y = RtoC 0) by (apply Cmod_eq_0; lra).
  replace x with (Cplus (Cminus x y) y) by ring. rewrite Hz. ring.
Qed.
Lemma upto_0_v err s n e v : err = 0%R -> reads_v_upto err s n e v -> reads_v s n e v.
Proof.
  intros -> (w & H1 & H2). eapply reads_v_veq; [|exact H1]. intros i Hi. apply Cmod_le0. auto.
Qed.
Lemma upto_0_m err s n e v : err = 0%R -> reads_m_upto err s n e v -> reads_m s n e v.
Proof.
  intros -> (w & H1 & H2). eapply reads_m_meq; [|exact H1]. intros i j Hi Hj. apply Cmod_le0. auto.
Qed.
Lemma reads_v_upto_0 s n e v : reads_v s n e v -> reads_v_upto 0 s n e v.
Proof. intros H. exists v. split; auto. intros i Hi. unfold Cminus. rewrite Cplus_opp_r, Cmod_0. lra. Qed.

(* frame: library calls other than collections leave existing handles as they are *)
Lemma vecof_rel s s' n e : Inv s -> rel s s' -> wfe KV (tb s KV) n e -> vecof s' n e = vecof s n e.
Proof.
  intros HI Hr Hw. apply functional_extensionality. intros i. unfold vecof, vecF.
  eapply (val_ext tau); [apply HI|apply (rel_ext _ _ _ KV Hr)|exact Hw].
Qed.
Lemma matof_rel s s' n e : Inv s -> rel s s' -> wfe KM (tb s KM) n e -> matof s' n e = matof s n e.
Proof.
  intros HI Hr Hw. apply functional_extensionality. intros i. apply functional_extensionality. intros j. unfold matof, matF.
  eapply (val_ext tau); [apply HI|apply (rel_ext _ _ _ KM Hr)|exact Hw].
Qed.

Lemma bsF_basis n B i : (B < 2 ^ n)%nat -> (i < 2 ^ n)%nat -> bsF n (bix B) (bix i) = basis B i.
Proof.
  intros HB Hi. unfold basis.
  assert (G : forall m, (m <= n)%nat -> bsF m (bix B) (bix i) =
     if forallb (fun l => Nat.eqb (bit i l) (bit B l)) (seq 0 m) then RtoC 1 else RtoC 0).
  { induction m as [|m IH]; intros Hm; [reflexivity|]. cbn [bsF]. rewrite IH by lia.
    rewrite seq_S, forallb_app. cbn [forallb Nat.add]. unfold bix. rewrite andb_true_r.
    destruct (Nat.eqb (bit i m) (bit B m)); [now rewrite andb_true_r|now rewrite andb_false_r]. }
  rewrite G by lia. destruct (Nat.eqb_spec i B) as [->|Hne].
  - replace (forallb _ _) with true; auto. symmetry. apply forallb_forall. intros. apply Nat.eqb_refl.
  - destruct (forallb _ _) eqn:Ef; auto. exfalso. apply Hne. apply (bits_inj_n n); auto.
    intros l Hl. rewrite forallb_forall in Ef. specialize (Ef l ltac:(apply in_seq; lia)).
    rewrite bit_eqb in Ef. now apply eqb_prop.
Qed.
Lemma bsF_ext n b b' ix : (forall l, (l < n)%nat -> b l = b' l) -> bsF n b ix = bsF n b' ix.
Proof.
  induction n as [|n IH]; intros H; cbn [bsF]; auto. rewrite H by lia. rewrite IH; auto.
Qed.

(* equality at the integer indices is equality of the denotations *)
Lemma val_big k t n : TInv tau k t -> forall e ix l, wfe k t n e -> (l < n)%nat -> (arity k <= ix l)%nat -> val k t n e ix = RtoC 0.
Proof.
  intros HT. induction n as [|m IH]; intros e ix l Hw Hl Hb; [lia|].
  destruct Hw as [Hw|[Hw _]]; [|unfold val; rewrite Hw; change (@c0 (RNum tau)) with (RtoC 0); ring].
  assert (Hnode : forall a nd, en e = Node a -> reg tau k t a nd -> nv nd = Z.of_nat m -> val k t (S m) e ix = RtoC 0).
  { intros a nd He Hr Hv. unfold val. rewrite He, (valp_S_node tau k t m a nd) by assumption.
    destruct (Nat.eq_dec l m) as [->|Hne].
    - rewrite nth_overflow by (rewrite (no_len _ _ _ _ (reg_ok tau _ _ _ _ HT Hr)); exact Hb).
      unfold val. change (ew (@zeroE (RNum tau))) with (RtoC 0). ring.
    - rewrite (IH _ ix l); [ring| |lia|exact Hb].
      pose proof (reg_child tau k t a nd (ix m) HT Hr) as Hc. rewrite Hv, Nat2Z.id in Hc. exact Hc. }
  assert (Hup : k = KM -> wfp k t m (en e) -> val k t (S m) e ix = RtoC 0).
  { intros -> Hp. rewrite (val_KM_up tau) by (left; exact Hp). destruct (Nat.eq_dec l m) as [->|Hne].
    - cbn [arity] in Hb. destruct (ix m) as [|[|[|[|]]]]; try lia. cbn [diag4]. ring.
    - rewrite (IH e ix l); [ring|left; exact Hp|lia|exact Hb]. }
  destruct k; cbn [Wf.wfp] in Hw.
  - destruct Hw as (a & nd & He & Hr & Hv). eauto.
  - destruct Hw as [He|(a & nd & He & Hr & Hv)]; [apply Hup; auto; left; exact He|].
    destruct (Z.eq_dec (nv nd) (Z.of_nat m)) as [Heq|Hne]; [eauto|].
    apply Hup; auto. right. exists a, nd. split; [exact He|]. split; [exact Hr|lia].
Qed.
Lemma veq_val s n e e' : Inv s -> wfe KV (tb s KV) n e -> wfe KV (tb s KV) n e' ->
  veq n (vecof s n e) (vecof s n e') -> forall ix, val KV (tb s KV) n e ix = val KV (tb s KV) n e' ix.
Proof.
  intros HI Hw Hw' Hv ix.
  destruct (forallb (fun l => Nat.ltb (ix l) 2) (seq 0 n)) eqn:Ef.
  - rewrite forallb_forall in Ef.
    destruct (ofbits n (fun l => Nat.modulo (ix l) 2)) as (B & HB & Hx); [intros; apply Nat.mod_upper_bound; lia|].
    specialize (Hv B HB). unfold vecof, vecF in Hv.
    assert (Hb : forall l, (l < n)%nat -> bix B l = ix l).
    { intros l Hl. rewrite Hx by exact Hl. specialize (Ef l ltac:(apply in_seq; lia)). apply Nat.ltb_lt in Ef.
      apply Nat.mod_small. exact Ef. }
    rewrite <- (val_loc tau KV _ n e _ _ Hb), <- (val_loc tau KV _ n e' _ _ Hb). exact Hv.
  - assert (Hex : exists l, (l < n)%nat /\ (arity KV <= ix l)%nat).
    { cbn [arity]. apply not_true_iff_false in Ef. rewrite forallb_forall in Ef.
      destruct (existsb (fun l => Nat.leb 2 (ix l)) (seq 0 n)) eqn:Ee.
      - apply existsb_exists in Ee as (l & Hl & H2). apply in_seq in Hl. apply Nat.leb_le in H2. exists l. lia.
      - exfalso. apply Ef. intros l Hl. apply Nat.ltb_lt. destruct (Nat.lt_ge_cases (ix l) 2); auto.
        exfalso. apply not_true_iff_false in Ee. apply Ee, existsb_exists. exists l. split; auto. now apply Nat.leb_le. }
    destruct Hex as (l & Hl & Hb). rewrite (val_big KV _ n (inv_tb _ _ HI KV) e ix l), (val_big KV _ n (inv_tb _ _ HI KV) e' ix l); auto.
Qed.
Lemma meq_val s n e e' : Inv s -> wfe KM (tb s KM) n e -> wfe KM (tb s KM) n e' ->
  meq n (matof s n e) (matof s n e') -> forall ix, val KM (tb s KM) n e ix = val KM (tb s KM) n e' ix.
Proof.
  intros HI Hw Hw' Hv ix.
  destruct (forallb (fun l => Nat.ltb (ix l) 4) (seq 0 n)) eqn:Ef.
  - rewrite forallb_forall in Ef.
    destruct (ofbits n (fun l => Nat.modulo (ix l / 2) 2)) as (A & HA & Hx); [intros; apply Nat.mod_upper_bound; lia|].
    destruct (ofbits n (fun l => Nat.modulo (ix l) 2)) as (B & HB & Hy); [intros; apply Nat.mod_upper_bound; lia|].
    specialize (Hv A B HA HB). unfold matof, matF in Hv.
    assert (Hb : forall l, (l < n)%nat -> mix A B l = ix l).
    { intros l Hl. unfold mix. specialize (Hx l Hl). specialize (Hy l Hl). unfold bix in Hx, Hy. rewrite Hx, Hy.
      specialize (Ef l ltac:(apply in_seq; lia)). apply Nat.ltb_lt in Ef.
      destruct (ix l) as [|[|[|[|]]]]; try lia; reflexivity. }
    rewrite <- (val_loc tau KM _ n e _ _ Hb), <- (val_loc tau KM _ n e' _ _ Hb). exact Hv.
  - assert (Hex : exists l, (l < n)%nat /\ (arity KM <= ix l)%nat).
    { cbn [arity]. apply not_true_iff_false in Ef. rewrite forallb_forall in Ef.
      destruct (existsb (fun l => Nat.leb 4 (ix l)) (seq 0 n)) eqn:Ee.
      - apply existsb_exists in Ee as (l & Hl & H2). apply in_seq in Hl. apply Nat.leb_le in H2. exists l. lia.
      - exfalso. apply Ef. intros l Hl. apply Nat.ltb_lt. destruct (Nat.lt_ge_cases (ix l) 4); auto.
        exfalso. apply not_true_iff_false in Ee. apply Ee, existsb_exists. exists l. split; auto. now apply Nat.leb_le. }
    destruct Hex as (l & Hl & Hb). rewrite (val_big KM _ n (inv_tb _ _ HI KM) e ix l), (val_big KM _ n (inv_tb _ _ HI KM) e' ix l); auto.
Qed.
End Obs.
