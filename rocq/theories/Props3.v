(* Props3.v -- properties C03 (the Python entry points), C09 / C10 with a positive
   tolerance, C48 (no duplicates with exact comparison), C52. *)
From Coq Require Import Reals Lra Psatz ZArith Bool List Lia Arith String.
From Coquelicot Require Import Complex.
From Verif Require Import Num State DD Gates GC Measure Api RNum Wf Sums Err Inv Wp Make Add MulV Canon MM MM2
  GateP StateP Kron Spec SpecP Readout GCP MeasureP MeasAllP MeasOneP ApplyP ApiP Obs Props1 Props2 Alloc GateMat Circuit.
Import ListNotations.
Open Scope Z_scope.

Section Props3.
Context (tau : R) {HTol : Tol tau}.
Let Htau : (0 <= tau < 1 / 2)%R := tol_ok.
#[local] Hint Extern 0 NumOps => exact (RNum tau) : typeclass_instances.
Context {CF : Cfg}.
Notation state := (@state (RNum tau)).
Notation comp := (@comp (RNum tau)).
Notation gmat := (@gmat (RNum tau)).
Ltac toR := change (@num (RNum tau)) with R in *.

(* ---- C03 as called from Python: by matrix or by name, with a list of control
   qubits (any order) ---- *)
Definition pos (qs : list Z) : ctls := map (fun q => (q, true)) qs.
Lemma pos_ok n t qs : NoDup qs -> (forall q, In q qs -> qubit n q /\ q <> t) -> controls_ok n [t] (pos qs).
Proof.
  intros Hn Hq. split.
  - unfold pos. rewrite map_map. cbn. now rewrite map_id.
  - intros x Hx. apply in_map_iff in Hx. destruct Hx as (q & <- & Hin). cbn. destruct (Hq _ Hin) as [H1 H2].
    split; [exact H1|]. intros [E|[]]. congruence.
Qed.
Theorem C03_makeGate_python s hs n (g : gmat) t qs B : reachable (s, hs) -> size_ok n -> qubit n t ->
  NoDup qs -> (forall q, In q qs -> qubit n q /\ q <> t) ->
  (1 <= B)%R -> (forall i j, (i < 2)%nat -> (j < 2)%nat -> (Cmod (g i j) <= B)%R) ->
  returns tau (makeGate_py (Z.of_nat n) g t qs) s (fun e s' =>
    reads_m_upto tau (egate tau n B) s' n e (gate1 n g (Z.to_nat t) (pos qs)) /\
    (tau = 0%R -> reads_m tau s' n e (gate1 n g (Z.to_nat t) (pos qs)))).
Proof.
  intros Hr Hs Ht Hn Hq HB Hg. unfold makeGate_py, get_controls.
  apply (C03_makeGate tau s hs n g t (pos qs) B); auto. now apply pos_ok.
Qed.
(* a gate known by name is the controlled version of the unitary of that name *)
Theorem C03_makeGate_by_name s hs n nm t qs : reachable (s, hs) -> size_ok n -> qubit n t ->
  NoDup qs -> (forall q, In q qs -> qubit n q /\ q <> t) -> In nm gate_names ->
  unitary 1 (gateMap nm : gmat) /\
  returns tau (makeGate_name (Z.of_nat n) nm t qs) s (fun e s' =>
    reads_m_upto tau (egate tau n 1) s' n e (gate1 n (gateMap nm : gmat) (Z.to_nat t) (pos qs)) /\
    (tau = 0%R -> reads_m tau s' n e (gate1 n (gateMap nm : gmat) (Z.to_nat t) (pos qs)))).
Proof.
  intros Hr Hs Ht Hn Hq Hnm. pose proof (C23_named_unitary tau nm Hnm) as Hu. split; [exact Hu|].
  unfold makeGate_name. apply (C03_makeGate_python s hs); auto; [lra|].
  intros i j Hi Hj. apply (unitary_entry 1); auto.
Qed.

(* ---- C52 : every schedule ends, with a result ---- *)
(* an infinite schedule would be a function from step numbers to configurations *)
Theorem C52_terminates (c : comp) (s : state) (f : nat -> config) : f 0%nat = Cfg_ok c s -> ~ forall i, step (f i) (f (S i)).
Proof.
  intros H0 Hf. pose proof (schedules_finite (f 0%nat)) as Ha.
  assert (H : forall g, Acc nstep g -> forall i, g <> f i).
  { induction 1 as [g _ IH]. intros i ->. apply (IH (f (S i))) with (i := S i); [|reflexivity]. unfold nstep. apply Hf. }
  exact (H _ Ha 0%nat eq_refl).
Qed.
(* no reachable call can get stuck: a configuration without a next step has
   returned its result *)
Theorem C52_no_deadlock s hs k n c c' s' : reachable (s, hs) -> call hs k n c -> steps (Cfg_ok c s) (Cfg_ok c' s') ->
  (exists e, c' = CRet e) \/ (exists c'' s'', step (Cfg_ok c' s') (Cfg_ok c'' s'')).
Proof.
  intros Hr Hc Hs. destruct (step_progress c' s') as [H|[[c'' s''|] H]]; [now left|right; eauto|].
  exfalso. destruct (C15_calls_safe tau s hs k n c Hr Hc) as [Hw _]. apply Hw.
  clear - Hs H. revert H. remember (Cfg_ok c s) as g eqn:E. remember (Cfg_ok c' s') as g' eqn:E'.
  clear E. induction Hs as [g|g g1 g2 H1 H2 IH]; intros H.
  - eapply steps_cons; [exact H|constructor].
  - eapply steps_cons; [exact H1|]. now apply IH.
Qed.

(* ---- C48, exact comparison: at every moment of every fine-grained interleaving
   of lookups, two registered slots never hold the same node ---- *)
Theorem C48_no_duplicates_exact k w v v' key key' a b nd : tau = 0%R -> live k false w ->
  In a (chain (w_t w) v key) -> In b (chain (w_t w) v' key') -> heap (w_t w) a = Some nd -> heap (w_t w) b = Some nd -> a = b.
Proof.
  intros Ht Hl Ha Hb H1 H2.
  assert (Heq : forall x y : node, node_eqb x y = true <-> x = y).
  { intros x y. split; [now apply (node_eqb_ex tau)|intros ->; apply (node_eqb_refl tau)]. }
  eapply (C48_no_duplicates k w v v' key key' a b nd nd); eauto.
  - intros x y. destruct (node_eqb x y) eqn:E1, (node_eqb y x) eqn:E2; auto.
    + apply Heq in E1. symmetry in E1. apply Heq in E1. congruence.
    + apply Heq in E2. symmetry in E2. apply Heq in E2. congruence.
  - intros x y E. apply Heq in E. now rewrite E.
  - now apply Heq.
Qed.
End Props3.

(* ---- C09, C10 with a positive tolerance: two builds (hash functions, sequential
   or multi-threaded), two histories, two schedules: operands that read alike
   give results that read alike up to twice the bound ---- *)
Lemma close_two n e v w x : vclose n e v x -> vclose n e w x -> vclose n (2 * e) v w.
Proof.
  intros H1 H2 i Hi. specialize (H1 i Hi). specialize (H2 i Hi).
  replace (Cminus (v i) (w i)) with (Cplus (Cminus (v i) (x i)) (Copp (Cminus (w i) (x i)))) by ring.
  eapply Rle_trans; [apply Cmod_triangle|]. rewrite Cmod_opp. lra.
Qed.
Section Two.
Context (tau : R) {HTol : Tol tau}.
#[local] Hint Extern 0 NumOps => exact (RNum tau) : typeclass_instances.
Theorem C09_C10_mv_multiply (CF1 CF2 : Cfg) n A x a b s1 hs1 g1 v1 e1 s1' s2 hs2 g2 v2 e2 s2' :
  @reachable _ CF1 (s1, hs1) -> In (H KM n g1) hs1 -> In (H KV n v1) hs1 -> reads_m tau s1 n g1 A -> reads_v tau s1 n v1 x ->
  @reachable _ CF2 (s2, hs2) -> In (H KM n g2) hs2 -> In (H KV n v2) hs2 -> reads_m tau s2 n g2 A -> reads_v tau s2 n v2 x ->
  (forall i j, (i < 2 ^ n)%nat -> (j < 2 ^ n)%nat -> (Cmod (A i j) <= a)%R) -> (forall i, (i < 2 ^ n)%nat -> (Cmod (x i) <= b)%R) ->
  @steps _ CF1 (Cfg_ok (@mv_multiply _ CF1 g1 v1) s1) (Cfg_ok (CRet e1) s1') ->
  @steps _ CF2 (Cfg_ok (@mv_multiply _ CF2 g2 v2) s2) (Cfg_ok (CRet e2) s2') ->
  exists y1 y2, reads_v tau s1' n e1 y1 /\ reads_v tau s2' n e2 y2 /\ vclose n (2 * emv tau n a b) y1 y2.
Proof.
  intros R1 G1 V1 M1 X1 R2 G2 V2 M2 X2 HA HX S1 S2.
  destruct (@C05_mv_multiply tau _ CF1 s1 hs1 n g1 v1 A x a b R1 G1 V1 M1 X1 HA HX) as (_ & _ & P1).
  destruct (@C05_mv_multiply tau _ CF2 s2 hs2 n g2 v2 A x a b R2 G2 V2 M2 X2 HA HX) as (_ & _ & P2).
  destruct (P1 _ _ S1) as [(y1 & Y1 & Z1) _]. destruct (P2 _ _ S2) as [(y2 & Y2 & Z2) _].
  exists y1, y2. split; [exact Y1|]. split; [exact Y2|]. eapply close_two; eauto.
Qed.
Theorem C09_C10_vv_add (CF1 CF2 : Cfg) n lim1 lim2 x y B s1 hs1 a1 b1 e1 s1' s2 hs2 a2 b2 e2 s2' :
  @reachable _ CF1 (s1, hs1) -> In (H KV n a1) hs1 -> In (H KV n b1) hs1 -> reads_v tau s1 n a1 x -> reads_v tau s1 n b1 y ->
  @reachable _ CF2 (s2, hs2) -> In (H KV n a2) hs2 -> In (H KV n b2) hs2 -> reads_v tau s2 n a2 x -> reads_v tau s2 n b2 y ->
  (forall i j, (i < 2 ^ n)%nat -> (j < 2 ^ n)%nat -> (Cmod (x i) + Cmod (y j) <= B)%R) ->
  @steps _ CF1 (Cfg_ok (@vv_add _ CF1 lim1 a1 b1) s1) (Cfg_ok (CRet e1) s1') ->
  @steps _ CF2 (Cfg_ok (@vv_add _ CF2 lim2 a2 b2) s2) (Cfg_ok (CRet e2) s2') ->
  exists y1 y2, reads_v tau s1' n e1 y1 /\ reads_v tau s2' n e2 y2 /\ vclose n (2 * eadd tau n B) y1 y2.
Proof.
  intros R1 G1 V1 M1 X1 R2 G2 V2 M2 X2 HB S1 S2.
  destruct (@C06_vv_add tau _ CF1 s1 hs1 n lim1 a1 b1 x y B R1 G1 V1 M1 X1 HB) as (_ & _ & P1).
  destruct (@C06_vv_add tau _ CF2 s2 hs2 n lim2 a2 b2 x y B R2 G2 V2 M2 X2 HB) as (_ & _ & P2).
  destruct (P1 _ _ S1) as [(y1 & Y1 & Z1) _]. destruct (P2 _ _ S2) as [(y2 & Y2 & Z2) _].
  exists y1, y2. split; [exact Y1|]. split; [exact Y2|]. eapply close_two; eauto.
Qed.
End Two.
