(* SafeX.v -- C66 for rounded arithmetic, and for binary64; a concrete client. *)
From Coq Require Import Reals Lra ZArith Bool List Lia.
From Verif Require Import Num State DD Gates GC Measure Api RNum Wf Wp SafeA SafeW SafeO SafeC SafeF.
Import ListNotations.
Open Scope Z_scope.

Section Any.
Context (rnd : R -> R) (tol : R) {RD : Rounding rnd tol} (dz sq co si : fnum rnd -> fnum rnd).
#[local] Hint Extern 0 NumOps => exact (FNum rnd tol dz sq co si) : typeclass_instances.
Context {CF : Cfg}.

Theorem C66_rounded_calls_safe s hs k n c : reachable (s, hs) -> call hs k n c ->
  ~ steps (Cfg_ok c s) Wrong /\
  (forall f : nat -> config, f 0%nat = Cfg_ok c s -> ~ forall i, step (f i) (f (S i))) /\
  (forall c' s', steps (Cfg_ok c s) (Cfg_ok c' s') ->
     (exists e, c' = CRet e) \/ (exists c'' s'', step (Cfg_ok c' s') (Cfg_ok c'' s''))) /\
  (forall i, exists e s', run_on i c s = Some (e, s')).
Proof. apply C66_calls_safe. apply FNum_tol. Qed.
Theorem C66_rounded_seq_calls_safe s hs i n c : reachable (s, hs) -> seq_call hs n c ->
  exists e s', run_on i c s = Some (e, s').
Proof. apply C66_seq_calls_safe. apply FNum_tol. Qed.
Theorem C66_rounded_collections_safe s ns es ms i force : length ns = length es ->
  (reachable (s, rehandle KV ns es ++ ms) -> gc i es force s <> None) /\
  (reachable (s, rehandle KM ns es ++ ms) -> gc_mat i es force s <> None).
Proof. apply C66_collections_safe. apply FNum_tol. Qed.
Theorem C66_rounded_measurement_safe s hs n e : reachable (s, hs) -> In (H KV n e) hs -> is_term (en e) = false ->
  ((n <= 30)%nat -> probabilities e s <> None) /\
  (forall col ths, (n <= length ths)%nat -> (forall x, In x ths -> unif x) -> measureAll e col ths s <> None) /\
  (forall q eps th, qubit n q -> measureOneCollapsing e q eps th s <> None) /\
  (forall q eps, qubit n q -> measureOne e q eps s <> None).
Proof. apply C66_measurement_safe. apply FNum_tol. Qed.
Theorem C66_rounded_readout_safe s hs n e : reachable (s, hs) ->
  (In (H KV n e) hs -> (n <= 30)%nat -> is_term (en e) = false -> getVector s e <> None) /\
  (In (H KM n e) hs -> (n <= 30)%nat -> getMatrix s e (Z.of_nat n) <> None) /\
  (In (H KV n e) hs -> get_nNodes s e <> None) /\
  (In (H KV n e) hs -> is_term (en e) = false -> forall s2 hs2 i, reachable (s2, hs2) ->
     exists cs, save_binary s e = Some cs /\ load_binary i cs s2 <> None).
Proof. apply C66_readout_safe. apply FNum_tol. Qed.
Theorem C66_rounded_mm_kronecker_safe s hs na nb a b : reachable (s, hs) -> In (H KM na a) hs -> In (H KM nb b) hs ->
  Z.of_nat (na + nb) <= NQUBITS -> ~ steps (Cfg_ok (mm_kronecker a b) s) Wrong.
Proof. apply C66_mm_kronecker_safe. apply FNum_tol. Qed.

(* a client: allocate two qubits, build H on qubit 0, CX(1,0) and SWAP, apply
   them (any rounding, any library functions for sqrt and cos) *)
Lemma do_call s hs k n c : reachable (s, hs) -> call hs k n c -> exists e s', reachable (s', H k n e :: hs).
Proof.
  intros Hr Hc. destruct (C66_rounded_calls_safe s hs k n c Hr Hc) as (_ & _ & _ & Hx).
  destruct (Hx 0%nat) as (e & s' & He). exists e, s'. eapply r_step; [exact Hr|]. apply a_call with (c := c); [exact Hc|].
  pose proof (run_on_steps 0%nat c s) as X. rewrite He in X. exact X.
Qed.
Lemma do_seq s hs n c : reachable (s, hs) -> seq_call hs n c -> exists e s', reachable (s', H KM n e :: hs).
Proof.
  intros Hr Hc. destruct (C66_rounded_seq_calls_safe s hs 3%nat n c Hr Hc) as (e & s' & He). exists e, s'.
  eapply r_step; [exact Hr|]. now apply a_run with (c := c) (i := 3%nat).
Qed.
(* |0...0> is not the zero edge *)
Lemma zero_nt i q p s e s' : 0 <= q -> run_on i (makeVEdge q (E c1 p) zeroE) s = Some (e, s') ->
  ew e = c1 /\ is_term (en e) = false.
Proof.
  intros Hq. unfold makeVEdge. cbn [ew en zeroE].
  assert (H1 : iszero (@c1 (FNum rnd tol dz sq co si)) = false) by apply one_nz.
  assert (Hm : nltb (norm2 (@c1 (FNum rnd tol dz sq co si))) (norm2 c0) = false).
  { apply zr_lt; [apply zr_add; apply zr_mul_l; apply zr_0|]. cbn [nleb FNum]. apply Rleb_true. rewrite (fn0 rnd tol).
    apply (norm2_pos rnd tol). }
  rewrite H1. cbn [andb]. rewrite Hm, mul_one. cbn [ew en]. rewrite H1.
  set (nd0 := Nd _ _). replace (isone c1) with true by (symmetry; apply eq_refl').
  cbn [run_on]. destruct (intern KV i nd0 s) as [[p' s1]|]; [|discriminate].
  destruct (readn KV p' s1) as [nd|] eqn:Hrd; [|discriminate]. destruct (Z.eqb_spec (nv nd) q) as [Hv|]; [|discriminate].
  cbn [run_on]. intros X. injection X as <- <-. split; [reflexivity|]. cbn [en].
  destruct p'; auto. cbn in Hrd. injection Hrd as <-. cbn in Hv. lia.
Qed.
Lemma zero_state : exists v s, reachable (s, [H KV 2 v]) /\ is_term (en v) = false.
Proof.
  assert (Hs : size_ok 2) by (unfold size_ok, NQUBITS; lia).
  destruct (C66_rounded_calls_safe _ _ _ _ _ r_init (k_zero [] 2 Hs)) as (_ & _ & _ & Hx).
  destruct (Hx 0%nat) as (v & s' & He). exists v, s'. split.
  - eapply r_step; [apply r_init|]. apply a_call with (c := makeZeroState 2); [now constructor|].
    pose proof (run_on_steps 0%nat (makeZeroState 2) state_init) as X. rewrite He in X. exact X.
  - unfold makeZeroState in He. rewrite run_on_bind in He. destruct (run_on 0%nat (makeVEdge 0 oneE zeroE) state_init) as [[e1 s1]|] eqn:H1; [|discriminate].
    destruct (zero_nt 0%nat 0 Term state_init e1 s1 ltac:(lia) H1) as [W1 _].
    change (zero_loop (2 - 1) 1 e1) with (bind (makeVEdge 1 e1 zeroE) (fun e' => zero_loop 0 (1 + 1) e')) in He. rewrite run_on_bind in He.
    destruct (run_on 0%nat (makeVEdge 1 e1 zeroE) s1) as [[e2 s2]|] eqn:H2; [|discriminate].
    destruct e1 as [w1 p1]. cbn [ew] in W1. subst w1.
    destruct (zero_nt 0%nat 1 p1 s1 e2 s2 ltac:(lia) H2) as [_ N2]. cbn in He. injection He as <- <-. exact N2.
Qed.
(* the hypotheses of the measurement theorem are met *)
Example measure_client : exists v s, reachable (s, [H KV 2 v]) /\ probabilities v s <> None /\
  measureAll v true [n0; n0] s <> None /\ measureOneCollapsing v 1 n1 n0 s <> None.
Proof.
  destruct zero_state as (v & s & Hr & Hnt). exists v, s. split; [exact Hr|].
  destruct (C66_rounded_measurement_safe s _ 2 v Hr (or_introl eq_refl) Hnt) as (H1 & H2 & H3 & _).
  assert (Hu : unif (@n0 (FNum rnd tol dz sq co si))).
  { split; cbn [nleb nltb FNum]; [apply Rleb_true; lra|apply Rltb_true]. rewrite (fn0 rnd tol), (fn1 rnd tol). lra. }
  split; [apply H1; lia|]. split; [apply H2; [cbn; lia|intros x [<-|[<-|[]]]; exact Hu]|]. apply H3. unfold qubit. lia.
Qed.
Example bell_client : exists s v0 h v1 cx v2 sw v3,
  reachable (s, [H KV 2 v3; H KM 2 sw; H KV 2 v2; H KM 2 cx; H KV 2 v1; H KM 2 h; H KV 2 v0]).
Proof.
  assert (Hs : size_ok 2) by (unfold size_ok, NQUBITS; lia).
  assert (Q0 : qubit 2 0) by (unfold qubit; lia). assert (Q1 : qubit 2 1) by (unfold qubit; lia).
  assert (Hl : controls_ok 2 [0] []) by (split; [constructor|intros x []]).
  destruct (do_call _ _ _ _ _ r_init (k_zero [] 2 Hs)) as (v0 & s1 & R1).
  destruct (do_call _ _ _ _ _ R1 (k_gate _ 2 Hmat 0 [] Hs Q0 Hl)) as (h & s2 & R2).
  assert (C3 : call [H KM 2 h; H KV 2 v0] KV 2 (mv_multiply h v0)) by (apply k_mul; cbn; auto).
  destruct (do_call _ _ _ _ _ R2 C3) as (v1 & s3 & R3).
  assert (N10 : 1 <> 0) by lia.
  destruct (do_call _ _ _ _ _ R3 (k_cx _ 2 1 0 Hs Q1 Q0 N10)) as (cx & s4 & R4).
  assert (C5 : call [H KM 2 cx; H KV 2 v1; H KM 2 h; H KV 2 v0] KV 2 (mv_multiply cx v1)) by (apply k_mul; cbn; auto).
  destruct (do_call _ _ _ _ _ R4 C5) as (v2 & s5 & R5).
  destruct (do_seq _ _ _ _ R5 (q_swap _ 2 1 0 Hs Q1 Q0 N10)) as (sw & s6 & R6).
  assert (C7 : call [H KM 2 sw; H KV 2 v2; H KM 2 cx; H KV 2 v1; H KM 2 h; H KV 2 v0] KV 2 (mv_multiply sw v2)) by (apply k_mul; cbn; auto).
  destruct (do_call _ _ _ _ _ R6 C7) as (v3 & s7 & R7).
  exists s7, v0, h, v1, cx, v2, sw, v3. exact R7.
Qed.
End Any.

(* doubles: every hypothesis above is met by IEEE-754 binary64 with the
   tolerance of the code, 2^-42 (include/dd.h:35) *)
Theorem C66_binary64 : Rounding rnd64 tol64 /\ tol64 = (/ 2 ^ 42)%R.
Proof. split; [exact binary64|]. unfold tol64. cbn. lra. Qed.
