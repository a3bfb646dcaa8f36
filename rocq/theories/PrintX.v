(* PrintX.v -- C73: what printVector_sparse and genDot do not show, and concrete
   cases meeting the hypotheses of PrintP.v. *)
From Coq Require Import Reals Lra Psatz ZArith NArith Bool List Lia Arith.
From Coquelicot Require Import Complex.
From Verif Require Import Num State DD Gates GC Measure Api RNum Wf Spec SpecP Readout MeasAllP BackendP PauliP Obs Props1 Props2 Prog Circuit GateMat Props3 Examples Grover GroverL GroverP Print PrintP.
Import ListNotations.
Open Scope nat_scope.

Section At0.
#[local] Hint Extern 0 NumOps => exact (RNum 0) : typeclass_instances.
Context (mt : bool).
#[local] Instance CFp : @Cfg (RNum 0) := cfg_of mt 0.
Notation state := (@state (RNum 0)).

(* H on every qubit *)
Definition hops (q : nat) : list op := map (fun k => U1 gH (Z.of_nat k) []) (rev (seq 0 q)).
Lemma hops_ideal n q : ideal n (hops q) = lay n q gH (basis 0).
Proof.
  unfold hops. induction q as [|q IH]; [reflexivity|]. rewrite lay_S, <- IH, seq_S, rev_app_distr. cbn [rev app map ideal].
  cbn [op_mat Nat.add]. rewrite Nat2Z.id. reflexivity.
Qed.
Lemma hops_ok n o : size_ok n -> In o (hops n) -> op_ok n o.
Proof.
  intros Hn Ho. apply in_map_iff in Ho as (k & <- & Hk). apply in_rev, in_seq in Hk. split; [|apply ctl0]. unfold qubit. lia.
Qed.
Lemma hops_amp n i : i < 2 ^ n -> ideal n (hops n) i = RtoC (s2 ^ n).
Proof.
  intro Hi. rewrite hops_ideal. rewrite (lay_H0 n n 0 (basis 0)); [|lia| |exact Hi].
  - rewrite Nat.div_small by exact Hi. reflexivity.
  - intros j _. unfold basis. reflexivity.
Qed.
Lemma s2_half : (s2 * s2 = / 2)%R.
Proof. unfold s2. apply rt2_sq. Qed.
Lemma s2_small n : 20 <= n -> (s2 ^ n <= 1 / 1024)%R.
Proof.
  intro Hn. assert (Hp : (0 < s2)%R) by (apply rt2_pos). pose proof s2_half as Hs.
  assert (H20 : (s2 ^ 20 = 1 / 1024)%R).
  { replace (s2 ^ 20)%R with ((s2 * s2) ^ 10)%R by ring. rewrite Hs. field. }
  replace n with (20 + (n - 20)) by lia. rewrite pow_add, H20.
  assert (H1 : (s2 ^ (n - 20) <= 1)%R). { rewrite <- (pow1 (n - 20)). apply pow_incr. split; [lra|]. nra. }
  assert (H0 : (0 < s2 ^ (n - 20))%R) by (apply pow_lt; exact Hp). lra.
Qed.
(* printVector_sparse prints nothing at all for a normalised state all of whose
   amplitudes are at most the threshold; H on every one of 20 to 30 qubits is such a
   state for the code's threshold 0.001 *)
Theorem C73_sparse_empty n : 20 <= n <= 30 -> exists s hs e v, reachable (s, hs) /\ In (H KV n e) hs /\ reads_v 0 s n e v /\
  norm2v n v = 1%R /\ (forall i, i < 2 ^ n -> v i <> RtoC 0) /\ printVector_sparse (1 / 1000)%R s e = Some [].
Proof.
  intros Hn. assert (Hs : size_ok n) by (unfold size_ok, NQUBITS; lia).
  assert (Hok : forall o, In o (hops n) -> op_ok n o) by (intros o; apply hops_ok; exact Hs).
  destruct (direct_run n (hops n) Hs Hok) as (env & os & R1).
  destruct (exec_exists 0 _ _ _ eq_refl R1) as ([s hs] & X1).
  destruct (exec_refines 0 _ _ _ _ _ eq_refl X1 R1) as (_ & Hr & F1). cbn [fst snd] in *.
  destruct hs as [|h hs]; [inversion F1|].
  destruct (C29_circuit_exact 0 n (hops n) s h hs os eq_refl Hs Hok X1) as (Hk & Hnn & Hv).
  destruct h as [k m e]. cbn in Hk, Hnn, Hv. subst k m.
  assert (Hp : (0 < s2)%R) by (apply rt2_pos). assert (Hpn : (0 < s2 ^ n)%R) by (apply pow_lt; exact Hp).
  assert (Hnz : forall i, i < 2 ^ n -> ideal n (hops n) i <> RtoC 0).
  { intros i Hi. rewrite hops_amp by exact Hi. intro Hx. apply RtoC_inj in Hx. lra. }
  assert (H0 : 0 < 2 ^ n) by (apply Nat.neq_0_lt_0, Nat.pow_nonzero; lia).
  exists s, (H KV n e :: hs), e, (ideal n (hops n)). split; [exact Hr|]. split; [now left|]. split; [exact Hv|]. split.
  - apply ideal_norm. intros o Ho. split; [apply Hok; exact Ho|]. apply in_map_iff in Ho as (k & <- & _).
    pose proof (C23_constant_gates_unitary 0) as HU. cbn [op_unitary]. tauto.
  - split; [exact Hnz|].
    assert (Ht : is_term (en e) = false).
    { destruct (is_term (en e)) eqn:Ht; [|reflexivity]. exfalso. destruct Hv as (_ & Hv & _). apply (Hnz 0 H0). apply (Hv Ht 0 H0). }
    rewrite (C73_sparse 0 s (H KV n e :: hs) n e (ideal n (hops n)) (1 / 1000)%R Hr (or_introl eq_refl) Hv) by (lia || exact Ht).
    f_equal. rewrite (filter_ext_in _ (fun _ => false)).
    + induction (seq 0 (2 ^ n)); [reflexivity|assumption].
    + intros i Hi. apply in_seq in Hi. rewrite hops_amp by lia. unfold big. rewrite Cmod_R, Rabs_pos_eq by lra.
      destruct (Rlt_dec _ _) as [Hlt|_]; [|reflexivity]. pose proof (s2_small n ltac:(lia)). lra.
Qed.

(* genDot of a matrix that is a multiple of the identity fails its assertion, and of
   the zero vector returns the empty text *)
Theorem C73_dot_terminal (s : state) e : is_term (en e) = true -> genDot KM s e = None /\ genDot KV s e = Some ([], 0).
Proof. intro Ht. unfold genDot. rewrite Ht. auto. Qed.
Example ex_C73_identity (s : state) hs n : reachable (s, hs) -> reads_m 0 s n oneE ident /\ genDot KM s oneE = None.
Proof. intro Hr. split; [apply (C03_makeIdent 0 s hs n Hr)|reflexivity]. Qed.

(* a Bell pair and a Hadamard gate are drawn *)
Example ex_C73 : exists s hs eb eg Lb cb Lg cg, reachable (s, hs) /\ In (H KV 2 eb) hs /\ In (H KM 2 eg) hs /\
  genDot KV s eb = Some (Lb, cb) /\ veq 2 (picture_v 0 Lb 2) bell /\
  genDot KM s eg = Some (Lg, cg) /\ meq 2 (picture_m 0 Lg 2) (gate1 2 gH 0 []) /\
  exists l, printVector s eb = Some l /\ length l = 4 /\ nth 3 l (RtoC 0) = RtoC rt2.
Proof.
  destruct (bell_client mt) as (s & eb & eg & ez & hs & Hr & Hg & _ & Hb & Hgm & _).
  assert (Hrt : rt2 <> 0%R) by (pose proof rt2_pos; lra).
  assert (Tb : is_term (en eb) = false).
  { destruct (is_term (en eb)) eqn:Ht; [|reflexivity]. exfalso. destruct Hb as (_ & Hv & _). pose proof (Hv Ht 0 ltac:(cbn; lia)) as Hx.
    cbn in Hx. apply RtoC_inj in Hx. contradiction. }
  assert (Tg : is_term (en eg) = false).
  { destruct (is_term (en eg)) eqn:Ht; [|reflexivity]. exfalso. destruct Hgm as (Hv & _). pose proof (Hv 0 1 ltac:(cbn; lia) ltac:(cbn; lia)) as Hx.
    destruct (en eg) eqn:Hp; try discriminate.
    unfold matof, matF, val in Hx. rewrite Hp in Hx. cbn in Hx. apply (f_equal fst) in Hx. unfold cf_SQRT2_2 in Hx. cbn [fst] in Hx. assert (Hq : (0 < @SQRT2 (RNum 0))%R) by (unfold SQRT2; apply sqrt_lt_R0; cbn; lra). destruct (ew eg) as [a b]. cbn [fst snd Cmult RtoC] in Hx. rewrite <- Hx in Hq. revert Hq. cbn. lra. }
  destruct (C73_dot_vector 0 s (H KV 2 eb :: hs) 2 eb bell Hr (or_introl eq_refl) Hb Tb) as (Lb & cb & B1 & B2 & _).
  destruct (C73_dot_matrix 0 s (H KV 2 eb :: hs) 2 eg _ Hr (or_intror Hg) Hgm Tg) as (Lg & cg & G1 & G2 & _).
  exists s, (H KV 2 eb :: hs), eb, eg, Lb, cb, Lg, cg. split; [exact Hr|]. split; [now left|]. split; [now right|].
  split; [exact B1|]. split; [exact B2|]. split; [exact G1|]. split; [exact G2|].
  destruct (Logic.proj1 (C73_printVector 0 s (H KV 2 eb :: hs) 2 eb bell Hr (or_introl eq_refl) Hb ltac:(lia)) Tb) as (l & P1 & P2 & P3).
  exists l. split; [exact P1|]. split; [exact P2|]. apply (P3 3). cbn. lia.
Qed.
End At0.
