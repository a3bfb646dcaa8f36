(* MPIMP.v -- C33, C34, C57: readout and measurement of a distributed state *)
From Coq Require Import Reals Lra Psatz ZArith Bool List Lia Arith FunctionalExtensionality.
From Coquelicot Require Import Complex.
From Verif Require Import Num State DD Gates GC Measure Api RNum Wf Sums Err Inv Wp Make Add MulV Canon MM MM2
  GateP StateP Kron Spec SpecP Readout MeasureP MeasAllP GCP MeasOneP ApplyP ApiP Obs Props1 Props2 Prog Circuit Async MPI MPIP RingP MPIM.
Import ListNotations.
Open Scope nat_scope.

(* ---- sums and lists in blocks ---- *)
Lemma rsum_add N M f : rsum (N + M) f = (rsum N f + rsum M (fun j => f (N + j)%nat))%R.
Proof. induction M as [|M IH]; [rewrite Nat.add_0_r; cbn; ring|]. rewrite Nat.add_succ_r. cbn [rsum]. rewrite IH. ring. Qed.
Lemma rsum_blocks M f : forall N, rsum (N * M) f = rsum N (fun c => rsum M (fun j => f (c * M + j)%nat)).
Proof. induction N as [|N IH]; [reflexivity|]. cbn [rsum]. rewrite <- IH. replace (S N * M) with (N * M + M) by lia. apply rsum_add. Qed.
Lemma concat_blocks {A} (f : nat -> A) M : forall N, concat (map (fun r => map (fun j => f (r * M + j)) (seq 0 M)) (seq 0 N)) = map f (seq 0 (N * M)).
Proof.
  assert (Hs : forall N, seq 0 (N + 1) = seq 0 N ++ [N]) by (intros; now rewrite seq_app).
  induction N as [|N IH]; [reflexivity|]. replace (S N) with (N + 1) by lia. rewrite Hs, map_app, concat_app, IH. cbn [map concat]. rewrite app_nil_r.
  replace ((N + 1) * M) with (N * M + M) by lia. rewrite seq_app, map_app. f_equal. cbn [Nat.add].
  clear. set (a := N * M). clearbody a.
  assert (H : forall k b, map (fun j => f (a + j)) (seq b k) = map f (seq (a + b) k)).
  { induction k as [|k IH]; intros b; [reflexivity|]. cbn [seq map]. f_equal. rewrite IH. do 2 f_equal. lia. }
  rewrite H. now rewrite Nat.add_0_r.
Qed.
Lemma norm_slices g m v : norm2v (g + m) v = rsum (2 ^ g) (fun r => norm2v m (slice m r v)).
Proof. unfold norm2v, slice. rewrite Nat.pow_add_r. apply rsum_blocks. Qed.
Lemma bit_low r m i k : k < m -> bit (r * 2 ^ m + i) k = bit i k.
Proof. intros Hk. unfold bit. now rewrite testbit_low. Qed.
Lemma probq_slices g m v k b : k < m -> probq (g + m) v k b = rsum (2 ^ g) (fun r => probq m (slice m r v) k b).
Proof.
  intros Hk. unfold probq, slice. rewrite Nat.pow_add_r, rsum_blocks. apply rsum_ext. intros r _. apply rsum_ext. intros i _. now rewrite bit_low.
Qed.
Lemma bit_high r m i k : i < 2 ^ m -> bit (r * 2 ^ m + i) (m + k) = bit r k.
Proof.
  intros Hi. unfold bit. replace (Nat.testbit (r * 2 ^ m + i) (m + k)) with (Nat.testbit r k); auto.
  rewrite (Nat.add_comm m k), <- Nat.div_pow2_bits. f_equal. rewrite Nat.add_comm, Nat.div_add by (apply Nat.pow_nonzero; lia). now rewrite Nat.div_small.
Qed.
Lemma probq_high g m v k b : probq (g + m) v (m + k) b = rsum (2 ^ g) (fun r => if Nat.eqb (bit r k) b then norm2v m (slice m r v) else 0%R).
Proof.
  unfold probq, norm2v, slice. rewrite Nat.pow_add_r, rsum_blocks. apply rsum_ext. intros r _.
  destruct (Nat.eqb (bit r k) b) eqn:Eb.
  - apply rsum_ext. intros i Hi. now rewrite bit_high, Eb.
  - rewrite (rsum_ext _ _ (fun _ => 0%R)); [|intros i Hi; now rewrite bit_high, Eb]. generalize (2 ^ m). induction n as [|n IH]; cbn; [auto|]. rewrite IH. ring.
Qed.

Lemma draws_veq n v v' ths b : veq n v v' -> b < 2 ^ n -> draws n v ths b -> draws n v' ths b.
Proof.
  intros Hv Hb Hd.
  assert (Hmarg : forall k c, c < 2 ^ n -> k <= n -> marg v k c = marg v' k c).
  { intros k c Hc Hk. unfold marg. apply rsum_ext. intros i Hl. rewrite Hv; auto.
    assert (Hq : c / 2 ^ k < 2 ^ (n - k)).
    { apply Nat.div_lt_upper_bound; [apply Nat.pow_nonzero; lia|]. rewrite <- Nat.pow_add_r. replace (k + (n - k))%nat with n by lia. exact Hc. }
    assert (E2 : 2 ^ n = 2 ^ (n - k) * 2 ^ k) by (rewrite <- Nat.pow_add_r; f_equal; lia).
    rewrite E2. nia. }
  assert (Hcl : forall c k, c < 2 ^ n -> Nat.clearbit c k < 2 ^ n).
  { intros c k Hc. apply lt_pow2_bits. intros l Hl. destruct (Nat.eq_dec l k) as [->|Hne]; [apply Nat.clearbit_eq|].
    rewrite Nat.clearbit_neq by lia. eapply pow2_bits_high; eauto. }
  intros k Hk. specialize (Hd k Hk). unfold cond0 in *. rewrite !Hmarg in Hd; auto; lia.
Qed.

Lemma rsum_ge_one N f i : (forall j, (0 <= f j)%R) -> i < N -> (f i <= rsum N f)%R.
Proof.
  intros H. induction N as [|N IH]; intros Hi; [lia|]. cbn [rsum]. pose proof (H N). destruct (Nat.eq_dec i N) as [->|].
  - assert (0 <= rsum N f)%R by (apply rsum_nonneg; auto). lra.
  - specialize (IH ltac:(lia)). lra.
Qed.

Section MPIMP.
Context (tau : R) {HTol : Tol tau}.
Let Htau : (0 <= tau < 1 / 2)%R := tol_ok.
#[local] Hint Extern 0 NumOps => exact (RNum tau) : typeclass_instances.
Context {CF : Cfg}.
Notation state := (@state (RNum tau)).
Notation edge := (@edge (RNum tau)).
Notation val := (val tau).
Notation wfe := (wfe tau).
Notation wfp := (wfp tau).
Notation Inv := (Inv tau).
Notation E := (@E (RNum tau)).
Notation reads_v := (reads_v tau).
Notation vecof := (vecof tau).
Notation holds := (holds tau).
Notation pext := (pext tau).
Notation world := (@world (RNum tau)).
Notation num := (@num (RNum tau)).
Notation cx := (@cx (RNum tau)).

Lemma nsum_map (F : nat -> R) N : forall r0, nsum (map F (seq r0 N) : list num) = rsum N (fun i => F (r0 + i)).
Proof.
  assert (H : forall N r0, (fold_right Rplus 0%R (map F (seq r0 (S N))) = fold_right Rplus 0%R (map F (seq r0 N)) + F (r0 + N)%nat)%R).
  { clear. induction N as [|N IH]; intros r0; [cbn; rewrite Nat.add_0_r; ring|]. cbn [seq map fold_right] in *.
    specialize (IH (S r0)). cbn [seq map fold_right] in IH. rewrite IH. replace (S r0 + N) with (r0 + S N) by lia. ring. }
  induction N as [|N IH]; intros r0; [reflexivity|]. unfold nsum in *. etransitivity; [apply H|]. cbn [rsum]. f_equal. apply IH.
Qed.
Lemma each_map {A} (f : nat -> edge -> state -> option (A * state)) (F : nat -> A) (P : nat -> state -> Prop) : forall (w : world) r0,
  (forall r e s, nth_error w r = Some (e, s) -> exists s', f (r0 + r) e s = Some (F (r0 + r), s') /\ P r s') ->
  exists ss, each f r0 w = Some (map F (seq r0 (length w)), ss) /\ length ss = length w /\ (forall r s', nth_error ss r = Some s' -> P r s').
Proof.
  intros w. revert P. induction w as [|[e s] w IH]; intros P r0 H.
  - exists []. split; [reflexivity|]. split; auto. intros [|r]; discriminate.
  - destruct (H 0 e s eq_refl) as (s' & E1 & P1). rewrite Nat.add_0_r in E1.
    destruct (IH (fun r => P (S r)) (S r0)) as (ss & E2 & L2 & P2).
    { intros r e' s2 Hr. destruct (H (S r) e' s2 Hr) as (s3 & Ex & Px). exists s3. replace (S r0 + r) with (r0 + S r) by lia. auto. }
    exists (s' :: ss). cbn [each]. rewrite E1, E2. split; [reflexivity|]. split; [cbn; lia|]. intros [|r] x Hx; cbn in Hx; [now injection Hx as <-|eauto].
Qed.

(* the world of W ranks holds v *)
Definition world_holds (n g : nat) (w : world) (v : vector) : Prop :=
  length w = 2 ^ g /\ forall r e s, nth_error w r = Some (e, s) -> holds (n - g) s e (slice (n - g) r v).
(* the new tables of the ranks, after a readout *)
Definition still_holds (n g : nat) (w : world) (ss : list state) (v : vector) : Prop :=
  length ss = 2 ^ g /\ forall r e s s', nth_error w r = Some (e, s) -> nth_error ss r = Some s' -> holds (n - g) s' e (slice (n - g) r v).

Lemma holds_pext m s s' e v : pext s s' -> Inv s' -> 1 <= m -> holds m s e v -> holds m s' e v.
Proof.
  intros Hp HI Hm (_ & Hw & Hv). split; auto. split; [now rewrite (pe_tb _ _ _ Hp)|].
  eapply (reads_v_veq tau); [exact (Logic.proj1 Hv)|]. rewrite <- (pext_vecof tau s s' m e Hp). apply (reads_vecof tau); auto. now rewrite (pe_tb _ _ _ Hp).
Qed.
Lemma norm_psum m s e v : veq m (vecof s m e) v -> norm2v m v = (Cmod (ew e) ^ 2 * psum tau (tb s KV) m (en e))%R.
Proof.
  intros Hv. unfold norm2v, psum. rewrite rbsum_rsum, <- rsum_scal. apply rsum_ext. intros i Hl.
  rewrite <- (Hv i Hl). unfold Obs.vecof, vecF, Wf.val. rewrite Cmod_mult. ring.
Qed.
Lemma assign_norm m s e v : holds m s e v -> m <= 101 ->
  exists s', assignProbabilities e s = Some (norm2v m v, s') /\ pext s s' /\ Inv s' /\ probs s' (en e) <> None.
Proof.
  intros (HI & Hw & Hv) Hm. destruct (assignP_spec tau PFUEL m e s HI Hw) as (s' & E1 & E2 & E3 & E4); [unfold PFUEL; lia|].
  exists s'. split; auto. rewrite (norm_psum m s e v); auto. apply Hv.
Qed.
Lemma size_101 n g : size_ok n -> n - g <= 101. Proof. intros [_ H]. unfold NQUBITS in H. lia. Qed.

(* ---- C33 ---- *)
Definition full (w : world) : Prop := forall r e s, nth_error w r = Some (e, s) -> is_term (en e) = false.
Lemma full_wfp m s e v : holds m s e v -> 1 <= m -> is_term (en e) = false -> wfp KV (tb s KV) m (en e).
Proof. intros (_ & [Hw|[_ Hw]] & _) Hm Ht; auto. rewrite Hw in Ht. discriminate. Qed.

(* probabilitiesMPI gives the Born probabilities and getVectorMPI the amplitudes,
   when no rank holds vEdge::zero.  Missing: a rank with a zero slice, for which
   both are false (C33_refuted). *)
Theorem C33_probabilitiesMPI_partial n g (w : world) v : size_ok n -> g < n -> n - g <= 30 -> world_holds n g w v -> full w -> norm2v n v <> 0%R ->
  exists ss, probabilitiesMPI w = Some (map (fun i => (Cmod (v i) ^ 2 / norm2v n v)%R) (seq 0 (2 ^ n)), ss) /\ still_holds n g w ss v.
Proof.
  intros Hn Hg H30 [Hl Hw] Hf Hnz. set (m := n - g) in *. assert (Em : g + m = n) by (unfold m; lia).
  set (F := fun r => match nth_error w r with
    | Some (e, s) => (norm2v m (slice m r v), map (fun j => (Cmod (valp tau KV (tb s KV) m (en e) (bix j)) ^ 2 / psum tau (tb s KV) m (en e))%R) (seq 0 (2 ^ m)))
    | None => (0%R, []) end : num * list num).
  destruct (each_map probs_rank F (fun r s' => forall e s, nth_error w r = Some (e, s) -> holds m s' e (slice m r v)) w 0) as (ss & E1 & L1 & P1).
  { intros r e s Hr. cbn [Nat.add]. specialize (Hw r e s Hr). specialize (Hf r e s Hr).
    destruct (assign_norm m s e _ Hw (size_101 n g Hn)) as (s1 & A1 & A2 & A3 & A4).
    pose proof (holds_pext m s s1 e _ A2 A3 ltac:(unfold m; lia) Hw) as Hw1. pose proof (full_wfp m s1 e _ Hw1 ltac:(unfold m; lia) Hf) as Hp.
    destruct (probabilities_spec tau s1 m e A3 ltac:(unfold m in *; lia) Hp) as (s2 & B1 & B2 & B3).
    exists s2. unfold probs_rank, F. rewrite A1, B1, Hr, (pe_tb _ _ _ A2). split; [reflexivity|].
    intros e' s' Hr'. injection Hr' as <- <-. apply (holds_pext m s1); auto. unfold m; lia. }
  exists ss. unfold probabilitiesMPI. rewrite E1. split.
  - f_equal. f_equal. rewrite Hl.
    assert (Hall : nsum (map fst (map F (seq 0 (2 ^ g)))) = norm2v n v).
    { rewrite map_map. rewrite (nsum_map (fun r => fst (F r))), <- Em, norm_slices. apply rsum_ext. intros r Hr. cbn [Nat.add]. unfold F.
      destruct (nth_error w r) as [[e s]|] eqn:Er; [reflexivity|]. apply nth_error_None in Er. lia. }
    rewrite Hall. rewrite map_map. replace (2 ^ n) with (2 ^ g * 2 ^ m) by (rewrite <- Em; symmetry; apply Nat.pow_add_r).
    rewrite <- (concat_blocks (fun i => (Cmod (v i) ^ 2 / norm2v n v)%R)). f_equal. apply map_ext_in. intros r Hr. apply in_seq in Hr. cbn [Nat.add] in Hr.
    unfold F. destruct (nth_error w r) as [[e s]|] eqn:Er; [|apply nth_error_None in Er; lia]. cbn [fst snd]. rewrite map_map. apply map_ext_in. intros j Hj. apply in_seq in Hj.
    destruct (Hw r e s Er) as (HI & Hwe & Hv & Hv'). pose proof (full_wfp m s e _ (Hw r e s Er) ltac:(unfold m; lia) (Hf r e s Er)) as Hp.
    pose proof (psum_pos tau _ (inv_tb _ _ HI KV) m _ Hp) as Hps. change (slice m r v j) with (v (r * 2 ^ m + j)) in *.
    assert (Ej : Cmod (v (r * 2 ^ m + j)) = (Cmod (ew e) * Cmod (valp tau KV (tb s KV) m (en e) (bix j)))%R).
    { change (v (r * 2 ^ m + j)) with (slice m r v j). rewrite <- (Hv j) by lia. unfold Obs.vecof, vecF, Wf.val. now rewrite Cmod_mult. }
    rewrite Ej, (norm_psum m s e _ Hv). change (@nmul (RNum tau)) with Rmult. change (@ndiv (RNum tau)) with Rdiv. field. split; auto. lra.
  - split; [lia|]. intros r e s s' Hr Hs. eapply P1; eauto.
Qed.
Theorem C33_getVectorMPI_partial n g (w : world) v : size_ok n -> g < n -> n - g <= 30 -> world_holds n g w v -> full w ->
  getVectorMPI w = Some (map v (seq 0 (2 ^ n))).
Proof.
  intros Hn Hg H30 [Hl Hw] Hf. set (m := n - g) in *. assert (Em : g + m = n) by (unfold m; lia).
  destruct (each_map (A := list cx) (fun _ e s => match getVector s e with None => None | Some l => Some (l, s) end) (fun r => map (slice m r v) (seq 0 (2 ^ m)) : list cx) (fun _ _ => True) w 0) as (ss & E1 & _ & _).
  { intros r e s Hr. exists s. split; auto. destruct (Hw r e s Hr) as (_ & _ & _ & _ & Hv). destruct (Hv H30 (Hf r e s Hr)) as (l & El & Ll & Hvl).
    rewrite El. do 2 f_equal. cbn [Nat.add]. apply nth_ext with (d := RtoC 0) (d' := slice m r v 0); [rewrite map_length, seq_length; exact Ll|].
    intros i Hi. rewrite Ll in Hi. rewrite map_nth, seq_nth by exact Hi. cbn [Nat.add]. rewrite <- Hvl by exact Hi. reflexivity. }
  unfold getVectorMPI. rewrite E1, Hl. f_equal. replace (2 ^ n) with (2 ^ g * 2 ^ m) by (rewrite <- Em; symmetry; apply Nat.pow_add_r). apply (concat_blocks v).
Qed.
(* what makeZeroStateMPI leaves on the ranks *)
Definition zero_world (n g : nat) (w : world) : Prop := world_holds n g w (basis 0) /\
  forall r e s, nth_error w r = Some (e, s) -> 0 < r -> e = zeroE.
(* FINDING: already for the initial state on two or more ranks getVectorMPI fails
   an assertion, and probabilitiesMPI returns too short a list. *)
Theorem C33_refuted n g (w : world) : size_ok n -> 1 <= g < n -> n - g <= 30 -> zero_world n g w ->
  getVectorMPI w = None /\ exists l ss, probabilitiesMPI w = Some (l, ss) /\ length l < 2 ^ n.
Proof.
  intros Hn Hg H30 [[Hl Hw] Hz]. set (m := n - g) in *. assert (Em : g + m = n) by (unfold m; lia).
  assert (P2 : 2 <= 2 ^ g) by (replace 2 with (2 ^ 1) at 1 by reflexivity; apply Nat.pow_le_mono_r; lia).
  assert (Q2 : 2 <= 2 ^ m) by (replace 2 with (2 ^ 1) at 1 by reflexivity; apply Nat.pow_le_mono_r; unfold m; lia).
  assert (Ht0 : forall e s, nth_error w 0 = Some (e, s) -> is_term (en e) = false).
  { intros e s He. destruct (Hw 0 e s He) as (_ & _ & _ & Hv & _). destruct (is_term (en e)); auto. exfalso.
    specialize (Hv eq_refl 0 ltac:(lia)). revert Hv. apply (one_ne0). }
  split.
  - destruct w as [|[e0 s0] [|[e1 s1] w]]; cbn in Hl; try lia. pose proof (Hz 1 e1 s1 eq_refl ltac:(lia)) as E1. subst e1.
    unfold getVectorMPI. cbn [each]. destruct (getVector s0 e0); reflexivity.
  - set (F := fun r => match nth_error w r with
      | Some (e, s) => (norm2v m (slice m r (basis 0)), match r with O => map (fun j => (Cmod (valp tau KV (tb s KV) m (en e) (bix j)) ^ 2 / psum tau (tb s KV) m (en e))%R) (seq 0 (2 ^ m)) | S _ => [1%R] end)
      | None => (0%R, []) end : num * list num).
    destruct (each_map probs_rank F (fun _ _ => True) w 0) as (ss & E1 & L1 & _).
    { intros r e s Hr. cbn [Nat.add]. specialize (Hw r e s Hr).
      destruct (assign_norm m s e _ Hw (size_101 n g Hn)) as (s1 & A1 & A2 & A3 & A4).
      pose proof (holds_pext m s s1 e _ A2 A3 ltac:(unfold m; lia) Hw) as Hw1. destruct r as [|r].
      - pose proof (full_wfp m s1 e _ Hw1 ltac:(unfold m; lia) (Ht0 e s Hr)) as Hp.
        destruct (probabilities_spec tau s1 m e A3 ltac:(unfold m in *; lia) Hp) as (s2 & B1 & B2 & B3).
        exists s2. unfold probs_rank, F. rewrite A1, B1, Hr, (pe_tb _ _ _ A2). auto.
      - pose proof (Hz _ _ _ Hr ltac:(lia)) as Ee. subst e.
        destruct (assign_norm m s1 zeroE _ Hw1 (size_101 n g Hn)) as (s2 & B1 & B2 & B3 & B4).
        exists s2. unfold probs_rank, F. rewrite A1, Hr. unfold probabilities. rewrite B1. auto. }
    eexists _, ss. unfold probabilitiesMPI. rewrite E1. split; [reflexivity|]. rewrite Hl, map_map.
    assert (Hlen : forall N, N <= 2 ^ g -> length (concat (map (fun x => map (fun x0 => ndiv (nmul x0 (fst (F x))) (nsum (map fst (map F (seq 0 (2 ^ g)))))) (snd (F x))) (seq 0 N))) = match N with O => 0 | S k => 2 ^ m + k end).
    { induction N as [|N IH]; intros HN; [reflexivity|]. rewrite seq_S, map_app, concat_app, app_length, IH by lia. cbn [Nat.add map concat]. rewrite app_nil_r, map_length.
      unfold F at 1. destruct (nth_error w N) as [[e s]|] eqn:Er; [|apply nth_error_None in Er; lia]. destruct N as [|N]; cbn [snd length]; [rewrite map_length, seq_length; lia|lia]. }
    rewrite Hlen by lia. destruct (2 ^ g) as [|k] eqn:Ek; [lia|]. rewrite <- Em, Nat.pow_add_r, Ek. nia.
Qed.

(* ---- C34 ---- *)
Lemma id_bit_odd (k r : nat) : k <= 30 -> id_bit (Z.of_nat k) r = Some (Nat.odd r).
Proof.
  intros Hk. unfold id_bit, shift_ok. replace ((0 <=? Z.of_nat k) && (Z.of_nat k <? 31))%Z with true by (symmetry; apply andb_true_iff; split; [apply Z.leb_le|apply Z.ltb_lt]; lia).
  f_equal. rewrite <- Z.shiftl_land. change (Z.land (Z.of_nat r) 1) with (Z.land (Z.of_nat r) (Z.ones 1)). rewrite Z.land_ones by lia.
  rewrite Z.shiftl_mul_pow2 by lia. change (2 ^ 1)%Z with 2%Z. rewrite Zmod_odd.
  replace (Z.odd (Z.of_nat r)) with (Nat.odd r).
  - destruct (Nat.odd r); cbn [negb]; [|reflexivity]. rewrite Z.mul_1_l. pose proof (Z.pow_pos_nonneg 2 (Z.of_nat k)). destruct (Z.eqb_spec (2 ^ Z.of_nat k) 0); auto. lia.
  - destruct (Nat.odd r) eqn:Er; symmetry.
    + apply Nat.odd_spec in Er. destruct Er as [x ->]. apply Z.odd_spec. exists (Z.of_nat x). lia.
    + assert (Ee : Nat.even r = true) by (rewrite <- Nat.negb_odd, Er; reflexivity). apply Nat.even_spec in Ee. destruct Ee as [x ->].
      rewrite <- Z.negb_even. replace (Z.even (Z.of_nat (2 * x))) with true; auto. symmetry. apply Z.even_spec. exists (Z.of_nat x). lia.
Qed.
Lemma bit0_odd r : (if Nat.odd r then 1 else 0) = bit r 0.
Proof. unfold bit. rewrite Nat.bit0_odd. destruct (Nat.odd r); reflexivity. Qed.
(* the weights summed over the ranks: for a local qubit its own; for every global
   qubit, those of the lowest global qubit n-g *)
Theorem C34_weights n g (w : world) v k : size_ok n -> g < n -> k < n -> (n - g <= k -> k <= 30) -> world_holds n g w v -> norm2v n v <> 0%R ->
  let q := if k <? n - g then k else n - g in
  exists ss, one_all n g (Z.of_nat k) w = Some (probq n v q 0, probq n v q 1, ss) /\ still_holds n g w ss v.
Proof.
  intros Hn Hg Hk H30 [Hl Hw] Hnz q. set (m := n - g) in *. assert (Em : g + m = n) by (unfold m; lia).
  set (F := fun r => (if k <? m then (probq m (slice m r v) k 0, probq m (slice m r v) k 1)
     else if Nat.odd r then (0%R, norm2v m (slice m r v)) else (norm2v m (slice m r v), 0%R)) : num * num).
  destruct (each_map (one_rank (Z.of_nat m) (Z.of_nat k)) F (fun r s' => forall e s, nth_error w r = Some (e, s) -> holds m s' e (slice m r v)) w 0) as (ss & E1 & L1 & P1).
  { intros r e s Hr. cbn [Nat.add]. specialize (Hw r e s Hr).
    destruct (assign_norm m s e _ Hw (size_101 n g Hn)) as (s1 & A1 & A2 & A3 & A4).
    pose proof (holds_pext m s s1 e _ A2 A3 ltac:(unfold m; lia) Hw) as Hw1. unfold one_rank, F. rewrite A1.
    destruct (Nat.ltb_spec k m) as [Hkm|Hkm].
    - replace (Z.of_nat m <=? Z.of_nat k)%Z with false by (symmetry; apply Z.leb_gt; lia).
      change (@nltb (RNum tau)) with Rltb. change (@n0 (RNum tau)) with 0%R. destruct (Rltb_spec 0 (norm2v m (slice m r v))) as [Hp|Hp].
      + assert (Hwf : wfp KV (tb s1 KV) m (en e)).
        { destruct Hw1 as (_ & Hwe & Hv & _). apply (wfe_nz tau _ _ _ _ Hwe). intros Hz. rewrite (norm_psum m s1 e _ Hv), Hz in Hp.
          change (@c0 (RNum tau)) with (RtoC 0) in Hp. rewrite Cmod_0 in Hp. lra. }
        destruct (detProbs_spec tau s1 m e k A3 Hkm ltac:(destruct Hn; unfold m; lia) Hwf) as (s2 & B1 & B2 & B3 & _). rewrite B1.
        exists s2. split.
        * do 3 f_equal; rewrite hb_probq; unfold probq; apply rsum_ext; intros i Hi; destruct Hw1 as (_ & _ & Hv & _); now rewrite <- (Hv i Hi).
        * intros e' s' Hr'. rewrite Hr in Hr'. injection Hr' as <- <-. apply (holds_pext m s1); auto. unfold m; lia.
      + exists s1. split; [|intros e' s' Hr'; rewrite Hr in Hr'; injection Hr' as <- <-; exact Hw1].
        assert (Hz : forall b, (b < 2) -> probq m (slice m r v) k b = 0%R).
        { intros b Hb. pose proof (probq_total m (slice m r v) k). pose proof (probq_nonneg m (slice m r v) k 0). pose proof (probq_nonneg m (slice m r v) k 1).
          destruct b as [|[|]]; [lra|lra|lia]. }
        now rewrite !Hz by lia.
    - replace (Z.of_nat m <=? Z.of_nat k)%Z with true by (symmetry; apply Z.leb_le; lia). rewrite id_bit_odd by lia.
      exists s1. split; [destruct (Nat.odd r); reflexivity|intros e' s' Hr'; rewrite Hr in Hr'; injection Hr' as <- <-; exact Hw1]. }
  exists ss. unfold one_all. change (n - g) with m. rewrite E1, Hl, !map_map, (nsum_map (fun r => fst (F r))), (nsum_map (fun r => snd (F r))).
  assert (H0 : forall b, (b < 2) -> rsum (2 ^ g) (fun r => if Nat.eqb b 0 then fst (F r) else snd (F r)) = probq n v q b).
  { intros b Hb. rewrite <- Em. unfold q, F. destruct (Nat.ltb_spec k m) as [Hkm|Hkm].
    - rewrite probq_slices by auto. apply rsum_ext. intros r _. destruct b as [|[|]]; cbn; auto; lia.
    - etransitivity; [|replace (probq (g + m) v m b) with (probq (g + m) v (m + 0) b) by (now rewrite Nat.add_0_r); symmetry; apply probq_high]. apply rsum_ext. intros r _. rewrite <- bit0_odd.
      destruct (Nat.odd r); destruct b as [|[|]]; cbn; auto; lia. }
  pose proof (H0 0 ltac:(lia)) as Ha. pose proof (H0 1 ltac:(lia)) as Hb. cbn [Nat.eqb] in Ha, Hb. cbn [Nat.add].
  change (rsum (2 ^ g) (fun i => fst (F i))) with (rsum (2 ^ g) (fun r => fst (F r))). rewrite Ha, Hb.
  change (@neqb (RNum tau)) with Reqb. change (@n0 (RNum tau)) with 0%R.
  assert (Hst : still_holds n g w ss v) by (split; [rewrite L1; exact Hl|intros r e s s' Hr Hs; exact (P1 r s' Hs e s Hr)]).
  pose proof (probq_total n v q) as Ht. destruct (Reqb_spec (probq n v q 0) 0); destruct (Reqb_spec (probq n v q 1) 0); cbn [andb]; auto.
  exfalso. lra.
Qed.
(* C34: measureOneMPI gives the probability of reading 0, for local qubits and the
   lowest global one.  Missing: the other global qubits (C34_refuted). *)
Theorem C34_measureOneMPI_partial n g (w : world) v k : size_ok n -> g < n -> k <= n - g -> k < n -> (k = n - g -> k <= 30) ->
  world_holds n g w v -> norm2v n v <> 0%R ->
  exists ss, measureOneMPI n g (Z.of_nat k) w = Some ((probq n v k 0 / norm2v n v)%R, ss) /\ still_holds n g w ss v.
Proof.
  intros Hn Hg Hk Hkn H30 Hw Hnz. destruct (C34_weights n g w v k Hn Hg Hkn ltac:(lia) Hw Hnz) as (ss & E1 & Hs).
  exists ss. split; auto. unfold measureOneMPI. rewrite E1. replace (if k <? n - g then k else n - g) with k by (destruct (Nat.ltb_spec k (n - g)); lia).
  rewrite <- (probq_total n v k). reflexivity.
Qed.
(* FINDING: the test (rank << index) & (1 << index) looks at the parity of the
   rank, whatever the index.  With four ranks, in state |010> qubit 2 reads 0 with
   probability 1; measureOneMPI answers 0. *)
Theorem C34_refuted (w : world) : world_holds 3 2 w (basis 2) ->
  (probq 3 (basis 2) 2 0 / norm2v 3 (basis 2) = 1)%R /\ exists ss, measureOneMPI 3 2 2%Z w = Some (0%R, ss).
Proof.
  assert (Hp : forall k b, probq 3 (basis 2) k b = if Nat.eqb (bit 2 k) b then 1%R else 0%R).
  { intros k b. unfold probq, basis. cbn [Nat.pow Nat.mul Nat.add rsum Nat.eqb]. rewrite !Cmod_0, Cmod_1. repeat destruct (Nat.eqb _ _); ring. }
  assert (Hnn : norm2v 3 (basis 2) = 1%R).
  { unfold norm2v, basis. cbn [Nat.pow Nat.mul Nat.add rsum Nat.eqb]. rewrite !Cmod_0, Cmod_1. ring. }
  intros Hw. split; [rewrite Hp, Hnn; cbn; field|].
  destruct (C34_weights 3 2 w (basis 2) 2) as (ss & E1 & _); auto; try lia; [unfold size_ok, NQUBITS; lia|rewrite Hnn; lra|].
  exists ss. unfold measureOneMPI. change 2%Z with (Z.of_nat 2). rewrite E1. rewrite !Hp. cbn. change (@ndiv (RNum tau)) with Rdiv. do 2 f_equal. unfold Rdiv. ring.
Qed.

(* the collapse *)
Definition projm (b : nat) : nat -> nat -> C := if Nat.eqb b 1 then @proj1 (RNum tau) else @proj0 (RNum tau).
Lemma projm_action n k b v : k < n -> b < 2 -> veq n (mv n (gate1 n (projm b) k []) v) (project k b v).
Proof.
  intros Hk Hb i Hi. rewrite gate1_action by auto. cbn [ctl_ok forallb]. unfold project, projm.
  assert (Hs : forall x, bit i k = x -> setb i k x = i).
  { intros x <-. apply setb_self. }
  pose proof (bit_lt i k). destruct b as [|[|]]; [| |lia]; cbn [Nat.eqb]; destruct (bit i k) as [|[|]] eqn:Eb; try lia; cbn [Nat.eqb];
    rewrite ?(Hs _ eq_refl); unfold proj0, proj1, mk2; cbn; change (@cf_one (RNum tau)) with (RtoC 1); change (@cf_zero (RNum tau)) with (RtoC 0); ring.
Qed.

Notation mem := (@mem (RNum tau)).
Notation payload := (@payload (RNum tau)).
Notation rmem := (@rmem (RNum tau)).
(* the drawn outcome, for th drawn from [0, |v|^2): 0 iff th is below the weight
   of 0; and the factor that restores the norm *)
Theorem C34_outcome_partial n g (w : world) v k th : size_ok n -> g < n -> k <= n - g -> k < n -> (k = n - g -> k <= 30) ->
  world_holds n g w v -> norm2v n v <> 0%R -> (0 <= th < norm2v n v)%R ->
  exists out ss, (out = false <-> (th < probq n v k 0)%R) /\ (0 < probq n v k (if out then 1 else 0))%R /\
    outcomeMPI n g (Z.of_nat k) th w = Some (out, sqrt (norm2v n v / probq n v k (if out then 1 else 0)), ss) /\ still_holds n g w ss v.
Proof.
  intros Hn Hg Hk Hkn H30 Hw Hnz Hth. destruct (C34_weights n g w v k Hn Hg Hkn ltac:(lia) Hw Hnz) as (ss & E1 & Hs).
  replace (if k <? n - g then k else n - g) with k in E1 by (destruct (Nat.ltb_spec k (n - g)); lia).
  unfold outcomeMPI. rewrite E1. pose proof (probq_total n v k) as Ht. change (@nltb (RNum tau)) with Rltb. change (@n0 (RNum tau)) with 0%R.
  change (@nadd (RNum tau)) with Rplus. rewrite Ht. destruct (Rltb_spec th (probq n v k 0)) as [Hz|Hz].
  - exists false, ss. split; [tauto|]. split; [lra|]. split; auto. destruct (Rltb_spec 0 (probq n v k 0)); [reflexivity|lra].
  - exists true, ss. split; [split; [discriminate|tauto]|]. split; [lra|]. split; auto. destruct (Rltb_spec 0 (probq n v k 1)); [reflexivity|lra].
Qed.
Lemma holds_ready n g v r (x : rmem) : holds (n - g) (rm_s x) (rm_rhs x) (slice (n - g) r v) -> Ready tau n g v r (Some x).
Proof. intros (HI & Hw & Hv & _). exists x. auto. Qed.
Lemma ready_holds n g v r st : g < n -> Ready tau n g v r st -> exists x, st = Some x /\ holds (n - g) (rm_s x) (rm_rhs x) (slice (n - g) r v).
Proof.
  intros Hg (x & Ex & HI & Hw & Hv). exists x. split; auto. split; auto. split; auto.
  eapply (reads_v_veq tau); [exact Hv|]. apply (reads_vecof tau); auto. lia.
Qed.
Lemma scaled m s (e : edge) u (c : R) : wfe KV (tb s KV) m e -> veq m (vecof s m e) u ->
  let e' := E (cmul (ew e) (c, @n0 (RNum tau))) (en e) in wfe KV (tb s KV) m e' /\ veq m (vecof s m e') (fun i => Cmult (RtoC c) (u i)).
Proof.
  intros Hw Hv e'. split.
  - destruct Hw as [Hw|[Hw1 Hw2]]; [left; exact Hw|right]. split; auto. cbn [e' ew]. rewrite Hw1.
    change (@c0 (RNum tau)) with (RtoC 0). apply injective_projections; cbn; ring.
  - intros i Hi. specialize (Hv i Hi). rewrite <- Hv. unfold Obs.vecof, vecF, Wf.val. cbn [e' ew en].
    change (@cmul (RNum tau)) with Cmult. change ((c, @n0 (RNum tau))) with (RtoC c). ring.
Qed.
Lemma ann_scale W n g v c : @Ann mem payload W [BLocal (scale c)] (Ready tau n g v) (Ready tau n g (fun i => Cmult (RtoC c) (v i))).
Proof.
  apply ann_local. intros r st _ (x & -> & HI & Hw & Hv). cbn [scale]. split; [eexists; reflexivity|]. intros st' ->.
  eexists. split; [reflexivity|]. cbn [rm_s rm_rhs]. split; auto. exact (scaled _ _ _ _ c Hw Hv).
Qed.
Lemma ann_collapse lim n g k (out : bool) c v : tau = 0%R -> g < n -> size_ok n -> ring_gate n g (U1 (projm (if out then 1 else 0)) (Z.of_nat k) []) k ->
  @Ann mem payload (2 ^ g) (collapse_MPI lim n g (Z.of_nat k) out c) (Ready tau n g v)
    (Ready tau n g (fun i => Cmult (RtoC c) (project k (if out then 1 else 0) v i))).
Proof.
  intros H0 Hg Hn Hr. unfold collapse_MPI. set (b := if out then 1 else 0) in *. rewrite Nat2Z.id.
  assert (E1 : makeGate (Z.of_nat n) (if out then @proj1 (RNum tau) else @proj0 (RNum tau)) (Z.of_nat k) [] = op_comp tau n (U1 (projm b) (Z.of_nat k) [])).
  { unfold op_comp, b, projm. destruct out; reflexivity. }
  rewrite E1. change (@BLocal mem payload (build (op_comp tau n (U1 (projm b) (Z.of_nat k) []))) :: mv_multiply_MPI lim n g k ++ [BLocal (scale c)])
    with ((@BLocal mem payload (build (op_comp tau n (U1 (projm b) (Z.of_nat k) []))) :: mv_multiply_MPI lim n g k) ++ [BLocal (scale c)]).
  eapply ann_app; [apply ann_mul; auto; exact Hr|].
  eapply ann_conseq; [| |apply (ann_scale (2 ^ g) n g (project k b v) c)]; [|auto].
  intros r st Hlt (x & Ex & HI & Hw & Hv). exists x. split; auto. split; auto. split; auto.
  eapply veq_trans; [exact Hv|]. intros i Hi. unfold slice. cbn [op_mat]. rewrite Nat2Z.id. apply projm_action.
  - destruct Hr as (_ & H1 & _). exact H1.
  - unfold b. destruct out; lia.
  - replace n with (g + (n - g)) at 2 by lia. rewrite Nat.pow_add_r. nia.
Qed.
Lemma finishes W eager prog (Pre Post : nat -> mem -> Prop) (mem0 : nat -> mem) : 0 < W -> @Ann mem payload W prog Pre Post ->
  (forall r, r < W -> Pre r (mem0 r)) -> exists c, asteps W eager prog (astart mem0) c /\ finished W prog c.
Proof.
  intros HW HA Hst.
  assert (H : forall c, Acc (fun y x => astep W eager prog x y) c -> asteps W eager prog (astart mem0) c ->
      exists c', asteps W eager prog (astart mem0) c' /\ finished W prog c').
  { induction 1 as [c _ IH]. intros Hc. destruct (ann_sound W eager prog _ _ mem0 c HW HA Hst Hc) as ([Hf|(c' & Hs)] & _); [eauto|].
    apply (IH c' Hs). eapply as_step; eauto. }
  apply (H (astart mem0)); [|constructor]. apply (ann_sound W eager prog _ _ mem0 _ HW HA Hst). constructor.
Qed.
(* C34, collapse: the projection and rescaling run by all ranks, under every
   schedule and with eager or rendezvous sends.  Together with C34_outcome_partial
   (c = sqrt(|v|^2 / weight)): the ranks end up holding the projected state, with
   the norm it had.  Missing: local qubits (C34_collapse_refuted) and global qubits
   above the lowest (C34_refuted). *)
Theorem C34_collapse_partial lim n g eager k (out : bool) c v (mem0 : nat -> mem) :
  tau = 0%R -> g < n -> size_ok n -> ring_gate n g (U1 (projm (if out then 1 else 0)) (Z.of_nat k) []) k ->
  (forall r, r < 2 ^ g -> exists x, mem0 r = Some x /\ holds (n - g) (rm_s x) (rm_rhs x) (slice (n - g) r v)) ->
  let prog := collapse_MPI lim n g (Z.of_nat k) out c in
  (exists q, asteps (2 ^ g) eager prog (astart mem0) q /\ finished (2 ^ g) prog q) /\
  forall q, asteps (2 ^ g) eager prog (astart mem0) q ->
  (finished (2 ^ g) prog q \/ exists q', astep (2 ^ g) eager prog q q') /\
  Acc (fun y x => astep (2 ^ g) eager prog x y) q /\
  (finished (2 ^ g) prog q -> forall r, r < 2 ^ g -> exists x, r_mem (ranks q r) = Some x /\
     holds (n - g) (rm_s x) (rm_rhs x) (slice (n - g) r (fun i => Cmult (RtoC c) (project k (if out then 1 else 0) v i)))).
Proof.
  intros H0 Hg Hn Hr Hmem prog. pose proof (ann_collapse lim n g k out c v H0 Hg Hn Hr) as HA. fold prog in HA.
  assert (HW : 0 < 2 ^ g) by (pose proof (Nat.pow_nonzero 2 g); lia).
  assert (Hst : forall r, r < 2 ^ g -> Ready tau n g v r (mem0 r)).
  { intros r Hlt. destruct (Hmem r Hlt) as (x & -> & Hx). now apply holds_ready. }
  split; [exact (finishes _ eager _ _ _ mem0 HW HA Hst)|]. intros q Hq.
  destruct (ann_sound (2 ^ g) eager _ _ _ mem0 q HW HA Hst Hq) as (P1 & P2 & P3). split; auto. split; auto.
  intros Hf r Hlt. apply ready_holds; auto.
Qed.
(* with two ranks, the top qubit of any number of qubits is covered *)
Theorem C34_two_ranks n (out : bool) : 1 < n -> ring_gate n 1 (U1 (projm (if out then 1 else 0)) (Z.of_nat (n - 1)) []) (n - 1).
Proof.
  intros Hn. apply C32_two_ranks; try lia.
  - cbn. split; [unfold qubit; lia|]. split; [constructor|intros x []].
  - cbn. intros t [<-|[]]. lia.
  - cbn [op_mat]. rewrite Nat2Z.id. intros (_ & _ & h). specialize (h 0 0 (ltac:(pose proof (Nat.pow_nonzero 2 (n - 1)); lia)) (ltac:(pose proof (Nat.pow_nonzero 2 (n - 1)); lia))).
    revert h. unfold block, gate1. rewrite !Nat.mul_0_l, !Nat.mul_1_l, !Nat.add_0_r.
    assert (Ha : forall x, agree_off n [n - 1] x x = true).
    { intros x. unfold agree_off. apply forallb_forall. intros l _. now rewrite Bool.eqb_reflx, orb_true_r. }
    rewrite !Ha. cbn [ctl_ok forallb]. unfold bit. rewrite Nat.bits_0, Nat.pow2_bits_true.
    intros h. apply one_ne0. destruct out; cbn in h; [symmetry|]; exact h.
Qed.

(* ---- C57 ---- *)
Ltac rring := match goal with |- ?a = ?b => change (@eq R a b) end; ring.
Lemma each_rel {A} (f : nat -> edge -> state -> option (A * state)) (P : nat -> A -> state -> Prop) : forall (w : world) r0,
  (forall r e s, nth_error w r = Some (e, s) -> exists a s', f (r0 + r) e s = Some (a, s') /\ P (r0 + r) a s') ->
  exists l ss, each f r0 w = Some (l, ss) /\ length l = length w /\ length ss = length w /\
    (forall r a, nth_error l r = Some a -> exists s', nth_error ss r = Some s' /\ P (r0 + r) a s').
Proof.
  induction w as [|[e s] w IH]; intros r0 H.
  - exists [], []. split; [reflexivity|]. split; auto. split; auto. intros [|r]; discriminate.
  - destruct (H 0 e s eq_refl) as (a & s' & E1 & P1). rewrite Nat.add_0_r in *.
    destruct (IH (S r0)) as (l & ss & E2 & L1 & L2 & P2).
    { intros r e' s2 Hr. destruct (H (S r) e' s2 Hr) as (b & s3 & Ex & Px). exists b, s3. replace (S r0 + r) with (r0 + S r) by lia. auto. }
    exists (a :: l), (s' :: ss). cbn [each]. rewrite E1, E2. split; [reflexivity|]. split; [cbn; lia|]. split; [cbn; lia|].
    intros [|r] b Hb; cbn in Hb; [injection Hb as <-; exists s'; rewrite Nat.add_0_r; auto|]. destruct (P2 r b Hb) as (s2 & Q1 & Q2).
    exists s2. replace (r0 + S r) with (S r0 + r) by lia. auto.
Qed.
Lemma pick_cons (th cur p q : num) (l : list num) i : pick th cur (p :: q :: l) i = if Rltb (cur + p)%R th then pick th (cur + p)%R (q :: l) (S i) else i.
Proof.
  change (pick th cur (p :: q :: l) i) with (if Rleb th (cur + p)%R then i else pick th (cur + p)%R (q :: l) (S i)).
  destruct (Rleb_spec th (cur + p)%R), (Rltb_spec (cur + p)%R th); auto; exfalso; lra.
Qed.
Lemma pick_spec th (F : nat -> R) : forall N i cur, (cur < th <= cur + rsum (S N) (fun j => F (i + j)%nat))%R ->
  exists r, pick th cur (map F (seq i (S N)) : list num) i = i + r /\ r < S N /\
    (cur + rsum r (fun j => F (i + j)%nat) < th <= cur + rsum (S r) (fun j => F (i + j)%nat))%R.
Proof.
  induction N as [|N IH]; intros i cur H.
  - exists 0. cbn [seq map pick]. split; [match goal with |- context[if ?b then _ else _] => destruct b end; lia|]. split; [lia|]. cbn in *. rewrite Nat.add_0_r in *. lra.
  - cbn [seq map]. rewrite pick_cons. destruct (Rltb_spec (cur + F i)%R th) as [Hle|Hle].
    2: { exists 0. split; [lia|]. split; [lia|]. cbn. rewrite Nat.add_0_r. lra. }
    { assert (Hsh : forall k, (rsum (S k) (fun j => F (i + j)%nat) = F i + rsum k (fun j => F (S i + j)%nat))%R).
      { intros k. change (S k) with (1 + k). rewrite rsum_add. cbn [rsum]. rewrite Nat.add_0_r. f_equal; [ring|]. apply rsum_ext. intros j _. f_equal. lia. }
      destruct (IH (S i) (cur + F i)%R) as (r & E1 & E2 & E3).
      { rewrite Hsh in H. lra. }
      exists (S r). split; [cbn [seq map] in E1; etransitivity; [exact E1|lia]|]. split; [lia|]. rewrite !(Hsh r), (Hsh (S r)). lra. }
Qed.
Lemma bitstring_S g b : bitstring (S g) b = Nat.testbit b g :: bitstring g b.
Proof. unfold bitstring. rewrite seq_S, rev_app_distr. reflexivity. Qed.
Lemma bitstring_ext n a b : (forall l, l < n -> Nat.testbit a l = Nat.testbit b l) -> bitstring n a = bitstring n b.
Proof. intros H. unfold bitstring. apply map_ext_in. intros l Hl. apply H. apply in_rev in Hl. apply in_seq in Hl. lia. Qed.
Lemma rank_bits_spec : forall g t, t < 2 ^ g -> rank_bits g t = bitstring g t.
Proof.
  induction g as [|g IH]; intros t Ht; [reflexivity|]. rewrite bitstring_S. cbn [rank_bits]. cbn [Nat.pow] in Ht. assert (Hp : 2 ^ g <> 0) by (apply Nat.pow_nonzero; lia).
  destruct (Nat.leb_spec 1 (t / 2 ^ g)) as [h|h].
  - assert (Hge : 2 ^ g <= t). { destruct (Nat.le_gt_cases (2 ^ g) t); auto. rewrite Nat.div_small in h; lia. }
    assert (Et : t = 1 * 2 ^ g + (t - 2 ^ g)) by lia. f_equal.
    + rewrite Et. assert (Hb := bit_high 1 g (t - 2 ^ g) 0 ltac:(lia)). rewrite Nat.add_0_r in Hb. unfold bit in Hb. destruct (Nat.testbit (1 * 2 ^ g + (t - 2 ^ g)) g); auto. discriminate.
    + rewrite IH by lia. apply bitstring_ext. intros l Hl. rewrite Et at 2. symmetry. now apply testbit_low.
  - assert (Hlt : t < 2 ^ g). { destruct (Nat.lt_ge_cases t (2 ^ g)); auto. assert (1 <= t / 2 ^ g) by (apply Nat.div_le_lower_bound; lia). lia. }
    rewrite IH by auto. f_equal. symmetry. now apply (pow2_bits_high g).
Qed.
Lemma bitstring_app m b r : forall g, b < 2 ^ m -> bitstring g r ++ bitstring m b = bitstring (g + m) (r * 2 ^ m + b).
Proof.
  intros g Hb. induction g as [|g IH].
  - cbn [Nat.add app]. change (bitstring 0 r ++ bitstring m b) with (bitstring m b). apply bitstring_ext. intros l Hl. symmetry. now apply testbit_low.
  - cbn [Nat.add]. rewrite !bitstring_S. cbn [app]. rewrite IH. f_equal.
    pose proof (bit_high r m b g Hb) as Hh. rewrite (Nat.add_comm m g) in Hh. unfold bit in Hh. now destruct (Nat.testbit r g), (Nat.testbit (r * 2 ^ m + b) (g + m)).
Qed.
(* weight of the amplitudes held by the ranks below r *)
Definition below (m r : nat) (v : vector) : R := rsum r (fun q => norm2v m (slice m q v)).
(* what rank r contributes *)
Definition contrib (m : nat) (w : world) (v : vector) (tss : list (list R)) (r : nat) (a : num * list bool) (s' : state) : Prop :=
  fst a = norm2v m (slice m r v) /\ forall e s, nth_error w r = Some (e, s) -> holds m s' e (slice m r v) /\ (en e = Term -> snd a = []) /\
     (norm2v m (slice m r v) <> 0%R -> exists b, snd a = bitstring m b /\ b < 2 ^ m /\ slice m r v b <> RtoC 0 /\
       (forall c, c < 2 ^ m -> (c = b <-> forall k, k < m -> (lo_of (slice m r v) c k <= nth (m - 1 - k) (nth r tss []) 0 < hi_of (slice m r v) c k)%R))).
Lemma all_ranks n g (w : world) v tss : size_ok n -> g < n -> world_holds n g w v ->
  (forall r, r < 2 ^ g -> n - g <= length (nth r tss []) /\ forall x, In x (nth r tss []) -> (0 <= x < 1)%R) ->
  exists l ss, each (@all_rank (RNum tau) CF tss) 0 w = Some (l, ss) /\ length l = length w /\ length ss = length w /\
    (forall r a, nth_error l r = Some a -> exists s', nth_error ss r = Some s' /\ contrib (n - g) w v tss (0 + r) a s').
Proof.
  intros Hn Hg [Hl Hw] Hd. set (m := n - g) in *. assert (Em : g + m = n) by (unfold m; lia).
  apply each_rel. intros r e s Hr. cbn [Nat.add].
    assert (Hlt : r < 2 ^ g) by (rewrite <- Hl; apply nth_error_Some; congruence).
    pose proof (Hw r e s Hr) as Hh. destruct (Hd r Hlt) as [D1 D2]. fold m in D1.
    assert (Hs1 : exists s1, (match probs s (en e) with Some _ => Some s
         | None => match assignProbabilities e s with Some (_, s1) => Some s1 | None => None end end) = Some s1 /\ holds m s1 e (slice m r v) /\ exists x, probs s1 (en e) = Some x).
    { destruct (probs s (en e)) as [x|] eqn:Ex; [exists s; eauto|].
      destruct (assign_norm m s e _ Hh (size_101 n g Hn)) as (s1 & A1 & A2 & A3 & A4). rewrite A1. exists s1. split; auto.
      split; [apply (holds_pext m s); auto; unfold m; lia|]. destruct (probs s1 (en e)) as [x|]; [eauto|congruence]. }
    destruct Hs1 as (s1 & F1 & F2 & x & F3). pose proof F2 as (HI & Hwe & Hv & _).
    assert (Hx : nmul x (norm2 (ew e)) = norm2v m (slice m r v)).
    { rewrite (norm_psum m s1 e _ Hv). rewrite norm2_Cmod. change (@nmul (RNum tau)) with Rmult. destruct Hwe as [Hp|[Hz _]].
      - rewrite (prob_ok_val tau _ _ m _ _ (inv_pr _ _ HI _ _ F3) Hp). rring.
      - rewrite Hz. change (@c0 (RNum tau)) with (RtoC 0). rewrite Cmod_0. rring. }
    assert (Hm1 : 1 <= m) by (unfold m; lia).
    assert (HmQ : (Z.of_nat m <= NQUBITS)%Z) by (destruct Hn; unfold m; lia).
    unfold all_rank. rewrite F1, F3.
    assert (Hfb : exists b s2, measureAll e false (nth r tss []) s1 = Some (b, e, s2) /\ holds m s2 e (slice m r v) /\ (en e = Term -> b = []) /\
      (norm2v m (slice m r v) <> 0%R -> exists B, b = bitstring m B /\ B < 2 ^ m /\ slice m r v B <> RtoC 0 /\
       (forall c, c < 2 ^ m -> (c = B <-> forall k, k < m -> (lo_of (slice m r v) c k <= nth (m - 1 - k) (nth r tss []) 0 < hi_of (slice m r v) c k)%R)))).
    { assert (Hnw : ew e = c0 -> norm2v m (slice m r v) = 0%R).
      { intros Hz. rewrite (norm_psum m s1 e _ Hv), Hz. change (@c0 (RNum tau)) with (RtoC 0). rewrite Cmod_0. ring. }
      destruct Hwe as [Hp|[Hz Ht]].
      - destruct (Ceq_dec (ew e) (RtoC 0)) as [Ez|Ez].
        + destruct (measureAll_spec tau s1 m (E (@c1 (RNum tau)) (en e)) false (nth r tss []) HI Hm1 HmQ Hp) as (B & e' & s2 & s3 & M1 & _ & _ & _ & M2 & M3 & M4 & M5 & M6 & M7); auto.
          { exact one_ne0. }
          subst s3. exists (bitstring m B), s2. split.
          { revert M1. unfold measureAll. cbn [en]. rewrite F3. destruct (getVar KV (en e) s1) as [q|]; [|discriminate].
            assert (Hsm : forall l ths res, sample s1 l ths (E (@c1 (RNum tau)) (en e)) res = sample s1 l ths e res).
            { intros [|l'] ths res; [reflexivity|]. reflexivity. }
            rewrite Hsm. destruct (sample _ _ _ _ _) as [res|]; [|discriminate]. intros [= <- _ <-]. reflexivity. }
          split; [apply (holds_pext m s1); auto|]. split; [intros h; rewrite h in Hp; destruct m as [|m']; [lia|destruct Hp as (? & ? & ? & _); discriminate]|]. intros h. destruct h. auto.
        + destruct (measureAll_spec tau s1 m e false (nth r tss []) HI Hm1 HmQ Hp Ez D1 D2) as (B & e' & s2 & s3 & M1 & HB & Hdr & Hpos & M2 & M3 & M4 & M5 & M6 & M7).
          subst s3 e'. exists (bitstring m B), s2. split; auto. split; [apply (holds_pext m s1); auto|]. split; [intros h; rewrite h in Hp; destruct m as [|m']; [lia|destruct Hp as (? & ? & ? & _); discriminate]|]. intros _. exists B. split; auto. split; auto.
          split. { rewrite <- (Hv B HB). intros Hz. change (vecF (val KV (tb s1 KV) m e) B) with (Obs.vecof tau s1 m e B) in Hpos. rewrite Hz, Cmod_0 in Hpos. lra. }
          assert (Hdv : draws m (slice m r v) (nth r tss []) B) by (apply (draws_veq m _ _ _ _ Hv HB); exact Hdr).
          intros c Hc. rewrite <- (draws_intervals m (slice m r v) (nth r tss []) c) by (intros k Hk; apply D2; apply nth_In; lia).
          split; [intros ->; exact Hdv|]. intros Hdc. eapply (draws_unique m); eauto.
      - exists [], s1. split; [|split; [auto|split; [auto|]]].
        + unfold measureAll. rewrite F3, Ht. reflexivity.
        + intros h. destruct h. auto. }
    destruct Hfb as (b & s2 & F4 & F5 & F7 & F6).
    match goal with |- context [measureAll e false ?l s1] => replace (measureAll e false l s1) with (Some (b, e, s2)) by (symmetry; exact F4) end. eexists _, s2. split; [reflexivity|]. unfold contrib. cbn [fst snd]. split; [exact Hx|].
    intros e' s' Hr'. rewrite Hr in Hr'. injection Hr' as <- <-. auto.
Qed.
(* C57.  For draws 0 < th and the ranks' own draws in [0,1): measureAllMPI returns
   the bit string of a basis state of non-zero amplitude: that of the rank r whose
   interval of weights contains th, and within it the one whose intervals contain
   the draws of rank r.  The state is left alone.  Missing: th = 0 (C57_refuted). *)
Theorem C57_measureAllMPI_partial n g (w : world) v tss th : size_ok n -> g < n -> world_holds n g w v -> (0 < th < norm2v n v)%R ->
  (forall r, r < 2 ^ g -> n - g <= length (nth r tss []) /\ forall x, In x (nth r tss []) -> (0 <= x < 1)%R) ->
  let m := n - g in exists r b ss,
    measureAllMPI g tss th w = Some (bitstring n (r * 2 ^ m + b), ss) /\ r < 2 ^ g /\ b < 2 ^ m /\ v (r * 2 ^ m + b) <> RtoC 0 /\
    (below m r v < th <= below m (S r) v)%R /\
    (forall c, c < 2 ^ m -> (c = b <-> forall k, k < m -> (lo_of (slice m r v) c k <= nth (m - 1 - k) (nth r tss []) 0 < hi_of (slice m r v) c k)%R)) /\
    still_holds n g w ss v.
Proof.
  intros Hn Hg [Hl Hw] Hth Hd m. assert (Em : g + m = n) by (unfold m; lia). fold m in Hw.
  destruct (all_ranks n g w v tss Hn Hg (conj Hl Hw) Hd) as (l & ss & E1 & L1 & L2 & P1). fold m in P1.
  assert (Hfst : map fst l = map (fun r => norm2v m (slice m r v)) (seq 0 (2 ^ g))).
  { apply nth_ext with (d := 0%R) (d' := 0%R); [rewrite !map_length, seq_length; lia|]. intros r Hr. rewrite map_length in Hr.
    destruct (nth_error l r) as [a|] eqn:Ea; [|apply nth_error_None in Ea; lia]. destruct (P1 r a Ea) as (s' & _ & Q1 & _). cbn [Nat.add] in Q1.
    rewrite (nth_error_nth (map fst l) r 0%R (x := fst a)) by (now apply map_nth_error).
    rewrite Q1. symmetry. apply nth_error_nth. rewrite (map_nth_error _ r (seq 0 (2 ^ g)) (d := r)); [reflexivity|].
    rewrite (nth_error_nth' _ 0) by (rewrite seq_length; lia). rewrite seq_nth by lia. reflexivity. }
  destruct (2 ^ g) as [|N] eqn:EN; [pose proof (Nat.pow_nonzero 2 g); lia|].
  destruct (pick_spec th (fun r => norm2v m (slice m r v)) N 0 0%R) as (r & R1 & R2 & R3).
  { rewrite <- EN. cbn [Nat.add]. rewrite <- norm_slices, Em. lra. }
  cbn [Nat.add] in R1, R3. rewrite !Rplus_0_l in R3.
  destruct (nth_error l r) as [a|] eqn:Ea; [|apply nth_error_None in Ea; lia]. destruct (P1 r a Ea) as (s' & Q0 & Q1 & Q2). cbn [Nat.add] in Q1, Q2.
  destruct (nth_error w r) as [[e s]|] eqn:Er; [|apply nth_error_None in Er; lia]. destruct (Q2 e s eq_refl) as (Q3 & _ & Q4).
  destruct Q4 as (b & B1 & B2 & B3 & B4).
  { cbn [rsum] in R3. lra. }
  exists r, b, ss. unfold measureAllMPI. rewrite E1, Hfst. change (@n0 (RNum tau)) with 0%R. rewrite R1.
  rewrite (map_nth_error snd _ _ Ea). rewrite B1, rank_bits_spec by lia. rewrite bitstring_app by auto. rewrite Em.
  split; [reflexivity|]. split; auto. split; auto. split; [exact B3|]. split; [exact R3|]. split; [exact B4|].
  split; [lia|]. intros r' e' s0 s'' Hr' Hs'. destruct (nth_error l r') as [a'|] eqn:Ea'; [|apply nth_error_None in Ea'; assert (r' < length w) by (apply nth_error_Some; congruence); lia].
  destruct (P1 r' a' Ea') as (s3 & T1 & _ & T2). rewrite T1 in Hs'. injection Hs' as <-. exact (Logic.proj1 (T2 e' s0 Hr')).
Qed.
(* the probability of the basis state: the share of rank r's interval times the
   lengths of the intervals within it *)
Theorem C57_born_rule n g v r b : g < n -> r < 2 ^ g -> b < 2 ^ (n - g) -> let m := n - g in v (r * 2 ^ m + b) <> RtoC 0 ->
  ((below m (S r) v - below m r v) / norm2v n v * rprod m (fun k => hi_of (slice m r v) b k - lo_of (slice m r v) b k)
   = Cmod (v (r * 2 ^ m + b)%nat) ^ 2 / norm2v n v)%R.
Proof.
  intros Hg Hr Hb m Hv. assert (Hp : (0 < Cmod (slice m r v b))%R) by (apply Cmod_gt_0; exact Hv).
  rewrite (born_product m (slice m r v) b Hb Hp). unfold below. cbn [rsum]. change (v (r * 2 ^ m + b)) with (slice m r v b).
  assert (Hle : (Cmod (slice m r v b) ^ 2 <= norm2v m (slice m r v))%R).
  { unfold norm2v. apply (rsum_ge_one (2 ^ m) (fun i => Cmod (slice m r v i) ^ 2)%R b); auto. intros i. apply pow2_ge_0. }
  assert (Hs : (0 < norm2v m (slice m r v))%R) by (pose proof (pow_lt _ 2 Hp); lra).
  unfold Rdiv. set (S := rsum r _). replace (S + norm2v m (slice m r v) - S)%R with (norm2v m (slice m r v)) by ring.
  set (X := norm2v m (slice m r v)) in *. generalize (/ norm2v n v)%R. intros T. transitivity ((X * / X) * (Cmod (slice m r v b) ^ 2 * T))%R; [ring|]. rewrite Rinv_r by lra. ring.
Qed.
(* FINDING: dist(0, sum) can return 0, and then rank 0 is chosen even if it holds
   nothing: the string has too few bits (or, if its handle is not the terminal one,
   is a basis state of amplitude 0). *)
Theorem C57_refuted n g (w : world) v tss s0 : size_ok n -> g < n -> world_holds n g w v -> nth_error w 0 = Some (zeroE, s0) ->
  (forall r, r < 2 ^ g -> n - g <= length (nth r tss []) /\ forall x, In x (nth r tss []) -> (0 <= x < 1)%R) ->
  exists l ss, measureAllMPI g tss 0%R w = Some (l, ss) /\ length l = g.
Proof.
  intros Hn Hg Hw H0 Hd. destruct (all_ranks n g w v tss Hn Hg Hw Hd) as (l & ss & E1 & L1 & L2 & P1).
  destruct w as [|x w]; [discriminate|]. destruct l as [|a l]; [discriminate|]. destruct (P1 0 a eq_refl) as (s' & _ & Q1 & Q2).
  destruct (Q2 _ _ H0) as (_ & Q3 & _). specialize (Q3 eq_refl). cbn [Nat.add] in Q1.
  unfold measureAllMPI. rewrite E1. cbn [map].
  assert (Ep : forall L, pick 0%R n0 (fst a :: L : list num) 0 = 0).
  { intros L. cbn [pick]. change (@nleb (RNum tau)) with Rleb. change (@nadd (RNum tau)) with Rplus. change (@n0 (RNum tau)) with 0%R.
    assert (0 <= norm2v (n - g) (slice (n - g) 0 v))%R by (apply rsum_nonneg; intros; apply pow2_ge_0).
    destruct (Rleb_spec 0 (0 + fst a)%R) as [|h]; [reflexivity|]. exfalso. apply h. rewrite Q1. lra. }
  rewrite Ep. cbn [nth_error]. eexists _, ss. split; [reflexivity|]. rewrite Q3, app_nil_r. rewrite rank_bits_spec by (pose proof (Nat.pow_nonzero 2 g); lia).
  unfold bitstring. now rewrite map_length, rev_length, seq_length.
Qed.

(* FINDING: collapsing a local qubit: two qubits on two ranks, qubit 0 measured as
   0.  Rank 0 keeps its slice unprojected, rank 1 is left with nothing. *)
Theorem C34_collapse_refuted lim eager c v (mem0 : nat -> mem) : tau = 0%R ->
  (forall r, r < 2 -> exists x, mem0 r = Some x /\ holds 1 (rm_s x) (rm_rhs x) (slice 1 r v)) ->
  let prog := collapse_MPI lim 2 1 0%Z false c in
  (exists q, asteps 2 eager prog (astart mem0) q /\ finished 2 prog q) /\
  (forall q, asteps 2 eager prog (astart mem0) q -> finished 2 prog q -> forall r, r < 2 ->
     exists x, r_mem (ranks q r) = Some x /\
       holds 1 (rm_s x) (rm_rhs x) (if Nat.eqb r 0 then slice 1 0 (fun i => Cmult (RtoC c) (v i)) else fun _ => RtoC 0)).
Proof.
  intros H0 Hmem prog. set (o := U1 (projm 0) 0%Z []).
  assert (Hn : size_ok 2) by (unfold size_ok, NQUBITS; lia).
  assert (Ho : op_ok 2 o) by (cbn; split; [unfold qubit; lia|]; split; [constructor|intros x []]).
  set (vr := fun r : nat => if Nat.eqb r 0 then slice 1 0 v else (fun _ => RtoC 0)).
  set (Mid := fun (r : nat) (st : mem) => exists x, st = Some x /\ Inv (rm_s x) /\ wfe KV (tb (rm_s x) KV) 1 (rm_res x) /\ veq 1 (vecof (rm_s x) 1 (rm_res x)) (vr r)).
  set (Fin := fun (r : nat) (st : mem) => exists x, st = Some x /\ Inv (rm_s x) /\ wfe KV (tb (rm_s x) KV) 1 (rm_rhs x) /\ veq 1 (vecof (rm_s x) 1 (rm_rhs x)) (vr r)).
  set (Post := fun (r : nat) (st : mem) => exists x, st = Some x /\ Inv (rm_s x) /\ wfe KV (tb (rm_s x) KV) 1 (rm_rhs x) /\ veq 1 (vecof (rm_s x) 1 (rm_rhs x)) (fun i => Cmult (RtoC c) (vr r i))).
  assert (HA : @Ann mem payload 2 prog (Ready tau 2 1 v) Post).
  { change prog with ([@BLocal mem payload (build (op_comp tau 2 o))] ++ [@BLocal mem payload (start 2)] ++ [@BLocal mem payload finish] ++ [@BLocal mem payload (scale c)]).
    eapply ann_app; [apply (ann_build tau 2 1 (op_comp tau 2 o) (op_mat 2 o)); intros; now apply op_comp_ok|].
    eapply ann_app with (Mid := Mid); [|eapply ann_app with (Mid := Fin)]; apply ann_local; intros r st Hr.
    - intros (x & -> & HI & Hv & Hl & HA). cbn [start].
      assert (Hlow := low_gate tau (rm_s x) 0 (rm_lhs x) (op_mat 2 o) r r H0 HI Hl HA).
      destruct Hlow as (gt & E1 & E2 & E3); auto.
      + intros h. specialize (h 0 0 ltac:(cbn; lia) ltac:(cbn; lia)). now apply one_ne0.
      + split; [|split]; intros i j Hi' Hj'; cbn in Hi', Hj'; destruct i as [|[|]]; destruct j as [|[|]]; try lia; reflexivity.
      + intros (_ & _ & h). specialize (h 0 0 ltac:(cbn; lia) ltac:(cbn; lia)). cbn in h. now apply one_ne0.
      + rewrite E1. change (2 - 1) with 1 in Hv.
        set (Ar := fun i j : nat => if Nat.eqb r 0 then if Nat.eqb i j then RtoC 1 else RtoC 0 else RtoC 0).
        assert (Hz : meq 1 (matof tau (rm_s x) 1 gt) Ar).
        { intros i j Hi Hj. rewrite E3 by auto. cbn in Hi, Hj. unfold Ar. destruct r as [|[|]]; destruct i as [|[|]]; destruct j as [|[|]]; try lia; reflexivity. }
        destruct (mul_block tau H0 2 1 ltac:(lia) Hn (rm_s x) gt (rm_rhs x) _ _ HI E2 Hz (Logic.proj1 Hv) (Logic.proj2 Hv)) as (F & HF & Hw).
        apply (runs_ok tau _ _ (dn tau KV 1 F 0)); auto. intros e s' Hrel Hdn.
        pose proof (rel_inv _ _ _ Hrel) as HI'. destruct (keep_v tau _ _ _ _ _ HI Hrel Hv) as [K1 K2].
        destruct (encode tau 2 1 ltac:(lia) Hn s' (rm_rhs x) _ HI' (conj K1 K2)) as (j & cs & Ej & _). rewrite Ej.
        split; [eexists; reflexivity|]. intros m' ->. eexists. split; [reflexivity|]. cbn [rm_s rm_res]. split; auto.
        apply (dn_veq tau 1 F 0%R); auto. eapply veq_trans; [exact HF|]. intros i Hi. cbn in Hi. unfold mv, Ar, vr.
        change (2 ^ (2 - 1)) with 2. cbn [csum]. destruct r as [|r]; destruct i as [|[|]]; try lia; cbn [Nat.eqb]; ring.
    - intros (x & -> & HI & Hv). cbn [finish]. split; [eexists; reflexivity|]. intros m' ->. eexists. split; [reflexivity|]. cbn [rm_s rm_rhs]. auto.
    - intros (x & -> & HI & Hw & Hv). cbn [scale]. split; [eexists; reflexivity|]. intros m' ->. eexists. split; [reflexivity|]. cbn [rm_s rm_rhs].
      split; auto. exact (scaled _ _ _ _ c Hw Hv). }
  assert (Hst : forall r, r < 2 -> Ready tau 2 1 v r (mem0 r)).
  { intros r Hlt. destruct (Hmem r Hlt) as (x & -> & Hx). now apply holds_ready. }
  split; [exact (finishes 2 eager _ _ _ mem0 ltac:(lia) HA Hst)|].
  intros q Hq Hf r Hr. destruct (ann_sound 2 eager prog _ _ mem0 q ltac:(lia) HA Hst Hq) as (_ & _ & P). destruct (P Hf r Hr) as (x & Ex & HI & Hw & Hv).
  exists x. split; auto. split; auto. split; auto. eapply (reads_v_veq tau); [|apply (reads_vecof tau); auto].
  eapply veq_trans; [exact Hv|]. intros i Hi. unfold vr. destruct r; cbn [Nat.eqb]; [reflexivity|]. ring.
Qed.
(* concrete distributed states: two qubits on two ranks *)
Theorem worlds_exist : tau = 0%R ->
  (exists w, world_holds 2 1 w (fun i => basis 0 (i mod 2)) /\ full w /\ norm2v 2 (fun i => basis 0 (i mod 2)) = 2%R) /\
  (exists w, zero_world 2 1 w) /\ exists w s0, world_holds 2 1 w (basis 2) /\ nth_error w 0 = Some (zeroE, s0).
Proof.
  intros H0. assert (Hir : irun [P_zero 1] [IV 1 (basis 0)] [[]]).
  { eapply ir_cons; [apply ir_nil|]. cbn. repeat split; unfold size_ok, NQUBITS; lia. }
  destruct (exec_exists tau _ _ _ H0 Hir) as ((s, hs) & Hex). destruct (exec_refines tau _ _ _ _ _ H0 Hex Hir) as (_ & Hr & HF). cbn [fst snd] in *.
  destruct (holds_V tau s hs _ 0 1 (basis 0) HF eq_refl) as (e & He & Hin & Hv).
  assert (Hh : holds 1 s e (basis 0)) by (apply (reachable_holds tau s hs); auto).
  assert (Hz : holds 1 s zeroE (fun _ => RtoC 0)).
  { destruct Hh as (HI & _). split; auto. split; [right; auto|]. eapply (reads_v_veq tau); [|apply (reads_vecof tau); auto; right; auto].
    intros i Hi. unfold Obs.vecof, vecF, Wf.val. cbn [zeroE ew]. change (@c0 (RNum tau)) with (RtoC 0). ring. }
  assert (Hc : forall m s e v u, veq m v u -> holds m s e v -> holds m s e u).
  { intros m s' e' v u Hvu (A1 & A2 & A3). split; auto. split; auto. eapply (reads_v_veq tau); eauto. }
  split; [|split].
  - exists [(e, s); (e, s)]. split; [split; [reflexivity|]|split].
    + intros [|[|[|]]] e' s' [= <- <-]; (eapply Hc; [|exact Hh]); intros i Hi; unfold slice, basis; cbn in Hi; destruct i as [|[|]]; auto; lia.
    + assert (Ht : is_term (en e) = false).
      { destruct Hh as (_ & _ & _ & Hx & _). destruct (is_term (en e)); auto. exfalso. specialize (Hx eq_refl 0 ltac:(cbn; lia)). revert Hx. apply one_ne0. }
      intros [|[|[|]]] e' s' [= <- <-]; exact Ht.
    + unfold norm2v, basis. cbn [Nat.pow Nat.mul Nat.add rsum Nat.modulo Nat.divmod fst snd Nat.sub Nat.eqb]. rewrite !Cmod_0, Cmod_1. ring.
  - exists [(e, s); (zeroE, s)]. split; [split; [reflexivity|]|].
    + intros [|[|[|]]] e' s' [= <- <-]; [eapply Hc; [|exact Hh]|eapply Hc; [|exact Hz]]; intros i Hi; unfold slice, basis; cbn in Hi; destruct i as [|[|]]; auto; lia.
    + intros [|[|[|]]] e' s' [= <- <-] Hlt; [lia|reflexivity].
  - exists [(zeroE, s); (e, s)], s. split; [split; [reflexivity|]|reflexivity].
    intros [|[|[|]]] e' s' [= <- <-]; [eapply Hc; [|exact Hz]|eapply Hc; [|exact Hh]]; intros i Hi; unfold slice, basis; cbn in Hi; destruct i as [|[|]]; auto; lia.
Qed.
End MPIMP.
