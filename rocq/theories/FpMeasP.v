(* FpMeasP.v -- C68: the probabilities the library reports and the distribution
   it samples from, over a rounded arithmetic. *)
From Coq Require Import Reals Lra Psatz ZArith Bool List Lia Arith FunctionalExtensionality.
From Coquelicot Require Import Complex.
From Verif Require Import Num State DD Gates GC Measure Api RNum Wf Sums Err Inv Wp Make Add MulV GateP StateP Kron Spec SpecP Readout
  MeasAllP ApiP Obs Props1 Circuit FpA FpE FpW FpM FpAdd FpMul FpGate FpState FpRead FpMeas FpGC FpKron FpCirc FpProp.
Import ListNotations.
Open Scope Z_scope.

(* ---- specification: sampling by thresholds ----
   Qubit k (the highest first) reads 1 when its draw is at least T k b, where b holds
   the outcome; T k b may depend on the bits of b above k only.  With independent
   draws uniform on [0,1) outcome b then has probability [weight n T b]. *)
Definition looks_up (T : nat -> nat -> R) : Prop :=
  (forall k b b', (b / 2 ^ S k = b' / 2 ^ S k)%nat -> T k b = T k b') /\ (forall k b, (0 <= T k b <= 1)%R).
Definition weight (n : nat) (T : nat -> nat -> R) (b : nat) : R :=
  rprod n (fun k => if Nat.testbit b k then (1 - T k b)%R else T k b).
Definition selects (n : nat) (T : nat -> nat -> R) (ths : list R) (b : nat) : Prop :=
  forall k, (k < n)%nat -> (Nat.testbit b k = true <-> (T k b <= nth (n - 1 - k) ths 0)%R).
(* relative weight of entry i *)
Definition born (n : nat) (v : vector) (i : nat) : R := (Cmod (v i) ^ 2 / norm2v n v)%R.

Lemma div_step b k : (b / 2 ^ k = 2 * (b / 2 ^ S k) + (if Nat.testbit b k then 1%nat else 0%nat))%nat.
Proof.
  rewrite Nat.pow_succ_r', (Nat.mul_comm 2 (2 ^ k)), <- Nat.div_div by (try apply Nat.pow_nonzero; lia).
  rewrite (Nat.div_mod (b / 2 ^ k) 2) at 1 by lia. f_equal. rewrite Nat.testbit_eqb. pose proof (Nat.mod_upper_bound (b / 2 ^ k) 2 ltac:(lia)).
  destruct (Nat.eqb_spec ((b / 2 ^ k) mod 2) 1); lia.
Qed.
Lemma selects_unique n T ths b b' : looks_up T -> (b < 2 ^ n)%nat -> (b' < 2 ^ n)%nat -> selects n T ths b -> selects n T ths b' -> b = b'.
Proof.
  intros [HT _] Hb Hb' Hs Hs'.
  assert (H : forall j, (j <= n)%nat -> (b / 2 ^ (n - j) = b' / 2 ^ (n - j))%nat).
  { induction j as [|j IH]; intros Hj.
    - rewrite Nat.sub_0_r, !Nat.div_small by assumption. reflexivity.
    - specialize (IH ltac:(lia)). set (k := (n - S j)%nat) in *. replace (n - j)%nat with (S k) in IH by (unfold k; lia).
      rewrite (div_step b k), (div_step b' k), IH. f_equal.
      specialize (Hs k ltac:(unfold k; lia)). specialize (Hs' k ltac:(unfold k; lia)). rewrite (HT k b b' IH) in Hs.
      destruct (Nat.testbit b k), (Nat.testbit b' k); auto; exfalso; [assert (false = true) by tauto|assert (false = true) by tauto]; discriminate. }
  specialize (H n ltac:(lia)). rewrite Nat.sub_diag, !Nat.div_1_r in H. exact H.
Qed.
Lemma rprod_ext N f g : (forall k, (k < N)%nat -> f k = g k) -> rprod N f = rprod N g.
Proof. induction N as [|N IH]; intros H; cbn [rprod]; [reflexivity|]. rewrite IH, H; auto. Qed.

(* the weights of the outcomes are a probability distribution *)
Lemma weight_pos n T b : looks_up T -> (0 <= weight n T b)%R.
Proof.
  intros [_ H]. unfold weight. generalize n. induction n0 as [|m IH]; cbn [rprod]; [lra|]. apply Rmult_le_pos; [exact IH|].
  specialize (H m b). destruct (Nat.testbit b m); lra.
Qed.

Lemma low_bit c m x k : (x < 2 ^ m)%nat -> (k < m)%nat -> Nat.testbit (c * 2 ^ m + x) k = Nat.testbit x k.
Proof.
  intros Hx Hk. rewrite !Nat.testbit_eqb. f_equal. replace (c * 2 ^ m)%nat with (c * 2 ^ (m - k - 1) * 2 * 2 ^ k)%nat.
  - rewrite Nat.div_add_l by (apply Nat.pow_nonzero; lia). rewrite Nat.add_comm, Nat.mod_add by lia. reflexivity.
  - rewrite <- !Nat.mul_assoc. f_equal. replace m with (m - k - 1 + S k)%nat at 2 by lia. rewrite Nat.pow_add_r, Nat.pow_succ_r'. ring.
Qed.
Lemma top_bit (c : bool) m x : (x < 2 ^ m)%nat -> Nat.testbit ((if c then 1 else 0) * 2 ^ m + x) m = c.
Proof.
  intros Hx. rewrite Nat.testbit_eqb, Nat.div_add_l by (apply Nat.pow_nonzero; lia). rewrite Nat.div_small by exact Hx. destruct c; reflexivity.
Qed.
Lemma rsum_two N f : rsum (N + N) f = (rsum N f + rsum N (fun i => f (N + i)%nat))%R.
Proof.
  assert (G : forall M, rsum (N + M) f = (rsum N f + rsum M (fun i => f (N + i)%nat))%R); [|apply G].
  induction M as [|M IH]; [rewrite Nat.add_0_r; cbn [rsum]; ring|]. rewrite Nat.add_succ_r. cbn [rsum]. rewrite IH. ring.
Qed.
Lemma rsum_scale N c f : rsum N (fun i => (c * f i)%R) = (c * rsum N f)%R.
Proof. induction N as [|N IH]; cbn [rsum]; [ring|]. rewrite IH. ring. Qed.
Lemma weight_sum_gen n : forall T : nat -> nat -> R,
  (forall k b b', (k < n)%nat -> (b < 2 ^ n)%nat -> (b' < 2 ^ n)%nat -> (b / 2 ^ S k = b' / 2 ^ S k)%nat -> T k b = T k b') ->
  rsum (2 ^ n) (weight n T) = 1%R.
Proof.
  induction n as [|m IH]; intros T HT; [cbn; unfold weight; cbn [rprod]; ring|].
  assert (Hp : (0 < 2 ^ m)%nat) by (apply Nat.neq_0_lt_0, Nat.pow_nonzero; lia).
  assert (E2 : (2 ^ S m = 2 ^ m + 2 ^ m)%nat) by (rewrite Nat.pow_succ_r'; lia).
  rewrite E2, rsum_two.
  assert (Hhalf : forall c : bool, rsum (2 ^ m) (fun x => weight (S m) T ((if c then 1 else 0) * 2 ^ m + x)%nat) = (if c then 1 - T m O else T m O)%R).
  { intros c. set (Tc := fun k x => T k ((if c then 1 else 0) * 2 ^ m + x)%nat).
    assert (Hlt : forall x, (x < 2 ^ m)%nat -> ((if c then 1 else 0) * 2 ^ m + x < 2 ^ S m)%nat) by (intros x Hx; destruct c; lia).
    rewrite (rsum_ext' _ _ (fun x => ((if c then 1 - T m O else T m O) * weight m Tc x)%R)).
    - rewrite rsum_scale, IH; [ring|]. intros k b b' Hk Hb Hb' Hq. unfold Tc. apply HT; [lia|now apply Hlt|now apply Hlt|].
      assert (Hd : forall y, (((if c then 1 else 0) * 2 ^ m + y) / 2 ^ S k = (if c then 1 else 0) * 2 ^ (m - S k) + y / 2 ^ S k)%nat).
      { intros y. replace (2 ^ m)%nat with (2 ^ (m - S k) * 2 ^ S k)%nat by (rewrite <- Nat.pow_add_r; f_equal; lia).
        rewrite Nat.mul_assoc, Nat.div_add_l by (apply Nat.pow_nonzero; lia). reflexivity. }
      rewrite !Hd, Hq. reflexivity.
    - intros x Hx. unfold weight. cbn [rprod]. rewrite Rmult_comm. f_equal.
      + rewrite top_bit by exact Hx. rewrite (HT m ((if c then 1 else 0) * 2 ^ m + x)%nat O ltac:(lia) (Hlt x Hx) ltac:(lia)); [reflexivity|]. rewrite !Nat.div_small; [reflexivity|lia|now apply Hlt].
      + apply rprod_ext. intros k Hk. rewrite low_bit by assumption. reflexivity. }
  pose proof (Hhalf false) as H0. pose proof (Hhalf true) as H1. cbn beta iota in H0, H1.
  rewrite (rsum_ext' (2 ^ m) (weight (S m) T) (fun x => weight (S m) T (0 * 2 ^ m + x)%nat)) by (intros x _; reflexivity).
  rewrite H0. rewrite (rsum_ext' (2 ^ m) (fun i => weight (S m) T (2 ^ m + i)%nat) (fun x => weight (S m) T (1 * 2 ^ m + x)%nat)) by (intros x _; f_equal; lia).
  rewrite H1. ring.
Qed.
Lemma weight_sum n T : looks_up T -> rsum (2 ^ n) (weight n T) = 1%R.
Proof. intros [H _]. apply weight_sum_gen. intros k b b' _ _ _. apply H. Qed.

(* ---- vectors near a unit vector ---- *)
Lemma l2_norm n v : l2 (2 ^ n) v = sqrt (norm2v n v). Proof. reflexivity. Qed.
Lemma norm2v_sq n v : (norm2v n v = l2 (2 ^ n) v * l2 (2 ^ n) v)%R.
Proof.
  unfold l2. rewrite sqrt_sqrt; [reflexivity|]. generalize (2 ^ n)%nat. induction n0 as [|m IH]; cbn [rsum]; [lra|].
  pose proof (pow2_ge_0 (Cmod (v m))). lra.
Qed.
Lemma l2_dist n v w : (Rabs (l2 (2 ^ n) v - l2 (2 ^ n) w) <= dist n v w)%R.
Proof.
  assert (H : forall a b, (l2 (2 ^ n) a <= l2 (2 ^ n) b + dist n a b)%R).
  { intros a b. rewrite (l2_ext _ a (fun i => Cplus (b i) (Cminus (a i) (b i)))) by (intros i _; ring). apply l2_triangle. }
  assert (Hs : dist n w v = dist n v w).
  { unfold dist, l2. f_equal. apply rsum_ext'. intros i _. replace (Cminus (w i) (v i)) with (Copp (Cminus (v i) (w i))) by ring. now rewrite Cmod_opp. }
  pose proof (H v w). pose proof (H w v). apply Rabs_le. lra.
Qed.
Lemma born_close n v w d : norm2v n w = 1%R -> (dist n v w <= d)%R -> (d < 1)%R -> forall i, (i < 2 ^ n)%nat ->
  (Rabs (born n v i - Cmod (w i) ^ 2) <= 4 * d)%R.
Proof.
  intros Hw Hd Hd1 i Hi. unfold born. rewrite norm2v_sq. pose proof (l2_dist n v w) as Hl. rewrite (l2_norm n w), Hw, sqrt_1 in Hl.
  set (N := l2 (2 ^ n) v) in *. assert (Hl' : (Rabs (N - 1) <= d)%R) by lra. apply Rabs_le_between' in Hl' || apply SafeF.abs_between in Hl'.
  assert (HN : (0 < N)%R) by lra.
  pose proof (close_of_dist n v w d Hd i Hi) as Hc. pose proof (l2_ge _ v i Hi) as Ha. fold N in Ha. pose proof (l2_ge _ w i Hi) as Hb.
  rewrite (l2_norm n w), Hw, sqrt_1 in Hb.
  assert (Hab : (Rabs (Cmod (v i) - Cmod (w i)) <= d)%R).
  { eapply Rle_trans; [|exact Hc]. pose proof (Cmod_triangle (Cminus (v i) (w i)) (w i)) as H1. pose proof (Cmod_triangle (Cminus (w i) (v i)) (v i)) as H2.
    replace (Cplus (Cminus (v i) (w i)) (w i)) with (v i) in H1 by ring. replace (Cplus (Cminus (w i) (v i)) (v i)) with (w i) in H2 by ring.
    replace (Cminus (w i) (v i)) with (Copp (Cminus (v i) (w i))) in H2 by ring. rewrite Cmod_opp in H2. apply Rabs_le. lra. }
  pose proof (Cmod_ge_0 (v i)) as Pa. pose proof (Cmod_ge_0 (w i)) as Pb. set (a := Cmod (v i)) in *. set (b := Cmod (w i)) in *.
  set (q := (a / N)%R). assert (Hq : (0 <= q <= 1)%R).
  { split; [apply Rle_mult_inv_pos; lra|]. apply Rmult_le_reg_r with N; [lra|]. unfold q. replace (a / N * N)%R with a by (field; lra). lra. }
  replace (a ^ 2 / (N * N) - b ^ 2)%R with ((q - b) * (q + b))%R by (unfold q; field; lra).
  assert (Hqa : (q - a = q * (1 - N))%R) by (unfold q; field; lra).
  apply SafeF.abs_between in Hab.
  assert (Hqb : (Rabs (q - b) <= 2 * d)%R) by (apply Rabs_le; nra).
  rewrite Rabs_mult, (Rabs_pos_eq (q + b)) by lra. pose proof (Rabs_pos (q - b)). nra.
Qed.

Section FpMeasP.
Context {NO : NumOps} {AC : Accur NO} {CF : Cfg}.
Notation state := (@State.state NO).
Notation edge := (@State.edge NO).

(* a handle that is not the zero terminal, with a non-zero weight, is not the zero vector *)
Theorem C68_probabilities s hs n e : freach (s, hs) -> In (H KV n e) hs -> (n <= 30)%nat -> is_term (en e) = false -> cv (ew e) <> RtoC 0 ->
  exists l s', probabilities e s = Some (l, s') /\ freach (s', hs) /\ length l = (2 ^ n)%nat /\
    (forall m x, In (H KV m x) hs -> amps s' m x = amps s m x) /\ (0 < norm2v n (amps s n e))%R /\
    forall i, (i < 2 ^ n)%nat -> let p := nr (nth i l n0) in
      (0 <= p <= 1)%R /\ (Rabs (p - born n (amps s n e) i) <= eprob n)%R /\ (amps s n e i = RtoC 0 -> p = 0%R).
Proof.
  intros Hr Hin Hn Ht Hz. destruct (reach_V _ _ _ _ Hr Hin) as (HI & H1 & HQ & Hw). pose proof (wfp_nt _ _ _ Hw Ht) as Hp.
  destruct (probabilities_spec s n e HI (conj H1 Hn) Hp) as (l & s' & P1 & P2 & P3 & P4 & P5).
  exists l, s'. split; [exact P1|]. split; [eapply fr_step; [exact Hr|exact (fs_probs s hs n e l s' Hin Ht Hn P1)]|]. split; [exact P4|].
  split; [intros m x _; unfold amps; now rewrite (pe_tb _ _ P2)|].
  assert (HN : (0 < norm2v n (amps s n e))%R).
  { unfold amps. rewrite psum_norm2v. pose proof (psum_ge1 _ (inv_tb _ HI KV) n _ Hp).
    assert (0 < Cmod (cv (ew e)))%R by now apply Cmod_gt_0. apply Rmult_lt_0_compat; [apply pow_lt; assumption|lra]. }
  split; [exact HN|]. intros i Hi p. destruct (P5 i Hi) as (Q1 & Q2 & Q3). split; [exact Q1|]. split.
  - unfold born, amps. rewrite <- (rest_amp _ _ _ _ Hz (inv_tb _ HI KV) Hp). exact Q2.
  - intros X. apply Q3. now apply (amp_zero _ _ _ _ Hz).
Qed.

Theorem C68_measureAll_num s hs n e : freach (s, hs) -> In (H KV n e) hs -> is_term (en e) = false -> cv (ew e) <> RtoC 0 ->
  exists T, (forall k b, exists x : num, T k b = nr x) /\ looks_up T /\
    (forall b, (b < 2 ^ n)%nat -> (Rabs (weight n T b - born n (amps s n e) b) <= esamp n)%R /\ (amps s n e b = RtoC 0 -> weight n T b = 0%R)) /\
    forall collapse ths, (n <= length ths)%nat -> (forall x, In x ths -> unif x) ->
      exists b e' s', measureAll e collapse ths s = Some (bitstring n b, e', s') /\ (b < 2 ^ n)%nat /\
        (forall b', (b' < 2 ^ n)%nat -> (selects n T (map nr ths) b' <-> b' = b)) /\ amps s n e b <> RtoC 0 /\
        freach (s', H KV n e' :: hs) /\ (forall m x, In (H KV m x) hs -> amps s' m x = amps s m x) /\
        (if collapse then veq n (amps s' n e') (basis b) else e' = e).
Proof.
  intros Hr Hin Ht Hz. destruct (reach_V _ _ _ _ Hr Hin) as (HI & H1 & HQ & Hw). pose proof (wfp_nt _ _ _ Hw Ht) as Hp.
  destruct (measureAll_spec_num s n e HI H1 HQ Hp Hz) as (T & T0 & T1 & T2 & T3 & T4). exists T. split; [exact T0|].
  assert (HT : looks_up T) by (split; assumption). split; [exact HT|]. split.
  - intros b _. destruct (T3 b) as [A B]. assert (Ew : weight n T b = rprod n (fun k => blen (T k b) (bit b k))).
    { apply rprod_ext. intros k _. unfold blen, bit. destruct (Nat.testbit b k); reflexivity. }
    rewrite Ew. split; [exact A|exact B].
  - intros collapse ths Hl Hu.
    destruct (T4 collapse ths Hl (fun x Hx => Logic.proj1 (unif_nr x) (Hu x Hx))) as (B & e' & s1 & s' & M1 & M2 & M3 & M4 & M5 & M6 & M7 & M8 & M9).
    exists B, e', s'. split; [exact M1|]. split; [exact M2|].
    assert (Hs : selects n T (map nr ths) B).
    { intros k Hk. rewrite (M3 k Hk). rewrite (nth_indep _ 0%R (nr n0)) by (rewrite map_length; lia). rewrite map_nth. tauto. }
    split; [|split; [exact M4|split; [|split]]].
    + intros b' Hb'. split; [intros X; eapply selects_unique; eauto|]. intros ->. exact Hs.
    + eapply fr_step; [exact Hr|]. eapply (fs_all s hs n e collapse ths); eauto.
    + intros m x Hx. destruct (reach_V _ _ _ _ Hr Hx) as (_ & _ & _ & Hwx). rewrite <- (pe_tb _ _ M5) in Hwx.
      rewrite (amps_rel s1 s' m x M6 M8 Hwx). unfold amps. now rewrite (pe_tb _ _ M5).
    + destruct collapse; [|apply M9]. destruct M9 as (_ & _ & M9). intros i Hi. unfold amps, vecF. rewrite M9.
      apply bsF_basis; auto.
Qed.
Theorem C68_measureAll s hs n e : freach (s, hs) -> In (H KV n e) hs -> is_term (en e) = false -> cv (ew e) <> RtoC 0 ->
  exists T, looks_up T /\
    (forall b, (b < 2 ^ n)%nat -> (Rabs (weight n T b - born n (amps s n e) b) <= esamp n)%R /\ (amps s n e b = RtoC 0 -> weight n T b = 0%R)) /\
    forall collapse ths, (n <= length ths)%nat -> (forall x, In x ths -> unif x) ->
      exists b e' s', measureAll e collapse ths s = Some (bitstring n b, e', s') /\ (b < 2 ^ n)%nat /\
        (forall b', (b' < 2 ^ n)%nat -> (selects n T (map nr ths) b' <-> b' = b)) /\ amps s n e b <> RtoC 0 /\
        freach (s', H KV n e' :: hs) /\ (forall m x, In (H KV m x) hs -> amps s' m x = amps s m x) /\
        (if collapse then veq n (amps s' n e') (basis b) else e' = e).
Proof. intros Hr Hin Ht Hz. destruct (C68_measureAll_num s hs n e Hr Hin Ht Hz) as (T & _ & HT). exists T. exact HT. Qed.

(* after a circuit: the ideal vector has norm 1, its entries' squared moduli are the
   probabilities prescribed by quantum mechanics *)
Theorem C68_circuit n gd ops fs s hs e : size_ok n -> (0 <= gd)%R -> Forall2 (rounds gd) ops fs ->
  (forall o, In o ops -> op_ok n o /\ op_unitary o) -> fcirc n fs (s, hs) e ->
  let ec := ecirc n gd (length ops) in (ec < 1)%R ->
  ((n <= 30)%nat -> exists l s', probabilities e s = Some (l, s') /\ fcirc n fs (s', hs) e /\ length l = (2 ^ n)%nat /\
     forall i, (i < 2 ^ n)%nat -> let p := nr (nth i l n0) in
       (0 <= p <= 1)%R /\ (Rabs (p - Cmod (ideal n ops i) ^ 2) <= eprob n + 4 * ec)%R) /\
  exists T, looks_up T /\
    (forall b, (b < 2 ^ n)%nat -> (Rabs (weight n T b - Cmod (ideal n ops b) ^ 2) <= esamp n + 4 * ec)%R) /\
    forall collapse ths, (n <= length ths)%nat -> (forall x, In x ths -> unif x) ->
      exists b e' s', measureAll e collapse ths s = Some (bitstring n b, e', s') /\ (b < 2 ^ n)%nat /\
        (forall b', (b' < 2 ^ n)%nat -> (selects n T (map nr ths) b' <-> b' = b)) /\
        fcirc n fs (s', H KV n e' :: hs) e /\
        (if collapse then veq n (amps s' n e') (basis b) else e' = e).
Proof.
  intros Hn Hgd HF Hok Hc ec Hec. destruct (fcirc_ok n gd fs (s, hs) e Hn Hgd Hc ops HF Hok) as (Hr & Hin & Hd). cbn [fst snd] in *. fold ec in Hd.
  destruct (C67_circuit n gd ops fs s hs e Hn Hgd HF Hok Hc) as (_ & _ & Hnt). specialize (Hnt Hec).
  pose proof (ideal_norm n ops Hok) as Hi1.
  assert (Hz : cv (ew e) <> RtoC 0).
  { intros X. rewrite (dist_zero n (amps s n e)) in Hd; [lra| |exact Hi1]. intros i _. unfold amps, vecF, FpA.val. rewrite X. ring. }
  assert (HB : forall i, (i < 2 ^ n)%nat -> (Rabs (born n (amps s n e) i - Cmod (ideal n ops i) ^ 2) <= 4 * ec)%R).
  { intros i Hi. apply born_close; auto. }
  assert (Htri : forall x y z a b, (Rabs (x - y) <= a)%R -> (Rabs (y - z) <= b)%R -> (Rabs (x - z) <= a + b)%R).
  { intros x y z a b H1 H2. replace (x - z)%R with ((x - y) + (y - z))%R by ring. eapply Rle_trans; [apply Rabs_triang|lra]. }
  split.
  - intros Hn30. destruct (C68_probabilities s hs n e Hr Hin Hn30 Hnt Hz) as (l & s' & P1 & _ & P3 & _ & _ & P6).
    exists l, s'. split; [exact P1|]. split; [exact (fc_probs n fs s hs e n e l s' Hc Hin Hnt Hn30 P1)|]. split; [exact P3|].
    intros i Hi. destruct (P6 i Hi) as (Q1 & Q2 & _). split; [exact Q1|]. eapply Htri; [exact Q2|now apply HB].
  - destruct (C68_measureAll s hs n e Hr Hin Hnt Hz) as (T & T1 & T2 & T3). exists T. split; [exact T1|]. split.
    + intros b Hb. destruct (T2 b Hb) as [Q _]. eapply Htri; [exact Q|now apply HB].
    + intros collapse ths Hl Hu. destruct (T3 collapse ths Hl Hu) as (b & e' & s' & M1 & M2 & M3 & _ & _ & _ & M7).
      exists b, e', s'. split; [exact M1|]. split; [exact M2|]. split; [exact M3|]. split; [|exact M7].
      exact (fc_all n fs s hs e n e collapse ths _ e' s' Hc Hin Hnt Hz Hl Hu M1).
Qed.
End FpMeasP.
