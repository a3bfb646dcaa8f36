(* GroverL.v -- linear algebra of the Grover search (property C62): the oracle and
   the diffusion as operators on amplitudes.  No decision diagrams here. *)
From Coq Require Import Reals Lra Psatz ZArith Bool List Lia Arith.
From Coquelicot Require Import Complex.
From Verif Require Import Num Gates RNum Spec SpecP Readout GateMat BackendP PauliP Circuit.
Import ListNotations.
Open Scope nat_scope.

Notation gX := (@Xmat (RNum 0)).
Notation gZ := (@Zmat (RNum 0)).
Notation gH := (@Hmat (RNum 0)).
Definition P1 : matrix := m2x2 (RtoC 0) (RtoC 0) (RtoC 0) (RtoC 1).
Definition J2 : matrix := fun _ _ => RtoC (1 / 2).

(* ---- one matrix on each of the first q qubits of T ---- *)
Definition lay (T q : nat) (g : matrix) (v : vector) : vector := each1 T (fun _ => g) (seq 0 q) v.
Lemma each1_app T g a b v : each1 T g (a ++ b) v = each1 T g b (each1 T g a v).
Proof. revert v. induction a as [|x a IH]; intros v; cbn; auto. Qed.
Lemma lay_S T q g v : lay T (S q) g v = mv T (gate1 T g q []) (lay T q g v).
Proof. unfold lay. rewrite seq_S, each1_app. reflexivity. Qed.
Lemma lay_veq T q g v w : veq T v w -> veq T (lay T q g v) (lay T q g w).
Proof. apply each1_veq. Qed.
Lemma lay_meq T q g h v : q <= T -> meq 1 g h -> veq T (lay T q g v) (lay T q h v).
Proof. intros Hq H. apply each1_meq; auto. intros x Hx. apply in_seq in Hx. lia. Qed.
Lemma lay_comp T q g h v : q <= T -> veq T (lay T q g (lay T q h v)) (lay T q (mm 1 g h) v).
Proof.
  intros Hq. revert v. induction q as [|q IH]; intros v; [apply veq_refl|]. rewrite !lay_S.
  eapply veq_trans; [apply mv_veq|].
  { unfold lay at 1. apply each1_comm; [lia| |]; intros; rewrite in_seq in *; lia. }
  fold (lay T q g (lay T q h v)).
  eapply veq_trans; [apply gate1_mv_mm; lia|]. apply mv_veq, IH. lia.
Qed.
Lemma mv_plus T A v w : veq T (mv T A (fun i => Cplus (v i) (w i))) (fun i => Cplus (mv T A v i) (mv T A w i)).
Proof. intros i Hi. unfold mv. rewrite <- csum_plus. apply csum_ext'. intros; ring. Qed.
Lemma mv_cscal T A c v : veq T (mv T A (fun i => Cmult c (v i))) (fun i => Cmult c (mv T A v i)).
Proof. intros i Hi. unfold mv. rewrite <- csum_scal. apply csum_ext'. intros; ring. Qed.
Lemma lay_lin T q g v c w : veq T (lay T q g (fun i => Cplus (v i) (Cmult c (w i)))) (fun i => Cplus (lay T q g v i) (Cmult c (lay T q g w i))).
Proof.
  induction q as [|q IH]; [apply veq_refl|]. rewrite !lay_S. eapply veq_trans; [apply mv_veq, IH|].
  eapply veq_trans; [apply (mv_plus T _ (lay T q g v) (fun i => Cmult c (lay T q g w i)))|].
  intros i Hi. f_equal. now apply mv_cscal.
Qed.
Lemma lay_ident T q v : q <= T -> veq T (lay T q ident v) v.
Proof.
  intros Hq. induction q as [|q IH]; [apply veq_refl|]. rewrite lay_S. eapply veq_trans; [apply mv_veq, IH; lia|].
  eapply veq_trans; [|apply mv_ident]. intros i Hi. apply mv_ext; auto using veq_refl. apply gate1_ident; lia.
Qed.

(* ---- products of the 2x2 matrices ---- *)
Lemma HH : meq 1 (mm 1 gH gH) ident. Proof. apply (C23_constant_relations 0). Qed.
Lemma XX : meq 1 (mm 1 gX gX) ident. Proof. apply (C23_constant_relations 0). Qed.
Lemma gH_val : meq 1 gH (m2x2 (RtoC s2) (RtoC s2) (RtoC s2) (RtoC (- s2))).
Proof.
  intros i j Hi Hj. cbn in Hi, Hj. apply lt2 in Hi. apply lt2 in Hj. destruct Hi as [->| ->], Hj as [->| ->];
    unfold Hmat, mk2, m2x2, cf_SQRT2_2, cf_mSQRT2_2, copp; rewrite ?SQRT2_n; cbn; unfold RtoC; f_equal; lra.
Qed.
Lemma gX_val : meq 1 gX (m2x2 (RtoC 0) (RtoC 1) (RtoC 1) (RtoC 0)).
Proof.
  intros i j Hi Hj. cbn in Hi, Hj. apply lt2 in Hi. apply lt2 in Hj. destruct Hi as [->| ->], Hj as [->| ->]; reflexivity.
Qed.
Lemma gZ_val : meq 1 gZ (m2x2 (RtoC 1) (RtoC 0) (RtoC 0) (RtoC (-1))).
Proof.
  intros i j Hi Hj. cbn in Hi, Hj. apply lt2 in Hi. apply lt2 in Hj. destruct Hi as [->| ->], Hj as [->| ->]; reflexivity.
Qed.
Lemma s22 : Cmult (RtoC s2) (RtoC s2) = RtoC (1 / 2).
Proof. rewrite <- RtoC_mult. f_equal. rewrite s2_sq. lra. Qed.
Lemma HXXH : meq 1 (mm 1 gH (mm 1 gX (mm 1 gX gH))) ident.
Proof.
  eapply meq_trans; [apply mm_ext; [apply meq_refl|]|apply HH].
  eapply meq_trans; [apply meq_sym, mm_assoc|]. eapply meq_trans; [apply mm_ext; [apply XX|apply meq_refl]|]. apply mm_ident_l.
Qed.
Lemma HXPXH : meq 1 (mm 1 gH (mm 1 gX (mm 1 P1 (mm 1 gX gH)))) J2.
Proof.
  eapply meq_trans; [apply mm_ext; [apply gH_val|apply mm_ext; [apply gX_val|apply mm_ext; [apply meq_refl|apply mm_ext; [apply gX_val|apply gH_val]]]]|].
  intros i j Hi Hj. unfold J2. rewrite <- s22. cbn in Hi, Hj. apply lt2 in Hi. apply lt2 in Hj.
  destruct Hi as [->| ->], Hj as [->| ->]; unfold mm, P1, m2x2; cbn -[s2 Cmult Cplus RtoC]; ring.
Qed.

(* ---- the three gates in the middle of the diffusion: a sign on all-ones ---- *)
Definition ones (q i : nat) : bool := forallb (fun k => Nat.testbit i k) (seq 0 q).
Lemma ones_S q i : ones (S q) i = ones q i && Nat.testbit i q.
Proof. unfold ones. rewrite seq_S, forallb_app. cbn. now rewrite andb_true_r. Qed.
Lemma bit_cases i t : (bit i t = 0 /\ Nat.testbit i t = false) \/ (bit i t = 1 /\ Nat.testbit i t = true).
Proof. unfold bit. destruct (Nat.testbit i t); auto. Qed.
Lemma act1 T t g h v i : t < T -> i < 2 ^ T -> meq 1 g h ->
  mv T (gate1 T g t []) v i = Cplus (Cmult (h (bit i t) 0) (v (setb i t 0))) (Cmult (h (bit i t) 1) (v (setb i t 1))).
Proof.
  intros Ht Hi Hm. rewrite gate1_action by auto. cbn [ctl_ok forallb]. pose proof (bit_lt2 i t). rewrite !Hm by (cbn; lia). reflexivity.
Qed.
Lemma lay_P1 T q v : q <= T -> forall i, i < 2 ^ T -> lay T q P1 v i = if ones q i then v i else RtoC 0.
Proof.
  induction q as [|q IH]; intros Hq i Hi; [reflexivity|]. rewrite lay_S. rewrite (act1 T q P1 P1) by (auto using meq_refl; lia).
  rewrite !IH by (auto using setb_lt; lia). rewrite ones_S. pose proof (setb_self i q) as Hs.
  destruct (bit_cases i q) as [[Hb Ht]|[Hb Ht]]; rewrite Hb in *; rewrite Ht; unfold P1, m2x2; cbn [Nat.eqb andb].
  - rewrite andb_false_r. ring.
  - rewrite andb_true_r, Hs. ring.
Qed.
Definition pos_ctls (q : nat) : ctls := map (fun i => (Z.of_nat i, true)) (seq 0 q).
Lemma pos_ctls_ok q i : ctl_ok (pos_ctls q) i = ones q i.
Proof.
  unfold ctl_ok, pos_ctls, ones. induction (seq 0 q) as [|x l IH]; cbn; auto. rewrite IH, Nat2Z.id. destruct (Nat.testbit i x); reflexivity.
Qed.
Lemma ones_setb q i t b : q <= t -> ones q (setb i t b) = ones q i.
Proof.
  intros Hq. induction q as [|q IH]; [reflexivity|]. rewrite !ones_S, IH, setb_testbit by lia.
  destruct (Nat.eqb_spec q t); [lia|reflexivity].
Qed.
Definition mid (T q : nat) (v : vector) : vector :=
  mv T (gate1 T gH q []) (mv T (gate1 T gX q (pos_ctls q)) (mv T (gate1 T gH q []) v)).
Lemma twoh (h x : C) : Cmult h h = RtoC (1 / 2) -> Cmult (Cplus (Cmult h h) (Cmult h h)) x = x.
Proof. intros ->. rewrite <- RtoC_plus. replace (1 / 2 + 1 / 2)%R with 1%R by lra. ring. Qed.
Lemma mid_act T q v i : q < T -> i < 2 ^ T -> mid T q v i = if ones (S q) i then Copp (v i) else v i.
Proof.
  intros Hq Hi. unfold mid. rewrite (act1 T q _ _ _ _ Hq Hi gH_val).
  assert (Hl : forall b, setb i q b < 2 ^ T) by (intros; now apply setb_lt).
  repeat (first [rewrite setb_setb | rewrite gate1_action by auto]). rewrite ?pos_ctls_ok, ?ones_setb by lia. cbn [ctl_ok forallb].
  rewrite ?bit_setb_same by lia. rewrite ones_S.
  rewrite !gX_val, !gH_val by (cbn; lia).
  pose proof (setb_self i q) as Hs. pose proof (twoh (RtoC s2) (v i) s22) as H2.
  destruct (bit_cases i q) as [[Hb Ht]|[Hb Ht]]; rewrite Hb in *; rewrite Ht; destruct (ones q i); unfold m2x2; cbn [Nat.eqb andb];
    rewrite ?RtoC_opp; rewrite ?Hs;
    first [etransitivity; [|exact H2]; ring | etransitivity; [|exact (f_equal Copp H2)]; ring].
Qed.
Lemma mid_P1 T q v : q < T -> veq T (mid T q v) (fun i => Cplus (v i) (Cmult (RtoC (-2)) (lay T (S q) P1 v i))).
Proof.
  intros Hq i Hi. rewrite mid_act, lay_P1 by (auto; lia). destruct (ones (S q) i); [|ring].
  replace (-2)%R with (- (2))%R by lra. rewrite RtoC_opp. replace (RtoC 2) with (Cplus (RtoC 1) (RtoC 1)) by (rewrite <- RtoC_plus; f_equal; lra). ring.
Qed.

(* ---- the diffusion: subtract twice the mean over the data qubits ---- *)
Definition diffuse (T n : nat) (v : vector) : vector :=
  lay T n gH (lay T n gX (mid T (n - 1) (lay T n gX (lay T n gH v)))).
Lemma diffuse_J2 T n v : 0 < n -> n <= T -> veq T (diffuse T n v) (fun i => Cplus (v i) (Cmult (RtoC (-2)) (lay T n J2 v i))).
Proof.
  intros Hn HT. unfold diffuse. set (w := lay T n gX (lay T n gH v)).
  eapply veq_trans; [apply lay_veq, lay_veq, mid_P1; lia|]. replace (S (n - 1)) with n by lia.
  eapply veq_trans; [apply lay_veq, lay_lin|]. eapply veq_trans; [apply lay_lin|].
  intros i Hi. f_equal; [|f_equal]; revert i Hi.
  - change (veq T (lay T n gH (lay T n gX w)) v). unfold w.
    eapply veq_trans; [apply lay_veq, lay_veq; apply lay_comp; lia|].
    eapply veq_trans; [apply lay_veq, lay_comp; lia|]. eapply veq_trans; [apply lay_comp; lia|].
    eapply veq_trans; [apply lay_meq; [lia|apply HXXH]|]. apply lay_ident. lia.
  - change (veq T (lay T n gH (lay T n gX (lay T n P1 w))) (lay T n J2 v)). unfold w.
    eapply veq_trans; [apply lay_veq, lay_veq, lay_veq; apply lay_comp; lia|].
    eapply veq_trans; [apply lay_veq, lay_veq, lay_comp; lia|]. eapply veq_trans; [apply lay_veq, lay_comp; lia|].
    eapply veq_trans; [apply lay_comp; lia|]. apply lay_meq; [lia|apply HXPXH].
Qed.
Lemma setb_div i q : setb i q 0 / 2 ^ q * 2 ^ q = i / 2 ^ S q * 2 ^ S q /\ setb i q 1 / 2 ^ q * 2 ^ q = i / 2 ^ S q * 2 ^ S q + 2 ^ q.
Proof.
  assert (Hp : 2 ^ q <> 0) by (apply Nat.pow_nonzero; lia).
  assert (Hb : forall c, c < 2 -> setb i q c / 2 ^ q = 2 * (i / 2 ^ S q) + c).
  { intros c Hc. apply Nat.bits_inj. intros l. rewrite <- Nat.shiftr_div_pow2, Nat.shiftr_spec', setb_testbit.
    replace c with (if Nat.eqb c 1 then 1 else 0) at 2 by (destruct c as [|[|c]]; cbn; lia).
    destruct l as [|l].
    - rewrite Nat.eqb_refl. destruct (Nat.eqb c 1); [now rewrite Nat.testbit_odd_0|rewrite Nat.add_0_r; now rewrite Nat.testbit_even_0].
    - destruct (Nat.eqb_spec (S l + q) q); [lia|]. assert (H2 : Nat.testbit (i / 2 ^ S q) l = Nat.testbit i (S l + q)).
      { rewrite <- Nat.shiftr_div_pow2, Nat.shiftr_spec'. f_equal. lia. }
      destruct (Nat.eqb c 1); [rewrite Nat.testbit_odd_succ by lia|rewrite Nat.add_0_r, Nat.testbit_even_succ by lia]; symmetry; exact H2. }
  rewrite !Hb by lia. cbn [Nat.pow]. split; nia.
Qed.
Definition mean_block (q : nat) (v : vector) (i : nat) : C :=
  Cmult (RtoC ((1 / 2) ^ q)) (csum (2 ^ q) (fun j => v (i / 2 ^ q * 2 ^ q + j))).
Lemma lay_J2 T q v : q <= T -> forall i, i < 2 ^ T -> lay T q J2 v i = mean_block q v i.
Proof.
  induction q as [|q IH]; intros Hq i Hi.
  - cbn. unfold mean_block. cbn [pow Nat.pow csum]. rewrite Nat.div_1_r, Nat.mul_1_r, Nat.add_0_r. ring.
  - rewrite lay_S, (act1 T q J2 J2) by (auto using meq_refl; lia). rewrite !IH by (auto using setb_lt; lia). unfold mean_block, J2.
    destruct (setb_div i q) as [-> ->]. replace (csum (2 ^ S q)) with (csum (2 ^ q + 2 ^ q)) by (f_equal; cbn; lia). rewrite csum_add.
    rewrite (csum_ext' (2 ^ q) (fun j => v (i / 2 ^ S q * 2 ^ S q + (2 ^ q + j))) (fun j => v (i / 2 ^ S q * 2 ^ S q + 2 ^ q + j)))
      by (intros; f_equal; lia).
    cbn [pow]. rewrite RtoC_mult. ring.
Qed.

(* ---- the oracle ---- *)
Definition value (o : list bool) : nat := fold_right (fun (b : bool) acc => (if b then 1 else 0) + 2 * acc) 0 o.
Lemma value_bit o k : Nat.testbit (value o) k = nth k o false.
Proof.
  revert k. induction o as [|b o IH]; intros k; [destruct k; apply Nat.bits_0|]. cbn [value fold_right]. fold (value o).
  rewrite Nat.add_comm. destruct k as [|k]; destruct b; cbn [nth]; rewrite ?Nat.add_0_r;
    rewrite ?Nat.testbit_odd_0, ?Nat.testbit_even_0, ?Nat.testbit_odd_succ, ?Nat.testbit_even_succ by lia; auto.
Qed.
Lemma value_lt o : value o < 2 ^ length o.
Proof. apply lt_pow2_bits. intros l Hl. rewrite value_bit. now apply nth_overflow. Qed.
Definition marked (o : list bool) : nat := 2 ^ length o + value o.
Definition oracle_ctls (o : list bool) (n : nat) : ctls := map (fun i => (Z.of_nat i, nth i o false)) (seq 0 n).
Lemma oracle_ctls_ok o n i : ctl_ok (oracle_ctls o n) i = forallb (fun k => Bool.eqb (Nat.testbit i k) (nth k o false)) (seq 0 n).
Proof. unfold ctl_ok, oracle_ctls. induction (seq 0 n) as [|x l IH]; cbn; auto. now rewrite IH, Nat2Z.id. Qed.
(* the state with amplitude a on the marked data, b on all other data, ancilla 1 *)
Definition st (o : list bool) (a b : R) : vector :=
  fun i => if i <? 2 ^ length o then RtoC 0 else if i =? marked o then RtoC a else RtoC b.
Lemma top_bit n i : i < 2 ^ (n + 1) -> Nat.testbit i n = negb (i <? 2 ^ n).
Proof.
  intros Hi. destruct (Nat.ltb_spec i (2 ^ n)) as [h|h]; cbn.
  - eapply pow2_bits_high; eauto.
  - replace i with (2 ^ n + (i - 2 ^ n)) by lia. rewrite testbit_add_pow; [now rewrite Nat.eqb_refl|]. rewrite Nat.add_1_r in Hi. cbn in Hi. lia.
Qed.
Lemma oracle_act o a b : let n := length o in veq (n + 1) (mv (n + 1) (gate1 (n + 1) gZ n (oracle_ctls o n)) (st o a b)) (st o (- a) b).
Proof.
  cbn zeta. set (n := length o). intros i Hi. rewrite gate1_action by (auto; lia). rewrite oracle_ctls_ok.
  rewrite !gZ_val by (cbn; pose proof (bit_lt2 i n); lia). unfold st. fold n. pose proof (top_bit n i Hi) as Ht. pose proof (setb_self i n) as Hs.
  destruct (Nat.ltb_spec i (2 ^ n)) as [h|h]; cbn [negb] in Ht; destruct (bit_cases i n) as [[Hb Ht']|[Hb Ht']]; try congruence; rewrite Hb in *; clear Ht'.
  - unfold m2x2; cbn [Nat.eqb]. rewrite !Hs. destruct (Nat.ltb_spec i (2 ^ n)); [|lia].
    destruct (forallb _ _); ring.
  - unfold m2x2; cbn [Nat.eqb]. rewrite !Hs. destruct (Nat.ltb_spec i (2 ^ n)); [lia|].
    assert (Hm : forallb (fun k => Bool.eqb (Nat.testbit i k) (nth k o false)) (seq 0 n) = (i =? marked o)).
    { destruct (Nat.eqb_spec i (marked o)) as [->|Hne].
      - apply forallb_forall. intros k Hk. apply in_seq in Hk. unfold marked. rewrite testbit_add_pow by apply value_lt.
        fold n. destruct (Nat.eqb_spec k n); [lia|]. rewrite value_bit. apply eqb_reflx.
      - apply not_true_is_false. intros Hf. apply Hne. rewrite forallb_forall in Hf. apply (bits_inj_n (n + 1)); auto.
        + unfold marked. fold n. pose proof (value_lt o). fold n in H0. rewrite Nat.add_1_r. cbn. lia.
        + intros l Hl. unfold marked. rewrite testbit_add_pow by apply value_lt. fold n. destruct (Nat.eqb_spec l n) as [->|]; auto.
          rewrite value_bit. apply eqb_prop. apply Hf. apply in_seq. lia. }
    rewrite Hm. destruct (i =? marked o); [|reflexivity]. rewrite (RtoC_opp a). replace (RtoC (-1)) with (Copp (RtoC 1)) by (rewrite <- RtoC_opp; f_equal; lra). ring.
Qed.

(* ---- the diffusion on such a state ---- *)
Lemma st_sum o a b : let n := length o in
  csum (2 ^ n) (fun j => st o a b (2 ^ n + j)) = RtoC (a + (2 ^ n - 1) * b).
Proof.
  cbn zeta. set (n := length o). rewrite (csum_ext' _ _ (fun j => Cplus (RtoC b) (if j =? value o then RtoC (a - b) else RtoC 0))).
  - rewrite csum_plus. rewrite (csum_one _ (fun j => if j =? value o then RtoC (a - b) else RtoC 0) (value o)).
    + rewrite Nat.eqb_refl. rewrite (csum_RtoC _ (fun _ => b)), Circuit.rsum_const, pow_INR. rewrite <- RtoC_plus. f_equal. change (INR 2) with (1+1)%R. replace (1+1)%R with 2%R by lra. fold n. ring.
    + apply value_lt.
    + intros j _ Hj. destruct (Nat.eqb_spec j (value o)); congruence.
  - intros j Hj. unfold st, marked. fold n. destruct (Nat.ltb_spec (2 ^ n + j) (2 ^ n)); [lia|].
    destruct (Nat.eqb_spec (2 ^ n + j) (2 ^ n + value o)), (Nat.eqb_spec j (value o)); try lia.
    + rewrite <- RtoC_plus. f_equal. ring.
    + rewrite <- RtoC_plus. f_equal. ring.
Qed.
Lemma diffuse_act o a b : let n := length o in 0 < n -> let m := ((a + (2 ^ n - 1) * b) / 2 ^ n)%R in
  veq (n + 1) (diffuse (n + 1) n (st o a b)) (st o (a - 2 * m) (b - 2 * m)).
Proof.
  cbn zeta. set (n := length o). intros Hn i Hi. rewrite diffuse_J2, lay_J2 by (auto; lia). unfold mean_block.
  assert (Hp : 2 ^ n <> 0) by (apply Nat.pow_nonzero; lia). rewrite Nat.add_1_r in Hi. cbn in Hi.
  destruct (Nat.lt_ge_cases i (2 ^ n)) as [h|h].
  - rewrite (Nat.div_small i), Nat.mul_0_l by auto. rewrite csum_zero.
    + unfold st. fold n. destruct (Nat.ltb_spec i (2 ^ n)); [|lia]. ring.
    + intros j Hj. unfold st. fold n. destruct (Nat.ltb_spec (0 + j) (2 ^ n)); [reflexivity|lia].
  - replace (i / 2 ^ n) with 1 by (apply (Nat.div_unique i (2 ^ n) 1 (i - 2 ^ n)); lia). rewrite Nat.mul_1_l. pose proof (st_sum o a b) as Hss; cbn zeta in Hss; fold n in Hss; rewrite Hss; clear Hss.
    unfold st. fold n. destruct (Nat.ltb_spec i (2 ^ n)); [lia|].
    assert (H2 : ((1 / 2) ^ n = / 2 ^ n)%R) by (unfold Rdiv; now rewrite Rmult_1_l, pow_inv).
    destruct (Nat.eqb i (marked o)); rewrite <- !RtoC_mult, <- RtoC_plus; f_equal; rewrite H2; unfold Rdiv; ring.
Qed.
(* the setup: equal amplitudes *)
Lemma s2_pow n : (s2 ^ n = / sqrt (2 ^ n))%R.
Proof.
  induction n as [|n IH]; cbn; [rewrite sqrt_1; lra|]. rewrite IH, sqrt_mult by (try apply pow_le; lra).
  unfold s2. rewrite sqrt_inv by lra. rewrite Rinv_mult. reflexivity.
Qed.
Lemma lay_H0 T q b v : q <= T -> (forall i, i < 2 ^ T -> v i = if i =? b * 2 ^ q then RtoC 1 else RtoC 0) ->
  forall i, i < 2 ^ T -> lay T q gH v i = if i / 2 ^ q =? b then RtoC (s2 ^ q) else RtoC 0.
Proof.
  revert b. induction q as [|q IH]; intros b Hq Hv i Hi.
  - change (v i = if i / 1 =? b then RtoC 1 else RtoC 0). rewrite Hv by auto. cbn [Nat.pow]. now rewrite Nat.mul_1_r, Nat.div_1_r.
  - rewrite lay_S, (act1 T q _ _ _ _ ltac:(lia) Hi gH_val).
    assert (Hp : 2 ^ q <> 0) by (apply Nat.pow_nonzero; lia).
    rewrite !(IH (2 * b)) by (auto using setb_lt; try lia; intros j Hj; rewrite Hv by auto; replace (b * 2 ^ S q) with (2 * b * 2 ^ q) by (cbn [Nat.pow]; lia); reflexivity).
    destruct (setb_div i q) as [E0 E1]. cbn [Nat.pow] in E0, E1.
    assert (F0 : setb i q 0 / 2 ^ q = 2 * (i / (2 * 2 ^ q))) by nia. assert (F1 : setb i q 1 / 2 ^ q = 2 * (i / (2 * 2 ^ q)) + 1) by nia.
    rewrite F0, F1. cbn [Nat.pow]. destruct (Nat.eqb_spec (2 * (i / (2 * 2 ^ q)) + 1) (2 * b)); [lia|].
    destruct (Nat.eqb_spec (2 * (i / (2 * 2 ^ q))) (2 * b)), (Nat.eqb_spec (i / (2 * 2 ^ q)) b); try lia.
    + cbn [pow]. rewrite RtoC_mult. pose proof (bit_lt2 i q). destruct (bit i q) as [|[|]]; [| |lia]; unfold m2x2; cbn [Nat.eqb]; ring.
    + ring.
Qed.
Definition setup (T n : nat) : vector := lay T n gH (mv T (gate1 T gX n []) (basis 0)).
Lemma setup_act o : let n := length o in veq (n + 1) (setup (n + 1) n) (st o (/ sqrt (2 ^ n)) (/ sqrt (2 ^ n))).
Proof.
  cbn zeta. set (n := length o). intros i Hi. unfold setup. assert (Hp : 2 ^ n <> 0) by (apply Nat.pow_nonzero; lia).
  rewrite (lay_H0 (n + 1) n 1); auto; try lia.
  - rewrite s2_pow. unfold st. fold n. rewrite Nat.add_1_r in Hi. cbn in Hi. destruct (Nat.ltb_spec i (2 ^ n)).
    + rewrite Nat.div_small by auto. reflexivity.
    + replace (i / 2 ^ n) with 1 by (apply (Nat.div_unique i (2 ^ n) 1 (i - 2 ^ n)); lia). cbn [Nat.eqb]. destruct (i =? marked o); reflexivity.
  - intros j Hj. rewrite (act1 (n + 1) n _ _ _ _ ltac:(lia) Hj gX_val). rewrite Nat.mul_1_l. unfold basis.
    assert (Hs1 : setb j n 1 <> 0). { intros E. assert (H := setb_testbit j n 1 n). rewrite E, Nat.bits_0, Nat.eqb_refl in H. discriminate. }
    destruct (Nat.eqb_spec (setb j n 1) 0); [contradiction|].
    assert (H0 : setb j n 0 = 0 <-> j = 0 \/ j = 2 ^ n).
    { split.
      - intros E. destruct (bit_cases j n) as [[Hb _]|[Hb _]].
        + left. rewrite <- (setb_self j n), Hb. exact E.
        + right. apply (bits_inj_n (n + 1)); auto; [rewrite Nat.add_1_r; cbn; lia|]. intros l Hl. rewrite Nat.pow2_bits_eqb.
          destruct (Nat.eqb_spec n l) as [<-|Hne]; [unfold bit in Hb; destruct (Nat.testbit j n); congruence|].
          assert (H := setb_testbit j n 0 l). rewrite E, Nat.bits_0 in H. destruct (Nat.eqb_spec l n); [lia|]. now rewrite <- H.
      - intros Hj'. apply (bits_inj_n (n + 1)); [apply setb_lt; auto; lia|rewrite Nat.add_1_r; cbn; lia|]. intros l Hl.
        rewrite setb_testbit, Nat.bits_0. destruct (Nat.eqb_spec l n); [reflexivity|]. destruct Hj' as [->| ->]; [apply Nat.bits_0|].
        rewrite Nat.pow2_bits_eqb. destruct (Nat.eqb_spec n l); congruence. }
    destruct (bit_cases j n) as [[Hb Ht]|[Hb Ht]]; rewrite Hb; unfold m2x2; cbn [Nat.eqb].
    + destruct (Nat.eqb_spec j (2 ^ n)) as [->|]; [rewrite Nat.pow2_bits_true in Ht; discriminate|]. ring.
    + destruct (Nat.eqb_spec (setb j n 0) 0) as [E|E], (Nat.eqb_spec j (2 ^ n)) as [Hne|Hne]; try ring.
      * exfalso. apply H0 in E. destruct E as [->|E]; [rewrite Nat.bits_0 in Ht; discriminate|contradiction].
      * exfalso. apply E, H0. now right.
Qed.
