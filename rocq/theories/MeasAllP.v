(* MeasAllP.v -- measureAll samples by the Born rule and collapses to the
   outcome. *)
From Coq Require Import Reals Lra Psatz ZArith Bool List Lia Arith.
From Coquelicot Require Import Complex.
From Verif Require Import Num State DD Gates Measure RNum Wf Sums Err Inv Wp Make Add MulV Canon GateP StateP Spec Readout MeasureP.
Import ListNotations.
Open Scope Z_scope.

(* low k bits from ix, the others from b *)
Definition lowhi (k : nat) (ix b : nat -> nat) : nat -> nat := fun l => if Nat.ltb l k then ix l else b l.
(* weight of the outcomes that agree with b from level k up *)
Definition mgF (F : (nat -> nat) -> C) (k : nat) (b : nat -> nat) : R :=
  rbsum k (fun ix => (Cmod (F (lowhi k ix b)) ^ 2)%R).
Definition local (n : nat) (F : (nat -> nat) -> C) : Prop :=
  forall f g, (forall l, (l < n)%nat -> f l = g l) -> F f = F g.

Lemma mgF_nonneg F k b : (0 <= mgF F k b)%R.
Proof. apply rbsum_nonneg. intros. apply pow2_ge_0. Qed.
Lemma mgF_scal F G k b a : (forall ix, (Cmod (F (lowhi k ix b)) ^ 2 = a * Cmod (G (lowhi k ix b)) ^ 2)%R) ->
  mgF F k b = (a * mgF G k b)%R.
Proof. intros H. unfold mgF. rewrite <- rbsum_scal. apply rbsum_ext. exact H. Qed.
Lemma mgF_S n F k b : local n F -> mgF F (S k) b = (mgF F k (ixset b k 0) + mgF F k (ixset b k 1))%R.
Proof.
  intros HL. unfold mgF. cbn [rbsum]. f_equal; apply rbsum_ext; intros ix; apply (f_equal (fun x => (Cmod x ^ 2)%R)); apply HL;
    intros l _; unfold lowhi, ixset; destruct (Nat.eqb_spec l k);
    destruct (Nat.ltb_spec l (S k)); destruct (Nat.ltb_spec l k); try lia; auto.
Qed.
Lemma mgF_local n F k b b' : local n F -> (forall l, (k <= l < n)%nat -> b l = b' l) -> mgF F k b = mgF F k b'.
Proof.
  intros HL H. unfold mgF. apply rbsum_ext. intros ix. apply (f_equal (fun x => (Cmod x ^ 2)%R)). apply HL. intros l Hl. unfold lowhi.
  destruct (Nat.ltb_spec l k); [reflexivity|]. apply H. lia.
Qed.

(* the rule: bit k is 1 iff the k-th draw is at least the conditional
   probability of 0 *)
Definition drawn (F : (nat -> nat) -> C) (l : nat) (ths : list R) (b : nat -> nat) : Prop :=
  forall k, (k < l)%nat ->
    if Nat.eqb (b k) 1 then (mgF F k (ixset b k 0) / mgF F (S k) b <= nth (l - 1 - k) ths 0)%R
    else (nth (l - 1 - k) ths 0 < mgF F k (ixset b k 0) / mgF F (S k) b)%R.

(* ---- integers versus index functions ---------------------------------------- *)
Lemma ofbits n (b : nat -> nat) : (forall k, (b k < 2)%nat) ->
  exists B, (B < 2 ^ n)%nat /\ forall l, (l < n)%nat -> bix B l = b l.
Proof.
  intros Hb. induction n as [|m (B & H1 & H2)].
  - exists 0%nat. split; [cbn; lia|intros; lia].
  - destruct (Nat.eq_dec (b m) 0) as [Hz|Hz].
    + exists B. split; [cbn; lia|]. intros l Hl. destruct (Nat.eq_dec l m) as [->|]; [|apply H2; lia].
      unfold bix. rewrite (bit_high B m m H1) by lia. auto.
    + exists (2 ^ m + B)%nat. split; [cbn; lia|]. intros l Hl. rewrite <- (bix_hi m B H1). unfold ixset.
      destruct (Nat.eqb_spec l m) as [->|]; [|apply H2; lia]. specialize (Hb m). lia.
Qed.
Lemma lowhi_bix k i B : (i < 2 ^ k)%nat -> forall l, lowhi k (bix i) (bix B) l = bix (B / 2 ^ k * 2 ^ k + i) l.
Proof.
  intros Hi l. unfold lowhi, bix, bit.
  assert (Hp : (2 ^ k <> 0)%nat) by (apply Nat.pow_nonzero; lia).
  destruct (Nat.ltb_spec l k).
  - rewrite <- (Nat.mod_pow2_bits_low (B / 2 ^ k * 2 ^ k + i) k l) by auto.
    rewrite Nat.add_comm, Nat.mod_add by auto. rewrite Nat.mod_small by auto. reflexivity.
  - replace l with ((l - k) + k)%nat by lia. rewrite <- !Nat.div_pow2_bits.
    rewrite Nat.div_add_l by auto. rewrite (Nat.div_small i) by auto. rewrite Nat.add_0_r. reflexivity.
Qed.
Lemma mgF_marg n F k B : local n F -> mgF F k (bix B) = marg (vecF F) k B.
Proof.
  intros HL. unfold mgF, marg. rewrite rbsum_rsum. apply rsum_ext. intros i Hi. unfold vecF.
  apply (f_equal (fun x => (Cmod x ^ 2)%R)). apply HL. intros l _. apply lowhi_bix. exact Hi.
Qed.
Lemma bix_clear B k l : bix (Nat.clearbit B k) l = ixset (bix B) k 0 l.
Proof.
  unfold bix, ixset, bit. rewrite Nat.clearbit_eqb. destruct (Nat.eqb_spec l k) as [->|Hn].
  - rewrite Nat.eqb_refl. cbn. rewrite andb_false_r. reflexivity.
  - destruct (Nat.eqb_spec k l); [congruence|]. cbn. rewrite andb_true_r. reflexivity.
Qed.
Lemma drawn_draws n F ths b B : local n F -> (forall l, (l < n)%nat -> bix B l = b l) -> drawn F n ths b ->
  draws n (vecF F) ths B.
Proof.
  intros HL HB Hd k Hk. specialize (Hd k Hk). unfold cond0.
  rewrite <- (mgF_marg n F k _ HL), <- (mgF_marg n F (S k) _ HL).
  rewrite (mgF_local n F k (bix (Nat.clearbit B k)) (ixset b k 0) HL).
  2:{ intros l Hl. rewrite bix_clear. unfold ixset. destruct (Nat.eqb l k); auto. apply HB. lia. }
  rewrite (mgF_local n F (S k) (bix B) b HL) by (intros l Hl; apply HB; lia).
  rewrite <- (HB k Hk) in Hd. unfold bix, bit in Hd. destruct (Nat.testbit B k); cbn [Nat.eqb] in Hd; split; auto; try discriminate.
  intros X. exfalso; lra.
Qed.

(* ---- the arithmetic of the Born rule ----------------------------------------- *)
Lemma marg_split v k b : marg v (S k) b = (marg v k (Nat.clearbit b k) + marg v k (Nat.setbit b k))%R.
Proof.
  unfold marg. replace (2 ^ S k)%nat with (2 ^ k + 2 ^ k)%nat by (cbn; lia). rewrite rsum_add.
  assert (Hp : (2 ^ k <> 0)%nat) by (apply Nat.pow_nonzero; lia).
  set (q := (b / (2 ^ k + 2 ^ k))%nat).
  assert (Hq : q = (b / 2 ^ k / 2)%nat). { unfold q. rewrite Nat.div_div by lia. f_equal. lia. }
  assert (Hbits : forall c d, (c / 2 ^ k = 2 * q + d)%nat -> (forall i, (c / 2 ^ k * 2 ^ k + i = q * (2 ^ k + 2 ^ k) + (d * 2 ^ k + i))%nat)) by (intros c d -> i; nia).
  assert (H0 : (Nat.clearbit b k / 2 ^ k = 2 * q + 0)%nat).
  { apply Nat.bits_inj. intros l. rewrite Nat.div_pow2_bits, Nat.clearbit_eqb, Nat.add_0_r.
    destruct l as [|l].
    - rewrite Nat.testbit_even_0. cbn. rewrite Nat.eqb_refl. cbn. apply andb_false_r.
    - rewrite Nat.testbit_even_succ by lia. rewrite Hq. replace (b / 2 ^ k / 2)%nat with (b / 2 ^ k / 2 ^ 1)%nat by reflexivity.
      rewrite !Nat.div_pow2_bits. destruct (Nat.eqb_spec k (S l + k)); [lia|]. cbn [negb]. rewrite andb_true_r. f_equal. lia. }
  assert (H1 : (Nat.setbit b k / 2 ^ k = 2 * q + 1)%nat).
  { apply Nat.bits_inj. intros l. rewrite Nat.div_pow2_bits, Nat.setbit_eqb.
    destruct l as [|l].
    - rewrite Nat.testbit_odd_0. cbn. rewrite Nat.eqb_refl. reflexivity.
    - rewrite Nat.testbit_odd_succ by lia. rewrite Hq. replace (b / 2 ^ k / 2)%nat with (b / 2 ^ k / 2 ^ 1)%nat by reflexivity.
      rewrite !Nat.div_pow2_bits. destruct (Nat.eqb_spec k (S l + k)); [lia|]. cbn [orb]. f_equal. lia. }
  f_equal; apply rsum_ext; intros i _; apply (f_equal (fun x => (Cmod (v x) ^ 2)%R)).
  - rewrite (Hbits _ _ H0 i). lia.
  - rewrite (Hbits _ _ H1 i). lia.
Qed.
Lemma rsum_nonneg N f : (forall i, (0 <= f i)%R) -> (0 <= rsum N f)%R.
Proof. intros H. induction N; cbn; [lra|]. specialize (H N). lra. Qed.
Lemma marg_nonneg v k b : (0 <= marg v k b)%R.
Proof. apply rsum_nonneg. intros. apply pow2_ge_0. Qed.
Lemma marg_0 v b : marg v 0 b = (Cmod (v b) ^ 2)%R.
Proof. unfold marg. cbn [Nat.pow rsum]. rewrite Nat.div_1_r, Nat.mul_1_r, Nat.add_0_r. lra. Qed.
Lemma marg_top n v b : (b < 2 ^ n)%nat -> marg v n b = norm2v n v.
Proof. intros H. unfold marg, norm2v. rewrite Nat.div_small by auto. reflexivity. Qed.
(* one of the two halves is the half of b itself *)
Lemma marg_self v k b : marg v k b = if Nat.testbit b k then marg v k (Nat.setbit b k) else marg v k (Nat.clearbit b k).
Proof.
  destruct (Nat.testbit b k) eqn:Hb; f_equal; apply Nat.bits_inj; intros l.
  - rewrite Nat.setbit_eqb. destruct (Nat.eqb_spec k l); subst; auto. 
  - rewrite Nat.clearbit_eqb. destruct (Nat.eqb_spec k l); subst; cbn; [rewrite Hb; reflexivity|rewrite andb_true_r; reflexivity].
Qed.
Lemma marg_mono v k b : (marg v k b <= marg v (S k) b)%R.
Proof.
  rewrite (marg_self v k b), marg_split. pose proof (marg_nonneg v k (Nat.setbit b k)). pose proof (marg_nonneg v k (Nat.clearbit b k)).
  destruct (Nat.testbit b k); lra.
Qed.
Lemma marg_pos v b k : (0 < Cmod (v b))%R -> (0 < marg v k b)%R.
Proof.
  intros H. induction k as [|k IH]; [rewrite marg_0; apply pow_lt; exact H|].
  pose proof (marg_mono v k b). lra.
Qed.
Lemma interval_len v b k : (0 < Cmod (v b))%R -> (hi_of v b k - lo_of v b k = marg v k b / marg v (S k) b)%R.
Proof.
  intros H. pose proof (marg_pos v b (S k) H) as Hp. unfold hi_of, lo_of, cond0. rewrite (marg_self v k b) .
  rewrite marg_split in Hp |- *. destruct (Nat.testbit b k); field; lra.
Qed.
Theorem born_product n v b : (b < 2 ^ n)%nat -> (0 < Cmod (v b))%R ->
  (rprod n (fun k => hi_of v b k - lo_of v b k) = Cmod (v b) ^ 2 / norm2v n v)%R.
Proof.
  intros Hb Hp. rewrite <- (marg_top n v b Hb). rewrite <- marg_0. clear Hb.
  induction n as [|n IH].
  - cbn [rprod]. field. pose proof (marg_pos v b 0 Hp). lra.
  - cbn [rprod]. rewrite IH, interval_len by auto.
    pose proof (marg_pos v b n Hp). pose proof (marg_pos v b (S n) Hp). field. lra.
Qed.
Lemma cond0_range v b k : (0 < Cmod (v b))%R -> (0 <= lo_of v b k /\ hi_of v b k <= 1)%R.
Proof.
  intros H. pose proof (marg_pos v b (S k) H) as Hp. unfold hi_of, lo_of, cond0.
  pose proof (marg_nonneg v k (Nat.setbit b k)) as N1. pose proof (marg_nonneg v k (Nat.clearbit b k)) as N0.
  rewrite marg_split in Hp |- *.
  assert (Hle : (0 <= marg v k (Nat.clearbit b k) / (marg v k (Nat.clearbit b k) + marg v k (Nat.setbit b k)) <= 1)%R).
  { split; [apply Rmult_le_pos; [lra|apply Rlt_le, Rinv_0_lt_compat; lra]|].
    apply (Rmult_le_reg_r (marg v k (Nat.clearbit b k) + marg v k (Nat.setbit b k))%R); [lra|].
    unfold Rdiv. rewrite Rmult_assoc, Rinv_l by lra. lra. }
  destruct (Nat.testbit b k); lra.
Qed.
(* draws in [0,1) : the rule is exactly membership in the intervals *)
Theorem draws_intervals n v ths b : (forall k, (k < n)%nat -> (0 <= nth k ths 0 < 1)%R) ->
  (draws n v ths b <-> forall k, (k < n)%nat -> (lo_of v b k <= nth (n - 1 - k) ths 0 < hi_of v b k)%R).
Proof.
  intros Hth. unfold draws, lo_of, hi_of. split; intros H k Hk; specialize (H k Hk); specialize (Hth (n - 1 - k)%nat ltac:(lia));
    destruct (Nat.testbit b k) eqn:Hb.
  - split; [apply H; reflexivity|lra].
  - split; [lra|]. apply Rnot_le_lt. intros X. apply H in X. discriminate.
  - split; [intros _; lra|reflexivity].
  - split; [discriminate|intros X; lra].
Qed.
(* the draws determine the outcome *)
Lemma cond0_prefix v k b b' : (b / 2 ^ S k = b' / 2 ^ S k)%nat -> cond0 v k b = cond0 v k b'.
Proof.
  intros H. unfold cond0. f_equal.
  - unfold marg. apply rsum_ext. intros i _. do 2 f_equal. f_equal. f_equal. f_equal.
    apply Nat.bits_inj. intros l. rewrite !Nat.div_pow2_bits, !Nat.clearbit_eqb.
    destruct l as [|l].
    + cbn. rewrite Nat.eqb_refl. cbn. rewrite !andb_false_r. reflexivity.
    + f_equal. replace (S l + k)%nat with (l + S k)%nat by lia. rewrite <- !Nat.div_pow2_bits. rewrite H. reflexivity.
  - unfold marg. rewrite H. reflexivity.
Qed.
Theorem draws_unique n v ths b b' : (b < 2 ^ n)%nat -> (b' < 2 ^ n)%nat -> draws n v ths b -> draws n v ths b' -> b = b'.
Proof.
  intros Hb Hb' Hd Hd'.
  assert (H : forall j, (j <= n)%nat -> (b / 2 ^ (n - j) = b' / 2 ^ (n - j))%nat).
  { induction j as [|j IH]; intros Hj.
    - rewrite Nat.sub_0_r, !Nat.div_small; auto.
    - specialize (IH ltac:(lia)). set (k := (n - S j)%nat). replace (n - j)%nat with (S k) in IH by lia.
      pose proof (cond0_prefix v k b b' IH) as Hc. specialize (Hd k ltac:(lia)). specialize (Hd' k ltac:(lia)). rewrite Hc in Hd.
      apply Nat.bits_inj. intros l. rewrite !Nat.div_pow2_bits. destruct l as [|l].
      + cbn. apply Bool.eq_true_iff_eq. tauto.
      + replace (S l + k)%nat with (l + S k)%nat by lia. rewrite <- !Nat.div_pow2_bits. rewrite IH. reflexivity. }
  specialize (H n (le_n n)). rewrite Nat.sub_diag in H. change (2 ^ 0)%nat with 1%nat in H. rewrite !Nat.div_1_r in H. exact H.
Qed.

Section MeasAllP.
Context (tau : R) {HTol : Tol tau}.
Let Htau : (0 <= tau < 1 / 2)%R := tol_ok.
#[local] Hint Extern 0 NumOps => exact (RNum tau) : typeclass_instances.
Context {CF : Cfg}.
Notation table := (@table (RNum tau)).
Notation state := (@state (RNum tau)).
Notation edge := (@edge (RNum tau)).
Notation node := (@node (RNum tau)).
Notation val := (val tau).
Notation valp := (valp tau).
Notation wfe := (wfe tau).
Notation wfp := (wfp tau).
Notation reg := (reg tau).
Notation TInv := (TInv tau).
Notation Inv := (Inv tau).
Notation rel := (rel tau).
Notation psum := (psum tau).
Notation chd := (chd tau).
Notation pext := (pext tau).
Notation E := (@E (RNum tau)).
Ltac toR := change (@num (RNum tau)) with R in *.

Lemma valp_loc k t n p : local n (valp k t n p).
Proof. intros f g H. apply valp_local. exact H. Qed.

Lemma mg_child t m a nd k b : reg KV t a nd -> nv nd = Z.of_nat m -> (k <= m)%nat ->
  mgF (valp KV t (S m) (Node a)) k b
   = (Cmod (ew (chd nd (b m))) ^ 2 * mgF (valp KV t m (en (chd nd (b m)))) k b)%R.
Proof.
  intros Hr Hv Hk. apply mgF_scal. intros ix. rewrite (valp_S_node tau KV t m a nd _ Hr Hv).
  assert (Hb : lowhi k ix b m = b m). { unfold lowhi. destruct (Nat.ltb_spec m k); [lia|reflexivity]. }
  rewrite Hb. apply val_sq.
Qed.
Lemma mg_psum t m p b : mgF (valp KV t m p) m b = psum t m p.
Proof.
  unfold mgF, Inv.psum. rewrite !rbsum_rsum. apply rsum_ext. intros i Hi. apply (f_equal (fun x => (Cmod x ^ 2)%R)).
  apply valp_local. intros l Hl. unfold lowhi. destruct (Nat.ltb_spec l m); [reflexivity|lia].
Qed.

Lemma nth_upd_nth {A} (f : A -> A) d : forall (l : list A) i j, (i < length l)%nat ->
  nth j (upd_nth i f l) d = if Nat.eqb j i then f (nth i l d) else nth j l d.
Proof.
  induction l as [|x l IH]; intros i j Hi; [cbn in Hi; lia|].
  destruct i as [|i]; destruct j as [|j]; cbn; auto. apply IH. cbn in Hi. lia.
Qed.
Lemma len_upd_nth {A} (f : A -> A) : forall (l : list A) i, length (upd_nth i f l) = length l.
Proof. induction l as [|x l IH]; intros [|i]; cbn; auto. Qed.

Lemma sample_spec s : Inv s -> forall l ths cur res, wfp KV (tb s KV) l (en cur) -> probs s (en cur) <> None ->
  (l <= length ths)%nat -> (forall th, In th ths -> (0 <= th < 1)%R) -> (l <= length res)%nat ->
  (forall i, (i < l)%nat -> nth i res false = false) ->
  exists b res', sample s l ths cur res = Some res' /\ (forall k, (b k < 2)%nat) /\
    length res' = length res /\
    (forall i, nth i res' false = if Nat.ltb i l then Nat.eqb (b i) 1 else nth i res false) /\
    drawn (valp KV (tb s KV) l (en cur)) l ths b /\
    (0 < Cmod (valp KV (tb s KV) l (en cur) b))%R.
Proof.
  intros HI. pose proof (inv_tb _ _ HI KV) as HT.
  induction l as [|j IH]; intros ths cur res Hw Hp Hlt Hth Hlr Hres.
  - exists (fun _ => 0%nat), res. cbn [sample]. split; [reflexivity|]. split; [intros; lia|]. split; [reflexivity|].
    split; [reflexivity|]. split; [intros k Hk; lia|]. cbn [Wf.valp]. rewrite Cmod_1. lra.
  - destruct ths as [|th r]; [cbn in Hlt; lia|]. cbn [sample].
    destruct cur as [w p]. cbn [en] in *.
    pose proof (psum_pos tau _ HT _ _ Hw) as Hpos.
    destruct (cprobs_spec tau s j p HI Hw Hp w) as (a & nd & -> & Hr & Hv & Hok & Hc & P0 & P1). rewrite Hc.
    pose proof (psum_S tau _ j a nd Hr Hv) as HS. rewrite HS in Hpos.
    set (q0 := (Cmod (ew (chd nd 0)) ^ 2 * psum (tb s KV) j (en (chd nd 0)))%R) in *.
    set (q1 := (Cmod (ew (chd nd 1)) ^ 2 * psum (tb s KV) j (en (chd nd 1)))%R) in *.
    cbv zeta.
    replace (@neqb (RNum tau) (@nadd (RNum tau) q0 q1) n0) with false by (symmetry; apply not_true_is_false; intros X; apply Reqb_true in X; cbn in X; lra).
    cbn [negb]. change (@ndiv (RNum tau) q0 (@nadd (RNum tau) q0 q1)) with (q0 / (q0 + q1))%R.
    destruct (Hth th (or_introl eq_refl)) as [Hth0 Hth1].
    assert (Hq0 : (0 <= q0)%R) by (apply Rmult_le_pos; [apply pow2_ge_0|apply psum_nonneg]).
    assert (Hq1 : (0 <= q1)%R) by (apply Rmult_le_pos; [apply pow2_ge_0|apply psum_nonneg]).
    (* common part: descend into child c *)
    assert (Hgo : forall c res0, (c < 2)%nat -> (0 < Cmod (ew (chd nd c)) ^ 2)%R ->
       (if Nat.eqb c 1 then (q0 / (q0 + q1) <= th)%R else (th < q0 / (q0 + q1))%R) ->
       length res0 = length res -> (forall i, nth i res0 false = if Nat.eqb i j then Nat.eqb c 1 else nth i res false) ->
       exists b res', sample s j r (chd nd c) res0 = Some res' /\ (forall k, (b k < 2)%nat) /\
         length res' = length res /\
         (forall i, nth i res' false = if Nat.ltb i (S j) then Nat.eqb (b i) 1 else nth i res false) /\
         drawn (valp KV (tb s KV) (S j) (Node a)) (S j) (th :: r) b /\
         (0 < Cmod (valp KV (tb s KV) (S j) (Node a) b))%R).
    { intros c res0 Hc2 Hwc Hdec Hlen0 Hn0.
      assert (Wc : wfp KV (tb s KV) j (en (chd nd c))).
      { pose proof (reg_child tau KV _ a nd c HT Hr) as X. rewrite Hv, Nat2Z.id in X.
        apply (wfe_nz tau KV _ _ _ X). fold (chd nd c). intros Hz. unfold MeasureP.chd in Hz. unfold MeasureP.chd in Hwc. rewrite Hz in Hwc.
        change (@c0 (RNum tau)) with (RtoC 0) in Hwc. rewrite Cmod_0 in Hwc. lra. }
      destruct (IH r (chd nd c) res0) as (b & res' & H1 & H2 & H3 & H4 & H5 & H6).
      - exact Wc.
      - destruct c as [|[|c]]; [exact P0|exact P1|lia].
      - cbn in Hlt. lia.
      - intros x Hx. apply Hth. right. exact Hx.
      - lia.
      - intros i Hi. rewrite Hn0. destruct (Nat.eqb_spec i j); [lia|]. apply Hres. lia.
      - exists (ixset b j c), res'. split; [exact H1|]. split.
        { intros k. unfold ixset. destruct (Nat.eqb k j); auto. }
        split; [lia|]. split.
        { intros i. rewrite H4, Hn0. unfold ixset. destruct (Nat.ltb_spec i j); destruct (Nat.ltb_spec i (S j));
            destruct (Nat.eqb_spec i j); try lia; try reflexivity. }
        split.
        + intros k Hk. destruct (Nat.eq_dec k j) as [->|Hne].
          * rewrite ixset_same. replace (S j - 1 - j)%nat with 0%nat by lia. cbn [nth].
            assert (E0 : mgF (valp KV (tb s KV) (S j) (Node a)) j (ixset (ixset b j c) j 0) = q0).
            { rewrite (mg_child _ j a nd j _ Hr Hv) by lia. rewrite ixset_same. rewrite mg_psum. reflexivity. }
            assert (E1 : mgF (valp KV (tb s KV) (S j) (Node a)) (S j) (ixset b j c) = (q0 + q1)%R).
            { rewrite mg_psum. exact HS. }
            rewrite E0, E1. exact Hdec.
          * assert (Hkj : (k < j)%nat) by lia. pose proof (H5 k Hkj) as Hd.
            replace (S j - 1 - k)%nat with (S (j - 1 - k)) by lia. cbn [nth].
            rewrite (ixset_other _ j c k) by lia.
            assert (Ek : (mgF (valp KV (tb s KV) (S j) (Node a)) k (ixset (ixset b j c) k 0) / mgF (valp KV (tb s KV) (S j) (Node a)) (S k) (ixset b j c)
                        = mgF (valp KV (tb s KV) j (en (chd nd c))) k (ixset b k 0) / mgF (valp KV (tb s KV) j (en (chd nd c))) (S k) b)%R).
            { rewrite (mg_child _ j a nd k _ Hr Hv) by lia. rewrite (mg_child _ j a nd (S k) _ Hr Hv) by lia.
              rewrite (ixset_other _ k 0 j) by lia. rewrite ixset_same.
              rewrite (mgF_local j _ k (ixset (ixset b j c) k 0) (ixset b k 0) (valp_loc _ _ _ _)); [|intros l Hl; unfold ixset; destruct (Nat.eqb_spec l k); destruct (Nat.eqb_spec l j); auto; lia].
              rewrite (mgF_local j _ (S k) (ixset b j c) b (valp_loc _ _ _ _)); [|intros l Hl; unfold ixset; destruct (Nat.eqb_spec l j); auto; lia].
              unfold Rdiv. rewrite Rinv_mult.
              set (aa := (Cmod (ew (chd nd c)) ^ 2)%R) in *. generalize (/ mgF (valp KV (tb s KV) j (en (chd nd c))) (S k) b)%R.
              generalize (mgF (valp KV (tb s KV) j (en (chd nd c))) k (ixset b k 0)). intros x y.
              transitivity ((aa * / aa) * (x * y))%R; [ring|]. rewrite Rinv_r by lra. ring. }
            rewrite Ek. exact Hd.
        + rewrite (valp_S_node tau KV _ j a nd _ Hr Hv). rewrite ixset_same. fold (chd nd c). unfold Wf.val. rewrite Cmod_mult.
          rewrite (valp_local tau KV _ j _ (ixset b j c) b) by (intros l Hl; apply ixset_other; lia).
          apply Rmult_lt_0_compat; [|exact H6]. pose proof (Cmod_ge_0 (ew (chd nd c))). nra. }
    rewrite (chd_null tau KV _ nd 0 Hok), (chd_null tau KV _ nd 1 Hok) by (cbn; lia).
    destruct (Rltb_spec th (q0 / (q0 + q1))) as [Hd|Hd].
    + replace (@nltb (RNum tau) th (q0 / (q0 + q1))%R) with true by (symmetry; apply Rltb_true; exact Hd).
      apply (Hgo 0%nat res); auto.
      * destruct (Rle_lt_or_eq_dec 0 (Cmod (ew (chd nd 0)) ^ 2) (pow2_ge_0 _)) as [|Hz]; [assumption|].
        exfalso. unfold q0 in Hd at 1. rewrite <- Hz in Hd. rewrite Rmult_0_l in Hd. unfold Rdiv in Hd. rewrite Rmult_0_l in Hd. lra.
      * intros i. destruct (Nat.eqb_spec i j); [subst; apply Hres; lia|reflexivity].
    + replace (@nltb (RNum tau) th (q0 / (q0 + q1))%R) with false by (symmetry; apply Rltb_false; lra).
      rewrite Hv, Nat2Z.id. apply (Hgo 1%nat); auto.
      * destruct (Rle_lt_or_eq_dec 0 (Cmod (ew (chd nd 1)) ^ 2) (pow2_ge_0 _)) as [|Hz]; [assumption|].
        exfalso. assert (Hq1' : q1 = 0%R) by (unfold q1; rewrite <- Hz; ring). apply Hd. rewrite Hq1' in *.
        replace (q0 / (q0 + 0))%R with 1%R by (field; lra). lra.
      * cbn. lra.
      * apply len_upd_nth.
      * intros i. rewrite nth_upd_nth by lia. reflexivity.
Qed.

(* the collapsed state is the basis state of the outcome *)
Lemma wpr_rebuild b n s0 : (forall l, (b l < 2)%nat) -> Z.of_nat n <= NQUBITS -> forall bits i e s (Q : post tau), Inv s -> rel s0 s ->
  (i + length bits = n)%nat -> isbs tau i b e s ->
  (forall l, (l < length bits)%nat -> nth l bits false = Nat.eqb (b (i + l)%nat) 1) ->
  (forall e' s', rel s0 s' -> isbs tau n b e' s' -> Q e' s') ->
  wpr tau (rebuild bits (Z.of_nat i) e) Q s.
Proof.
  intros Hb2 Hn. induction bits as [|x r IH]; intros i e s Q HI Hrel Hi Hbs Hbits HQ; cbn [rebuild].
  - apply wpr_ret. intros s' Hr. cbn in Hi. rewrite Nat.add_0_r in Hi. subst i.
    apply HQ; [exact (rel_trans tau _ _ _ Hrel Hr)|]. exact (isbs_stable tau n b e s s' HI Hr Hbs).
  - cbn in Hi. apply (wpr_bind tau); [exact HI|].
    pose proof (Hbits 0%nat ltac:(cbn; lia)) as H0. cbn [nth] in H0. rewrite Nat.add_0_r in H0.
    assert (Hz : @iszero (RNum tau) (ew e) = false). { destruct Hbs as [-> _]. apply (iszero_c1' tau). }
    assert (Hmk : (if x then makeVEdge (Z.of_nat i) zeroE e else makeVEdge (Z.of_nat i) e zeroE) = mkV1 tau (Z.of_nat i) x e).
    { destruct x; [apply (makeVEdge_hi tau)|apply (makeVEdge_lo tau)]; auto. }
    rewrite Hmk. apply (wpr_mkV1 tau x i b e s); auto.
    + lia.
    + rewrite H0. destruct (Nat.eqb_spec (b i) 1); [auto|]. specialize (Hb2 i). lia.
    + intros e' s' Hr Hbs'. replace (Z.of_nat i + 1) with (Z.of_nat (S i)) by lia.
      apply (IH (S i) e' s' Q (rel_inv tau _ _ Hr)); auto.
      * exact (rel_trans tau _ _ _ Hrel Hr).
      * lia.
      * intros l Hl. specialize (Hbits (S l) ltac:(cbn; lia)). cbn [nth] in Hbits. rewrite Hbits. f_equal. f_equal. lia.
Qed.

Lemma mgF_val k t n (e : edge) j b : mgF (val k t n e) j b = (Cmod (ew e) ^ 2 * mgF (valp k t n (en e)) j b)%R.
Proof. apply mgF_scal. intros ix. apply val_sq. Qed.
Lemma drawn_val k t n (e : edge) l ths b : (0 < Cmod (ew e))%R -> drawn (valp k t n (en e)) l ths b -> drawn (val k t n e) l ths b.
Proof.
  intros He H j Hj. specialize (H j Hj). rewrite !mgF_val.
  assert (Hr : forall x y, ((Cmod (ew e) ^ 2 * x) / (Cmod (ew e) ^ 2 * y) = x / y)%R).
  { intros x y. unfold Rdiv. rewrite Rinv_mult. assert ((Cmod (ew e) ^ 2 <> 0)%R) by (apply Rgt_not_eq, pow_lt; exact He).
    transitivity ((Cmod (ew e) ^ 2 * / Cmod (ew e) ^ 2) * (x * / y))%R; [ring|]. rewrite Rinv_r by assumption. ring. }
  rewrite Hr. exact H.
Qed.
Lemma val_loc k t n e : local n (val k t n e).
Proof. intros f g H. apply val_local. exact H. Qed.

Theorem measureAll_spec s n e collapse ths : Inv s -> (1 <= n)%nat -> Z.of_nat n <= NQUBITS ->
  wfp KV (tb s KV) n (en e) -> ew e <> c0 -> (n <= length ths)%nat -> (forall th, In th ths -> (0 <= th < 1)%R) ->
  exists B e' s1 s', measureAll e collapse ths s = Some (bitstring n B, e', s') /\ (B < 2 ^ n)%nat /\
    draws n (vecF (val KV (tb s KV) n e)) ths B /\ (0 < Cmod (vecF (val KV (tb s KV) n e) B))%R /\
    pext s s1 /\ Inv s1 /\ Inv s' /\ rel s1 s' /\
    (if collapse then isbs tau n (bix B) e' s' else e' = e /\ s' = s1).
Proof.
  intros HI Hn1 Hn Hw He Hlt Hth. destruct n as [|m]; [lia|].
  unfold measureAll. rewrite (getVarV tau s m (en e) Hw). replace (Z.to_nat (Z.of_nat m + 1)) with (S m) by lia.
  assert (Hs1 : exists s1, (match probs s (en e) with
             | Some _ => Some s
             | None => match assignProbabilities e s with Some (_, s1) => Some s1 | None => None end
             end) = Some s1 /\ pext s s1 /\ Inv s1 /\ probs s1 (en e) <> None).
  { destruct (probs s (en e)) as [x|] eqn:Hx.
    - exists s. split; [reflexivity|]. split; [apply pext_refl|]. split; [exact HI|congruence].
    - destruct (assignP_spec tau PFUEL (S m) e s HI (or_introl Hw)) as (s1 & A1 & A2 & A3 & A4).
      { unfold PFUEL. unfold NQUBITS in Hn. lia. }
      unfold assignProbabilities. rewrite A1. exists s1. auto. }
  destruct Hs1 as (s1 & -> & Hpe & HI1 & Hpr).
  pose proof Hw as Hw1. rewrite <- (pe_tb _ _ _ Hpe) in Hw1.
  destruct (sample_spec s1 HI1 (S m) ths e (repeat false (S m)) Hw1 Hpr Hlt Hth) as (b & res & Hs & Hb2 & Hlen & Hnth & Hd & Hpos).
  { rewrite repeat_length. lia. }
  { intros i Hi. apply nth_repeat. }
  rewrite Hs. destruct (ofbits (S m) b Hb2) as (B & HB & Hbits).
  rewrite repeat_length in Hlen.
  assert (Hres : res = map (Nat.testbit B) (seq 0 (S m))).
  { apply nth_ext with (d := false) (d' := false); [rewrite map_length, seq_length; exact Hlen|].
    intros i Hi. rewrite Hlen in Hi. rewrite Hnth. destruct (Nat.ltb_spec i (S m)); [|lia].
    rewrite <- (Hbits i) by auto. rewrite (nth_indep _ false (Nat.testbit B 0)) by (rewrite map_length, seq_length; lia).
    rewrite map_nth, seq_nth by lia. unfold bix, bit. cbn [Nat.add]. destruct (Nat.testbit B i); reflexivity. }
  assert (Hstr : rev res = bitstring (S m) B). { rewrite Hres. unfold bitstring. rewrite map_rev. reflexivity. }
  assert (Hew : (0 < Cmod (ew e))%R).
  { apply Cmod_gt_0. exact He. }
  assert (HD : draws (S m) (vecF (val KV (tb s KV) (S m) e)) ths B).
  { apply (drawn_draws (S m) _ ths b B); [apply val_loc|exact Hbits|]. apply drawn_val; [exact Hew|].
    rewrite <- (pe_tb _ _ _ Hpe). exact Hd. }
  assert (HP : (0 < Cmod (vecF (val KV (tb s KV) (S m) e) B))%R).
  { unfold vecF, Wf.val. rewrite Cmod_mult. apply Rmult_lt_0_compat; [exact Hew|].
    rewrite (valp_local tau KV _ (S m) _ (bix B) b) by (intros l Hl; apply Hbits; lia).
    rewrite <- (pe_tb _ _ _ Hpe). exact Hpos. }
  destruct collapse.
  - assert (Hwp : wpr tau (rebuild res 0 oneE) (fun e' s' => isbs tau (S m) (bix B) e' s') s1).
    { change 0 with (Z.of_nat 0). apply (wpr_rebuild (bix B) (S m) s1); auto.
      - intros l. apply bit_lt.
      - apply (rel_refl tau). exact HI1.
      - apply (isbs_term tau).
      - intros l Hl. rewrite Hnth. destruct (Nat.ltb_spec l (S m)); [|lia]. rewrite <- (Hbits l) by auto. reflexivity. }
    destruct (wpr_run tau _ _ _ HI1 Hwp) as (e' & s' & Hrun & Hrel & Hbs).
    exists B, e', s1, s'. rewrite Hrun, Hstr. split; [reflexivity|]. split; [exact HB|]. split; [exact HD|]. split; [exact HP|].
    split; [exact Hpe|]. split; [exact HI1|]. split; [exact (rel_inv tau _ _ Hrel)|]. split; [exact Hrel|exact Hbs].
  - exists B, e, s1, s1. rewrite Hstr. split; [reflexivity|]. split; [exact HB|]. split; [exact HD|]. split; [exact HP|].
    split; [exact Hpe|]. split; [exact HI1|]. split; [exact HI1|]. split; [apply (rel_refl tau); exact HI1|]. auto.
Qed.
End MeasAllP.
