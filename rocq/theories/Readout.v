(* Readout.v -- getVector / getMatrix read the denotation; index-level
   denotations versus the integer-indexed ones of Spec.v. *)
From Coq Require Import Reals Lra Psatz ZArith NArith Nnat Bool List Lia Arith FunctionalExtensionality.
From Coquelicot Require Import Complex.
From Verif Require Import Num State DD Gates RNum Wf Sums Err Inv Wp Make Add MulV GateP Canon Spec.
Import ListNotations.
Open Scope nat_scope.

Definition bix (i : nat) : nat -> nat := fun l => bit i l.
Definition mix (i j : nat) : nat -> nat := fun l => 2 * bit i l + bit j l.

Lemma bit_lt i l : bit i l < 2.
Proof. unfold bit. destruct (Nat.testbit i l); lia. Qed.
Lemma bit_high i l n : i < 2 ^ n -> n <= l -> bit i l = 0.
Proof.
  intros H Hl. unfold bit. rewrite Nat.testbit_eqb. 
  assert (2 ^ n <= 2 ^ l) by (apply Nat.pow_le_mono_r; lia).
  rewrite Nat.div_small by lia. reflexivity.
Qed.
Lemma testbit_add_pow m i l : i < 2 ^ m -> Nat.testbit (2 ^ m + i) l = if l =? m then true else Nat.testbit i l.
Proof.
  intros H. replace (2 ^ m + i) with (i + 1 * 2 ^ m) by lia.
  destruct (Nat.eqb_spec l m) as [->|Hne].
  - rewrite Nat.testbit_eqb, Nat.div_add by (apply Nat.pow_nonzero; lia).
    rewrite Nat.div_small by lia. reflexivity.
  - destruct (Nat.lt_ge_cases l m) as [Hl|Hl].
    + rewrite !Nat.testbit_eqb.
      replace (1 * 2 ^ m) with (2 ^ (m - l - 1) * 2 * 2 ^ l).
      * rewrite Nat.div_add by (apply Nat.pow_nonzero; lia). rewrite Nat.mod_add by lia. reflexivity.
      * replace (2 ^ (m - l - 1) * 2) with (2 ^ (m - l)).
        -- rewrite <- Nat.pow_add_r. replace (m - l + l) with m by lia. lia.
        -- replace (m - l) with (S (m - l - 1)) at 1 by lia. cbn [Nat.pow]. lia.
    + assert (Hp : 2 ^ m * 2 <= 2 ^ l).
      { replace (2 ^ m * 2) with (2 ^ (S m)) by (cbn; lia). apply Nat.pow_le_mono_r; lia. }
      rewrite !Nat.testbit_eqb, !Nat.div_small by lia. reflexivity.
Qed.
Lemma bix_lo m i : i < 2 ^ m -> ixset (bix i) m 0 = bix i.
Proof.
  intros H. apply functional_extensionality. intros l. unfold ixset, bix.
  destruct (Nat.eqb_spec l m) as [->|]; auto. symmetry. eapply bit_high; eauto.
Qed.
Lemma bix_hi m i : i < 2 ^ m -> ixset (bix i) m 1 = bix (2 ^ m + i).
Proof.
  intros H. apply functional_extensionality. intros l. unfold ixset, bix, bit.
  rewrite testbit_add_pow by auto. destruct (l =? m); auto.
Qed.
Lemma csum_ext N f g : (forall i, i < N -> f i = g i) -> csum N f = csum N g.
Proof. induction N as [|N IH]; intros H; cbn; auto. rewrite IH, H by auto. reflexivity. Qed.
Lemma csum_add N M f : csum (N + M) f = Cplus (csum N f) (csum M (fun i => f (N + i))).
Proof.
  induction M as [|M IH]; cbn; [rewrite Nat.add_0_r; ring|].
  rewrite Nat.add_succ_r. cbn. rewrite IH. ring.
Qed.
Lemma rsum_ext N f g : (forall i, i < N -> f i = g i) -> rsum N f = rsum N g.
Proof. induction N as [|N IH]; intros H; cbn; auto. rewrite IH, H by auto. reflexivity. Qed.
Lemma rsum_add N M f : (rsum (N + M) f = rsum N f + rsum M (fun i => f (N + i)%nat))%R.
Proof.
  induction M as [|M IH]; cbn; [rewrite Nat.add_0_r; ring|].
  rewrite Nat.add_succ_r. cbn. rewrite IH. ring.
Qed.
Lemma bix_0 : bix 0 = fun _ => 0.
Proof. apply functional_extensionality. intros l. unfold bix, bit. now rewrite Nat.bits_0. Qed.
Lemma bsum_csum n F : bsum n F = csum (2 ^ n) (fun j => F (bix j)).
Proof.
  revert F. induction n as [|m IH]; intros F; cbn [bsum].
  - cbn. rewrite bix_0. ring.
  - rewrite !IH. replace (2 ^ S m) with (2 ^ m + 2 ^ m) by (cbn; lia). rewrite csum_add. f_equal.
    + apply csum_ext. intros i Hi. now rewrite bix_lo.
    + apply csum_ext. intros i Hi. now rewrite bix_hi.
Qed.
Lemma rbsum_rsum n F : rbsum n F = rsum (2 ^ n) (fun j => F (bix j)).
Proof.
  revert F. induction n as [|m IH]; intros F; cbn [rbsum].
  - cbn. rewrite bix_0. ring.
  - rewrite !IH. replace (2 ^ S m) with (2 ^ m + 2 ^ m) by (cbn; lia). rewrite rsum_add. f_equal.
    + apply rsum_ext. intros i Hi. now rewrite bix_lo.
    + apply rsum_ext. intros i Hi. now rewrite bix_hi.
Qed.
Lemma comb_bix i j : comb (bix i) (bix j) = mix i j.
Proof. reflexivity. Qed.
Lemma rowix_mix i j : rowix (mix i j) = bix i.
Proof.
  apply functional_extensionality. intros l. unfold rowix, mix, bix.
  pose proof (bit_lt j l). rewrite Nat.mul_comm, Nat.div_add_l by lia. rewrite Nat.div_small by lia. lia.
Qed.
Lemma colix_mix i j : colix (mix i j) = bix j.
Proof.
  apply functional_extensionality. intros l. unfold colix, mix, bix.
  pose proof (bit_lt j l). rewrite Nat.add_comm, Nat.mul_comm, Nat.mod_add by lia. apply Nat.mod_small. lia.
Qed.
(* index functions versus integer indices *)
Definition vecF (F : (nat -> nat) -> C) : vector := fun i => F (bix i).
Definition matF (F : (nat -> nat) -> C) : matrix := fun i j => F (mix i j).
Lemma mvF_mv n F G : vecF (mvF n F G) = mv n (matF F) (vecF G).
Proof.
  apply functional_extensionality. intros i. unfold vecF, mvF, mv. rewrite bsum_csum. reflexivity.
Qed.
Lemma mmF_mm n F G : matF (mmF n F G) = mm n (matF F) (matF G).
Proof.
  apply functional_extensionality. intros i. apply functional_extensionality. intros j.
  unfold matF, mmF, mm. rewrite bsum_csum, rowix_mix, colix_mix. reflexivity.
Qed.
Lemma bit_eqb i j l : (bit i l =? bit j l) = Bool.eqb (Nat.testbit i l) (Nat.testbit j l).
Proof. unfold bit. destruct (Nat.testbit i l), (Nat.testbit j l); reflexivity. Qed.
Lemma offeq_agree n T i j : offeq n T (bix i) (bix j) = agree_off n T i j.
Proof.
  unfold offeq, agree_off. apply eq_true_iff_eq. rewrite !forallb_forall.
  split; intros H l Hl; specialize (H l Hl); unfold bix in *; rewrite bit_eqb in *; exact H.
Qed.
Lemma sat_ctl n ctl i : (forall x, In x ctl -> (0 <= fst x < Z.of_nat n)%Z) -> sat n ctl (bix i) = ctl_ok ctl i.
Proof.
  intros Hc. unfold sat, ctl_ok. apply eq_true_iff_eq. rewrite !forallb_forall.
  split; intros H x Hx; specialize (H x Hx); specialize (Hc x Hx).
  - replace (Z.of_nat n <=? fst x)%Z with false in H by (symmetry; apply Z.leb_gt; lia).
    cbn [orb] in H. unfold bix, bit, b2n in H. destruct (Nat.testbit i _), (snd x); auto; discriminate.
  - apply orb_true_iff. right. unfold bix, bit, b2n.  destruct (Nat.testbit i _), (snd x); auto; discriminate.
Qed.
Lemma opF_gate1 n t g ctl : (forall x, In x ctl -> (0 <= fst x < Z.of_nat n)%Z) ->
  matF (opF n [t] (g1F t g) (RtoC 1) ctl) = gate1 n g t ctl.
Proof.
  intros Hc. apply functional_extensionality. intros i. apply functional_extensionality. intros j.
  unfold matF, opF, gate1. rewrite rowix_mix, colix_mix, offeq_agree, sat_ctl by auto.
  unfold g1F, selG, oneq. cbn [forallb]. rewrite andb_true_r. unfold bix.
  pose proof (bit_lt i t) as Hi. pose proof (bit_lt j t) as Hj. apply Nat.ltb_lt in Hi, Hj. rewrite Hi, Hj. reflexivity.
Qed.
Lemma existsb_swap l (a b : nat) : existsb (Nat.eqb l) [a; b] = existsb (Nat.eqb l) [b; a].
Proof. cbn. destruct (l =? a), (l =? b); reflexivity. Qed.
Lemma opF_gate2 n hi lo g ctl : (forall x, In x ctl -> (0 <= fst x < Z.of_nat n)%Z) ->
  matF (opF n [Nat.max hi lo; Nat.min hi lo] (g2F lo hi g) (RtoC 1) ctl) = gate2 n g hi lo ctl.
Proof.
  intros Hc. apply functional_extensionality. intros i. apply functional_extensionality. intros j.
  unfold matF, opF, gate2. rewrite rowix_mix, colix_mix, offeq_agree, sat_ctl by auto.
  assert (Ha : agree_off n [Nat.max hi lo; Nat.min hi lo] i j = agree_off n [hi; lo] i j).
  { unfold agree_off. apply eq_true_iff_eq. rewrite !forallb_forall.
    destruct (Nat.max_spec hi lo) as [[h1 ->]|[h1 ->]]; destruct (Nat.min_spec hi lo) as [[h2 ->]|[h2 ->]];
      split; intros H l Hl; specialize (H l Hl); try exact H; try (rewrite existsb_swap; exact H);
      (assert (lo = hi) by lia; subst; exact H). }
  rewrite Ha. unfold g2F, oneq, bix. cbn [forallb]. rewrite andb_true_r.
  assert (Hb : forall x l, (bit x l <? 2) = true) by (intros; apply Nat.ltb_lt, bit_lt). rewrite !Hb. cbn [andb].
  replace ((bit i (Nat.max hi lo) =? bit j (Nat.max hi lo)) && (bit i (Nat.min hi lo) =? bit j (Nat.min hi lo)))
    with ((bit i hi =? bit j hi) && (bit i lo =? bit j lo)); [reflexivity|].
  destruct (Nat.max_spec hi lo) as [[h1 ->]|[h1 ->]]; destruct (Nat.min_spec hi lo) as [[h2 ->]|[h2 ->]];
    try reflexivity; try apply andb_comm; assert (lo = hi) by lia; subst; reflexivity.
Qed.

Section Readout.
Context (tau : R) {HTol : Tol tau}.
Let Htau : (0 <= tau < 1 / 2)%R := tol_ok.
#[local] Hint Extern 0 NumOps => exact (RNum tau) : typeclass_instances.
Context {CF : Cfg}.
Notation table := (@table (RNum tau)).
Notation state := (@state (RNum tau)).
Notation edge := (@edge (RNum tau)).
Notation node := (@node (RNum tau)).
Notation val := (val tau).
Notation valp := (valp tau).
Notation wfe := (wfe tau).
Notation wfp := (wfp tau).
Notation reg := (reg tau).
Notation TInv := (TInv tau).
Notation Inv := (Inv tau).
Notation E := (@E (RNum tau)).

Lemma vfill_spec (m : vec) row cnt x j :
  vfill m row cnt x j = if ((row <=? j) && (j <? row + N.of_nat cnt))%N then x else m j.
Proof.
  induction cnt as [|c IH]; cbn [vfill].
  - replace ((row <=? j) && (j <? row + N.of_nat 0))%N with false; auto. symmetry. apply andb_false_iff.
    destruct (N.leb_spec row j); auto. right. apply N.ltb_ge. lia.
  - unfold vupd. rewrite IH. destruct (N.eqb_spec (row + N.of_nat c) j) as [<-|Hne].
    + replace (row <=? row + N.of_nat c)%N with true by (symmetry; apply N.leb_le; lia).
      replace (row + N.of_nat c <? row + N.of_nat (S c))%N with true by (symmetry; apply N.ltb_lt; lia). reflexivity.
    + destruct (N.leb_spec row j); cbn [andb]; auto.
      destruct (N.ltb_spec j (row + N.of_nat c)), (N.ltb_spec j (row + N.of_nat (S c))); auto; lia.
Qed.

(* position of j inside the block *)
Definition inblk (n : nat) (row j : N) : bool := (j / 2 ^ N.of_nat n =? row)%N.
Lemma inblk_0 row j : inblk 0 row j = (row =? j)%N.
Proof. unfold inblk. cbn. rewrite N.div_1_r. apply N.eqb_sym. Qed.
Lemma inblk_S n row j : inblk (S n) row j =
  (if N.testbit j (N.of_nat n) then inblk n (2 * row + 1) j else inblk n (2 * row) j)%N.
Proof.
  unfold inblk. rewrite Nat2N.inj_succ, N.pow_succ_r by lia.
  rewrite N.testbit_eqb.
  assert (Hp : (2 ^ N.of_nat n <> 0)%N) by (apply N.pow_nonzero; lia).
  rewrite (N.mul_comm 2), <- N.div_div by lia.
  set (q := (j / 2 ^ N.of_nat n)%N). clearbody q.
  pose proof (N.div_mod q 2 ltac:(lia)) as Hq. pose proof (N.mod_lt q 2 ltac:(lia)) as Hm.
  generalize dependent (q / 2)%N. generalize dependent (q mod 2)%N. clear. intros r Hr d Hq.
  destruct (N.eqb_spec r 1); apply eq_true_iff_eq; rewrite !N.eqb_eq; split; intros; subst; lia.
Qed.
Lemma inblk_not n row j : inblk n (2 * row) j = true -> N.testbit j (N.of_nat n) = false.
Proof.
  unfold inblk. rewrite N.eqb_eq, N.testbit_eqb. intros ->. apply N.eqb_neq.
  rewrite N.mul_comm, N.mod_mul by lia. discriminate.
Qed.
Lemma inblk_not1 n row j : inblk n (2 * row + 1) j = true -> N.testbit j (N.of_nat n) = true.
Proof.
  unfold inblk. rewrite N.eqb_eq, N.testbit_eqb. intros ->. apply N.eqb_eq.
  rewrite N.add_comm, N.mul_comm, N.mod_add by lia. reflexivity.
Qed.
Lemma inblk_range n row j : inblk n row j =
  ((row * 2 ^ N.of_nat n <=? j) && (j <? row * 2 ^ N.of_nat n + N.of_nat (2 ^ n)))%N.
Proof.
  unfold inblk. assert (Hp : (2 ^ N.of_nat n <> 0)%N) by (apply N.pow_nonzero; lia).
  replace (N.of_nat (2 ^ n)) with (2 ^ N.of_nat n)%N.
  2:{ clear. induction n as [|n IH]; [reflexivity|]. rewrite Nat2N.inj_succ, N.pow_succ_r by lia. rewrite IH. cbn [Nat.pow]. lia. }
  set (P := (2 ^ N.of_nat n)%N) in *.
  clearbody P. apply eq_true_iff_eq. rewrite N.eqb_eq, andb_true_iff, N.leb_le, N.ltb_lt. split.
  - intros <-. pose proof (N.div_mod j P Hp) as Hd. pose proof (N.mod_lt j P Hp) as Hm.
    rewrite (N.mul_comm P) in Hd. revert Hd Hm. generalize (j / P * P)%N, (j mod P)%N. clear. intros. lia.
  - intros [h1 h2]. symmetry. apply (N.div_unique j P row (j - row * P)%N); lia.
Qed.
Definition nbix (j : N) : nat -> nat := bix (N.to_nat j).
Lemma nbix_bit j m : nbix j m = if N.testbit j (N.of_nat m) then 1 else 0.
Proof.
  unfold nbix, bix, bit. rewrite <- (N2Nat.id j) at 2.
  assert (H : forall a b, N.testbit (N.of_nat a) (N.of_nat b) = Nat.testbit a b).
  { intros. rewrite N.testbit_eqb, Nat.testbit_eqb.
    replace (2 ^ N.of_nat b)%N with (N.of_nat (2 ^ b)).
    - rewrite <- Nat2N.inj_div. change 2%N with (N.of_nat 2). rewrite <- Nat2N.inj_mod.
      change 1%N with (N.of_nat 1). apply eq_true_iff_eq. rewrite N.eqb_eq, Nat.eqb_eq. split; [apply Nat2N.inj|congruence].
    - clear. induction b as [|n IH]; [reflexivity|]. rewrite Nat2N.inj_succ, N.pow_succ_r by lia. rewrite <- IH. cbn [Nat.pow]. lia. }
  now rewrite H.
Qed.

Lemma readn_node (s : state) k a nd : reg k (tb s k) a nd -> readn k (Node a) s = Some nd.
Proof. intros [H _]. exact H. Qed.

Lemma fillVector_spec s : TInv KV (tb s KV) -> forall n e row w m, wfe KV (tb s KV) n e ->
  exists m', fillVector s n e row w m = Some m' /\
    forall j, m' j = if inblk n row j then Cmult w (val KV (tb s KV) n e (nbix j)) else m j.
Proof.
  intros HT. induction n as [|n IH]; intros e row w m He; cbn [fillVector].
  - assert (Hp : en e = Term) by (destruct He as [h|[_ h]]; auto). rewrite Hp. cbn [is_term].
    eexists. split; [reflexivity|]. intros j. unfold vupd. rewrite inblk_0. destruct (row =? j)%N; auto.
    unfold Wf.val. rewrite (cmul_C tau). change (Wf.valp tau KV (tb s KV) 0 (en e) (nbix j)) with (RtoC 1). toC. ring.
  - destruct (is_term (en e)) eqn:Ht.
    + assert (Hp : en e = Term) by (destruct (en e); (discriminate Ht || auto)).
      assert (Hw : ew e = c0).
      { destruct He as [(a & nd & h & _)|[h _]]; auto. rewrite Hp in h. discriminate. }
      eexists. split; [reflexivity|]. intros j. rewrite vfill_spec, N.shiftl_mul_pow2, <- inblk_range.
      destruct (inblk (S n) row j); auto. rewrite (val_zw tau) by auto. rewrite Hw, (cmul_C tau).
      change (@c0 (RNum tau)) with (RtoC 0). toC. ring.
    + destruct He as [(a & nd & Hp & Hr & Hv)|[_ h]]; [|rewrite h in Ht; discriminate].
      rewrite Hp, (readn_node s KV a nd Hr). pose proof (reg_ok tau _ _ _ _ HT Hr) as Hok.
      destruct (nch nd) as [|c0' [|c1' [|]]] eqn:Hch; try (pose proof (no_len _ _ _ _ Hok) as Hl; rewrite Hch in Hl; discriminate).
      assert (Hw : forall c, In c (nch nd) -> wfe KV (tb s KV) n c).
      { intros c Hc. pose proof (no_wf _ _ _ _ Hok c Hc) as h. now rewrite Hv, Nat2Z.id in h. }
      rewrite Hch in Hw. cbn [nth].
      replace (N.shiftl row 1) with (2 * row)%N by (rewrite N.shiftl_mul_pow2; change (2 ^ 1)%N with 2%N; lia).
      destruct (IH c0' (2 * row)%N (cmul (ew e) w) m) as (m1 & -> & H1); [apply Hw; cbn; auto|].
      destruct (IH c1' (2 * row + 1)%N (cmul (ew e) w) m1) as (m2 & -> & H2); [apply Hw; cbn; auto|].
      eexists. split; [reflexivity|]. intros j. rewrite H2, H1, inblk_S.
      assert (Hval : val KV (tb s KV) (S n) e (nbix j) =
        Cmult (ew e) (val KV (tb s KV) n (nth (nbix j n) (nch nd) zeroE) (nbix j))).
      { unfold Wf.val at 1. rewrite Hp. now rewrite (valp_S_node tau _ _ n a nd) by auto. }
      rewrite Hval, Hch. rewrite (nbix_bit j n). rewrite (cmul_C tau (ew e) w).
      destruct (N.testbit j (N.of_nat n)) eqn:Hb; cbn [nth].
      * destruct (inblk n (2 * row + 1) j); [toC; ring|].
        destruct (inblk n (2 * row) j) eqn:Hi; auto. apply inblk_not in Hi. congruence.
      * destruct (inblk n (2 * row + 1) j) eqn:Hi; [apply inblk_not1 in Hi; congruence|].
        destruct (inblk n (2 * row) j); [toC; ring|auto].
Qed.

Theorem getVector_spec s n e : TInv KV (tb s KV) -> wfp KV (tb s KV) n (en e) -> 1 <= n <= 30 ->
  getVector s e = Some (map (fun i => val KV (tb s KV) n e (bix i)) (seq 0 (2 ^ n))).
Proof.
  intros HT Hw Hn. destruct n as [|n]; [lia|]. destruct Hw as (a & nd & Hp & Hr & Hv) eqn:Hw'.
  unfold getVector. rewrite Hp. cbn [is_term]. unfold getVar. rewrite (readn_node s KV a nd Hr), Hv.
  replace (shift_ok (Z.of_nat n + 1)) with true.
  2:{ symmetry. unfold shift_ok. apply andb_true_iff. split; [apply Z.leb_le|apply Z.ltb_lt]; lia. }
  replace (Z.to_nat (Z.of_nat n + 1)) with (S n) by lia.
  destruct (fillVector_spec s HT (S n) e 0%N c1 (fun _ => c0)) as (m' & -> & Hm); [left; exact Hw|].
  f_equal. apply map_ext_in. intros i Hi. apply in_seq in Hi. rewrite Hm.
  replace (inblk (S n) 0 (N.of_nat i)) with true.
  2:{ symmetry. rewrite inblk_range. rewrite N.mul_0_l. apply andb_true_iff. split; [apply N.leb_le; lia|].
      apply N.ltb_lt. lia. }
  unfold nbix. rewrite Nat2N.id. change (@c1 (RNum tau)) with (RtoC 1). toC. ring.
Qed.
Definition nmix (i j : N) : nat -> nat := mix (N.to_nat i) (N.to_nat j).
Lemma nmix_bit i j l : nmix i j l = 2 * nbix i l + nbix j l.
Proof. reflexivity. Qed.
Lemma inblk_add d R' : (R' * 2 ^ N.of_nat (S d) + 2 ^ N.of_nat d = (2 * R' + 1) * 2 ^ N.of_nat d)%N.
Proof. rewrite Nat2N.inj_succ, N.pow_succ_r by lia. lia. Qed.
Lemma inblk_even d R' : (R' * 2 ^ N.of_nat (S d) = (2 * R') * 2 ^ N.of_nat d)%N.
Proof. rewrite Nat2N.inj_succ, N.pow_succ_r by lia. lia. Qed.

(* gluing the four quadrants *)
Lemma quad d RR CC (m m0 m1 m2 m3 : mat) F0 F1 F2 F3 (F : N -> N -> C) :
  (forall i j, m0 i j = if inblk d (2 * RR) i && inblk d (2 * CC) j then F0 i j else m i j) ->
  (forall i j, m1 i j = if inblk d (2 * RR) i && inblk d (2 * CC + 1) j then F1 i j else m0 i j) ->
  (forall i j, m2 i j = if inblk d (2 * RR + 1) i && inblk d (2 * CC) j then F2 i j else m1 i j) ->
  (forall i j, m3 i j = if inblk d (2 * RR + 1) i && inblk d (2 * CC + 1) j then F3 i j else m2 i j) ->
  (forall i j, F i j = nth (nmix i j d) [F0 i j; F1 i j; F2 i j; F3 i j] (RtoC 0)) ->
  forall i j, m3 i j = if inblk (S d) RR i && inblk (S d) CC j then F i j else m i j.
Proof.
  intros H0 H1 H2 H3 HF i j. rewrite H3, H2, H1, H0, HF, nmix_bit, !nbix_bit, !inblk_S.
  pose proof (inblk_not d RR i) as Ni. pose proof (inblk_not d CC j) as Nj.
  pose proof (inblk_not1 d RR i) as Ni1. pose proof (inblk_not1 d CC j) as Nj1.
  destruct (N.testbit i (N.of_nat d)), (N.testbit j (N.of_nat d)); cbn [Nat.mul Nat.add nth];
  destruct (inblk d (2 * RR) i), (inblk d (2 * CC) j), (inblk d (2 * RR + 1) i), (inblk d (2 * CC + 1) j); cbn [andb]; auto;
  try (discriminate (Ni eq_refl)); try (discriminate (Nj eq_refl)); try (discriminate (Ni1 eq_refl)); try (discriminate (Nj1 eq_refl)).
Qed.

Lemma fillMatrix_spec s : TInv KM (tb s KM) -> forall d e RR CC w m, wfe KM (tb s KM) d e ->
  exists m', fillMatrix s d e (RR * 2 ^ N.of_nat d) (CC * 2 ^ N.of_nat d) w m = Some m' /\
    forall i j, m' i j = if inblk d RR i && inblk d CC j then Cmult w (val KM (tb s KM) d e (nmix i j)) else m i j.
Proof.
  intros HT. induction d as [|d IH]; intros e RR CC w m He.
  - assert (Hp : en e = Term).
    { destruct He as [[h|(a & nd & h & Hr & Hv)]|[_ h]]; auto.
      pose proof (no_level _ _ _ _ (reg_ok tau _ _ _ _ HT Hr)). lia. }
    cbn [fillMatrix]. unfold getVar. rewrite Hp. cbn [readn nv]. cbn [Z.add Z.of_nat Z.eqb is_term].
    change (-1 + 1 =? 0)%Z with true. cbn match.
    eexists. split; [reflexivity|]. intros i j. unfold mupd. rewrite !inblk_0. cbn [N.of_nat N.pow]. rewrite !N.mul_1_r.
    destruct ((RR =? i)%N && (CC =? j)%N); auto. rewrite (cmul_C tau). unfold Wf.val.
    change (Wf.valp tau KM (tb s KM) 0 (en e) (nmix i j)) with (RtoC 1). toC. ring.
  - assert (Hcase : (exists a nd, en e = Node a /\ reg KM (tb s KM) a nd /\ nv nd = Z.of_nat d) \/
      (wfe KM (tb s KM) d e /\ exists v, getVar KM (en e) s = Some v /\ (v + 1 =? Z.of_nat (S d))%Z = false)).
    { destruct He as [[h|(a & nd & h & Hr & Hv)]|[hw h]].
      - right. split; [left; now left|]. exists (-1)%Z. unfold getVar. rewrite h. split; [reflexivity|apply Z.eqb_neq; lia].
      - destruct (Z.eq_dec (nv nd) (Z.of_nat d)) as [Hd|Hd]; [left; eauto|]. right. split.
        + left. right. exists a, nd. split; [auto|split; auto; lia].
        + exists (nv nd). unfold getVar. rewrite h, (readn_node s KM a nd Hr). split; [reflexivity|apply Z.eqb_neq; lia].
      - right. split; [right; auto|]. exists (-1)%Z. unfold getVar. rewrite h. split; [reflexivity|apply Z.eqb_neq; lia]. }
    cbn [fillMatrix]. rewrite !N.shiftl_1_l, !inblk_add, !inblk_even.
    destruct Hcase as [(a & nd & Hp & Hr & Hv)|(He' & v & Hv & Hne)].
    + unfold getVar. rewrite Hp, (readn_node s KM a nd Hr), Hv. replace (Z.of_nat d + 1 =? Z.of_nat (S d))%Z with true by (symmetry; apply Z.eqb_eq; lia).
      cbn [is_term]. pose proof (reg_ok tau _ _ _ _ HT Hr) as Hok.
      destruct (nch nd) as [|x0 [|x1 [|x2 [|x3 [|]]]]] eqn:Hch; try (pose proof (no_len _ _ _ _ Hok) as Hl; rewrite Hch in Hl; discriminate).
      assert (Hw : forall c, In c (nch nd) -> wfe KM (tb s KM) d c).
      { intros c Hc. pose proof (no_wf _ _ _ _ Hok c Hc) as h. now rewrite Hv, Nat2Z.id in h. }
      rewrite Hch in Hw. cbn [nth].
      destruct (IH x0 (2 * RR)%N (2 * CC)%N (cmul (ew e) w) m) as (m0 & -> & H0); [apply Hw; cbn; auto|].
      destruct (IH x1 (2 * RR)%N (2 * CC + 1)%N (cmul (ew e) w) m0) as (m1 & -> & H1); [apply Hw; cbn; auto|].
      destruct (IH x2 (2 * RR + 1)%N (2 * CC)%N (cmul (ew e) w) m1) as (m2 & -> & H2); [apply Hw; cbn; auto|].
      destruct (IH x3 (2 * RR + 1)%N (2 * CC + 1)%N (cmul (ew e) w) m2) as (m3 & -> & H3); [apply Hw; cbn; auto 6|].
      eexists. split; [reflexivity|]. eapply (quad d RR CC m m0 m1 m2 m3 _ _ _ _ (fun i j => Cmult w (val KM (tb s KM) (S d) e (nmix i j))) H0 H1 H2 H3). intros i j.
      assert (Hval : val KM (tb s KM) (S d) e (nmix i j) =
        Cmult (ew e) (val KM (tb s KM) d (nth (nmix i j d) (nch nd) zeroE) (nmix i j))).
      { unfold Wf.val at 1. rewrite Hp. now rewrite (valp_S_node tau _ _ d a nd) by auto. }
      rewrite Hval, Hch. assert (Hlt : nmix i j d < 4).
      { unfold nmix, mix. pose proof (bit_lt (N.to_nat i) d). pose proof (bit_lt (N.to_nat j) d). lia. }
      rewrite (cmul_C tau (ew e) w). destruct (nmix i j d) as [|[|[|[|]]]]; try lia; cbn [nth]; toC; ring.
    + rewrite Hv, Hne.
      destruct (IH e (2 * RR)%N (2 * CC)%N w m He') as (m0 & -> & H0).
      destruct (IH e (2 * RR)%N (2 * CC + 1)%N c0 m0 He') as (m1 & -> & H1).
      destruct (IH e (2 * RR + 1)%N (2 * CC)%N c0 m1 He') as (m2 & -> & H2).
      destruct (IH e (2 * RR + 1)%N (2 * CC + 1)%N w m2 He') as (m3 & -> & H3).
      eexists. split; [reflexivity|]. eapply (quad d RR CC m m0 m1 m2 m3 _ _ _ _ (fun i j => Cmult w (val KM (tb s KM) (S d) e (nmix i j))) H0 H1 H2 H3). intros i j.
      rewrite (val_KM_up tau) by auto. assert (Hlt : nmix i j d < 4).
      { unfold nmix, mix. pose proof (bit_lt (N.to_nat i) d). pose proof (bit_lt (N.to_nat j) d). lia. }
      change (@c0 (RNum tau)) with (RtoC 0).
      destruct (nmix i j d) as [|[|[|[|]]]]; try lia; cbn [nth diag4]; toC; ring.
Qed.

Theorem getMatrix_spec s n e : TInv KM (tb s KM) -> wfe KM (tb s KM) n e -> n <= 30 ->
  getMatrix s e (Z.of_nat n) =
    Some (map (fun i => map (fun j => val KM (tb s KM) n e (mix i j)) (seq 0 (2 ^ n))) (seq 0 (2 ^ n))).
Proof.
  intros HT Hw Hn. unfold getMatrix.
  assert (Hv : exists v, getVar KM (en e) s = Some v).
  { destruct Hw as [[h|(a & nd & h & Hr & Hv)]|[_ h]]; unfold getVar; rewrite h; [eexists; reflexivity| |eexists; reflexivity].
    rewrite (readn_node s KM a nd Hr). eauto. }
  destruct Hv as (v & ->). replace (Z.of_nat n =? -1)%Z with false by (symmetry; apply Z.eqb_neq; lia).
  replace (shift_ok (Z.of_nat n)) with true.
  2:{ symmetry. unfold shift_ok. apply andb_true_iff. split; [apply Z.leb_le|apply Z.ltb_lt]; lia. }
  rewrite Nat2Z.id.
  destruct (fillMatrix_spec s HT n e 0%N 0%N c1 (fun _ _ => c0) Hw) as (m' & Hf & Hm).
  rewrite !N.mul_0_l in Hf. rewrite Hf.
  assert (Hin : forall i, i < 2 ^ n -> inblk n 0 (N.of_nat i) = true).
  { intros i Hi. rewrite inblk_range, N.mul_0_l. apply andb_true_iff. split; [apply N.leb_le; lia|].
    apply N.ltb_lt. lia. }
  f_equal. apply map_ext_in. intros i Hi. apply map_ext_in. intros j Hj. apply in_seq in Hi. apply in_seq in Hj. rewrite Hm.
  rewrite !Hin by lia. cbn [andb]. unfold nmix. rewrite !Nat2N.id. change (@c1 (RNum tau)) with (RtoC 1). toC. ring.
Qed.
End Readout.
