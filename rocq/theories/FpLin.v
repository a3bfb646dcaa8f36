(* FpLin.v -- C67: every error bound is at most a constant times the accuracy dl of the
   arithmetic (plus the error of the gate entries), the constant depending only on the
   number of qubits and of operations. *)
From Coq Require Import Reals Lra Psatz ZArith Bool List Lia Arith.
From Coquelicot Require Import Complex.
From Verif Require Import Num State DD Gates FpA FpE FpRead FpKron FpProp.
Open Scope R_scope.

Lemma mul3 x y z x' y' z' : 0 <= x -> 0 <= y -> 0 <= z -> x <= x' -> y <= y' -> z <= z' -> x * y * z <= x' * y' * z'.
Proof. intros. apply Rmult_le_compat; auto; [now apply Rmult_le_pos|]. now apply Rmult_le_compat. Qed.
Section Lin.
Context {NO : NumOps} {AC : Accur NO}.
Notation dl := (@dl NO AC).
Notation Gr := (@Gr NO AC).
Notation Gp := (@Gp NO AC).
Lemma Gr_le2 : 1 <= Gr <= 2. Proof. unfold FpA.Gr. pose proof dl_ok. lra. Qed.
Lemma Gp_le n : 1 <= Gp n <= 2 ^ n.
Proof. split; [apply Grn_ge1|]. apply pow_incr. pose proof Gr_le2. lra. Qed.
Lemma mkerr_lin q W : 0 <= W -> mkerr q W <= 2 ^ q * (2 + 3 * W) * dl.
Proof.
  intros HW. unfold mkerr. pose proof dl_ok as Hd. pose proof Gr_le2 as Hg. pose proof (Gp_le q) as [Hp1 Hp2].
  replace (2 ^ q * (2 + 3 * W) * dl) with (2 ^ q * (dl * (2 + 3 * W))) by ring.
  apply Rmult_le_compat; [lra| |lra|]; [apply Rmult_le_pos; lra|]. apply Rmult_le_compat_l; lra.
Qed.
End Lin.

(* addition *)
Lemma eadd_lin n : exists K, 0 <= K /\ forall NO (AC : Accur NO) s, 0 <= s -> eadd n s <= K * (s + 1) * dl.
Proof.
  induction n as [|m (K & HK & IH)].
  - exists 2. split; [lra|]. intros NO AC s Hs. cbn [eadd]. pose proof dl_ok as Hd. nra.
  - set (P := 2 ^ m). assert (HP : 1 <= P) by (apply pow_R1_Rle; lra).
    (* D <= C (x + 1) dl for x the sum of the weights *)
    set (C := K * 7 + P * 2). assert (HC : 0 <= C) by (unfold C; nra).
    set (C2 := C + P * (2 + 3 * (2 * P + C))). assert (HC2 : 0 <= C2) by (unfold C2; nra).
    exists (C2 * 3 + 8 * P). split; [nra|]. intros NO AC s Hs. rewrite eadd_S.
    pose proof (@dl_ok NO AC) as Hd. pose proof (@Gr_le2 NO AC) as Hg. pose proof (Gp_le m) as [Gm1 Gm2]. fold P in Gm2.
    assert (GS : Gp (S m) <= 2 * P) by (rewrite Gp_S; apply Rmult_le_compat; lra).
    pose proof (Grn_ge1 (S m)) as GS1.
    assert (Hcomp : forall x, 0 <= x -> ecomp m x <= C2 * (x + 1) * dl).
    { intros x Hx. unfold ecomp, ecomp_.
      assert (Hw0 : 0 <= wup x) by now apply wup_pos.
      assert (Hw : wup x <= 4 * x + 2).
      { unfold wup. assert (Gr * Gr <= 4) by nra. assert (Gr * Gr * x <= 4 * x) by (apply Rmult_le_compat_r; lra). lra. }
      pose proof (IH NO AC (wup x) Hw0) as H1.
      assert (H2 : eadd m (wup x) <= K * 7 * (x + 1) * dl).
      { eapply Rle_trans; [exact H1|]. apply Rmult_le_compat_r; [lra|]. rewrite (Rmult_assoc K 7). apply Rmult_le_compat_l; [lra|]. lra. }
      assert (H3 : cerr m x <= P * 2 * (x + 1) * dl).
      { unfold cerr. replace (P * 2 * (x + 1) * dl) with ((2 * dl * (x + 1)) * P) by ring. apply Rmult_le_compat; [|lra| |lra].
        - assert (0 <= dl * Gr * x) by (apply Rmult_le_pos; [apply Rmult_le_pos; lra|lra]). lra.
        - assert (dl * Gr * x <= dl * 2 * x) by (apply Rmult_le_compat_r; [lra|]; apply Rmult_le_compat_l; lra). nra. }
      pose proof (eadd_pos m (wup x) Hw0) as P1. pose proof (cerr_pos m x Hx) as P2.
      set (D := eadd m (wup x) + cerr m x) in *.
      assert (HD : D <= C * (x + 1) * dl) by (unfold D, C; lra).
      assert (HD0 : 0 <= D) by (unfold D; lra).
      assert (HD1 : D <= C * (x + 1)).
      { eapply Rle_trans; [exact HD|]. rewrite <- (Rmult_1_r (C * (x + 1))) at 2. apply Rmult_le_compat_l; [|lra]. apply Rmult_le_pos; lra. }
      assert (HxG0 : 0 <= x * Gp (S m)) by (apply Rmult_le_pos; lra).
      assert (HxG : x * Gp (S m) <= x * (2 * P)) by (apply Rmult_le_compat_l; lra).
      cbv zeta. assert (HW0 : 0 <= x * Gp (S m) + D) by lra. pose proof (mkerr_lin m _ HW0) as HM. fold P in HM.
      assert (HM2 : P * (2 + 3 * (x * Gp (S m) + D)) * dl <= P * (2 + 3 * (2 * P + C)) * (x + 1) * dl).
      { apply Rmult_le_compat_r; [lra|]. rewrite (Rmult_assoc P _ (x + 1)). apply Rmult_le_compat_l; [lra|].
        assert (3 * (x * Gp (S m) + D) <= 3 * (2 * P + C) * (x + 1)) by nra. nra. }
      unfold C2. lra. }
    assert (HX0 : 0 <= s + 2 * dl) by lra. pose proof (Hcomp _ HX0) as H1.
    assert (H2 : C2 * (s + 2 * dl + 1) * dl <= C2 * 3 * (s + 1) * dl).
    { apply Rmult_le_compat_r; [lra|]. rewrite (Rmult_assoc C2 3). apply Rmult_le_compat_l; lra. }
    assert (H3 : dl * Gp (S m) <= 2 * P * dl) by nra.
    assert (H4 : dl * s * Gp (S m) <= 2 * P * s * dl).
    { replace (2 * P * s * dl) with (dl * s * (2 * P)) by ring. apply Rmult_le_compat_l; [apply Rmult_le_pos; lra|lra]. }
    assert (H5 : 0 <= P * dl) by (apply Rmult_le_pos; lra). assert (H6 : 0 <= P * dl * s) by (apply Rmult_le_pos; lra). lra.
Qed.
Lemma mvbound_lin n Km : 0 <= Km -> exists K, 0 <= K /\ forall NO (AC : Accur NO) mu a b, 0 <= mu <= Km * dl -> 0 <= a -> 0 <= b ->
  mvbound mu n a b <= K * ((a + 1) * (b + 1)) * dl.
Proof.
  intros HKm. set (P := 2 ^ n). assert (HP : 1 <= P) by (apply pow_R1_Rle; lra).
  set (Q := P * (P * P)). assert (HQ : 1 <= Q) by (unfold Q; nra).
  exists (Q + Km + P * (3 * (Q + Km) + 5)). split; [nra|]. intros NO AC mu a b Hmu Ha Hb. unfold mvbound.
  pose proof (@dl_ok NO AC) as Hd. pose proof (Gp_le n) as [G1 G2]. fold P in G2.
  assert (HB : 0 <= Bd n <= Q).
  { split; [apply Bd_pos|]. unfold Bd, Q. fold P. apply Rmult_le_compat_l; [lra|]. apply Rmult_le_compat; lra. }
  set (T := (a + 1) * (b + 1)). assert (HT : 1 <= T) by (unfold T; nra).
  assert (Hab : 0 <= a * b <= T) by (unfold T; split; [apply Rmult_le_pos; lra|nra]).
  assert (H1 : Bd n * (dl * (a + b)) <= Q * T * dl).
  { rewrite Rmult_assoc, (Rmult_comm T dl). apply Rmult_le_compat; [lra|apply Rmult_le_pos; lra|lra|]. apply Rmult_le_compat_l; [lra|]. unfold T. nra. }
  assert (H2 : mu * (a * b) <= Km * T * dl).
  { replace (Km * T * dl) with ((Km * dl) * T) by ring. apply Rmult_le_compat; lra. }
  assert (H3 : Gp n * (dl * (3 * ((Bd n + mu) * (a * b)) + 2 * b + 2 + a * b)) <= P * (3 * (Q + Km) + 5) * T * dl).
  { replace (P * (3 * (Q + Km) + 5) * T * dl) with (P * (dl * ((3 * (Q + Km) + 5) * T))) by ring.
    assert (Hm1 : 0 <= Bd n + mu <= Q + Km).
    { split; [lra|]. assert (Km * dl <= Km * 1) by (apply Rmult_le_compat_l; lra). lra. }
    assert (Hm2 : (Bd n + mu) * (a * b) <= (Q + Km) * T) by (apply Rmult_le_compat; lra).
    assert (Hm3 : 0 <= (Bd n + mu) * (a * b)) by (apply Rmult_le_pos; lra).
    assert (Hm4 : 2 * b + 2 <= 2 * T) by (unfold T; nra).
    apply Rmult_le_compat; [lra| |lra|]; [apply Rmult_le_pos; lra|]. apply Rmult_le_compat_l; [lra|]. lra. }
  lra.
Qed.
Lemma emul_lin n : exists K, 0 <= K /\ forall NO (AC : Accur NO), emul n <= K * dl.
Proof.
  induction n as [|m (Km & HKm & IH)].
  - exists 0. split; [lra|]. intros NO AC. cbn. lra.
  - destruct (mvbound_lin m Km HKm) as (Kv & HKv & Hv). destruct (eadd_lin m) as (Ka & HKa & Hadd).
    set (P := 2 ^ m). assert (HP : 1 <= P) by (apply pow_R1_Rle; lra).
    set (Q := P * (2 * P * (2 * P))). assert (HQ : 1 <= Q) by (unfold Q; nra).
    set (C := 2 * (Kv * 9) + Ka * (2 * (Q + Kv * 9) + 1)). assert (HC : 0 <= C) by (unfold C; nra).
    exists (C + P * (2 + 3 * (2 * Q + C))). split; [nra|]. intros NO AC. rewrite emul_S. unfold half_err, half_err_.
    pose proof (@dl_ok NO AC) as Hd. pose proof (@Gr_le2 NO AC) as Hg. pose proof (Gp_le m) as [Gm1 Gm2]. fold P in Gm2.
    assert (GS : Gp (S m) <= 2 * P) by (rewrite Gp_S; apply Rmult_le_compat; lra). pose proof (Grn_ge1 (S m)) as GS1.
    assert (HB : 0 <= Bs m <= Q).
    { split; [apply Bs_pos|]. unfold Bs, Q. fold P. apply Rmult_le_compat_l; [lra|]. apply Rmult_le_compat; lra. }
    pose proof (emul_pos m) as Hm0.
    assert (HGr : 0 <= Gr) by lra. pose proof (Hv NO AC (emul m) Gr Gr (conj Hm0 (IH NO AC)) HGr HGr) as H1.
    assert (HGr0 : 0 <= Gr) by lra. pose proof (mvbound_pos (emul m) m Gr Gr Hm0 HGr0 HGr0) as H1p.
    set (p := mvbound (emul m) m Gr Gr) in *.
    assert (H2 : p <= Kv * 9 * dl).
    { eapply Rle_trans; [exact H1|]. apply Rmult_le_compat_r; [lra|]. apply Rmult_le_compat_l; [lra|]. nra. }
    assert (H2' : p <= Kv * 9) by (assert (Kv * 9 * dl <= Kv * 9 * 1) by (apply Rmult_le_compat_l; lra); lra).
    assert (HX0 : 0 <= 2 * (Bs m + p)) by lra. pose proof (Hadd NO AC _ HX0) as H3. pose proof (eadd_pos m _ HX0) as H3p.
    assert (H4 : Ka * (2 * (Bs m + p) + 1) * dl <= Ka * (2 * (Q + Kv * 9) + 1) * dl).
    { apply Rmult_le_compat_r; [lra|]. apply Rmult_le_compat_l; lra. }
    cbv zeta. set (D := 2 * p + eadd m (2 * (Bs m + p))) in *.
    assert (HD : D <= C * dl) by (unfold D, C; lra). assert (HD0 : 0 <= D) by (unfold D; lra).
    assert (HD1 : D <= C) by (assert (C * dl <= C * 1) by (apply Rmult_le_compat_l; lra); lra).
    assert (HW0 : 0 <= 2 * Bs m + D) by lra. pose proof (mkerr_lin m _ HW0) as HM. fold P in HM.
    assert (HM2 : P * (2 + 3 * (2 * Bs m + D)) * dl <= P * (2 + 3 * (2 * Q + C)) * dl).
    { apply Rmult_le_compat_r; [lra|]. apply Rmult_le_compat_l; lra. }
    lra.
Qed.
Lemma emv_lin n : exists K, 0 <= K /\ forall NO (AC : Accur NO) a b, 0 <= a -> 0 <= b -> emv n a b <= K * ((a + 1) * (b + 1)) * dl.
Proof.
  destruct (emul_lin n) as (Km & HKm & Hm). destruct (mvbound_lin n Km HKm) as (K & HK & Hv).
  exists K. split; auto. intros NO AC a b Ha Hb. unfold emv. apply Hv; auto. split; [apply emul_pos|apply Hm].
Qed.
Lemma egate_lin n : exists K, 0 <= K /\ forall NO (AC : Accur NO) B, 0 <= B -> egate n B <= K * (B + 1) * dl.
Proof.
  induction n as [|m (K & HK & IH)].
  - exists 0. split; [lra|]. intros. cbn. lra.
  - set (P := 2 ^ m). assert (HP : 1 <= P) by (apply pow_R1_Rle; lra).
    exists (K + P * (2 + 3 * (1 + K))). split; [nra|]. intros NO AC B HB. cbn [egate].
    pose proof (@dl_ok NO AC) as Hd. pose proof (IH NO AC B HB) as H1. pose proof (egate_pos m B HB) as H1p.
    assert (H2 : egate m B <= K * (B + 1)).
    { assert (K * (B + 1) * dl <= K * (B + 1) * 1) by (apply Rmult_le_compat_l; [apply Rmult_le_pos; lra|lra]). lra. }
    assert (HW0 : 0 <= B + egate m B) by lra. pose proof (mkerr_lin m _ HW0) as HM. fold P in HM.
    assert (HM2 : P * (2 + 3 * (B + egate m B)) * dl <= P * (2 + 3 * (1 + K)) * (B + 1) * dl).
    { apply Rmult_le_compat_r; [lra|]. rewrite (Rmult_assoc P _ (B + 1)). apply Rmult_le_compat_l; [lra|]. nra. }
    lra.
Qed.
Lemma erd_lin n : exists K, 0 <= K /\ forall NO (AC : Accur NO) P, 0 <= P -> erd n P <= K * (P + 1) * dl.
Proof.
  induction n as [|m (K & HK & IH)].
  - exists 1. split; [lra|]. intros NO AC P HP. cbn [erd]. lra.
  - set (Q := 2 ^ m). assert (HQ : 1 <= Q) by (apply pow_R1_Rle; lra).
    exists (2 * Q + K * 4). split; [nra|]. intros NO AC P HP. cbn [erd].
    pose proof (@dl_ok NO AC) as Hd. pose proof (@Gr_le2 NO AC) as Hg. pose proof (Gp_le m) as [Gm1 Gm2]. fold Q in Gm2.
    assert (HGP : 0 <= Gr * P <= 2 * P) by (split; [apply Rmult_le_pos; lra|apply Rmult_le_compat_r; lra]).
    assert (Hx : 0 <= Gr * (Gr * P + dl) <= 2 * (2 * P + 1)).
    { split; [apply Rmult_le_pos; lra|apply Rmult_le_compat; lra]. }
    pose proof (IH NO AC _ (Logic.proj1 Hx)) as H1.
    assert (H2 : K * (Gr * (Gr * P + dl) + 1) * dl <= K * 4 * (P + 1) * dl).
    { apply Rmult_le_compat_r; [lra|]. rewrite (Rmult_assoc K 4). apply Rmult_le_compat_l; lra. }
    assert (H3 : dl * (P + 1) * (Gr * Gp m) <= 2 * Q * (P + 1) * dl).
    { replace (2 * Q * (P + 1) * dl) with (dl * (P + 1) * (2 * Q)) by ring. apply Rmult_le_compat_l; [apply Rmult_le_pos; lra|]. apply Rmult_le_compat; lra. }
    lra.
Qed.
Lemma eg_lin n : exists K, 1 <= K /\ forall NO (AC : Accur NO) gd, 0 <= gd <= 1 -> eg n gd <= K * (dl + gd).
Proof.
  destruct (egate_lin n) as (K & HK & H). exists (3 * K + 1). split; [lra|]. intros NO AC gd Hgd. unfold eg.
  pose proof (@dl_ok NO AC) as Hd. pose proof (H NO AC (1 + gd) ltac:(lra)) as H1.
  assert (K * (1 + gd + 1) * dl <= K * 3 * dl) by (apply Rmult_le_compat_r; [lra|]; apply Rmult_le_compat_l; lra).
  assert (0 <= K * gd) by (apply Rmult_le_pos; lra). lra.
Qed.
Lemma eop_lin n : exists K, 0 <= K /\ forall NO (AC : Accur NO) gd W, 0 <= gd <= 1 -> 0 <= W -> eop n gd W <= K * (W + 1) * (dl + gd).
Proof.
  destruct (eg_lin n) as (Kg & HKg & Hg). destruct (emv_lin n) as (Kv & HKv & Hv). set (N := INR (2 ^ n)).
  assert (HN : 0 <= N) by apply pos_INR.
  exists (Kv * (2 + 2 * Kg) + N * Kg). split; [nra|]. intros NO AC gd W Hgd HW. unfold eop.
  pose proof (@dl_ok NO AC) as Hd. pose proof (Hg NO AC gd Hgd) as H1. pose proof (eg_pos n gd (Logic.proj1 Hgd)) as H1p.
  assert (H1' : eg n gd <= 2 * Kg) by (eapply Rle_trans; [exact H1|]; rewrite (Rmult_comm 2 Kg); apply Rmult_le_compat_l; lra).
  assert (HX0 : 0 <= 1 + eg n gd) by lra. pose proof (Hv NO AC _ W HX0 HW) as H2.
  assert (H3 : Kv * ((1 + eg n gd + 1) * (W + 1)) * dl <= Kv * (2 + 2 * Kg) * (W + 1) * (dl + gd)).
  { replace (Kv * (2 + 2 * Kg) * (W + 1) * (dl + gd)) with (Kv * ((2 + 2 * Kg) * (W + 1)) * (dl + gd)) by ring.
    assert (Hw1 : (1 + eg n gd + 1) * (W + 1) <= (2 + 2 * Kg) * (W + 1)) by (apply Rmult_le_compat_r; lra).
    assert (Hw0 : 0 <= (1 + eg n gd + 1) * (W + 1)) by (apply Rmult_le_pos; lra).
    apply Rmult_le_compat; [apply Rmult_le_pos; lra|lra| |lra]. apply Rmult_le_compat_l; lra. }
  assert (H4 : N * (eg n gd * W) <= N * Kg * (W + 1) * (dl + gd)).
  { replace (N * Kg * (W + 1) * (dl + gd)) with (N * ((Kg * (dl + gd)) * (W + 1))) by ring.
    apply Rmult_le_compat_l; [lra|]. apply Rmult_le_compat; lra. }
  fold N. lra.
Qed.
(* the error of a circuit of k operations on n qubits *)
Theorem ecirc_lin n k : exists K, 0 <= K /\ forall NO (AC : Accur NO) gd, 0 <= gd <= 1 -> ecirc n gd k <= K * (dl + gd).
Proof.
  destruct (eop_lin n) as (Ko & HKo & Ho). set (q := sqrt (INR (2 ^ n))). assert (Hq : 0 <= q) by apply sqrt_pos.
  induction k as [|k (K & HK & IH)].
  - exists 0. split; [lra|]. intros. cbn. lra.
  - exists (K + q * (Ko * (2 * K + 2))). split.
    { apply Rplus_le_le_0_compat; [lra|]. apply Rmult_le_pos; [lra|]. apply Rmult_le_pos; lra. }
    intros NO AC gd Hgd. cbn [ecirc]. fold q. pose proof (@dl_ok NO AC) as Hd. pose proof (IH NO AC gd Hgd) as H1.
    pose proof (ecirc_pos n gd k (Logic.proj1 Hgd)) as H1p.
    assert (H2 : ecirc n gd k <= 2 * K).
    { eapply Rle_trans; [exact H1|]. rewrite (Rmult_comm 2 K). apply Rmult_le_compat_l; lra. }
    assert (HX0 : 0 <= 1 + ecirc n gd k) by lra. pose proof (Ho NO AC gd _ Hgd HX0) as H3.
    assert (H4 : Ko * (1 + ecirc n gd k + 1) * (dl + gd) <= Ko * (2 * K + 2) * (dl + gd)).
    { apply Rmult_le_compat_r; [lra|]. apply Rmult_le_compat_l; lra. }
    assert (H5 : q * eop n gd (1 + ecirc n gd k) <= q * (Ko * (2 * K + 2) * (dl + gd))) by (apply Rmult_le_compat_l; lra). lra.
Qed.
(* ... and of the amplitudes read at the end *)
Theorem C67_error_linear n k : exists K, 0 <= K /\ forall NO (AC : Accur NO) gd, 0 <= gd <= 1 ->
  ecirc n gd k + erd n (1 + ecirc n gd k) <= K * (dl + gd).
Proof.
  destruct (ecirc_lin n k) as (K & HK & H). destruct (erd_lin n) as (Kr & HKr & Hr).
  exists (K + Kr * (2 * K + 2)). split; [assert (0 <= Kr * (2 * K + 2)) by (apply Rmult_le_pos; lra); lra|]. intros NO AC gd Hgd.
  pose proof (@dl_ok NO AC) as Hd. pose proof (H NO AC gd Hgd) as H1. pose proof (ecirc_pos n gd k (Logic.proj1 Hgd)) as H1p.
  assert (H2 : ecirc n gd k <= 2 * K).
  { eapply Rle_trans; [exact H1|]. rewrite (Rmult_comm 2 K). apply Rmult_le_compat_l; lra. }
  assert (HX0 : 0 <= 1 + ecirc n gd k) by lra. pose proof (Hr NO AC _ HX0) as H3.
  assert (H4 : Kr * (1 + ecirc n gd k + 1) * dl <= Kr * (2 * K + 2) * (dl + gd)).
  { apply Rmult_le_compat; [apply Rmult_le_pos; lra|lra| |lra]. apply Rmult_le_compat_l; lra. }
  lra.
Qed.
