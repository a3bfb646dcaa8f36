(* FpMMX.v -- C71 for rounded arithmetic and for binary64: one constant per size, and a
   concrete client that fuses gates. *)
From Coq Require Import Reals Lra Psatz ZArith Bool List Lia Arith.
From Coquelicot Require Import Complex.
From Flocq Require Import Core.
From Verif Require Import Num State DD Gates GC Measure Api RNum Wf Sums Err Inv Wp Make Add MulV GateP StateP Kron Spec SpecP Readout
  MeasAllP ApiP Obs Props1 Circuit GateMat SafeF FpA FpE FpW FpM FpAdd FpMul FpMM FpMM2 FpGate FpState FpRead FpGC FpKron FpCirc FpProp FpLin FpF FpX FpMMP.
Import List ListNotations.
Open Scope R_scope.

(* ---- the error bounds are linear in the accuracy ---- *)
Lemma eaddm_U NO (AC : Accur NO) m s : eaddm (S m) s = ecomp_ (eaddm m) m (s + 2 * dl) + 4 * (dl * Gp (S m)) + dl * s * Gp (S m).
Proof. reflexivity. Qed.
Lemma emulm_U NO (AC : Accur NO) m : emulm (S m) = (let D := eblk_ (emulm m) m in D + mkerr m (2 * Bs m + D) + dl * Gp (S m)).
Proof. reflexivity. Qed.
Lemma eaddm_lin n : exists K, 0 <= K /\ forall NO (AC : Accur NO) s, 0 <= s -> eaddm n s <= K * (s + 1) * dl.
Proof.
  induction n as [|m (K & HK & IH)].
  - exists 2. split; [lra|]. intros NO AC s Hs. cbn [eaddm]. pose proof dl_ok as Hd. nra.
  - set (P := 2 ^ m). assert (HP : 1 <= P) by (apply pow_R1_Rle; lra).
    (* D <= C (x + 1) dl for x the sum of the weights *)
    set (C := K * 7 + P * 2). assert (HC : 0 <= C) by (unfold C; nra).
    set (C2 := C + P * (2 + 3 * (2 * P + C))). assert (HC2 : 0 <= C2) by (unfold C2; nra).
    exists (C2 * 3 + 16 * P). split; [nra|]. intros NO AC s Hs. rewrite eaddm_U.
    pose proof (@dl_ok NO AC) as Hd. pose proof (@Gr_le2 NO AC) as Hg. pose proof (Gp_le m) as [Gm1 Gm2]. fold P in Gm2.
    assert (GS : Gp (S m) <= 2 * P) by (rewrite Gp_S; apply Rmult_le_compat; lra).
    pose proof (Grn_ge1 (S m)) as GS1.
    assert (Hcomp : forall x, 0 <= x -> ecomp_ (eaddm m) m x <= C2 * (x + 1) * dl).
    { intros x Hx. unfold ecomp_.
      assert (Hw0 : 0 <= wup x) by now apply wup_pos.
      assert (Hw : wup x <= 4 * x + 2).
      { unfold wup. assert (Gr * Gr <= 4) by nra. assert (Gr * Gr * x <= 4 * x) by (apply Rmult_le_compat_r; lra). lra. }
      pose proof (IH NO AC (wup x) Hw0) as H1.
      assert (H2 : eaddm m (wup x) <= K * 7 * (x + 1) * dl).
      { eapply Rle_trans; [exact H1|]. apply Rmult_le_compat_r; [lra|]. rewrite (Rmult_assoc K 7). apply Rmult_le_compat_l; [lra|]. lra. }
      assert (H3 : cerr m x <= P * 2 * (x + 1) * dl).
      { unfold cerr. replace (P * 2 * (x + 1) * dl) with ((2 * dl * (x + 1)) * P) by ring. apply Rmult_le_compat; [|lra| |lra].
        - assert (0 <= dl * Gr * x) by (apply Rmult_le_pos; [apply Rmult_le_pos; lra|lra]). lra.
        - assert (dl * Gr * x <= dl * 2 * x) by (apply Rmult_le_compat_r; [lra|]; apply Rmult_le_compat_l; lra). nra. }
      pose proof (eaddm_pos m (wup x) Hw0) as P1. pose proof (cerr_pos m x Hx) as P2.
      set (D := eaddm m (wup x) + cerr m x) in *.
      assert (HD : D <= C * (x + 1) * dl) by (unfold D, C; lra).
      assert (HD0 : 0 <= D) by (unfold D; lra).
      assert (HD1 : D <= C * (x + 1)).
      { eapply Rle_trans; [exact HD|]. rewrite <- (Rmult_1_r (C * (x + 1))) at 2. apply Rmult_le_compat_l; [|lra]. apply Rmult_le_pos; lra. }
      assert (HxG0 : 0 <= x * Gp (S m)) by (apply Rmult_le_pos; lra).
      assert (HxG : x * Gp (S m) <= x * (2 * P)) by (apply Rmult_le_compat_l; lra).
      cbv zeta. assert (HW0 : 0 <= x * Gp (S m) + D) by lra. pose proof (mkerr_lin m _ HW0) as HM. fold P in HM.
      assert (HM2 : P * (2 + 3 * (x * Gp (S m) + D)) * dl <= P * (2 + 3 * (2 * P + C)) * (x + 1) * dl).
      { apply Rmult_le_compat_r; [lra|]. rewrite (Rmult_assoc P _ (x + 1)). apply Rmult_le_compat_l; [lra|].
        assert (3 * (x * Gp (S m) + D) <= 3 * (2 * P + C) * (x + 1)) by nra. nra. }
      unfold C2. lra. }
    assert (HX0 : 0 <= s + 2 * dl) by lra. pose proof (Hcomp _ HX0) as H1.
    assert (H2 : C2 * (s + 2 * dl + 1) * dl <= C2 * 3 * (s + 1) * dl).
    { apply Rmult_le_compat_r; [lra|]. rewrite (Rmult_assoc C2 3). apply Rmult_le_compat_l; lra. }
    assert (H3 : dl * Gp (S m) <= 2 * P * dl) by nra.
    assert (H4 : dl * s * Gp (S m) <= 2 * P * s * dl).
    { replace (2 * P * s * dl) with (dl * s * (2 * P)) by ring. apply Rmult_le_compat_l; [apply Rmult_le_pos; lra|lra]. }
    assert (H5 : 0 <= P * dl) by (apply Rmult_le_pos; lra). assert (H6 : 0 <= P * dl * s) by (apply Rmult_le_pos; lra). lra.
Qed.
Lemma emulm_lin n : exists K, 0 <= K /\ forall NO (AC : Accur NO), emulm n <= K * dl.
Proof.
  induction n as [|m (Km & HKm & IH)].
  - exists 0. split; [lra|]. intros NO AC. cbn. lra.
  - destruct (mvbound_lin m Km HKm) as (Kv & HKv & Hv). destruct (eaddm_lin m) as (Ka & HKa & Hadd).
    set (P := 2 ^ m). assert (HP : 1 <= P) by (apply pow_R1_Rle; lra).
    set (Q := P * (2 * P * (2 * P))). assert (HQ : 1 <= Q) by (unfold Q; nra).
    set (C := 2 * (Kv * 9) + Ka * (2 * (Q + Kv * 9) + 1)). assert (HC : 0 <= C) by (unfold C; nra).
    exists (C + P * (2 + 3 * (2 * Q + C)) + 2 * P). split; [nra|]. intros NO AC. rewrite emulm_U. unfold eblk_.
    pose proof (@dl_ok NO AC) as Hd. pose proof (@Gr_le2 NO AC) as Hg. pose proof (Gp_le m) as [Gm1 Gm2]. fold P in Gm2.
    assert (GS : Gp (S m) <= 2 * P) by (rewrite Gp_S; apply Rmult_le_compat; lra). pose proof (Grn_ge1 (S m)) as GS1.
    assert (HB : 0 <= Bs m <= Q).
    { split; [apply Bs_pos|]. unfold Bs, Q. fold P. apply Rmult_le_compat_l; [lra|]. apply Rmult_le_compat; lra. }
    pose proof (emulm_pos m) as Hm0.
    assert (HGr : 0 <= Gr) by lra. pose proof (Hv NO AC (emulm m) Gr Gr (conj Hm0 (IH NO AC)) HGr HGr) as H1.
    assert (HGr0 : 0 <= Gr) by lra. pose proof (mvbound_pos (emulm m) m Gr Gr Hm0 HGr0 HGr0) as H1p.
    set (p := mvbound (emulm m) m Gr Gr) in *.
    assert (H2 : p <= Kv * 9 * dl).
    { eapply Rle_trans; [exact H1|]. apply Rmult_le_compat_r; [lra|]. apply Rmult_le_compat_l; [lra|]. nra. }
    assert (H2' : p <= Kv * 9) by (assert (Kv * 9 * dl <= Kv * 9 * 1) by (apply Rmult_le_compat_l; lra); lra).
    assert (HX0 : 0 <= 2 * (Bs m + p)) by lra. pose proof (Hadd NO AC _ HX0) as H3. pose proof (eaddm_pos m _ HX0) as H3p.
    assert (H4 : Ka * (2 * (Bs m + p) + 1) * dl <= Ka * (2 * (Q + Kv * 9) + 1) * dl).
    { apply Rmult_le_compat_r; [lra|]. apply Rmult_le_compat_l; lra. }
    cbv zeta. set (D := 2 * p + eaddm m (2 * (Bs m + p))) in *.
    assert (HD : D <= C * dl) by (unfold D, C; lra). assert (HD0 : 0 <= D) by (unfold D; lra).
    assert (HD1 : D <= C) by (assert (C * dl <= C * 1) by (apply Rmult_le_compat_l; lra); lra).
    assert (HW0 : 0 <= 2 * Bs m + D) by lra. pose proof (mkerr_lin m _ HW0) as HM. fold P in HM.
    assert (HM2 : P * (2 + 3 * (2 * Bs m + D)) * dl <= P * (2 + 3 * (2 * Q + C)) * dl).
    { apply Rmult_le_compat_r; [lra|]. apply Rmult_le_compat_l; lra. }
    assert (H5 : dl * Gp (S m) <= 2 * P * dl) by (rewrite (Rmult_comm (2 * P)); apply Rmult_le_compat_l; lra). lra.
Qed.
Lemma emm_lin n : exists K, 0 <= K /\ forall NO (AC : Accur NO) a b, 0 <= a -> 0 <= b -> emm n a b <= K * ((a + 1) * (b + 1)) * dl.
Proof.
  destruct (emulm_lin n) as (Km & HKm & Hm). destruct (mvbound_lin n Km HKm) as (K & HK & Hv).
  exists K. split; auto. intros NO AC a b Ha Hb. unfold emm. apply Hv; auto. split; [apply emulm_pos|apply Hm].
Qed.
(* matrices of k gates *)
Lemma emat_lin n k : exists K, 0 <= K /\ forall NO (AC : Accur NO) gd, 0 <= gd <= 1 -> emat n gd k <= K * (dl + gd).
Proof.
  destruct (eg_lin n) as (Kg & HKg & Hg). destruct (emm_lin n) as (Kv & HKv & Hv). set (N := INR (2 ^ n)).
  assert (HN : 0 <= N) by apply pos_INR.
  induction k as [|[|k] (K & HK & IH)].
  - exists 0. split; [lra|]. intros. cbn. lra.
  - exists Kg. split; [lra|]. intros NO AC gd Hgd. cbn [emat]. now apply Hg.
  - exists (Kv * ((2 + 2 * Kg) * (2 + 2 * K)) + N * ((1 + 2 * Kg) * K + Kg)). split.
    { apply Rplus_le_le_0_compat; apply Rmult_le_pos; nra. }
    intros NO AC gd Hgd. rewrite emat_S. fold N.
    pose proof (@dl_ok NO AC) as Hd. pose proof (Hg NO AC gd Hgd) as H1. pose proof (eg_pos n gd (Logic.proj1 Hgd)) as H1p.
    pose proof (IH NO AC gd Hgd) as H2. pose proof (emat_pos n gd (S k) (Logic.proj1 Hgd)) as H2p.
    set (e1 := eg n gd) in *. set (e2 := emat n gd (S k)) in *. set (d := dl + gd) in *. assert (Hdd : 0 <= d <= 2) by (unfold d; lra).
    assert (H1' : e1 <= 2 * Kg) by (eapply Rle_trans; [exact H1|]; rewrite (Rmult_comm 2 Kg); apply Rmult_le_compat_l; lra).
    assert (H2' : e2 <= 2 * K) by (eapply Rle_trans; [exact H2|]; rewrite (Rmult_comm 2 K); apply Rmult_le_compat_l; lra).
    assert (HA : 0 <= 1 + e1) by lra. assert (HB : 0 <= 1 + e2) by lra. pose proof (Hv NO AC _ _ HA HB) as H3.
    assert (H4 : Kv * ((1 + e1 + 1) * (1 + e2 + 1)) * dl <= Kv * ((2 + 2 * Kg) * (2 + 2 * K)) * d).
    { assert (Hw : 0 <= (1 + e1 + 1) * (1 + e2 + 1) <= (2 + 2 * Kg) * (2 + 2 * K)) by (split; [apply Rmult_le_pos; lra|apply Rmult_le_compat; lra]).
      apply Rmult_le_compat; [apply Rmult_le_pos; lra|lra| |unfold d; lra]. apply Rmult_le_compat_l; lra. }
    assert (H5 : (1 + e1) * e2 + e1 <= ((1 + 2 * Kg) * K + Kg) * d).
    { assert ((1 + e1) * e2 <= (1 + 2 * Kg) * (K * d)) by (apply Rmult_le_compat; lra). lra. }
    assert (H6 : N * ((1 + e1) * e2 + e1) <= N * (((1 + 2 * Kg) * K + Kg) * d)) by (apply Rmult_le_compat_l; lra). lra.
Qed.
Lemma eswap_lin n : exists K, 0 <= K /\ forall NO (AC : Accur NO), eswap n <= K * dl.
Proof.
  destruct (egate_lin n) as (Kg & HKg & Hg). destruct (emm_lin n) as (Kv & HKv & Hv). set (P := 2 ^ n).
  assert (HP : 1 <= P) by (apply pow_R1_Rle; lra).
  set (K2 := Kv * ((2 + 2 * Kg) * (2 + 2 * Kg)) + P * ((1 + 2 * Kg) * (2 * Kg) + 2 * Kg)). assert (HK2 : 0 <= K2) by (unfold K2; apply Rplus_le_le_0_compat; apply Rmult_le_pos; nra).
  exists (Kv * ((2 + 2 * Kg) * (P + K2 + 1)) + P * ((1 + 2 * Kg) * K2 + 2 * Kg * P)). split.
  { apply Rplus_le_le_0_compat; apply Rmult_le_pos; nra. }
  intros NO AC. unfold eswap, eswap2. fold P. pose proof (@dl_ok NO AC) as Hd.
  pose proof (Hg NO AC 1 ltac:(lra)) as H1. pose proof (egate_pos n 1 ltac:(lra)) as H1p. set (e := egate n 1) in *.
  assert (H1' : e <= 2 * Kg * dl) by lra. assert (H1'' : e <= 2 * Kg) by (assert (2 * Kg * dl <= 2 * Kg * 1) by (apply Rmult_le_compat_l; lra); lra).
  assert (HA : 0 <= 1 + e) by lra. pose proof (Hv NO AC _ _ HA HA) as H2. pose proof (emm_pos n _ _ HA HA) as H2p.
  set (m2 := emm n (1 + e) (1 + e)) in *. set (s2 := m2 + P * ((1 + e) * e + e * 1)) in *.
  assert (H3 : m2 <= Kv * ((2 + 2 * Kg) * (2 + 2 * Kg)) * dl).
  { eapply Rle_trans; [exact H2|]. apply Rmult_le_compat_r; [lra|]. apply Rmult_le_compat_l; [lra|]. apply Rmult_le_compat; lra. }
  assert (H4 : P * ((1 + e) * e + e * 1) <= P * (((1 + 2 * Kg) * (2 * Kg) + 2 * Kg) * dl)).
  { apply Rmult_le_compat_l; [lra|]. assert ((1 + e) * e <= (1 + 2 * Kg) * (2 * Kg * dl)) by (apply Rmult_le_compat; lra). lra. }
  assert (H5 : 0 <= s2) by (unfold s2; assert (0 <= P * ((1 + e) * e + e * 1)) by (apply Rmult_le_pos; nra); lra).
  assert (H6 : s2 <= K2 * dl) by (unfold s2, K2; lra).
  assert (H6' : s2 <= K2) by (assert (K2 * dl <= K2 * 1) by (apply Rmult_le_compat_l; lra); lra).
  assert (HB : 0 <= P + s2) by lra. pose proof (Hv NO AC _ _ HA HB) as H7.
  assert (H8 : Kv * ((1 + e + 1) * (P + s2 + 1)) * dl <= Kv * ((2 + 2 * Kg) * (P + K2 + 1)) * dl).
  { apply Rmult_le_compat_r; [lra|]. apply Rmult_le_compat_l; [lra|]. apply Rmult_le_compat; lra. }
  assert (H9 : (1 + e) * s2 + e * P <= (1 + 2 * Kg) * (K2 * dl) + 2 * Kg * dl * P).
  { apply Rplus_le_compat; [apply Rmult_le_compat; lra|apply Rmult_le_compat_r; lra]. }
  assert (H10 : P * ((1 + e) * s2 + e * P) <= P * ((1 + 2 * Kg) * (K2 * dl) + 2 * Kg * dl * P)) by (apply Rmult_le_compat_l; lra). lra.
Qed.
Lemma eapp_lin n k : exists K, 0 <= K /\ forall NO (AC : Accur NO) gd W, 0 <= gd <= 1 -> 0 <= W -> eapp n gd k W <= K * (W + 1) * (dl + gd).
Proof.
  destruct (emat_lin n k) as (Kg & HKg & Hg). destruct (emv_lin n) as (Kv & HKv & Hv). set (N := INR (2 ^ n)).
  assert (HN : 0 <= N) by apply pos_INR.
  exists (Kv * (2 + 2 * Kg) + N * Kg). split; [nra|]. intros NO AC gd W Hgd HW. unfold eapp.
  pose proof (@dl_ok NO AC) as Hd. pose proof (Hg NO AC gd Hgd) as H1. pose proof (emat_pos n gd k (Logic.proj1 Hgd)) as H1p.
  assert (H1' : emat n gd k <= 2 * Kg) by (eapply Rle_trans; [exact H1|]; rewrite (Rmult_comm 2 Kg); apply Rmult_le_compat_l; lra).
  assert (HX0 : 0 <= 1 + emat n gd k) by lra. pose proof (Hv NO AC _ W HX0 HW) as H2.
  assert (H3 : Kv * ((1 + emat n gd k + 1) * (W + 1)) * dl <= Kv * (2 + 2 * Kg) * (W + 1) * (dl + gd)).
  { replace (Kv * (2 + 2 * Kg) * (W + 1) * (dl + gd)) with (Kv * ((2 + 2 * Kg) * (W + 1)) * (dl + gd)) by ring.
    assert (Hw1 : (1 + emat n gd k + 1) * (W + 1) <= (2 + 2 * Kg) * (W + 1)) by (apply Rmult_le_compat_r; lra).
    assert (Hw0 : 0 <= (1 + emat n gd k + 1) * (W + 1)) by (apply Rmult_le_pos; lra).
    apply Rmult_le_compat; [apply Rmult_le_pos; lra|lra| |lra]. apply Rmult_le_compat_l; lra. }
  assert (H4 : N * (emat n gd k * W) <= N * Kg * (W + 1) * (dl + gd)).
  { replace (N * Kg * (W + 1) * (dl + gd)) with (N * ((Kg * (dl + gd)) * (W + 1))) by ring.
    apply Rmult_le_compat_l; [lra|]. apply Rmult_le_compat; lra. }
  fold N. lra.
Qed.
(* states after groups of the given lengths *)
Theorem emerge_lin n ks : exists K, 0 <= K /\ forall NO (AC : Accur NO) gd, 0 <= gd <= 1 -> emerge n gd ks <= K * (dl + gd).
Proof.
  set (q := sqrt (INR (2 ^ n))). assert (Hq : 0 <= q) by apply sqrt_pos.
  induction ks as [|k ks (K & HK & IH)].
  - exists 0. split; [lra|]. intros. cbn. lra.
  - destruct (eapp_lin n k) as (Ko & HKo & Ho). exists (K + q * (Ko * (2 * K + 2))). split.
    { apply Rplus_le_le_0_compat; [lra|]. apply Rmult_le_pos; [lra|]. apply Rmult_le_pos; lra. }
    intros NO AC gd Hgd. cbn [emerge]. fold q. pose proof (@dl_ok NO AC) as Hd. pose proof (IH NO AC gd Hgd) as H1.
    pose proof (emerge_pos n gd ks (Logic.proj1 Hgd)) as H1p.
    assert (H2 : emerge n gd ks <= 2 * K).
    { eapply Rle_trans; [exact H1|]. rewrite (Rmult_comm 2 K). apply Rmult_le_compat_l; lra. }
    assert (HX0 : 0 <= 1 + emerge n gd ks) by lra. pose proof (Ho NO AC gd _ Hgd HX0) as H3.
    assert (H4 : eapp n gd k (1 + emerge n gd ks) <= Ko * (2 * K + 2) * (dl + gd)).
    { eapply Rle_trans; [exact H3|]. apply Rmult_le_compat_r; [lra|]. apply Rmult_le_compat_l; lra. }
    assert (H5 : q * eapp n gd k (1 + emerge n gd ks) <= q * (Ko * (2 * K + 2) * (dl + gd))) by (apply Rmult_le_compat_l; lra). lra.
Qed.
Theorem C71_error_linear n ks : exists K, 0 <= K /\ forall NO (AC : Accur NO) gd, 0 <= gd <= 1 ->
  emerge n gd ks + erd n (1 + emerge n gd ks) <= K * (dl + gd).
Proof.
  destruct (emerge_lin n ks) as (K & HK & H). destruct (erd_lin n) as (Kr & HKr & Hr).
  exists (K + Kr * (2 + 2 * K)). split; [nra|]. intros NO AC gd Hgd. pose proof (@dl_ok NO AC) as Hd. pose proof (H NO AC gd Hgd) as H1.
  pose proof (emerge_pos n gd ks (Logic.proj1 Hgd)) as H1p.
  assert (H2 : emerge n gd ks <= 2 * K).
  { eapply Rle_trans; [exact H1|]. rewrite (Rmult_comm 2 K). apply Rmult_le_compat_l; lra. }
  assert (HX0 : 0 <= 1 + emerge n gd ks) by lra. pose proof (Hr NO AC _ HX0) as H3.
  assert (H4 : Kr * (1 + emerge n gd ks + 1) * dl <= Kr * (2 + 2 * K) * (dl + gd)).
  { apply Rmult_le_compat; [apply Rmult_le_pos; lra|lra| |lra]. apply Rmult_le_compat_l; lra. }
  lra.
Qed.

(* K depends on the number of qubits and of gates in each group only *)
Theorem C71_rounded_merged n ks : exists K, 0 <= K /\
  forall rnd tol (RD : Rounding rnd tol) u eta (PR : Precise rnd tol u eta) dz sq co si
    (CF : @Cfg (FNum rnd tol dz sq co si)) gd groups gs s hs v,
  let AC := FAccur rnd tol u eta dz sq co si in
  size_ok n -> 0 <= gd <= 1 -> map (@length op) groups = ks -> Forall2 (Forall2 (@rounds _ AC gd)) groups gs ->
  (forall o, In o (concat groups) -> op_ok n o /\ op_unitary o) -> fmerge n gs (s, hs) v None ->
  (dist n (amps s n v) (ideal n (concat groups)) <= K * (2 * tol + gd)) /\
  ((n <= 30)%nat -> K * (2 * tol + gd) < 1 ->
     exists l, getVector s v = Some l /\ length l = (2 ^ n)%nat /\
       vclose n (K * (2 * tol + gd)) (fun i => (fv rnd (fst (nth i l c0)), fv rnd (snd (nth i l c0)))) (ideal n (concat groups))).
Proof.
  destruct (C71_error_linear n ks) as (K & HK & HL). exists K. split; [exact HK|].
  intros rnd tol RD u eta PR dz sq co si CF gd groups gs s hs v AC Hn Hgd Hk HF Hok Hc.
  specialize (HL _ AC gd Hgd). destruct (C71_merged n gd groups gs s hs v Hn (Logic.proj1 Hgd) HF Hok Hc) as ((_ & _ & H1) & H2 & H3).
  rewrite Hk in *. change (@dl _ AC) with (2 * tol) in HL.
  pose proof (@emerge_pos _ AC n gd ks (Logic.proj1 Hgd)) as Hp.
  assert (Hr : 0 <= @erd _ AC n (1 + @emerge _ AC n gd ks)) by (apply erd_pos; lra).
  split; [lra|]. intros H30 Hlt. assert (Ht : is_term (en v) = false) by (apply H3; lra).
  destruct (H2 H30 Ht) as (l & Hv & Hl & Hcl). exists l. split; [exact Hv|]. split; [exact Hl|].
  intros i Hi. specialize (Hcl i Hi). eapply Rle_trans; [exact Hcl|exact HL].
Qed.
Theorem C71_rounded_fused n k : exists K, 0 <= K /\
  forall rnd tol (RD : Rounding rnd tol) u eta (PR : Precise rnd tol u eta) dz sq co si
    (CF : @Cfg (FNum rnd tol dz sq co si)) gd groups gs ops fs s hs v m,
  let AC := FAccur rnd tol u eta dz sq co si in
  size_ok n -> 0 <= gd <= 1 -> length ops = k -> Forall2 (Forall2 (@rounds _ AC gd)) groups gs -> Forall2 (@rounds _ AC gd) ops fs ->
  (forall o, In o (concat groups) -> op_ok n o /\ op_unitary o) -> (forall o, In o ops -> op_ok n o /\ op_unitary o) ->
  fmerge n gs (s, hs) v (Some (fs, m)) -> mclose n (K * (2 * tol + gd)) (ents s n m) (circ_op n ops).
Proof.
  destruct (emat_lin n k) as (K & HK & HL). exists K. split; [exact HK|].
  intros rnd tol RD u eta PR dz sq co si CF gd groups gs ops fs s hs v m AC Hn Hgd Hk HG HF Hok1 Hok2 Hc.
  specialize (HL _ AC gd Hgd). destruct (C71_fused n gd groups gs ops fs s hs v m Hn (Logic.proj1 Hgd) HG HF Hok1 Hok2 Hc) as (_ & H1).
  rewrite Hk in *. change (@dl _ AC) with (2 * tol) in HL. intros i j Hi Hj. eapply Rle_trans; [now apply H1|exact HL].
Qed.
Theorem C71_rounded_swap n : exists K, 0 <= K /\
  forall rnd tol (RD : Rounding rnd tol) u eta (PR : Precise rnd tol u eta) dz sq co si
    (CF : @Cfg (FNum rnd tol dz sq co si)) s hs i t0 t1,
  let AC := FAccur rnd tol u eta dz sq co si in
  freach (s, hs) -> size_ok n -> qubit n t0 -> qubit n t1 -> t0 <> t1 ->
  exists p, (forall x, (x < 2 ^ n)%nat -> swaps (Z.to_nat t0) (Z.to_nat t1) x (p x)) /\
  runs_to i (makeSwap (Z.of_nat n) t0 t1) s (fun e s' => freach (s', H KM n e :: hs) /\ kept hs s s' /\
    mclose n (K * (2 * tol)) (ents s' n e) (perm_matrix p)).
Proof.
  destruct (eswap_lin n) as (K & HK & HL). exists K. split; [exact HK|].
  intros rnd tol RD u eta PR dz sq co si CF s hs i t0 t1 AC Hr Hs Hq0 Hq1 Hne.
  specialize (HL _ AC). change (@dl _ AC) with (2 * tol) in HL.
  destruct (C71_makeSwap s hs i n t0 t1 Hr Hs Hq0 Hq1 Hne) as (p & Hp & e & s' & X & R & Kp & D).
  exists p. split; [exact Hp|]. exists e, s'. split; [exact X|]. split; [exact R|]. split; [exact Kp|].
  intros a b Ha Hb. eapply Rle_trans; [now apply D|exact HL].
Qed.

(* ---- a client that fuses CX * H into one matrix and applies it ---- *)
Section Client.
Context (rnd : R -> R) (tol : R) {RD : Rounding rnd tol} (u eta : R) {PR : Precise rnd tol u eta} (dz sq co si : fnum rnd -> fnum rnd).
#[local] Hint Extern 0 NumOps => exact (FNum rnd tol dz sq co si) : typeclass_instances.
#[local] Hint Extern 0 (Accur _) => exact (FAccur rnd tol u eta dz sq co si) : typeclass_instances.
Notation FN := (FNum rnd tol dz sq co si).
Notation FC := (FAccur rnd tol u eta dz sq co si).
Context (ud : R) (ML : mathlib rnd sq co si ud) {CF : @Cfg FN}.
Notation bf := (bell_fops rnd tol dz sq co si).
Let ranF (c : @comp FN) s (P : @edge FN -> @state FN -> Prop) : completes c s P -> exists e s', steps (Cfg_ok c s) (Cfg_ok (CRet e) s') /\ P e s' :=
  ran rnd tol dz sq co si c s P.
(* the matrix, collected once, and the state it is applied to *)
Lemma fused_client : exists s hs v m, fmerge 2 [] (s, hs) v (Some (bf, m)) /\
  exists v' s', fmerge 2 [bf] (s', H KV 2 v' :: hs) v' None.
Proof.
  pose proof (ud_pos rnd tol sq co si ud ML) as Hu. assert (Hg : 0 <= 2 * ud) by lra.
  pose proof (bell_rounds rnd tol u eta dz sq co si ud ML) as HF.
  inversion HF as [|o1 f1 l1 l2 R1 HF1 E1 E2]. inversion HF1 as [|o2 f2 l3 l4 R2 _ E3 E4].
  destruct (bell_ops_ok _ (or_introl eq_refl)) as [K1 U1']. destruct (bell_ops_ok _ (or_intror (or_introl eq_refl))) as [K2 U2'].
  destruct (ranF _ _ _ (@C67_zero_state FN FC CF _ _ 2 fr_init size2)) as (v & s1 & S1 & _).
  pose proof (fg_start 2 _ _ v s1 fr_init S1) as C1.
  assert (Hno : forall o : op, In o (concat []) -> op_ok 2 o /\ op_unitary o) by (intros o []).
  assert (Hno2 : forall o : op, In o [U1 (@Hmat (RNum 0)) 0%Z []] -> op_ok 2 o /\ op_unitary o) by (intros o [<-|[]]; split; assumption).
  destruct (ranF _ _ _ (@C71_merged_progress FN FC CF 2 (2 * ud) [] [] [] _ _ _ _ _ None size2 Hg (Forall2_nil _) (Forall2_nil _) Hno Hno K2 U2' R2 C1)) as (g & s2 & _ & C2).
  destruct (@C71_merged_progress FN FC CF 2 (2 * ud) [] [] _ _ _ _ _ _ (Some (_, g)) size2 Hg (Forall2_nil _) HF1 Hno Hno2 K1 U1' R1 C2) as [P3 _].
  destruct (ranF _ _ _ P3) as (g2 & s3 & _ & P4). destruct (P4 0%nat) as (m & s4 & _ & C4).
  assert (C5 : fmerge 2 [] (s4, rehandle KM [2%nat] [m] ++ [Api.H KV 2 v]) v (Some (bf, m))).
  { eapply fg_move; [exact C4|]. apply gm_drop; cbn; auto. intros h [<-|[<-|[]]]; cbn; auto. }
  destruct (@fmerge_ok FN FC CF 2 (2 * ud) [] _ v (Some (_, m)) size2 Hg C5 [] bell_ops (Forall2_nil _) HF Hno bell_ops_ok) as (Hr5 & _).
  assert (Hk : of_kind KV [Api.H KV 2 v]) by (intros h [<-|[]]; reflexivity).
  destruct (@C71_gc_mat FN FC CF s4 [2%nat] [m] [Api.H KV 2 v] 0%nat true Hr5 eq_refl Hk) as (es & s5 & Hgc & Hl & _).
  destruct es as [|m' [|]]; try discriminate Hl.
  assert (C6 : fmerge 2 [] (s5, rehandle KM [2%nat] [m'] ++ [Api.H KV 2 v]) v (Some (bf, m'))).
  { eapply fg_move; [exact C5|]. exact (gm_gc_mat 2 v m s4 [] [] [Api.H KV 2 v] 0%nat true m' [] s5 eq_refl Hk Hgc). }
  destruct (@C71_merged_progress FN FC CF 2 (2 * ud) [] [] _ _ _ _ _ _ (Some (_, m')) size2 Hg (Forall2_nil _) HF Hno bell_ops_ok K1 U1' R1 C6) as [_ P5].
  destruct (ranF _ _ _ P5) as (v' & s6 & _ & C7).
  eexists _, _, _, _. split; [exact C6|]. eexists _, _. exact C7.
Qed.
End Client.
