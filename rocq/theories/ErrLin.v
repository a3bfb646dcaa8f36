(* ErrLin.v -- closed forms of the error bounds: every one of them is an explicit
   multiple of the comparison tolerance. *)
From Coq Require Import Reals Lra Psatz ZArith Bool List Lia Arith.
From Coquelicot Require Import Complex.
From Verif Require Import Num State DD Gates GC Measure Api RNum Wf Sums Err Inv Wp Make Add MulV Canon MM MM2 MMTol MMTol2
  GateP StateP Kron Spec SpecP Readout GCP MeasureP MeasAllP MeasOneP ApplyP ApiP Obs Props1 Circuit.
Import ListNotations.
Open Scope R_scope.

Section ErrLin.
Context (tau : R) {HTol : Tol tau}.
Let Htau : (0 <= tau < 1 / 2)%R := tol_ok.
Notation eps := (eps tau).
Lemma eps_le1 : 0 <= eps <= 1.
Proof. unfold Err.eps. lra. Qed.
Lemma pw_ge1 (x : R) n : 1 <= x -> 1 <= x ^ n.
Proof. intros Hx. apply pow_R1_Rle, Hx. Qed.
Lemma mkerr_lin W : 0 <= W -> mkerr tau W <= eps * (3 + 2 * W).
Proof. intros HW. unfold mkerr. pose proof eps_le1. nra. Qed.

Lemma eaddm_lin n : forall s, 0 <= s -> eaddm tau n s <= eps * (8 ^ n * (s + 8)).
Proof.
  pose proof eps_le1 as He. induction n as [|m IH]; intros s Hs; cbn [eaddm pow]; [nra|].
  pose proof (IH (s + 2 * eps) ltac:(lra)) as HI.
  pose proof (eaddm_pos tau m (s + 2 * eps) ltac:(lra)) as HP.
  set (D := eaddm tau m (s + 2 * eps)) in *.
  pose proof (mkerr_lin (s + 2 * eps + D) ltac:(lra)) as HM.
  pose proof (pw_ge1 8 m ltac:(lra)) as H8. set (P := 8 ^ m) in *.
  assert (HD : D <= eps * (P * (s + 10))).
  { eapply Rle_trans; [exact HI|]. apply Rmult_le_compat_l; [lra|]. apply Rmult_le_compat_l; lra. }
  assert (H1 : eps * (3 + 2 * (s + 2 * eps + D)) <= eps * (7 + 2 * s) + 2 * D) by nra.
  apply Rle_trans with (3 * D + eps * (11 + 2 * s)); [lra|].
  apply Rle_trans with (eps * (3 * (P * (s + 10)) + (11 + 2 * s))); [lra|].
  apply Rmult_le_compat_l; [lra|]. nra.
Qed.
Lemma eadd_lin n : forall s, 0 <= s -> eadd tau n s <= eps * (8 ^ n * (s + 8)).
Proof.
  pose proof eps_le1 as He. induction n as [|m IH]; intros s Hs; cbn [eadd pow]; [nra|].
  pose proof (IH (s + 2 * eps) ltac:(lra)) as HI.
  pose proof (eadd_pos tau m (s + 2 * eps) ltac:(lra)) as HP.
  set (D := eadd tau m (s + 2 * eps)) in *.
  pose proof (mkerr_lin (s + 2 * eps + D) ltac:(lra)) as HM.
  pose proof (pw_ge1 8 m ltac:(lra)) as H8. set (P := 8 ^ m) in *.
  assert (HD : D <= eps * (P * (s + 10))).
  { eapply Rle_trans; [exact HI|]. apply Rmult_le_compat_l; [lra|]. apply Rmult_le_compat_l; lra. }
  assert (H1 : eps * (3 + 2 * (s + 2 * eps + D)) <= eps * (7 + 2 * s) + 2 * D) by nra.
  apply Rle_trans with (3 * D + eps * (11 + 2 * s)); [lra|].
  apply Rle_trans with (eps * (3 * (P * (s + 10)) + (11 + 2 * s))); [lra|].
  apply Rmult_le_compat_l; [lra|]. nra.
Qed.
Lemma egate_lin n B : 0 <= B -> egate tau n B <= eps * ((3 ^ n - 1) * (B + 3 / 2)).
Proof.
  intros HB. pose proof eps_le1 as He. induction n as [|m IH]; cbn [egate pow]; [lra|].
  pose proof (egate_pos tau m B HB) as HP. set (D := egate tau m B) in *.
  pose proof (mkerr_lin (B + D) ltac:(lra)) as HM.
  assert (eps * (3 + 2 * (B + D)) <= eps * (3 + 2 * B) + 2 * D) by nra.
  apply Rle_trans with (3 * D + eps * (3 + 2 * B)); [lra|].
  apply Rle_trans with (3 * (eps * ((3 ^ m - 1) * (B + 3 / 2))) + eps * (3 + 2 * B)); [lra|]. right. field.
Qed.

(* one more level of a product *)
Lemma mul_step (P2 P8 mu ad : R) (He8 : eps * P8 <= 1) : 1 <= P2 -> P2 * P2 * P2 = P8 -> 0 <= mu ->
  let p := P2 * eps * (1 + 1) + (mu + eps) * (1 * 1) + eps in
  ad <= eps * (P8 * (2 * (P2 + p) + 8)) -> 0 <= ad ->
  let d := 2 * p + ad in
  d + mkerr tau (2 * P2 + d) + eps <= 12 * mu + 86 * (P2 * P8) * eps.
Proof.
  intros H2 H8 Hmu p Had Hadp d. pose proof eps_le1 as He.
  assert (HP8 : P2 * P2 <= P8) by nra. assert (H28 : 1 <= P8) by nra.
  assert (Hp : p = mu + eps * (2 * P2 + 2)) by (unfold p; ring).
  assert (Hp0 : 0 <= p) by (rewrite Hp; nra).
  assert (Hd0 : 0 <= d) by (unfold d; lra).
  pose proof (mkerr_lin (2 * P2 + d) ltac:(lra)) as HM.
  assert (Hx : eps * (3 + 2 * (2 * P2 + d)) <= eps * (3 + 4 * P2) + 2 * d) by nra.
  apply Rle_trans with (3 * d + eps * (4 + 4 * P2)); [lra|].
  assert (Hd : d <= 4 * p + eps * (P8 * (2 * P2 + 8))).
  { unfold d. assert (eps * (P8 * (2 * p)) <= 2 * p).
    { replace (eps * (P8 * (2 * p))) with ((eps * P8) * (2 * p)) by ring. nra. } nra. }
  apply Rle_trans with (12 * mu + eps * (12 * (2 * P2 + 2) + 3 * (P8 * (2 * P2 + 8)) + (4 + 4 * P2))).
  { rewrite Hp in Hd. lra. }
  replace (86 * (P2 * P8) * eps) with (eps * (86 * (P2 * P8))) by ring.
  apply Rplus_le_compat_l, Rmult_le_compat_l; [lra|].
  assert (P8 <= P2 * P8) by nra. assert (P2 <= P2 * P8) by nra. nra.
Qed.
Lemma e8_down n : eps * 8 ^ S n <= 1 -> eps * 8 ^ n <= 1.
Proof. cbn [pow]. pose proof eps_le1. pose proof (pw_ge1 8 n ltac:(lra)). nra. Qed.
Lemma p222 n : 2 ^ n * 2 ^ n * 2 ^ n = 8 ^ n.
Proof. rewrite <- !Rpow_mult_distr. f_equal; lra. Qed.
Lemma p28 n : 2 ^ n * 8 ^ n = 16 ^ n.
Proof. rewrite <- Rpow_mult_distr. f_equal; lra. Qed.
Lemma emulm_lin n : eps * 8 ^ n <= 1 -> emulm tau n <= 22 * 16 ^ n * eps.
Proof.
  pose proof eps_le1 as He. induction n as [|m IH]; intros H8; cbn [emulm]; [cbn; lra|].
  specialize (IH (e8_down m H8)). pose proof (e8_down m H8) as H8'.
  pose proof (pw_ge1 2 m ltac:(lra)) as H2. pose proof (emulm_pos tau m) as Hmu.
  pose proof (mul_step (2 ^ m) (8 ^ m) (emulm tau m)) as HS. cbv zeta in HS.
  unfold mvbound. set (p := 2 ^ m * eps * (1 + 1) + (emulm tau m + eps) * (1 * 1) + eps) in *.
  assert (Hp : 0 <= p) by (unfold p; assert (0 <= 2 ^ m * eps) by (apply Rmult_le_pos; lra); lra).
  specialize (HS (eaddm tau m (2 * (2 ^ m + p))) H8' H2 (p222 m) Hmu).
  specialize (HS (eaddm_lin m (2 * (2 ^ m + p)) ltac:(lra)) (eaddm_pos tau m (2 * (2 ^ m + p)) ltac:(lra))).
  replace (2 ^ S m) with (2 * 2 ^ m) by reflexivity. rewrite p28 in HS. cbn [pow]. lra.
Qed.
Lemma emul_lin n : eps * 8 ^ n <= 1 -> emul tau n <= 22 * 16 ^ n * eps.
Proof.
  pose proof eps_le1 as He. induction n as [|m IH]; intros H8; cbn [emul]; [cbn; lra|].
  specialize (IH (e8_down m H8)). pose proof (e8_down m H8) as H8'.
  pose proof (pw_ge1 2 m ltac:(lra)) as H2. pose proof (emul_pos tau m) as Hmu.
  pose proof (mul_step (2 ^ m) (8 ^ m) (emul tau m)) as HS. cbv zeta in HS.
  unfold mvbound. set (p := 2 ^ m * eps * (1 + 1) + (emul tau m + eps) * (1 * 1) + eps) in *.
  assert (Hp : 0 <= p) by (unfold p; assert (0 <= 2 ^ m * eps) by (apply Rmult_le_pos; lra); lra).
  specialize (HS (eadd tau m (2 * (2 ^ m + p))) H8' H2 (p222 m) Hmu).
  specialize (HS (eadd_lin m (2 * (2 ^ m + p)) ltac:(lra)) (eadd_pos tau m (2 * (2 ^ m + p)) ltac:(lra))).
  replace (2 ^ S m) with (2 * 2 ^ m) by reflexivity. rewrite p28 in HS. cbn [pow]. lra.
Qed.
Lemma mvbound_lin mu n a b : 0 <= a -> 0 <= b -> mu <= 22 * 16 ^ n * eps ->
  mvbound tau mu n a b <= eps * (2 ^ n * (a + b) + (22 * 16 ^ n + 1) * (a * b) + 1).
Proof. intros Ha Hb Hm. unfold mvbound. assert (0 <= a * b) by nra. pose proof eps_le1. nra. Qed.
Lemma emv_lin n a b : 0 <= a -> 0 <= b -> eps * 8 ^ n <= 1 ->
  emv tau n a b <= eps * (2 ^ n * (a + b) + (22 * 16 ^ n + 1) * (a * b) + 1).
Proof. intros. apply mvbound_lin; auto. now apply emul_lin. Qed.
Lemma emm_lin n a b : 0 <= a -> 0 <= b -> eps * 8 ^ n <= 1 ->
  emm tau n a b <= eps * (2 ^ n * (a + b) + (22 * 16 ^ n + 1) * (a * b) + 1).
Proof. intros. apply mvbound_lin; auto. now apply emulm_lin. Qed.

(* circuits *)
Lemma eop_lin n W : 1 <= W -> eps * 8 ^ n <= 1 -> eop tau n W <= 90 * 16 ^ n * eps * W.
Proof.
  intros HW H8. pose proof eps_le1 as He. unfold eop.
  pose proof (egate_pos tau n 1 ltac:(lra)) as Hg. pose proof (egate_lin n 1 ltac:(lra)) as Hgl.
  pose proof (pw_ge1 2 n ltac:(lra)) as H2. pose proof (pw_ge1 3 n ltac:(lra)) as H3. pose proof (pw_ge1 8 n ltac:(lra)) as H8'.
  assert (H38 : 3 ^ n <= 8 ^ n) by (apply pow_incr; lra).
  assert (H216 : 2 ^ n * 8 ^ n = 16 ^ n) by apply p28.
  assert (Hg1 : egate tau n 1 <= 5 / 2 * (eps * 8 ^ n)) by nra.
  assert (Hg2 : egate tau n 1 <= 5 / 2) by lra.
  pose proof (emv_lin n (1 + egate tau n 1) W ltac:(lra) ltac:(lra) H8) as HE.
  rewrite pow_INR. replace (INR 2) with 2 by (cbn; lra).
  set (g := egate tau n 1) in *. set (P2 := 2 ^ n) in *. set (P8 := 8 ^ n) in *. set (P16 := 16 ^ n) in *.
  assert (H16 : 1 <= P16) by nra. assert (HP2 : P2 <= P16) by nra.
  assert (HA : P2 * (1 + g + W) <= P16 * (9 / 2 * W)).
  { apply Rle_trans with (P16 * (1 + g + W)); [apply Rmult_le_compat_r; lra|]. apply Rmult_le_compat_l; lra. }
  assert (HB : (22 * P16 + 1) * ((1 + g) * W) <= 23 * P16 * (7 / 2 * W)).
  { apply Rmult_le_compat; try lra; [nra|]. apply Rmult_le_compat_r; lra. }
  assert (HC : P2 * (g * W) <= eps * (P16 * (5 / 2 * W))).
  { apply Rle_trans with (P2 * (5 / 2 * (eps * P8) * W)).
    - apply Rmult_le_compat_l; [lra|]. apply Rmult_le_compat_r; lra.
    - right. rewrite <- H216. ring. }
  assert (HD : eps * (P2 * (1 + g + W) + (22 * P16 + 1) * ((1 + g) * W) + 1) <= eps * (P16 * (87 * W))).
  { apply Rmult_le_compat_l; [lra|]. assert (1 <= P16 * W) by nra. nra. }
  replace (90 * P16 * eps * W) with (eps * (P16 * (87 * W)) + eps * (P16 * (5 / 2 * W)) + eps * (P16 * (1 / 2 * W))) by field.
  assert (0 <= eps * (P16 * (1 / 2 * W))) by (apply Rmult_le_pos; [lra|apply Rmult_le_pos; lra]). lra.
Qed.
Lemma ecirc_lin n k : eps * 8 ^ n <= 1 ->
  1 + ecirc tau n k <= (1 + sqrt (2 ^ n) * (90 * 16 ^ n * eps)) ^ k.
Proof.
  intros H8. induction k as [|k IH]; cbn [ecirc pow]; [lra|].
  pose proof (ecirc_pos tau n k) as Hp. pose proof (eop_lin n (1 + ecirc tau n k) ltac:(lra) H8) as He.
  rewrite pow_INR. replace (INR 2) with 2 by (cbn; lra).
  pose proof (sqrt_pos (2 ^ n)) as Hs. pose proof eps_le1. pose proof (pw_ge1 16 n ltac:(lra)).
  set (x := sqrt (2 ^ n) * (90 * 16 ^ n * eps)) in *.
  assert (Hx : 0 <= x) by (unfold x; repeat apply Rmult_le_pos; lra).
  apply Rle_trans with ((1 + x) * (1 + ecirc tau n k)); [|apply Rmult_le_compat_l; lra].
  assert (sqrt (2 ^ n) * eop tau n (1 + ecirc tau n k) <= x * (1 + ecirc tau n k)).
  { unfold x. rewrite Rmult_assoc. apply Rmult_le_compat_l; lra. }
  lra.
Qed.
Lemma eswap_lin n : eps * 8 ^ n <= 1 -> eswap tau n <= 26000 * 32 ^ n * eps.
Proof.
  intros H8. pose proof eps_le1 as He.
  pose proof (egate_pos tau n 1 ltac:(lra)) as Hg. pose proof (egate_lin n 1 ltac:(lra)) as Hgl.
  pose proof (pw_ge1 2 n ltac:(lra)) as H2. pose proof (pw_ge1 3 n ltac:(lra)) as H3. pose proof (pw_ge1 8 n ltac:(lra)) as H8'.
  assert (H38 : 3 ^ n <= 8 ^ n) by (apply pow_incr; lra).
  assert (H216 : 2 ^ n * 8 ^ n = 16 ^ n) by apply p28.
  assert (H232 : 2 ^ n * 16 ^ n = 32 ^ n) by (rewrite <- Rpow_mult_distr; f_equal; lra).
  assert (Hg1 : egate tau n 1 <= 5 / 2 * (eps * 8 ^ n)) by nra.
  assert (Hg2 : egate tau n 1 <= 5 / 2) by lra.
  pose proof (eswap2_pos tau n) as Hp0. unfold eswap. cbv zeta.
  assert (Hp : eswap2 tau n <= 301 * (eps * 16 ^ n)).
  { unfold eswap2. cbv zeta.
    pose proof (emm_lin n (1 + egate tau n 1) (1 + egate tau n 1) ltac:(lra) ltac:(lra) H8) as HE.
    set (g := egate tau n 1) in *. set (P2 := 2 ^ n) in *. set (P8 := 8 ^ n) in *. set (P16 := 16 ^ n) in *.
    assert (H16 : 1 <= P16) by nra. assert (HP2 : P2 <= P16) by nra.
    assert (HA : P2 * (1 + g + (1 + g)) <= P16 * 7).
    { apply Rmult_le_compat; lra. }
    assert (HB : (22 * P16 + 1) * ((1 + g) * (1 + g)) <= 23 * P16 * (49 / 4)).
    { apply Rmult_le_compat; try lra; nra. }
    assert (HC : P2 * ((1 + g) * g + g * 1) <= eps * (P16 * (45 / 4))).
    { apply Rle_trans with (P2 * (9 / 2 * (5 / 2 * (eps * P8)))).
      - apply Rmult_le_compat_l; [lra|]. nra.
      - right. rewrite <- H216. field. }
    assert (HD : eps * (P2 * (1 + g + (1 + g)) + (22 * P16 + 1) * ((1 + g) * (1 + g)) + 1) <= eps * (P16 * (1159 / 4))).
    { apply Rmult_le_compat_l; lra. }
    lra. }
  pose proof (emm_lin n (1 + egate tau n 1) (2 ^ n + eswap2 tau n) ltac:(lra) ltac:(lra) H8) as HE.
  set (g := egate tau n 1) in *. set (p := eswap2 tau n) in *.
  set (P2 := 2 ^ n) in *. set (P8 := 8 ^ n) in *. set (P16 := 16 ^ n) in *. set (P32 := 32 ^ n) in *.
  assert (H16 : 1 <= P16) by nra. assert (H32 : P16 <= P32) by nra. assert (HP2 : P2 <= P16) by nra.
  assert (Hp2 : p <= 301 * P2).
  { eapply Rle_trans; [exact Hp|]. rewrite <- H216. replace (eps * (P2 * P8)) with ((eps * P8) * P2) by ring. nra. }
  assert (H22 : P2 * P2 <= P32) by (rewrite <- H232; apply Rmult_le_compat_l; lra).
  assert (HA : P2 * (1 + g + (P2 + p)) <= P32 * (611 / 2)).
  { apply Rle_trans with (P2 * (7 / 2 + 302 * P2)); [apply Rmult_le_compat_l; lra|]. nra. }
  assert (HB : (22 * P16 + 1) * ((1 + g) * (P2 + p)) <= P32 * 24311).
  { apply Rle_trans with (23 * P16 * (7 / 2 * (302 * P2))).
    - apply Rmult_le_compat; try lra; [apply Rmult_le_pos; lra|]. apply Rmult_le_compat; lra.
    - right. rewrite <- H232. field. }
  assert (HC : P2 * ((1 + g) * p + g * P2) <= eps * (P32 * 1056)).
  { apply Rle_trans with (P2 * (7 / 2 * (301 * (eps * P16)) + 5 / 2 * (eps * P8) * P2)).
    - apply Rmult_le_compat_l; [lra|]. apply Rplus_le_compat; [apply Rmult_le_compat; lra|apply Rmult_le_compat_r; lra].
    - right. rewrite <- H232, <- H216. field. }
  assert (HD : eps * (P2 * (1 + g + (P2 + p)) + (22 * P16 + 1) * ((1 + g) * (P2 + p)) + 1) <= eps * (P32 * (24618))).
  { apply Rmult_le_compat_l; lra. }
  replace (26000 * P32 * eps) with (eps * (P32 * 24618) + eps * (P32 * 1056) + 326 * (eps * P32)) by ring.
  assert (0 <= eps * P32) by (apply Rmult_le_pos; lra). lra.
Qed.
End ErrLin.

(* ---- C63 : what the operations return is within an explicit multiple of the
   tolerance of the exact result ---- *)
Section C63.
Context (tau : R) {HTol : Tol tau}.
Let Htau : (0 <= tau < 1 / 2)%R := tol_ok.
#[local] Hint Extern 0 NumOps => exact (RNum tau) : typeclass_instances.
Context {CF : Cfg}.
Notation state := (@state (RNum tau)).
Notation edge := (@edge (RNum tau)).
Notation H := (@H (RNum tau)).
Notation gmat := (@gmat (RNum tau)).
Notation reads_v := (reads_v tau).
Notation reads_m := (reads_m tau).
Notation reads_v_upto := (reads_v_upto tau).
Notation reads_m_upto := (reads_m_upto tau).
Notation returns := (returns tau).
Notation returns_on := (returns_on tau).

Lemma upto_weak_v a b s n e v : a <= b -> reads_v_upto a s n e v -> reads_v_upto b s n e v.
Proof. intros Hab (w & H1 & H2). exists w. split; auto. intros i Hi. eapply Rle_trans; [apply H2, Hi|exact Hab]. Qed.
Lemma upto_weak_m a b s n e v : a <= b -> reads_m_upto a s n e v -> reads_m_upto b s n e v.
Proof. intros Hab (w & H1 & H2). exists w. split; auto. intros i j Hi Hj. eapply Rle_trans; [apply H2; auto|exact Hab]. Qed.
Lemma returns_on_mono i c s (P Q : edge -> state -> Prop) : (forall e s', P e s' -> Q e s') -> returns_on i c s P -> returns_on i c s Q.
Proof. intros HPQ (e & s' & H1 & H2). exists e, s'. auto. Qed.
Lemma p2n_pos n : (0 < 2 ^ n)%nat.
Proof. apply Nat.neq_0_lt_0, Nat.pow_nonzero. lia. Qed.
Lemma three_le n B : 1 <= B -> (3 ^ n - 1) * (B + 3 / 2) <= 3 ^ n * (B + 3 / 2).
Proof. intros. nra. Qed.

Theorem C63_makeGate s hs n (g : gmat) t l B : reachable (s, hs) -> size_ok n -> qubit n t -> controls_ok n [t] l ->
  1 <= B -> (forall i j, (i < 2)%nat -> (j < 2)%nat -> Cmod (g i j) <= B) ->
  returns (makeGate (Z.of_nat n) g t (mkControls l)) s (fun e s' =>
    reads_m_upto (2 * tau * (3 ^ n * (B + 3 / 2))) s' n e (gate1 n g (Z.to_nat t) l)).
Proof.
  intros Hr Hs Hq Hl HB Hg. eapply (returns_mono tau); [|apply (C03_makeGate tau s hs n g t l B); auto].
  intros e s' [U _]. eapply upto_weak_m; [|exact U]. eapply Rle_trans; [apply egate_lin; [exact HTol|lra]|].
  unfold eps. apply Rmult_le_compat_l; [lra|]. now apply three_le.
Qed.
Theorem C63_makeTwoQubitGate s hs n (g : gmat) t0 t1 l B : reachable (s, hs) -> size_ok n -> qubit n t0 -> qubit n t1 -> t0 <> t1 ->
  controls_ok n [t0; t1] l -> 1 <= B -> (forall i j, (i < 4)%nat -> (j < 4)%nat -> Cmod (g i j) <= B) ->
  returns (makeTwoQubitGate (Z.of_nat n) g t0 t1 (mkControls l)) s (fun e s' =>
    reads_m_upto (2 * tau * (3 ^ n * (B + 3 / 2))) s' n e (gate2 n g (Z.to_nat t0) (Z.to_nat t1) l)).
Proof.
  intros Hr Hs Hq0 Hq1 Hne Hl HB Hg. eapply (returns_mono tau); [|apply (C04_makeTwoQubitGate tau s hs n g t0 t1 l B); auto].
  intros e s' [U _]. eapply upto_weak_m; [|exact U]. eapply Rle_trans; [apply egate_lin; [exact HTol|lra]|].
  unfold eps. apply Rmult_le_compat_l; [lra|]. now apply three_le.
Qed.
Theorem C63_vv_add s hs n lim a b x y B : reachable (s, hs) -> In (H KV n a) hs -> In (H KV n b) hs ->
  reads_v s n a x -> reads_v s n b y ->
  (forall i j, (i < 2 ^ n)%nat -> (j < 2 ^ n)%nat -> Cmod (x i) + Cmod (y j) <= B) ->
  returns (vv_add lim a b) s (fun e s' =>
    reads_v_upto (2 * tau * (8 ^ n * (B + 8))) s' n e (fun i => Cplus (x i) (y i))).
Proof.
  intros Hr Ha Hb Rx Ry HB. eapply (returns_mono tau); [|apply (C06_vv_add tau s hs n lim a b x y B); auto].
  intros e s' [U _]. eapply upto_weak_v; [|exact U]. apply eadd_lin; auto.
  pose proof (HB 0%nat 0%nat (p2n_pos n) (p2n_pos n)). pose proof (Cmod_ge_0 (x 0%nat)). pose proof (Cmod_ge_0 (y 0%nat)). lra.
Qed.
Theorem C63_mv_multiply s hs n g v A x a b : reachable (s, hs) -> In (H KM n g) hs -> In (H KV n v) hs ->
  reads_m s n g A -> reads_v s n v x ->
  (forall i j, (i < 2 ^ n)%nat -> (j < 2 ^ n)%nat -> Cmod (A i j) <= a) ->
  (forall i, (i < 2 ^ n)%nat -> Cmod (x i) <= b) ->
  2 * tau * 8 ^ n <= 1 ->
  returns (mv_multiply g v) s (fun e s' =>
    reads_v_upto (2 * tau * (2 ^ n * (a + b) + (22 * 16 ^ n + 1) * (a * b) + 1)) s' n e (mv n A x)).
Proof.
  intros Hr Hg Hv RA Rx Ha Hb H8. eapply (returns_mono tau); [|apply (C05_mv_multiply tau s hs n g v A x a b); auto].
  intros e s' [U _]. eapply upto_weak_v; [|exact U]. apply emv_lin; auto.
  - pose proof (Ha 0%nat 0%nat (p2n_pos n) (p2n_pos n)). pose proof (Cmod_ge_0 (A 0%nat 0%nat)). lra.
  - pose proof (Hb 0%nat (p2n_pos n)). pose proof (Cmod_ge_0 (x 0%nat)). lra.
Qed.
Theorem C63_mm_add s hs i n a b A B y : reachable (s, hs) -> In (H KM n a) hs -> In (H KM n b) hs ->
  reads_m s n a A -> reads_m s n b B ->
  (forall i j k l, (i < 2 ^ n)%nat -> (j < 2 ^ n)%nat -> (k < 2 ^ n)%nat -> (l < 2 ^ n)%nat ->
     Cmod (A i j) + Cmod (B k l) <= y) ->
  returns_on i (mm_add a b) s (fun e s' =>
    reads_m_upto (2 * tau * (8 ^ n * (y + 8))) s' n e (fun i j => Cplus (A i j) (B i j))).
Proof.
  intros Hr Ha Hb Rx Ry HB. eapply returns_on_mono; [|apply (C08_mm_add_on tau s hs i n a b A B y); auto].
  intros e s' [U _]. eapply upto_weak_m; [|exact U]. apply eaddm_lin; auto.
  pose proof (HB 0%nat 0%nat 0%nat 0%nat (p2n_pos n) (p2n_pos n) (p2n_pos n) (p2n_pos n)).
  pose proof (Cmod_ge_0 (A 0%nat 0%nat)). pose proof (Cmod_ge_0 (B 0%nat 0%nat)). lra.
Qed.
Theorem C63_mm_multiply s hs i n a b A B x y : reachable (s, hs) -> In (H KM n a) hs -> In (H KM n b) hs ->
  reads_m s n a A -> reads_m s n b B ->
  (forall i j, (i < 2 ^ n)%nat -> (j < 2 ^ n)%nat -> Cmod (A i j) <= x) ->
  (forall i j, (i < 2 ^ n)%nat -> (j < 2 ^ n)%nat -> Cmod (B i j) <= y) ->
  2 * tau * 8 ^ n <= 1 ->
  returns_on i (mm_multiply a b) s (fun e s' =>
    reads_m_upto (2 * tau * (2 ^ n * (x + y) + (22 * 16 ^ n + 1) * (x * y) + 1)) s' n e (mm n A B)).
Proof.
  intros Hr Hg Hv RA Rx Ha Hb H8. eapply returns_on_mono; [|apply (C07_mm_multiply_on tau s hs i n a b A B x y); auto].
  intros e s' [U _]. eapply upto_weak_m; [|exact U]. apply emm_lin; auto.
  - pose proof (Ha 0%nat 0%nat (p2n_pos n) (p2n_pos n)). pose proof (Cmod_ge_0 (A 0%nat 0%nat)). lra.
  - pose proof (Hb 0%nat 0%nat (p2n_pos n) (p2n_pos n)). pose proof (Cmod_ge_0 (B 0%nat 0%nat)). lra.
Qed.
Theorem C63_SWAP s hs i n t0 t1 : reachable (s, hs) -> size_ok n -> qubit n t0 -> qubit n t1 -> t0 <> t1 ->
  2 * tau * 8 ^ n <= 1 ->
  exists p, (forall i, (i < 2 ^ n)%nat -> swaps (Z.to_nat t0) (Z.to_nat t1) i (p i)) /\
  returns_on i (makeSwap (Z.of_nat n) t0 t1) s (fun e s' =>
    reads_m_upto (26000 * 32 ^ n * (2 * tau)) s' n e (perm_matrix p)).
Proof.
  intros Hr Hs Hq0 Hq1 Hne H8. destruct (C24_SWAP_on tau s hs i n t0 t1 Hr Hs Hq0 Hq1 Hne) as (p & Hp & HR).
  exists p. split; auto. eapply returns_on_mono; [|exact HR]. intros e s' [U _]. eapply upto_weak_m; [|exact U]. now apply eswap_lin.
Qed.
(* a circuit of k one- and two-qubit unitaries on n qubits *)
Theorem C63_circuit n ops s hs e : size_ok n -> (forall o, In o ops -> op_ok n o /\ op_unitary o) -> circ tau n ops (s, hs) e ->
  2 * tau * 8 ^ n <= 1 ->
  exists w, reads_v s n e w /\
    dist n w (ideal n ops) <= (1 + sqrt (2 ^ n) * (90 * 16 ^ n * (2 * tau))) ^ length ops - 1.
Proof.
  intros Hn Hok Hc H8. destruct (C29_circuit tau n ops s hs e Hn Hok Hc) as ((w & Hw & Hd) & _).
  exists w. split; auto. pose proof (ecirc_lin tau n (length ops) H8) as HL. change (Err.eps tau) with (2 * tau) in HL. lra.
Qed.
End C63.
