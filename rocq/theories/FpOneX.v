(* FpOneX.v -- C69 for rounded arithmetic and for binary64: one constant per circuit
   size, numbers, and a concrete client. *)
From Coq Require Import Reals Lra Psatz ZArith QArith Qreals Bool List Lia Arith String.
From Coquelicot Require Import Complex.
From Flocq Require Import Core.
From Verif Require Import Num State DD Gates GC Measure Api RNum Wf Sums Err Inv Wp Make Add MulV GateP StateP Kron Spec SpecP Readout
  MeasAllP ApplyP ApiP Obs Props1 Circuit GateMat SafeF FpA FpE FpW FpM FpAdd FpMul FpGate FpState FpRead FpMeas FpOne FpGC FpKron FpCirc FpProp FpMeasP FpOneP
  FpLin FpF FpX FpQ FpMeasX.
Import List ListNotations.
Open Scope R_scope.

Section Lin.
Context {NO : NumOps} {AC : Accur NO}.
Notation dl := (@dl NO AC).
(* error of the collapsed vector after a circuit of error ec, to be divided by the
   probability of the outcome *)
Definition ecl (n : nat) : R := 4 * eop n 0 (6 / 5) * (1 + dl * @Gp NO AC n) + 4 * e1 n + 7 * dl * @Gp NO AC n.
Definition eaft (n : nat) (ec : R) : R := sqrt (INR (2 ^ n)) * ecl n + 2 * ec.
Lemma sqrt_ge q : 0 < q <= 1 -> q <= sqrt q.
Proof. intros H. pose proof (sqrt_lt_R0 q ltac:(lra)). pose proof (sqrt_sqrt q ltac:(lra)) as Hs. assert (sqrt q <= 1) by (rewrite <- sqrt_1; apply sqrt_le_1_alt; lra). nra. Qed.
Lemma e1_pos n : 0 <= @e1 NO AC n.
Proof. pose proof (eone_mono n (5 / 4) (5 / 4) ltac:(lra)) as [H _]. exact H. Qed.
Lemma ecl_pos n : 0 <= ecl n.
Proof.
  unfold ecl. pose proof (@dl_ok NO AC). pose proof (Grn_ge1 n). pose proof (eop_pos n 0 (6 / 5) ltac:(lra) ltac:(lra)). pose proof (e1_pos n).
  assert (0 <= dl * @Gp NO AC n) by (apply Rmult_le_pos; lra). assert (0 <= 4 * eop n 0 (6 / 5) * (1 + dl * @Gp NO AC n)) by (apply Rmult_le_pos; lra). lra.
Qed.
Lemma ecol_le n q : 0 < q <= 1 -> ecol n (q / 4) <= ecl n / q.
Proof.
  intros Hq. pose proof (@dl_ok NO AC) as Hd. pose proof (Grn_ge1 n) as HG. pose proof (eop_pos n 0 (6 / 5) ltac:(lra) ltac:(lra)) as He.
  pose proof (sqrt_ge q Hq) as Hs. assert (H4 : sqrt (q / 4) = sqrt q / 2).
  { replace (q / 4) with (q * (/ 2 * / 2)) by field. rewrite sqrt_mult_alt by lra. rewrite sqrt_square by lra. reflexivity. }
  unfold ecol, ecl. rewrite H4. assert (HP : 0 <= dl * @Gp NO AC n) by (apply Rmult_le_pos; lra). set (x := eop n 0 (6 / 5)) in *. set (g := dl * @Gp NO AC n) in *.
  assert (Hx : x / (sqrt q / 2) <= 2 * x / q).
  { replace (x / (sqrt q / 2)) with (2 * x * / sqrt q) by (field; lra). unfold Rdiv. apply Rmult_le_compat_l; [lra|]. apply Rinv_le_contravar; lra. }
  assert (Hy : 2 * (x / (sqrt q / 2)) * (1 + g) <= 2 * (2 * x / q) * (1 + g)) by (apply Rmult_le_compat_r; lra).
  assert (Hz : 7 * g <= 7 * g / q).
  { unfold Rdiv. rewrite <- (Rmult_1_r (7 * g)) at 1. apply Rmult_le_compat_l; [lra|]. rewrite <- Rinv_1. apply Rinv_le_contravar; lra. }
  replace (7 * dl * @Gp NO AC n) with (7 * g) by (unfold g; ring). replace (e1 n / (q / 4)) with (4 * e1 n / q) by (field; lra).
  apply Rle_trans with (2 * (2 * x / q) * (1 + g) + 4 * e1 n / q + 7 * g / q); [lra|]. apply Req_le. field. lra.
Qed.
Lemma eaft_le n ec q : 0 < q <= 1 -> 0 <= ec -> sqrt (INR (2 ^ n)) * ecol n (q / 4) + 2 * ec / sqrt q <= eaft n ec / q.
Proof.
  intros Hq Hec. unfold eaft. pose proof (sqrt_pos (INR (2 ^ n))) as Hn. pose proof (ecol_le n q Hq) as H1. pose proof (sqrt_ge q Hq) as H2.
  replace ((sqrt (INR (2 ^ n)) * ecl n + 2 * ec) / q) with (sqrt (INR (2 ^ n)) * (ecl n / q) + 2 * ec / q) by (field; lra).
  apply Rplus_le_compat; [apply Rmult_le_compat_l; assumption|]. unfold Rdiv. apply Rmult_le_compat_l; [lra|]. apply Rinv_le_contravar; lra.
Qed.
End Lin.
Lemma Gp_le NO (AC : Accur NO) n : @Gp NO AC n <= 2 ^ n.
Proof. unfold Gp, Gr. apply pow_incr. pose proof (@dl_ok NO AC). lra. Qed.
Theorem e1_lin n : exists K, 0 <= K /\ forall NO (AC : Accur NO), @e1 NO AC n <= K * @dl NO AC.
Proof.
  set (B := INR (2 ^ n) * (2 ^ n) ^ 2). exists (INR (2 * 2 ^ n) * ((5 / 4 + 1) * B * (7 * INR n + 24))).
  pose proof (pos_INR (2 ^ n)) as H1. pose proof (pos_INR (2 * 2 ^ n)) as H2. pose proof (pos_INR n) as H3. pose proof (pow_lt 2 n ltac:(lra)) as H4.
  assert (HB : 0 <= B) by (unfold B; apply Rmult_le_pos; [lra|apply pow2_ge_0]).
  assert (HX : 0 <= (5 / 4 + 1) * B * (7 * INR n + 24)) by (apply Rmult_le_pos; lra).
  split; [now apply Rmult_le_pos|]. intros NO AC. unfold e1, eone. pose proof (@dl_ok NO AC) as Hd.
  assert (HPB : @PB NO AC n <= B).
  { unfold PB, B. apply Rmult_le_compat_l; [lra|]. apply pow_incr. split; [pose proof (Grn_ge1 n); lra|apply Gp_le]. }
  replace (INR (2 * 2 ^ n) * ((5 / 4 + 1) * B * (7 * INR n + 24)) * @dl NO AC) with (INR (2 * 2 ^ n) * (@dl NO AC * ((5 / 4 + 1) * B) * (7 * INR n + 24))) by ring.
  apply Rmult_le_compat_l; [exact H2|]. apply Rmult_le_compat_r; [lra|]. apply Rmult_le_compat_l; [lra|]. apply Rmult_le_compat_l; lra.
Qed.
Theorem C69_error_linear n k : exists K, 0 <= K /\ forall NO (AC : Accur NO) gd, 0 <= gd <= 1 ->
  let E := K * (@dl NO AC + gd) in let ec := @ecirc NO AC n gd k in
  ec <= E /\ @e1 NO AC n <= E /\ @em NO AC n + 4 * ec <= E /\ 4 * (@e1 NO AC n + ec) <= E /\ @eaft NO AC n ec <= E.
Proof.
  destruct (ecirc_lin n k) as (K1 & HK1 & H1). destruct (e1_lin n) as (K2 & HK2 & H2). destruct (eop_lin n) as (K3 & HK3 & H3).
  set (G := 2 ^ n). assert (HG : 0 < G) by (apply pow_lt; lra). set (r := sqrt (INR (2 ^ n))). assert (Hr : 0 <= r) by apply sqrt_pos.
  set (Kc := 4 * (K3 * (6 / 5 + 1)) * (1 + G) + 4 * K2 + 7 * G).
  assert (HKc : 0 <= Kc) by (unfold Kc; assert (0 <= 4 * (K3 * (6 / 5 + 1)) * (1 + G)) by (apply Rmult_le_pos; lra); lra).
  exists (6 * K2 + 8 + 4 * K1 + r * Kc). assert (HrK : 0 <= r * Kc) by now apply Rmult_le_pos. split; [lra|].
  intros NO AC gd Hgd E ec. pose proof (@dl_ok NO AC) as Hd. set (d := @dl NO AC) in *.
  specialize (H1 NO AC gd Hgd). fold ec d in H1. specialize (H2 NO AC). fold d in H2. specialize (H3 NO AC 0 (6 / 5) ltac:(lra) ltac:(lra)). fold d in H3.
  pose proof (e1_pos (AC := AC) n) as He1. pose proof (ecirc_pos n gd k (Logic.proj1 Hgd)) as Hec. fold ec in Hec. pose proof (@Gp_le NO AC n) as HGp. fold G in HGp.
  pose proof (Grn_ge1 (AC := AC) n) as HGp1. pose proof (eop_pos (AC := AC) n 0 (6 / 5) ltac:(lra) ltac:(lra)) as Heop.
  assert (A1 : 0 <= K1 * d) by (apply Rmult_le_pos; lra). assert (A2 : 0 <= K1 * gd) by (apply Rmult_le_pos; lra).
  assert (A3 : 0 <= K2 * d) by (apply Rmult_le_pos; lra). assert (A4 : 0 <= K2 * gd) by (apply Rmult_le_pos; lra).
  assert (Hcl : @ecl NO AC n <= Kc * d).
  { unfold ecl, Kc. fold d. rewrite Rplus_0_r in H3.
    assert (D1 : d * @Gp NO AC n <= 1 * G) by (apply Rmult_le_compat; lra).
    assert (D2 : 4 * @eop NO AC n 0 (6 / 5) * (1 + d * @Gp NO AC n) <= 4 * (K3 * (6 / 5 + 1) * d) * (1 + G)) by (apply Rmult_le_compat; try lra; pose proof (Rmult_le_pos d (@Gp NO AC n)); lra).
    assert (D3 : 7 * d * @Gp NO AC n <= 7 * d * G) by (apply Rmult_le_compat_l; lra). lra. }
  assert (Hrcl : r * @ecl NO AC n <= r * Kc * d) by (rewrite Rmult_assoc; now apply Rmult_le_compat_l).
  assert (A5 : 0 <= r * Kc * d) by (apply Rmult_le_pos; lra). assert (A6 : 0 <= r * Kc * gd) by (apply Rmult_le_pos; lra).
  unfold E, em, eaft. fold d r. repeat split; lra.
Qed.

(* the library's square root, relative to the tolerance *)
Definition sqrt_ok (rnd : R -> R) (tol : R) (sq : fnum rnd -> fnum rnd) : Prop :=
  forall x, 1 / 4 <= fv rnd x -> Rabs (fv rnd (sq x) - sqrt (fv rnd x)) <= 2 * tol * sqrt (fv rnd x).

(* K depends on the numbers of qubits and gates only.  [epsilon] is the argument of the
   call, [th] its random draw. *)
Theorem C69_rounded_circuit n k : exists K, 0 <= K /\
  forall rnd tol (RD : Rounding rnd tol) u eta (PR : Precise rnd tol u eta) dz sq co si
    (CF : @Cfg (FNum rnd tol dz sq co si)) gd ops fs s hs e q epsilon,
  let AC := FAccur rnd tol u eta dz sq co si in let err := K * (2 * tol + gd) in
  size_ok n -> 0 <= gd <= 1 -> length ops = k -> Forall2 (@rounds _ AC gd) ops fs ->
  (forall o, In o ops -> op_ok n o /\ op_unitary o) -> @fcirc _ AC CF n fs (s, hs) e -> qubit n q -> err <= 1 / 10 ->
  let j := Z.to_nat q in let w := ideal n ops in
  (exists r s', measureOne e q epsilon s = Some (r, s') /\
     match r with Throw => fv rnd epsilon <= err | Ret p => 0 <= fv rnd p <= 1 /\ Rabs (fv rnd p - probq n w j 0) <= err end) /\
  (sqrt_ok rnd tol sq -> exists p, 0 <= p <= 1 /\ Rabs (p - probq n w j 0) <= err /\ forall th,
     exists r s', measureOneCollapsing e q epsilon th s = Some (r, s') /\
       match r with
       | Throw => fv rnd epsilon <= err
       | Ret (b, e') => (b = false <-> fv rnd th < p) /\
           let b' := if b then 1%nat else 0%nat in
           (0 < probq n w j b' -> err <= probq n w j b' ->
            dist n (@amps _ AC s' n e') (after n w j b') <= err / probq n w j b')
       end).
Proof.
  destruct (C69_error_linear n k) as (K & HK & HL). exists K. split; [exact HK|].
  intros rnd tol RD u eta PR dz sq co si CF gd ops fs s hs e q epsilon AC err Hn Hgd Hk HF Hok Hc Hq Herr j w.
  specialize (HL _ AC gd Hgd). cbv zeta in HL. change (@dl _ AC) with (2 * tol) in HL. fold err in HL. destruct HL as (L1 & L2 & L3 & L4 & L5). rewrite <- Hk in *.
  destruct (@C69_circuit _ AC CF n gd ops fs s hs e q epsilon Hn (Logic.proj1 Hgd) HF Hok Hc Hq ltac:(lra) ltac:(lra)) as (C1 & C2). fold j w in C1, C2. split.
  - destruct C1 as (r & s' & M1 & _ & M3). exists r, s'. split; [exact M1|]. destruct r as [p|].
    + destruct M3 as [P1 P2]. split; [exact P1|]. eapply Rle_trans; [exact P2|exact L3].
    + eapply Rle_trans; [exact M3|exact L3].
  - intros HS. destruct C2 as (p & P1 & P2 & P3).
    { intros x Hx. exact (HS x Hx). }
    exists p. split; [exact P1|]. split; [eapply Rle_trans; [exact P2|exact L3]|]. intros th. destruct (P3 th) as (r & s' & M1 & _ & M3).
    exists r, s'. split; [exact M1|]. destruct r as [[b e']|]; [|eapply Rle_trans; [exact M3|exact L3]].
    destruct M3 as (N1 & N2). split; [exact N1|]. cbv zeta in N2 |- *. intros HQ0 HQ. specialize (N2 HQ0 ltac:(lra)).
    set (b' := if b then 1%nat else 0%nat) in *. set (Q := probq n w j b') in *.
    assert (HQ1 : Q <= 1).
    { pose proof (probq_total n w j) as X. pose proof (ideal_norm n ops Hok) as Y. fold w in Y. pose proof (probq_nonneg n w j 0). pose proof (probq_nonneg n w j 1).
      unfold Q, b'. destruct b; lra. }
    eapply Rle_trans; [exact N2|]. eapply Rle_trans; [apply (eaft_le (AC := AC)); [lra|]|].
    + exact (ecirc_pos n gd (length ops) (Logic.proj1 Hgd)).
    + unfold Rdiv. apply Rmult_le_compat_r; [apply Rlt_le, Rinv_0_lt_compat; lra|exact L5].
Qed.

(* ---- numbers ---- *)
Definition qe1 (d : Q) (n : nat) : Q := up (2 * qpow 2 n * (d * ((9 # 4) * (qpow 2 n * (qGp d n * qGp d n))) * (7 * inject_Z (Z.of_nat n) + 24)))%Q.
Definition qone (d : Q) (n : nat) (gd : Q) (k : nat) : Q := (6 * qe1 d n + 8 * d + 4 * qcirc d n gd k)%Q.
Definition qaft (d : Q) (n : nat) (gd : Q) (k : nat) : Q :=
  (rt n * (4 * qeop d n 0 (6 # 5) * (1 + d * qGp d n) + 4 * qe1 d n + 7 * d * qGp d n) + 2 * qcirc d n gd k)%Q.
Section Link.
Context {NO : NumOps} {AC : Accur NO} (d : Q) (Hd : @dl NO AC = Q2R d).
Lemma l_e1 n : 0 <= @e1 NO AC n <= Q2R (qe1 d n).
Proof.
  unfold e1, eone, PB, qe1. split; [apply (e1_pos n)|]. eapply Rle_trans; [|apply up_ge].
  rewrite !Q2R_mult, !Q2R_plus, !Q2R_mult, q2, <- Hd. pose proof (l_2n n) as H2. pose proof (l_Gp d Hd n) as HG.
  replace (Q2R (9 # 4)) with (9 / 4) by (unfold Q2R; cbn; lra). replace (Q2R 7) with 7 by (unfold Q2R; cbn; lra). replace (Q2R 24) with 24 by (unfold Q2R; cbn; lra).
  assert (HI : Q2R (inject_Z (Z.of_nat n)) = INR n) by (unfold Q2R, inject_Z; cbn; rewrite Rinv_1, Rmult_1_r; symmetry; apply INR_IZR_INZ). rewrite HI.
  pose proof (pos_INR n) as Hn. rewrite mult_INR. change (INR 2) with 2. pose proof (@dl_ok NO AC) as Hdl.
  cbn [pow]. rewrite Rmult_1_r. replace (5 / 4 + 1) with (9 / 4) by lra.
  assert (M1 : 0 <= 2 * INR (2 ^ n) <= 2 * Q2R (qpow 2 n)) by lra.
  assert (M2 : 0 <= @Gp NO AC n * @Gp NO AC n <= Q2R (qGp d n) * Q2R (qGp d n)) by (apply mul_le; assumption).
  assert (M3 : 0 <= INR (2 ^ n) * (@Gp NO AC n * @Gp NO AC n) <= Q2R (qpow 2 n) * (Q2R (qGp d n) * Q2R (qGp d n))) by (apply mul_le; assumption).
  match goal with |- ?a <= ?b => cut (0 <= a <= b); [intros [_ X]; exact X|] end.
  apply mul_le; [exact M1|]. apply mul_le; [|lra]. apply mul_le; [lra|]. lra.
Qed.
Theorem C69_number n g gd k : 0 <= g <= Q2R gd -> let ec := @ecirc NO AC n g k in
  0 <= ec <= Q2R (qcirc d n gd k) /\ 0 <= @em NO AC n + 4 * ec <= Q2R (qone d n gd k) /\ 0 <= @eaft NO AC n ec <= Q2R (qaft d n gd k).
Proof.
  intros Hg ec. pose proof (qcirc_ge d Hd n g gd k Hg) as H1. fold ec in H1. pose proof (l_e1 n) as H2. pose proof (l_Gp d Hd n) as HG. pose proof (@dl_ok NO AC) as Hdl.
  pose proof (@l_eop NO AC d Hd n 0 0 (6 / 5) (6 # 5)) as H3. assert (H0 : 0 <= 0 <= Q2R 0) by (unfold Q2R; cbn; lra). assert (H65 : 0 <= 6 / 5 <= Q2R (6 # 5)) by (unfold Q2R; cbn; lra).
  specialize (H3 H0 H65). split; [exact H1|]. unfold qone, qaft, em, eaft, ecl. repeat first [rewrite Q2R_plus | rewrite Q2R_mult]. rewrite q1, q2, <- Hd.
  replace (Q2R 6) with 6 by (unfold Q2R; cbn; lra). replace (Q2R 8) with 8 by (unfold Q2R; cbn; lra). replace (Q2R 4) with 4 by (unfold Q2R; cbn; lra). replace (Q2R 7) with 7 by (unfold Q2R; cbn; lra).
  split; [lra|]. pose proof (rt_ge n) as Hrt. pose proof (sqrt_pos (INR (2 ^ n))) as Hrt0.
  assert (M1 : 0 <= @dl NO AC * @Gp NO AC n <= @dl NO AC * Q2R (qGp d n)) by (apply mul_le; lra).
  assert (M2 : 0 <= 4 * @eop NO AC n 0 (6 / 5) * (1 + @dl NO AC * @Gp NO AC n) <= 4 * Q2R (qeop d n 0 (6 # 5)) * (1 + @dl NO AC * Q2R (qGp d n))) by (apply mul_le; lra).
  apply add_le; [|lra]. apply mul_le; [lra|]. lra.
Qed.
End Link.
Lemma num_one_5_50 : (Qle_bool (qone d64 5 (1 # 2 ^ 50) 50) (1 # 100000) && Qle_bool (qe1 d64 5) (1 # 100000) && Qle_bool (qaft d64 5 (1 # 2 ^ 50) 50) (1 # 100000))%bool = true.
Proof. vm_compute. reflexivity. Qed.
Lemma num_one_bell : (Qle_bool (qone d64 2 (1 # 2 ^ 50) 2) (1 # 2 ^ 26) && Qle_bool (qe1 d64 2) (1 # 2 ^ 26) && Qle_bool (qaft d64 2 (1 # 2 ^ 50) 2) (1 # 2 ^ 26))%bool = true.
Proof. vm_compute. reflexivity. Qed.

(* correctly rounded square roots are accurate enough *)
Lemma sqrt_ok64 : sqrt_ok rnd64 tol64 (cr sqrt).
Proof.
  intros x Hx. unfold cr. rewrite fv_mk. eapply Rle_trans; [apply (rnd_err (rnd := rnd64) (tol := tol64))|].
  assert (Hs : 1 / 2 <= sqrt (fv rnd64 x)).
  { replace (1 / 2) with (sqrt (1 / 2 * (1 / 2))) by (apply sqrt_square; lra). apply sqrt_le_1_alt. lra. }
  rewrite (Rabs_pos_eq (sqrt _)) by lra. assert (H1 : bpow radix2 (-1075) <= bpow radix2 (-54)) by (apply bpow_le; lia).
  assert (H2 : bpow radix2 (-54) = / 2 * bpow radix2 (-53)) by (cbn; lra). pose proof (bpow_gt_0 radix2 (-53)) as Hb.
  apply Rle_trans with (2 * bpow radix2 (-53) * sqrt (fv rnd64 x)); [nra|]. apply Rmult_le_compat_r; [lra|].
  pose proof (@pr_ut rnd64 tol64 _ _ _). lra.
Qed.
Section B64.
Context (dz sq co si : fnum rnd64 -> fnum rnd64).
Notation FN := (FNum rnd64 tol64 dz sq co si).
Notation FC := (FAccur rnd64 tol64 (bpow radix2 (-53)) (bpow radix2 (-1075)) dz sq co si).
#[local] Hint Extern 0 NumOps => exact FN : typeclass_instances.
#[local] Hint Extern 0 (Accur _) => exact FC : typeclass_instances.
Context {CF : @Cfg FN}.
(* doubles: with the rational bound err below 1/10 and below the argument epsilon of the
   call, no exception is thrown; the probability is within err; the outcome is chosen by
   comparing the draw with that probability; and the vector after an outcome of
   probability Q >= 4 err is within err'/Q of the projected, renormalised ideal vector *)
Theorem C69_binary64_circuit n ops fs s hs e q (epsilon : @num FN) : size_ok n -> Forall2 (@rounds _ FC (/ 2 ^ 50)) ops fs ->
  (forall o, In o ops -> op_ok n o /\ op_unitary o) -> fcirc n fs (s, hs) e -> qubit n q ->
  let err := Q2R (qone d64 n (1 # 2 ^ 50) (length ops)) in let err' := Q2R (qaft d64 n (1 # 2 ^ 50) (length ops)) in
  let j := Z.to_nat q in let w := ideal n ops in
  err <= 1 / 10 -> err < fv rnd64 epsilon ->
  (exists p s', measureOne e q epsilon s = Some (Ret p, s') /\ 0 <= fv rnd64 p <= 1 /\ Rabs (fv rnd64 p - probq n w j 0) <= err) /\
  (sqrt_ok rnd64 tol64 sq -> exists p, 0 <= p <= 1 /\ Rabs (p - probq n w j 0) <= err /\ forall th,
     exists b e' s', measureOneCollapsing e q epsilon th s = Some (Ret (b, e'), s') /\
       fcirc n fs (s', H KV n e' :: hs) e /\ (b = false <-> fv rnd64 th < p) /\
       let Q := probq n w j (if b then 1%nat else 0%nat) in
       (0 < Q -> err <= Q -> dist n (amps s' n e') (after n w j (if b then 1%nat else 0%nat)) <= err' / Q)).
Proof.
  intros Hn HF Hok Hc Hq err err' j w Herr Heps.
  assert (Hg0 : 0 <= / 2 ^ 50) by (apply Rlt_le, Rinv_0_lt_compat, pow_lt; lra).
  assert (Hg : 0 <= / 2 ^ 50 <= Q2R (1 # 2 ^ 50)).
  { split; [exact Hg0|]. unfold Q2R. cbn [Qnum Qden]. rewrite Rmult_1_l. apply Req_le. f_equal. rewrite pow_IZR. reflexivity. }
  destruct (@C69_number FN FC d64 dl64 n _ _ (length ops) Hg) as (L1 & L2 & L3). fold err err' in L2, L3. set (ec := @ecirc FN FC n (/ 2 ^ 50) (length ops)) in *.
  pose proof (e1_pos (AC := FC) n) as He1. pose proof (@dl_ok FN FC) as Hdl. unfold em in L2.
  destruct (@C69_circuit FN FC CF n (/ 2 ^ 50) ops fs s hs e q epsilon Hn Hg0 HF Hok Hc Hq) as (C1 & C2); [fold ec; lra|lra|]. fold j w ec in C1, C2. unfold em in C1, C2. split.
  - destruct C1 as (r & s' & M1 & _ & M3). destruct r as [p|]; [|exfalso; change (@nr FN FC epsilon) with (fv rnd64 epsilon) in M3; lra].
    exists p, s'. split; [exact M1|]. destruct M3 as [P1 P2]. split; [exact P1|]. eapply Rle_trans; [exact P2|lra].
  - intros HS. destruct C2 as (p & P1 & P2 & P3).
    { intros x Hx. exact (HS x Hx). }
    exists p. split; [exact P1|]. split; [eapply Rle_trans; [exact P2|lra]|]. intros th. destruct (P3 th) as (r & s' & M1 & Mc & M3).
    destruct r as [[b e']|]; [|exfalso; change (@nr FN FC epsilon) with (fv rnd64 epsilon) in M3; lra].
    exists b, e', s'. split; [exact M1|]. split; [exact Mc|]. destruct M3 as (N1 & N2). split; [exact N1|]. cbv zeta in N2 |- *. intros HQ0 HQ. specialize (N2 HQ0 ltac:(lra)).
    set (b' := if b then 1%nat else 0%nat) in *. set (Q := probq n w j b') in *.
    assert (HQ1 : Q <= 1).
    { pose proof (probq_total n w j) as X. pose proof (ideal_norm n ops Hok) as Y. fold w in Y. pose proof (probq_nonneg n w j 0). pose proof (probq_nonneg n w j 1).
      unfold Q, b'. destruct b; lra. }
    eapply Rle_trans; [exact N2|]. eapply Rle_trans; [apply (eaft_le (AC := FC)); lra|].
    unfold Rdiv. apply Rmult_le_compat_r; [apply Rlt_le, Rinv_0_lt_compat; lra|exact (proj2 L3)].
Qed.
End B64.
(* the library's default epsilon, 0.001 (include/dd.h:492-495), exceeds the bound of
   circuits of 50 gates on 5 qubits: they are measured without exception *)
Example one_5_50 : Q2R (qone d64 5 (1 # 2 ^ 50) 50) <= 1 / 100000 /\ Q2R (qaft d64 5 (1 # 2 ^ 50) 50) <= 1 / 100000.
Proof.
  pose proof num_one_5_50 as Hx. apply andb_prop in Hx. destruct Hx as [Hx H3]. apply andb_prop in Hx. destruct Hx as [H1 _].
  apply Qle_bool_iff, Qle_Rle in H1. apply Qle_bool_iff, Qle_Rle in H3. split; [eapply Rle_trans; [exact H1|]|eapply Rle_trans; [exact H3|]]; unfold Q2R; cbn; lra.
Qed.
Definition eps_default dz sq co si : @num (FNum rnd64 tol64 dz sq co si) := mk rnd64 tol64 (1 / 1000).
Lemma eps_ge dz sq co si : 1 / 2000 < fv rnd64 (eps_default dz sq co si).
Proof.
  unfold eps_default. rewrite fv_mk. pose proof (rnd_err (rnd := rnd64) (tol := tol64) (1 / 1000)) as X. apply abs_between in X. rewrite Rabs_pos_eq in X by lra.
  assert (H1 : bpow radix2 (-1075) <= bpow radix2 (-53)) by (apply bpow_le; lia). assert (H2 : bpow radix2 (-53) <= / 2 ^ 30) by (cbn; lra). cbn [pow] in H2. lra.
Qed.
Lemma bell_probq k b : (k < 2)%nat -> (b < 2)%nat -> probq 2 (ideal 2 bell_ops) k b = 1 / 2.
Proof.
  intros Hk Hb. assert (Hs2 : Cmod (RtoC s2) ^ 2 = 1 / 2).
  { rewrite Cmod_R. rewrite <- Rsqr_pow2, <- Rsqr_abs. unfold Rsqr. pose proof s2_sq as X. lra. }
  assert (E0 : forall i, (i < 4)%nat -> ideal 2 bell_ops i = bellv i) by (intros i Hi; apply bell_ideal; cbn; lia).
  assert (C0 : Cmod (RtoC 0) ^ 2 = 0) by (rewrite Cmod_0; cbn; lra).
  assert (Hc : (k = 0 \/ k = 1)%nat) by lia. assert (Hc' : (b = 0 \/ b = 1)%nat) by lia.
  assert (Hx : probq 2 (ideal 2 bell_ops) k b = probq 2 bellv k b).
  { unfold probq. apply rsum_ext. intros i Hi. rewrite E0 by (cbn in Hi; lia). reflexivity. }
  rewrite Hx. unfold probq. destruct Hc as [-> | ->], Hc' as [-> | ->]; cbn -[Cmod s2 RtoC] in *; lra.
Qed.
(* the Bell state in doubles, qubit 0 or 1 measured with the default epsilon: never an
   exception, probability within 2^-26 of 1/2, and the vector left within 2^-25 of the
   basis vector of the outcome *)
Example bell_one dz (CF : @Cfg (FNum rnd64 tol64 dz (cr sqrt) (cr cos) (cr sin))) (q : Z) : (q = 0 \/ q = 1)%Z ->
  let AC := FAccur rnd64 tol64 (bpow radix2 (-53)) (bpow radix2 (-1075)) dz (cr sqrt) (cr cos) (cr sin) in
  exists s hs e, @fcirc _ AC CF 2 (bell_fops rnd64 tol64 dz (cr sqrt) (cr cos) (cr sin)) (s, hs) e /\
    (exists p s', measureOne e q (eps_default dz (cr sqrt) (cr cos) (cr sin)) s = Some (Ret p, s') /\ Rabs (fv rnd64 p - 1 / 2) <= / 2 ^ 26) /\
    exists p, Rabs (p - 1 / 2) <= / 2 ^ 26 /\ forall th, exists b e' s',
      measureOneCollapsing e q (eps_default dz (cr sqrt) (cr cos) (cr sin)) th s = Some (Ret (b, e'), s') /\ (b = false <-> fv rnd64 th < p) /\
      dist 2 (@amps _ AC s' 2 e') (after 2 (ideal 2 bell_ops) (Z.to_nat q) (if b then 1%nat else 0%nat)) <= / 2 ^ 25.
Proof.
  intros Hq AC.
  destruct (bell_client rnd64 tol64 (bpow radix2 (-53)) (bpow radix2 (-1075)) dz (cr sqrt) (cr cos) (cr sin) _ mathlib64) as (s & hs & e & Hc).
  exists s, hs, e. split; [exact Hc|].
  assert (HF : Forall2 (@rounds _ AC (/ 2 ^ 50)) bell_ops (bell_fops rnd64 tol64 dz (cr sqrt) (cr cos) (cr sin))).
  { assert (Hle : 2 * bpow radix2 (-52) <= / 2 ^ 50) by (cbn; lra).
    pose proof (bell_rounds rnd64 tol64 (bpow radix2 (-53)) (bpow radix2 (-1075)) dz (cr sqrt) (cr cos) (cr sin) _ mathlib64) as HF.
    unfold bell_ops, bell_fops in *. inversion HF as [|x1 x2 x3 x4 R1 HF1 E1 E2]. inversion HF1 as [|y1 y2 y3 y4 R2 HF2 E3 E4].
    constructor; [eapply rounds_mono; eassumption|]. constructor; [eapply rounds_mono; eassumption|constructor]. }
  assert (H26 : / 2 ^ 26 < 1 / 2000) by (cbn; lra).
  assert (Hsm : Q2R (qone d64 2 (1 # 2 ^ 50) (length bell_ops)) <= / 2 ^ 26 /\ Q2R (qaft d64 2 (1 # 2 ^ 50) (length bell_ops)) <= / 2 ^ 26).
  { change (length bell_ops) with 2%nat. pose proof num_one_bell as Hx. apply andb_prop in Hx. destruct Hx as [Hx H3]. apply andb_prop in Hx. destruct Hx as [H1 _].
    apply Qle_bool_iff, Qle_Rle in H1. apply Qle_bool_iff, Qle_Rle in H3. split; [eapply Rle_trans; [exact H1|]|eapply Rle_trans; [exact H3|]]; unfold Q2R; cbn; lra. }
  destruct Hsm as [Hs1 Hs2]. pose proof (eps_ge dz (cr sqrt) (cr cos) (cr sin)) as Heps.
  assert (Hqb : qubit 2 q) by (unfold qubit; lia).
  destruct (C69_binary64_circuit dz (cr sqrt) (cr cos) (cr sin) 2 bell_ops _ s hs e q (eps_default dz (cr sqrt) (cr cos) (cr sin)) size2 HF bell_ops_ok Hc Hqb) as (C1 & C2); [lra|lra|].
  assert (Hk : (Z.to_nat q < 2)%nat) by lia. rewrite bell_probq in C1, C2 by lia. split.
  - destruct C1 as (p & s' & P1 & _ & P3). exists p, s'. split; [exact P1|lra].
  - destruct (C2 sqrt_ok64) as (p & _ & P2 & P3). exists p. split; [lra|]. intros th. destruct (P3 th) as (b & e' & s' & M1 & _ & M3 & M4).
    exists b, e', s'. split; [exact M1|]. split; [exact M3|]. cbv zeta in M4. assert (Hb : ((if b then 1 else 0) < 2)%nat) by (destruct b; lia).
    rewrite bell_probq in M4 by lia. eapply Rle_trans; [apply M4; lra|]. apply Rle_trans with (/ 2 ^ 26 / (1 / 2)); [|cbn; lra].
    unfold Rdiv at 1. apply Rmult_le_compat_r; lra.
Qed.
