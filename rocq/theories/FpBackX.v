(* FpBackX.v -- C70 for rounded arithmetic and for binary64: one constant per circuit,
   numbers, and concrete jobs. *)
From Coq Require Import Reals Lra Psatz ZArith QArith Qreals Bool List Lia Arith String.
From Coquelicot Require Import Complex.
From Flocq Require Import Core.
From Verif Require Backend BackSpec BackendP BackendX BackLink.
From Verif Require Import Num State DD Gates GC Measure Api RNum Wf Sums Err Inv Wp Make Add MulV GateP StateP Kron Spec SpecP Readout
  MeasAllP ApplyP ApiP Obs Props1 Circuit GateMat SafeF FpA FpE FpW FpM FpAdd FpMul FpGate FpState FpRead FpMeas FpOne FpGC FpKron FpCirc FpProp FpMeasP FpOneP
  FpLin FpF FpX FpQ FpMeasX FpOneX FpBack FpBackS.
Import List ListNotations.
Open Scope R_scope.

(* ---- linear in the accuracy of the arithmetic ---- *)
Lemma lin_up K x y : 0 <= x -> 0 <= y -> 0 <= K -> 0 <= K * (x + y).
Proof. intros. apply Rmult_le_pos; lra. Qed.
Lemma ecl_lin n : exists K, 0 <= K /\ forall NO (AC : Accur NO), @ecl NO AC n <= K * @dl NO AC.
Proof.
  destruct (e1_lin n) as (K2 & HK2 & H2). destruct (eop_lin n) as (K3 & HK3 & H3).
  set (G := 2 ^ n). assert (HG : 0 < G) by (apply pow_lt; lra).
  exists (4 * (K3 * (6 / 5 + 1)) * (1 + G) + 4 * K2 + 7 * G).
  split; [assert (0 <= 4 * (K3 * (6 / 5 + 1)) * (1 + G)) by (apply Rmult_le_pos; lra); lra|].
  intros NO AC. pose proof (@dl_ok NO AC) as Hd. set (d := @dl NO AC) in *. specialize (H2 NO AC). fold d in H2. specialize (H3 NO AC 0 (6 / 5) ltac:(lra) ltac:(lra)). fold d in H3.
  pose proof (@FpOneX.Gp_le NO AC n) as HGp. fold G in HGp. pose proof (Grn_ge1 (AC := AC) n) as HGp1. pose proof (eop_pos (AC := AC) n 0 (6 / 5) ltac:(lra) ltac:(lra)) as Heop.
  unfold ecl. fold d. rewrite Rplus_0_r in H3.
  assert (D1 : d * @Gp NO AC n <= 1 * G) by (apply Rmult_le_compat; lra).
  assert (D2 : 4 * @eop NO AC n 0 (6 / 5) * (1 + d * @Gp NO AC n) <= 4 * (K3 * (6 / 5 + 1) * d) * (1 + G)) by (apply Rmult_le_compat; try lra; pose proof (Rmult_le_pos d (@Gp NO AC n)); lra).
  assert (D3 : 7 * d * @Gp NO AC n <= 7 * d * G) by (apply Rmult_le_compat_l; lra). lra.
Qed.
Lemma egt_lin n : exists K, 0 <= K /\ forall NO (AC : Accur NO) gd, 0 <= gd <= 1 -> @egt NO AC n gd <= K * (@dl NO AC + gd).
Proof.
  destruct (eop_lin n) as (K & HK & HL). exists (sqrt (INR (2 ^ n)) * (K * (11 / 10 + 1))). pose proof (sqrt_pos (INR (2 ^ n))) as Hs.
  split; [apply Rmult_le_pos; [exact Hs|lra]|]. intros NO AC gd Hg. unfold egt. rewrite Rmult_assoc. apply Rmult_le_compat_l; [exact Hs|]. apply HL; lra.
Qed.
Lemma em_lin n : exists K, 0 <= K /\ forall NO (AC : Accur NO), @em NO AC n <= K * @dl NO AC.
Proof. destruct (e1_lin n) as (K & HK & HL). exists (6 * K + 8). split; [lra|]. intros NO AC. unfold em. specialize (HL NO AC). lra. Qed.
Lemma eph_lin n : exists K, 0 <= K /\ forall NO (AC : Accur NO) gd, 0 <= gd <= 1 -> @eph NO AC n gd <= K * (@dl NO AC + gd).
Proof.
  set (G := 2 ^ n). assert (HG : 0 < G) by (apply pow_lt; lra). pose proof (sqrt_pos (INR (2 ^ n))) as Hs.
  exists (sqrt (INR (2 ^ n)) * (4 * G + 2)). split; [apply Rmult_le_pos; lra|]. intros NO AC gd Hg. unfold eph. rewrite (Rmult_assoc (sqrt _) (4 * G + 2)).   apply Rmult_le_compat_l; [exact Hs|].
  pose proof (@dl_ok NO AC) as Hd. set (d := @dl NO AC) in *. pose proof (@FpOneX.Gp_le NO AC n) as HGp. fold G in HGp. pose proof (Grn_ge1 (AC := AC) n) as HGp1.
  assert (A1 : d * (11 / 10 * (1 + gd) + 1) * @Gp NO AC n <= d * 4 * G) by (apply Rmult_le_compat; try lra; [apply Rmult_le_pos; lra|apply Rmult_le_compat_l; lra]).
  assert (A2 : 0 <= gd * G) by (apply Rmult_le_pos; lra). lra.
Qed.
Lemma inv_anti ep ep' : 0 < ep <= ep' -> 0 < / ep' <= / ep.
Proof. intros H. split; [apply Rinv_0_lt_compat; lra|apply Rinv_le_contravar; lra]. Qed.
Lemma eB_anti ep ep' l : 0 < ep <= ep' -> eB ep' l <= eB ep l.
Proof.
  intros He. induction l as [|x l IH]; cbn [eB]; [lra|]. pose proof (inv_anti _ _ He) as Hi.
  destruct (Backend.op x); try exact IH; unfold Rdiv; lra.
Qed.
(* err(circuit) <= K (dl + gd), with K depending on the circuit and on a lower bound of
   the threshold of measureOneCollapsing only *)
Lemma eA_lin n ep l : 0 < ep -> exists K, 0 <= K /\ forall NO (AC : Accur NO) gd ep', 0 <= gd <= 1 -> ep <= ep' ->
  @eA NO AC n gd ep' l <= K * (@dl NO AC + gd).
Proof.
  intros Hep. destruct (egt_lin n) as (K1 & HK1 & H1). destruct (em_lin n) as (K2 & HK2 & H2). destruct (e1_lin n) as (K3 & HK3 & H3). destruct (ecl_lin n) as (K4 & HK4 & H4).
  pose proof (sqrt_pos (INR (2 ^ n))) as Hs. pose proof (Rinv_0_lt_compat _ Hep) as Hie.
  induction l as [|x l (K & HK & IH)]; [exists 0; split; [lra|]; intros; cbn [eA]; lra|].
  pose proof (eB_ge ep l Hep) as HB. set (b := eB ep l) in *.
  set (M := 3 * K2 + 8 * K3 + K2 * / ep + 2 * b * (sqrt (INR (2 ^ n)) * K4)).
  assert (HM : 0 <= M).
  { unfold M. assert (0 <= K2 * / ep) by (apply Rmult_le_pos; lra). assert (0 <= sqrt (INR (2 ^ n)) * K4) by (apply Rmult_le_pos; lra).
    assert (0 <= 2 * b * (sqrt (INR (2 ^ n)) * K4)) by (apply Rmult_le_pos; lra). lra. }
  assert (HbK : 0 <= b * K1) by (apply Rmult_le_pos; lra).
  exists (K + b * K1 + M). split; [lra|]. intros NO AC gd ep' Hgd Hle. cbn [eA]. specialize (IH NO AC gd ep' Hgd Hle). specialize (H1 NO AC gd Hgd).
  specialize (H2 NO AC). specialize (H3 NO AC). specialize (H4 NO AC). pose proof (@dl_ok NO AC) as Hd. set (d := @dl NO AC) in *.
  pose proof (eB_anti ep ep' l (conj Hep Hle)) as Hb. fold b in Hb. pose proof (eB_ge ep' l ltac:(lra)) as Hb'. pose proof (inv_anti ep ep' (conj Hep Hle)) as Hi.
  pose proof (egt_pos (AC := AC) n gd (Logic.proj1 Hgd)) as Pg. pose proof (em_nn (AC := AC) n) as Pm. pose proof (e1_nn (AC := AC) n) as P1. pose proof (ecl_pos (AC := AC) n) as Pc.
  assert (Hg : eB ep' l * @egt NO AC n gd <= b * K1 * (d + gd)) by (rewrite Rmult_assoc; apply Rmult_le_compat; lra).
  assert (Q1 : @em NO AC n / ep' <= K2 * d * / ep) by (unfold Rdiv; apply Rmult_le_compat; lra).
  assert (Q2 : sqrt (INR (2 ^ n)) * @ecl NO AC n <= sqrt (INR (2 ^ n)) * (K4 * d)) by (apply Rmult_le_compat_l; lra).
  assert (Q3 : 2 * eB ep' l * (sqrt (INR (2 ^ n)) * @ecl NO AC n) <= 2 * b * (sqrt (INR (2 ^ n)) * (K4 * d))).
  { apply Rmult_le_compat; try lra. apply Rmult_le_pos; lra. }
  assert (Hm : emeas n ep' + 2 * eB ep' l * (sqrt (INR (2 ^ n)) * @ecl NO AC n) <= M * (d + gd)).
  { apply Rle_trans with (M * d); [|assert (0 <= M * gd) by (apply Rmult_le_pos; lra); lra]. unfold emeas, M. lra. }
  assert (Z1 : 0 <= b * K1 * (d + gd)) by (apply Rmult_le_pos; lra). assert (Z2 : 0 <= M * (d + gd)) by (apply Rmult_le_pos; lra).
  destruct (Backend.op x); lra.
Qed.
Theorem C70_error_linear n ep l : 0 < ep -> exists K, 0 <= K /\ forall NO (AC : Accur NO) gd ep', 0 <= gd <= 1 -> ep <= ep' ->
  let err := K * (@dl NO AC + gd) in
  @e1 NO AC n <= err /\ @eA NO AC n gd ep' l <= err /\ @ecirc NO AC n gd (length (gops l)) <= err /\
  @ejob NO AC n gd (length (gops l)) <= err /\ @esampled NO AC n gd (length (gops l)) <= err.
Proof.
  intros Hep. destruct (eA_lin n ep l Hep) as (K1 & HK1 & H1). destruct (e1_lin n) as (K2 & HK2 & H2). destruct (C68_error_linear n (length (gops l))) as (K3 & HK3 & H3).
  destruct (eph_lin n) as (K4 & HK4 & H4). pose proof (pos_INR (2 ^ n)) as HN. set (N := INR (2 ^ n)) in *.
  exists (K1 + K2 + K3 + K4 + N * (K3 + 4 * K4)). assert (HP : 0 <= N * (K3 + 4 * K4)) by (apply Rmult_le_pos; lra). split; [lra|].
  intros NO AC gd ep' Hgd Hle err. specialize (H1 NO AC gd ep' Hgd Hle). specialize (H2 NO AC). destruct (H3 NO AC gd Hgd) as (A1 & A2 & _). specialize (H4 NO AC gd Hgd).
  pose proof (@dl_ok NO AC) as Hd. set (d := @dl NO AC) in *. unfold err, ejob, esampled. clear err. fold N. set (k := length (gops l)) in *.
  pose proof (lin_up K1 d gd ltac:(lra) ltac:(lra) HK1). pose proof (lin_up K2 d gd ltac:(lra) ltac:(lra) HK2). pose proof (lin_up K3 d gd ltac:(lra) ltac:(lra) HK3).
  pose proof (lin_up K4 d gd ltac:(lra) ltac:(lra) HK4). pose proof (lin_up (N * (K3 + 4 * K4)) d gd ltac:(lra) ltac:(lra) HP).
  assert (K2 * d <= K2 * (d + gd)) by (apply Rmult_le_compat_l; lra).
  assert (HE : N * (@esamp NO AC n + 4 * ejob n gd k) <= N * ((K3 + 4 * K4) * (d + gd))) by (apply Rmult_le_compat_l; [exact HN|unfold ejob; lra]).
  unfold ejob in HE. split; [lra|]. split; [lra|]. split; [lra|]. split; [lra|].
  eapply Rle_trans; [exact HE|]. lra.
Qed.

(* ---- rounded arithmetic ---- *)
(* The strings returned by a job with z shots, in any rounded arithmetic: every set of
   results has the probability it has for the circuit, up to z K (2 tol + gd); K depends
   on the circuit and on a lower bound of the measurement threshold only *)
Theorem C70_rounded c0 p ep : 0 < ep -> exists K, 0 <= K /\
  forall rnd tol (RD : Rounding rnd tol) u eta (PR : Precise rnd tol u eta) dz sq co si
    (CF : @Cfg (FNum rnd tol dz sq co si)) gd z c,
  let AC := FAccur rnd tol u eta dz sq co si in let err := K * (2 * tol + gd) in
  0 <= gd <= 1 -> err <= 1 / 10 -> (0 < z)%Z -> @freach _ AC CF c ->
  (forall (eps : @num (FNum rnd tol dz sq co si)) T, circuit_ok c0 -> Backend.stable_final_state p = false -> sqrt_ok rnd tol sq -> ep <= fv rnd eps ->
     @fshots _ AC CF gd eps c0 (Z.to_nat z) [] c T ->
     forall P, Rabs (chance T P - chance (Backend.evaluate (fv rnd eps) c0 p (Some z)) (counted P)) <= IZR z * err) /\
  (forall eps req c' e T, sampled_ok c0 p req -> 0 <= eps -> @frun _ AC CF gd c0 c' e ->
     @fsamples _ AC CF (Backend.nq c0) (Backend.nc c0) (Backend.clbit_final_values p) (Z.to_nat z) [] c' e T ->
     forall P, Rabs (chance T P - chance (Backend.evaluate eps c0 p (Some z)) (counted P)) <= IZR z * err).
Proof.
  intros Hep. destruct (C70_error_linear (Backend.nq c0) ep (Backend.data c0) Hep) as (K & HK & HL). exists K. split; [exact HK|].
  intros rnd tol RD u eta PR dz sq co si CF gd z c AC err Hgd Herr Hz Hr. assert (Hz0 : 0 <= IZR z) by (apply IZR_le; lia). split.
  - intros eps T Hc Hst HS Hle HT P. specialize (HL _ AC gd (fv rnd eps) Hgd Hle). cbv zeta in HL. change (@dl _ AC) with (2 * tol) in HL. fold err in HL. destruct HL as (L1 & L2 & _).
    destruct (@C70_resimulated _ AC CF gd eps c0 p z c T Hc Hst Hz) as [X _]; try assumption; [lra| |lra|].
    { change (0 < fv rnd eps). lra. }
    eapply Rle_trans; [apply X|]. apply Rmult_le_compat_l; [exact Hz0|exact L2].
  - intros eps req c' e T Hs He Hrun HT P. specialize (HL _ AC gd ep Hgd (Rle_refl _)). cbv zeta in HL. change (@dl _ AC) with (2 * tol) in HL. fold err in HL. destruct HL as (_ & _ & L3 & L4 & L5).
    destruct (@C70_sampled _ AC CF gd eps c0 p req z c' e T Hs Hz (Logic.proj1 Hgd) He) as [X _]; try assumption; try lra.
    eapply Rle_trans; [apply X|]. apply Rmult_le_compat_l; [exact Hz0|exact L5].
Qed.

(* ---- numbers ---- *)
Definition qegt (d : Q) (n : nat) (gd : Q) : Q := up (rt n * qeop d n gd (11 # 10))%Q.
Definition qem (d : Q) (n : nat) : Q := (6 * qe1 d n + 8 * d)%Q.
Definition qcl (d : Q) (n : nat) : Q := up (rt n * (4 * qeop d n 0 (6 # 5) * (1 + d * qGp d n) + 4 * qe1 d n + 7 * d * qGp d n))%Q.
(* ie: a bound of the inverse of the threshold *)
Fixpoint qB (ie : Q) (l : list Backend.inst) : Q :=
  match l with
  | [] => 10
  | x :: r => match Backend.op x with Backend.BMeasure _ _ | Backend.BReset _ => 12 + 4 * qB ie r + 4 * ie | _ => qB ie r end
  end%Q.
Definition qmeas (d : Q) (n : nat) (ie : Q) : Q := (3 * qem d n + 8 * qe1 d n + qem d n * ie)%Q.
Fixpoint qA (d : Q) (n : nat) (gd ie : Q) (l : list Backend.inst) : Q :=
  match l with
  | [] => 0
  | x :: r => up (qA d n gd ie r +
      match Backend.op x with
      | Backend.BGate _ => qB ie r * qegt d n gd
      | Backend.BMeasure _ _ => qmeas d n ie + 2 * qB ie r * qcl d n
      | Backend.BReset _ => qmeas d n ie + 2 * qB ie r * qcl d n + qB ie r * qegt d n gd
      | _ => 0
      end)
  end%Q.
Definition qph (d : Q) (n : nat) (gd : Q) : Q := (rt n * (d * ((11 # 10) * (1 + gd) + 1) * qGp d n + gd * (11 # 10)))%Q.
Definition qjob (d : Q) (n : nat) (gd : Q) (k : nat) : Q := (qcirc d n gd k + qph d n gd)%Q.
Definition qsampled (d : Q) (n : nat) (gd : Q) (k : nat) : Q := (qpow 2 n * (qprob d n + 4 * qjob d n gd k))%Q.
Section Link.
Context {NO : NumOps} {AC : Accur NO} (d : Q) (Hd : @dl NO AC = Q2R d).
Lemma q4 : Q2R 4 = 4. Proof. unfold Q2R; cbn; lra. Qed.
Lemma q6 : Q2R 6 = 6. Proof. unfold Q2R; cbn; lra. Qed.
Lemma q7 : Q2R 7 = 7. Proof. unfold Q2R; cbn; lra. Qed.
Lemma q8 : Q2R 8 = 8. Proof. unfold Q2R; cbn; lra. Qed.
Lemma q10 : Q2R 10 = 10. Proof. unfold Q2R; cbn; lra. Qed.
Lemma q12 : Q2R 12 = 12. Proof. unfold Q2R; cbn; lra. Qed.
Lemma q0 : Q2R 0 = 0. Proof. unfold Q2R; cbn; lra. Qed.
Lemma q11 : Q2R (11 # 10) = 11 / 10. Proof. unfold Q2R; cbn; lra. Qed.
Ltac push := repeat first [rewrite Q2R_plus | rewrite Q2R_mult]; rewrite ?q0, ?q1, ?q2, ?q3, ?q4, ?q6, ?q7, ?q8, ?q10, ?q11, ?q12, <- ?Hd.
Lemma sq_le n : 0 <= sqrt (INR (2 ^ n)) <= Q2R (rt n). Proof. split; [apply sqrt_pos|apply rt_ge]. Qed.
Lemma upR x y : 0 <= x <= Q2R y -> 0 <= x <= Q2R (up y).
Proof. intros [H1 H2]. split; [exact H1|]. eapply Rle_trans; [exact H2|apply up_ge]. Qed.
Lemma l_egt n g gd : 0 <= g <= Q2R gd -> 0 <= @egt NO AC n g <= Q2R (qegt d n gd).
Proof.
  intros Hg. unfold qegt, egt. apply upR. push. apply mul_le; [apply sq_le|]. apply (@l_eop NO AC d Hd n g gd (11 / 10) (11 # 10)); [exact Hg|]. rewrite q11. lra.
Qed.
Lemma l_em n : 0 <= @em NO AC n <= Q2R (qem d n).
Proof. unfold qem, em. pose proof (@l_e1 NO AC d Hd n) as H1. pose proof (@dl_ok NO AC). push. lra. Qed.
Lemma l_ecl n : 0 <= sqrt (INR (2 ^ n)) * @ecl NO AC n <= Q2R (qcl d n).
Proof.
  unfold qcl, ecl. pose proof (@l_e1 NO AC d Hd n) as H2. pose proof (l_Gp d Hd n) as HG. pose proof (@dl_ok NO AC) as Hdl.
  assert (H0 : 0 <= 0 <= Q2R 0) by (rewrite q0; lra). assert (H65 : 0 <= 6 / 5 <= Q2R (6 # 5)) by (unfold Q2R; cbn; lra).
  pose proof (@l_eop NO AC d Hd n 0 0 (6 / 5) (6 # 5) H0 H65) as H3. apply upR. push.
  assert (M1 : 0 <= @dl NO AC * @Gp NO AC n <= @dl NO AC * Q2R (qGp d n)) by (apply mul_le; lra).
  assert (M2 : 0 <= 4 * @eop NO AC n 0 (6 / 5) * (1 + @dl NO AC * @Gp NO AC n) <= 4 * Q2R (qeop d n 0 (6 # 5)) * (1 + @dl NO AC * Q2R (qGp d n))) by (apply mul_le; lra).
  apply mul_le; [apply sq_le|]. lra.
Qed.
Lemma l_eB ep ie l : 0 < ep -> / ep <= Q2R ie -> 0 <= eB ep l <= Q2R (qB ie l).
Proof.
  intros He Hi. pose proof (Rinv_0_lt_compat _ He). induction l as [|x l IH]; cbn [eB qB]; [rewrite q10; lra|].
  destruct (Backend.op x); try exact IH; push; unfold Rdiv; lra.
Qed.
Theorem C70_number n g gd ep ie l : 0 <= g <= Q2R gd -> 0 < ep -> / ep <= Q2R ie -> 0 <= @eA NO AC n g ep l <= Q2R (qA d n gd ie l).
Proof.
  intros Hg He Hi. pose proof (Rinv_0_lt_compat _ He) as Hip. pose proof (l_egt n g gd Hg) as G1. pose proof (l_em n) as G2. pose proof (@l_e1 NO AC d Hd n) as G3. pose proof (l_ecl n) as G4.
  assert (G5 : 0 <= emeas n ep <= Q2R (qmeas d n ie)).
  { unfold emeas, qmeas. push. assert (0 <= @em NO AC n / ep <= Q2R (qem d n) * Q2R ie) by (unfold Rdiv; apply mul_le; lra). lra. }
  induction l as [|x l IH]; cbn [eA qA]; [rewrite q0; lra|]. pose proof (l_eB ep ie l He Hi) as HB.
  assert (M1 : 0 <= eB ep l * @egt NO AC n g <= Q2R (qB ie l) * Q2R (qegt d n gd)) by (apply mul_le; lra).
  assert (M2 : 0 <= 2 * eB ep l * (sqrt (INR (2 ^ n)) * @ecl NO AC n) <= 2 * Q2R (qB ie l) * Q2R (qcl d n)) by (apply mul_le; lra).
  apply upR. destruct (Backend.op x); push; lra.
Qed.
Theorem C70_number_sampled n g gd k : 0 <= g <= Q2R gd ->
  0 <= @ecirc NO AC n g k <= Q2R (qjob d n gd k) /\ 0 <= @ejob NO AC n g k <= Q2R (qjob d n gd k) /\ @esampled NO AC n g k <= Q2R (qsampled d n gd k).
Proof.
  intros Hg. pose proof (qcirc_ge d Hd n g gd k Hg) as H1. pose proof (l_Gp d Hd n) as HG. pose proof (@dl_ok NO AC) as Hdl.
  assert (Hp : 0 <= @eph NO AC n g <= Q2R (qph d n gd)).
  { unfold qph, eph. push. apply mul_le; [apply sq_le|]. apply add_le; [|lra]. apply mul_le; [|exact HG]. apply mul_le; lra. }
  assert (Hj : 0 <= @ejob NO AC n g k <= Q2R (qjob d n gd k)) by (unfold ejob, qjob; push; lra).
  split; [unfold qjob; push; lra|]. split; [exact Hj|]. unfold esampled, qsampled. push.
  pose proof (@qprob_ge NO AC d Hd n) as H2. pose proof (esamp_eprob (AC := AC) n) as H3. pose proof (esamp_pos (AC := AC) n) as H4. pose proof (l_2n n) as H5.
  apply (mul_le _ _ _ _ H5). lra.
Qed.
End Link.
(* binary64: the bound of one shot of a circuit, in numbers.  2000 bounds the inverse of
   the library's default threshold 0.001 *)
Section B64.
Context (dz sq co si : fnum rnd64 -> fnum rnd64).
Notation FN := (FNum rnd64 tol64 dz sq co si).
Notation FC := (FAccur rnd64 tol64 (bpow radix2 (-53)) (bpow radix2 (-1075)) dz sq co si).
#[local] Hint Extern 0 NumOps => exact FN : typeclass_instances.
#[local] Hint Extern 0 (Accur _) => exact FC : typeclass_instances.
Context {CF : @Cfg FN}.
Lemma gd64 : 0 <= / 2 ^ 50 <= Q2R (1 # 2 ^ 50).
Proof.
  split; [apply Rlt_le, Rinv_0_lt_compat, pow_lt; lra|]. unfold Q2R. cbn [Qnum Qden]. rewrite Rmult_1_l. apply Req_le. f_equal. rewrite pow_IZR. reflexivity.
Qed.
Theorem C70_binary64_resimulated c0 p z c T : circuit_ok c0 -> Backend.stable_final_state p = false -> (0 < z)%Z -> sqrt_ok rnd64 tol64 sq ->
  Q2R (qe1 d64 (Backend.nq c0)) <= 1 / 10 -> freach c -> fshots (/ 2 ^ 50) (eps_default dz sq co si) c0 (Z.to_nat z) [] c T ->
  forall P, Rabs (chance T P - chance (Backend.evaluate (fv rnd64 (eps_default dz sq co si)) c0 p (Some z)) (counted P)) <=
    IZR z * Q2R (qA d64 (Backend.nq c0) (1 # 2 ^ 50) 2000 (Backend.data c0)).
Proof.
  intros Hc Hst Hz HS He Hr HT P. pose proof (eps_ge dz sq co si) as Hep. set (ep := fv rnd64 (eps_default dz sq co si)) in *. pose proof gd64 as Hg.
  assert (Hz0 : 0 <= IZR z) by (apply IZR_le; lia). pose proof (@l_e1 FN FC d64 dl64 (Backend.nq c0)) as L1.
  assert (Hi : / ep <= Q2R 2000).
  { replace (Q2R 2000) with 2000 by (unfold Q2R; cbn; lra). replace 2000 with (/ (1 / 2000)) by field. apply Rinv_le_contravar; lra. }
  pose proof (@C70_number FN FC d64 dl64 (Backend.nq c0) _ _ ep 2000 (Backend.data c0) Hg ltac:(lra) Hi) as [_ L2].
  destruct (@C70_resimulated FN FC CF (/ 2 ^ 50) (eps_default dz sq co si) c0 p z c T Hc Hst Hz) as [X _]; try assumption; [lra| |lra|].
  { change (0 < ep). lra. }
  eapply Rle_trans; [apply X|]. apply Rmult_le_compat_l; [exact Hz0|exact L2].
Qed.
Theorem C70_binary64_sampled c0 p req z eps c e T : sampled_ok c0 p req -> (0 < z)%Z -> 0 <= eps ->
  Q2R (qjob d64 (Backend.nq c0) (1 # 2 ^ 50) (length (gops (Backend.data c0)))) <= 1 / 10 -> frun (/ 2 ^ 50) c0 c e ->
  fsamples (Backend.nq c0) (Backend.nc c0) (Backend.clbit_final_values p) (Z.to_nat z) [] c e T ->
  forall P, Rabs (chance T P - chance (Backend.evaluate eps c0 p (Some z)) (counted P)) <=
    IZR z * Q2R (qsampled d64 (Backend.nq c0) (1 # 2 ^ 50) (length (gops (Backend.data c0)))).
Proof.
  intros Hc Hz He Hj Hrun HT P. pose proof gd64 as Hg. assert (Hz0 : 0 <= IZR z) by (apply IZR_le; lia).
  destruct (@C70_number_sampled FN FC d64 dl64 (Backend.nq c0) _ _ (length (gops (Backend.data c0))) Hg) as (L1 & L2 & L3).
  destruct (@C70_sampled FN FC CF (/ 2 ^ 50) eps c0 p req z c e T Hc Hz (Logic.proj1 Hg) He) as [X _]; try assumption; [lra|lra|].
  eapply Rle_trans; [apply X|]. apply Rmult_le_compat_l; [exact Hz0|exact L3].
Qed.
End B64.

(* ---- concrete jobs ---- *)
Lemma X_unit : unitary 1 Backend.X.
Proof.
  apply (unitary_meq 1 (gate1 1 Backend.X 0 [])); [|apply BackendP.unitary_X; lia]. intros i j Hi Hj; cbn in Hi, Hj.
  assert (Hc : i = 0%nat \/ i = 1%nat) by lia. assert (Hc' : j = 0%nat \/ j = 1%nat) by lia. destruct Hc as [->| ->], Hc' as [->| ->]; reflexivity.
Qed.
Lemma tele_circ : circuit_ok BackendX.teleport_like.
Proof.
  destruct BackLink.C58_teleport as (A1 & A2 & A3). split; [exact A3|]. split; [exact A1|]. split; [exact A2|].
  intros x g Hx Hg. repeat (destruct Hx as [<-|Hx]; [cbn in Hg; try discriminate; injection Hg as <-; cbn [gate_unit]; first [exact BackendX.Hm_unitary|exact X_unit]|]). destruct Hx.
Qed.
Lemma bell_circ : sampled_ok BackendX.bellc (Backend.Prop_ true [(1, 0); (0, 1)]%nat) true.
Proof.
  destruct BackLink.C58_bell as (A1 & A2 & A3). destruct BackendX.bellc_ok as (B1 & B2). split; [|split; [exact B1|split; [exact B2|reflexivity]]].
  split; [exact A3|]. split; [exact A1|]. split; [exact A2|].
  intros x g Hx Hg. repeat (destruct Hx as [<-|Hx]; [cbn in Hg; try discriminate; injection Hg as <-; cbn [gate_unit]; first [exact BackendX.Hm_unitary|exact X_unit]|]). destruct Hx.
Qed.
Section Jobs.
Context (dz : fnum rnd64 -> fnum rnd64).
Notation FN := (FNum rnd64 tol64 dz (cr sqrt) (cr cos) (cr sin)).
Notation FC := (FAccur rnd64 tol64 (bpow radix2 (-53)) (bpow radix2 (-1075)) dz (cr sqrt) (cr cos) (cr sin)).
#[local] Hint Extern 0 NumOps => exact FN : typeclass_instances.
#[local] Hint Extern 0 (Accur _) => exact FC : typeclass_instances.
Context {CF : @Cfg FN}.
Lemma Hm_fits t l : @rounds _ FC (/ 2 ^ 50) (U1 BackendX.Hm t l) (F1 (@Hmat FN) t l).
Proof.
  constructor. intros i j Hi Hj. apply Rle_trans with (2 * bpow radix2 (-52)); [|cbn; lra].
  exact (C67_named_gates rnd64 tol64 (bpow radix2 (-53)) (bpow radix2 (-1075)) dz (cr sqrt) (cr cos) (cr sin) _ mathlib64 "H"%string (or_intror (or_introl eq_refl)) i j Hi Hj).
Qed.
Lemma X_fits t l : @rounds _ FC (/ 2 ^ 50) (U1 Backend.X t l) (F1 (@Xmat FN) t l).
Proof.
  pose proof (@Xmat_rounds FN FC (/ 2 ^ 50) 0 (Logic.proj1 gd64)) as Hx. inversion Hx; subst. constructor. assumption.
Qed.
Lemma tele_fits : @fits _ FC (/ 2 ^ 50) (Backend.data BackendX.teleport_like).
Proof.
  intros x g o Hx Hg Ho. repeat (destruct Hx as [<-|Hx]; [cbn in Hg; try discriminate; injection Hg as <-; cbn in Ho; injection Ho as <-; eexists; first [apply Hm_fits|apply X_fits]|]). destruct Hx.
Qed.
Lemma bell_fits : @fits _ FC (/ 2 ^ 50) (Backend.data BackendX.bellc).
Proof.
  intros x g o Hx Hg Ho. repeat (destruct Hx as [<-|Hx]; [cbn in Hg; try discriminate; injection Hg as <-; cbn in Ho; injection Ho as <-; eexists; first [apply Hm_fits|apply X_fits]|]). destruct Hx.
Qed.
Lemma angle0 : @angle_ok _ FC (/ 2 ^ 50) 0 n0.
Proof.
  unfold angle_ok. set (x := Cminus _ _). assert (H1 : Rabs (fst x) <= bpow radix2 (-52)).
  { pose proof (ml_cos _ _ _ _ _ mathlib64 (n0 : @num FN)) as Hx. replace (fv rnd64 (n0 : @num FN)) with 0 in Hx by (symmetry; apply (@nr_0 FN FC)). exact Hx. }
  assert (H2 : Rabs (snd x) <= bpow radix2 (-52)).
  { pose proof (ml_sin _ _ _ _ _ mathlib64 (n0 : @num FN)) as Hx. replace (fv rnd64 (n0 : @num FN)) with 0 in Hx by (symmetry; apply (@nr_0 FN FC)). exact Hx. }
  eapply Rle_trans; [apply Cmod_2Rmax|]. assert (Hm : Rmax (Rabs (fst x)) (Rabs (snd x)) <= bpow radix2 (-52)) by (apply Rmax_lub; assumption).
  assert (Hs : sqrt 2 <= 2) by (rewrite <- (sqrt_square 2) at 2 by lra; apply sqrt_le_1_alt; lra). pose proof (sqrt_pos 2).
  pose proof (Rle_trans _ _ _ (Rabs_pos (fst x)) (Rmax_l (Rabs (fst x)) (Rabs (snd x)))).
  apply Rle_trans with (2 * bpow radix2 (-52)); [apply Rmult_le_compat; lra|cbn; lra].
Qed.
Lemma num_tele : Qle_bool (qA d64 1 (1 # 2 ^ 50) 2000 (Backend.data BackendX.teleport_like)) (1 # 2000) = true.
Proof. unfold BackendX.teleport_like, BackendX.meas. cbn [qA qB Backend.data Backend.op]. vm_compute. reflexivity. Qed.
Lemma num_bellc : (Qle_bool (qsampled d64 2 (1 # 2 ^ 50) 2) (1 # 2 ^ 24) && Qle_bool (qjob d64 2 (1 # 2 ^ 50) 2) (1 # 2 ^ 24) && Qle_bool (qe1 d64 1) (1 # 2 ^ 24))%bool = true.
Proof. vm_compute. reflexivity. Qed.
(* a circuit with a measurement, a gate conditional on its result and a conditional
   reset, in doubles: executions exist, and every one of z shots follows the circuit's
   distribution up to 1/2000 *)
Example job_teleport z : (0 < z)%Z -> (exists T, fshots (/ 2 ^ 50) (eps_default dz (cr sqrt) (cr cos) (cr sin)) BackendX.teleport_like (Z.to_nat z) [] (state_init, []) T) /\
  exists p, Backend.validate_circuit true BackendX.teleport_like = Some p /\ forall T,
    fshots (/ 2 ^ 50) (eps_default dz (cr sqrt) (cr cos) (cr sin)) BackendX.teleport_like (Z.to_nat z) [] (state_init, []) T -> forall P,
    Rabs (chance T P - chance (Backend.evaluate (fv rnd64 (eps_default dz (cr sqrt) (cr cos) (cr sin))) BackendX.teleport_like p (Some z)) (counted P)) <= IZR z * (1 / 2000).
Proof.
  intros Hz. split; [apply (C70_resimulated_runs (/ 2 ^ 50)); [exact tele_circ|apply gd64|exact tele_fits|apply fr_init]|].
  destruct BackendX.teleport_ok as (_ & dd & Hv). eexists. split; [exact Hv|]. intros T HT P.
  eapply Rle_trans; [apply (C70_binary64_resimulated dz (cr sqrt) (cr cos) (cr sin) BackendX.teleport_like (Backend.Prop_ false dd) z (state_init, []) T tele_circ eq_refl Hz sqrt_ok64)|].
  - change (Backend.nq BackendX.teleport_like) with 1%nat. pose proof num_bellc as Hx. apply andb_prop in Hx as [_ Hx]. apply Qle_bool_iff, Qle_Rle in Hx.
    eapply Rle_trans; [exact Hx|]. unfold Q2R. cbn. lra.
  - apply fr_init.
  - exact HT.
  - apply Rmult_le_compat_l; [apply IZR_le; lia|]. pose proof num_tele as Hx. apply Qle_bool_iff, Qle_Rle in Hx. eapply Rle_trans; [exact Hx|]. unfold Q2R. cbn. lra.
Qed.
(* the Bell circuit, run once and sampled z times *)
Example job_bell z : (0 < z)%Z -> let p := Backend.Prop_ true [(1, 0); (0, 1)]%nat in
  (exists c e T, frun (/ 2 ^ 50) BackendX.bellc c e /\ fsamples 2 2 (Backend.clbit_final_values p) (Z.to_nat z) [] c e T) /\
  forall c e T, frun (/ 2 ^ 50) BackendX.bellc c e -> fsamples 2 2 (Backend.clbit_final_values p) (Z.to_nat z) [] c e T -> forall P,
    Rabs (chance T P - chance (Backend.evaluate 0 BackendX.bellc p (Some z)) (counted P)) <= IZR z * / 2 ^ 24.
Proof.
  intros Hz p. pose proof num_bellc as Hx. apply andb_prop in Hx as [Hx _]. apply andb_prop in Hx as [Hx Hy]. apply Qle_bool_iff, Qle_Rle in Hx, Hy.
  assert (Hq : Q2R (1 # 2 ^ 24) = / 2 ^ 24) by (unfold Q2R; cbn; lra). rewrite Hq in Hx, Hy.
  pose proof (@C70_number_sampled FN FC d64 dl64 2 _ _ 2 gd64) as (L1 & L2 & L3). assert (Hsm : / 2 ^ 24 <= 1 / 10) by (cbn; lra).
  split.
  - destruct (@C70_sampled_runs FN FC CF (/ 2 ^ 50) BackendX.bellc p true (Z.to_nat z) (state_init, []) bell_circ (Logic.proj1 gd64)) as ((c & e & Hr) & HT).
    + change (@ecirc FN FC 2 (/ 2 ^ 50) 2 <= 1 / 10). lra.
    + change (@ejob FN FC 2 (/ 2 ^ 50) 2 < 1). lra.
    + exact bell_fits.
    + exists n0. exact angle0.
    + apply fr_init.
    + destruct (HT c e Hr) as (T & HT'). exists c, e, T. split; assumption.
  - intros c e T Hr HT P. eapply Rle_trans; [apply (C70_binary64_sampled dz (cr sqrt) (cr cos) (cr sin) BackendX.bellc p true z 0 c e T bell_circ Hz (Rle_refl 0))|].
    + change (Q2R (qjob d64 2 (1 # 2 ^ 50) 2) <= 1 / 10). lra.
    + exact Hr.
    + exact HT.
    + apply Rmult_le_compat_l; [apply IZR_le; lia|]. exact Hx.
Qed.
End Jobs.
(* 50 gates on 5 qubits, then sampled *)
Example job_5_50 : Q2R (qsampled d64 5 (1 # 2 ^ 50) 50) <= 1 / 2000.
Proof. assert (Hx : Qle_bool (qsampled d64 5 (1 # 2 ^ 50) 50) (1 # 2000) = true) by (vm_compute; reflexivity). apply Qle_bool_iff, Qle_Rle in Hx. eapply Rle_trans; [exact Hx|]. unfold Q2R. cbn. lra. Qed.
