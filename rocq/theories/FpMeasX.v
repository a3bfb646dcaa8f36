(* FpMeasX.v -- C68 for rounded arithmetic and for binary64: one constant per circuit
   size, numbers, and a concrete client. *)
From Coq Require Import Reals Lra Psatz ZArith QArith Qreals Bool List Lia Arith String.
From Coquelicot Require Import Complex.
From Flocq Require Import Core.
From Verif Require Import Num State DD Gates GC Measure Api RNum Wf Sums Err Inv Wp Make Add MulV GateP StateP Kron Spec SpecP Readout
  MeasAllP ApiP Obs Props1 Circuit GateMat SafeF FpA FpE FpW FpM FpAdd FpMul FpGate FpState FpRead FpMeas FpGC FpKron FpCirc FpProp FpMeasP FpLin FpF FpX FpQ.
Import List ListNotations.
Open Scope R_scope.

Section Lin.
Context {NO : NumOps} {AC : Accur NO}.
Notation dl := (@dl NO AC).
Lemma econd_le m : @econd NO AC m <= (1 + 3 * dl) ^ (3 * m + 3) + 2 * dl - 1.
Proof.
  unfold econd. pose proof (@dl_b NO AC) as Hd. set (k := (3 * m + 3)%nat).
  assert (H : (1 + dl) ^ k / (1 - dl) ^ k <= (1 + 3 * dl) ^ k); [|lra].
  unfold Rdiv. rewrite <- pow_inv, <- Rpow_mult_distr. apply pow_incr. split.
  - apply Rmult_le_pos; [lra|]. apply Rlt_le, Rinv_0_lt_compat. lra.
  - apply Rmult_le_reg_r with (1 - dl); [lra|]. rewrite Rmult_assoc, Rinv_l by lra. nra.
Qed.
Lemma esamp_eprob n : @esamp NO AC n <= @eprob NO AC n.
Proof. induction n as [|n IH]; cbn [esamp eprob]; [lra|]. pose proof (@dl_b NO AC). lra. Qed.
Lemma pow1_lin k x : 0 <= x <= 1 -> (1 + x) ^ k - 1 <= (2 ^ k * INR k) * x.
Proof.
  intros Hx. induction k as [|k IH]; [cbn; lra|]. rewrite S_INR. cbn [pow].
  assert (H2 : 1 <= 2 ^ k) by (apply pow_R1_Rle; lra). pose proof (pos_INR k) as Hk.
  replace ((1 + x) * (1 + x) ^ k - 1) with ((1 + x) * ((1 + x) ^ k - 1) + x) by ring.
  assert (H3 : (1 + x) * ((1 + x) ^ k - 1) <= 2 * (2 ^ k * INR k * x)).
  { apply Rmult_le_compat; [lra| |lra|exact IH]. pose proof (pow_R1_Rle (1 + x) k ltac:(lra)). lra. }
  assert (H4 : x <= 2 * 2 ^ k * x) by nra. nra.
Qed.
End Lin.
Theorem eprob_lin n : exists K, 0 <= K /\ forall NO (AC : Accur NO), @eprob NO AC n <= K * @dl NO AC.
Proof.
  induction n as [|n (K & HK & IH)]; [exists 0; split; [lra|]; intros; cbn; lra|].
  set (k := (3 * n + 3)%nat). exists (K + (2 ^ k * INR k) * 3 + 6). pose proof (pos_INR k) as Hk. pose proof (pow_lt 2 k ltac:(lra)) as H2.
  assert (0 <= 2 ^ k * INR k) by (apply Rmult_le_pos; lra).
  split; [lra|]. intros NO AC. cbn [eprob]. specialize (IH NO AC). pose proof (@econd_le NO AC n) as He. fold k in He. pose proof (@dl_b NO AC) as Hd.
  pose proof (pow1_lin k (3 * @dl NO AC) ltac:(lra)). lra.
Qed.
Theorem C68_error_linear n k : exists K, 0 <= K /\ forall NO (AC : Accur NO) gd, 0 <= gd <= 1 ->
  @ecirc NO AC n gd k <= K * (@dl NO AC + gd) /\ @esamp NO AC n + 4 * @ecirc NO AC n gd k <= K * (@dl NO AC + gd) /\
  @eprob NO AC n + 4 * @ecirc NO AC n gd k <= K * (@dl NO AC + gd).
Proof.
  destruct (ecirc_lin n k) as (K1 & HK1 & H1). destruct (eprob_lin n) as (K2 & HK2 & H2). exists (K2 + 4 * K1). split; [lra|].
  intros NO AC gd Hgd. specialize (H1 NO AC gd Hgd). specialize (H2 NO AC). pose proof (@esamp_eprob NO AC n). pose proof (@dl_b NO AC).
  assert (0 <= K2 * gd) by (apply Rmult_le_pos; lra). assert (0 <= K1 * (@dl NO AC + gd)) by (apply Rmult_le_pos; lra).
  assert (0 <= K2 * @dl NO AC) by (apply Rmult_le_pos; lra).
  repeat split; lra.
Qed.

(* K depends on the numbers of qubits and gates only *)
Theorem C68_rounded_circuit n k : exists K, 0 <= K /\
  forall rnd tol (RD : Rounding rnd tol) u eta (PR : Precise rnd tol u eta) dz sq co si
    (CF : @Cfg (FNum rnd tol dz sq co si)) gd ops fs s hs e,
  let AC := FAccur rnd tol u eta dz sq co si in let eps := K * (2 * tol + gd) in
  size_ok n -> 0 <= gd <= 1 -> length ops = k -> Forall2 (@rounds _ AC gd) ops fs ->
  (forall o, In o ops -> op_ok n o /\ op_unitary o) -> fcirc n fs (s, hs) e -> eps < 1 ->
  ((n <= 30)%nat -> exists l s', probabilities e s = Some (l, s') /\ length l = (2 ^ n)%nat /\
     forall i, (i < 2 ^ n)%nat -> 0 <= fv rnd (nth i l n0) <= 1 /\ Rabs (fv rnd (nth i l n0) - Cmod (ideal n ops i) ^ 2) <= eps) /\
  exists T, looks_up T /\ (forall b, (b < 2 ^ n)%nat -> Rabs (weight n T b - Cmod (ideal n ops b) ^ 2) <= eps) /\
    forall collapse ths, (n <= length ths)%nat -> (forall x, In x ths -> 0 <= fv rnd x < 1) ->
      exists b e' s', measureAll e collapse ths s = Some (bitstring n b, e', s') /\ (b < 2 ^ n)%nat /\
        (forall b', (b' < 2 ^ n)%nat -> (selects n T (map (fv rnd) ths) b' <-> b' = b)).
Proof.
  destruct (C68_error_linear n k) as (K & HK & HL). exists K. split; [exact HK|].
  intros rnd tol RD u eta PR dz sq co si CF gd ops fs s hs e AC eps Hn Hgd Hk HF Hok Hc Hlt.
  specialize (HL _ AC gd Hgd). destruct HL as (L1 & L2 & L3). change (@dl _ AC) with (2 * tol) in *. fold eps in L1, L2, L3. rewrite <- Hk in *.
  destruct (@C68_circuit _ AC CF n gd ops fs s hs e Hn (Logic.proj1 Hgd) HF Hok Hc ltac:(lra)) as (C1 & T & T1 & T2 & T3). split.
  - intros H30. destruct (C1 H30) as (l & s' & P1 & _ & P3 & P4). exists l, s'. split; [exact P1|]. split; [exact P3|].
    intros i Hi. destruct (P4 i Hi) as [Q1 Q2]. split; [exact Q1|]. eapply Rle_trans; [exact Q2|exact L3].
  - exists T. split; [exact T1|]. split; [intros b Hb; eapply Rle_trans; [exact (T2 b Hb)|exact L2]|].
    intros collapse ths Hl Hu. destruct (T3 collapse ths Hl) as (b & e' & s' & M1 & M2 & M3 & _).
    { intros x Hx. apply (@unif_nr _ AC). exact (Hu x Hx). }
    exists b, e', s'. split; [exact M1|]. split; [exact M2|exact M3].
Qed.

(* ---- numbers ---- *)
Fixpoint qprob (d : Q) (n : nat) : Q := match n with O => 0%Q | S m => up (qpow (1 + 3 * d) (3 * m + 3) - 1 + 6 * d + qprob d m)%Q end.
Definition qborn (d : Q) (n : nat) (gd : Q) (k : nat) : Q := (qprob d n + 4 * qcirc d n gd k)%Q.
Section Link.
Context {NO : NumOps} {AC : Accur NO} (d : Q) (Hd : @dl NO AC = Q2R d).
Lemma qprob_ge n : @eprob NO AC n <= Q2R (qprob d n).
Proof.
  induction n as [|n IH]; [cbn; unfold Q2R; cbn; lra|]. cbn [eprob qprob]. eapply Rle_trans; [|apply up_ge].
  rewrite !Q2R_plus, Q2R_minus, Q2R_mult, q1, <- Hd. pose proof (@econd_le NO AC n) as He.
  assert (Hp : (1 + 3 * @dl NO AC) ^ (3 * n + 3) <= Q2R (qpow (1 + 3 * d) (3 * n + 3))).
  { apply l_pow. rewrite Q2R_plus, Q2R_mult, q1, q3, <- Hd. pose proof (@dl_b NO AC). lra. }
  replace (Q2R 6) with 6 by (unfold Q2R; cbn; lra). lra.
Qed.
Theorem C68_number n g gd k : 0 <= g <= Q2R gd ->
  @ecirc NO AC n g k <= Q2R (qborn d n gd k) /\
  @esamp NO AC n + 4 * @ecirc NO AC n g k <= Q2R (qborn d n gd k) /\ @eprob NO AC n + 4 * @ecirc NO AC n g k <= Q2R (qborn d n gd k).
Proof.
  intros Hg. unfold qborn. rewrite Q2R_plus, Q2R_mult. replace (Q2R 4) with 4 by (unfold Q2R; cbn; lra).
  pose proof (qcirc_ge d Hd n g gd k Hg). pose proof (qprob_ge n). pose proof (@esamp_eprob NO AC n). pose proof (@eprob_pos NO AC n). lra.
Qed.
End Link.
Lemma num_born_5_50 : (Qle_bool (qborn d64 5 (1 # 2 ^ 50) 50) (1 # 100000)) = true.
Proof. vm_compute. reflexivity. Qed.
Lemma num_born_bell : (Qle_bool (qborn d64 2 (1 # 2 ^ 50) 2) (1 # 2 ^ 29)) = true.
Proof. vm_compute. reflexivity. Qed.

Section B64.
Context (dz sq co si : fnum rnd64 -> fnum rnd64).
Notation FN := (FNum rnd64 tol64 dz sq co si).
Notation FC := (FAccur rnd64 tol64 (bpow radix2 (-53)) (bpow radix2 (-1075)) dz sq co si).
#[local] Hint Extern 0 NumOps => exact FN : typeclass_instances.
#[local] Hint Extern 0 (Accur _) => exact FC : typeclass_instances.
Context {CF : @Cfg FN}.
Theorem C68_binary64_circuit n ops fs s hs e : size_ok n -> Forall2 (@rounds _ FC (/ 2 ^ 50)) ops fs ->
  (forall o, In o ops -> op_ok n o /\ op_unitary o) -> fcirc n fs (s, hs) e ->
  let eps := Q2R (qborn d64 n (1 # 2 ^ 50) (length ops)) in eps < 1 ->
  ((n <= 30)%nat -> exists l s', probabilities e s = Some (l, s') /\ length l = (2 ^ n)%nat /\
     forall i, (i < 2 ^ n)%nat -> 0 <= fv rnd64 (nth i l n0) <= 1 /\ Rabs (fv rnd64 (nth i l n0) - Cmod (ideal n ops i) ^ 2) <= eps) /\
  exists T, looks_up T /\ (forall b, (b < 2 ^ n)%nat -> Rabs (weight n T b - Cmod (ideal n ops b) ^ 2) <= eps) /\
    forall collapse ths, (n <= length ths)%nat -> (forall x, In x ths -> 0 <= fv rnd64 x < 1) ->
      exists b e' s', measureAll e collapse ths s = Some (bitstring n b, e', s') /\ (b < 2 ^ n)%nat /\
        (forall b', (b' < 2 ^ n)%nat -> (selects n T (map (fv rnd64) ths) b' <-> b' = b)).
Proof.
  intros Hn HF Hok Hc eps Hlt.
  assert (Hg0 : 0 <= / 2 ^ 50) by (apply Rlt_le, Rinv_0_lt_compat, pow_lt; lra).
  assert (Hg : 0 <= / 2 ^ 50 <= Q2R (1 # 2 ^ 50)).
  { split; [exact Hg0|]. unfold Q2R. cbn [Qnum Qden]. rewrite Rmult_1_l. apply Req_le. f_equal. rewrite pow_IZR. reflexivity. }
  destruct (@C68_number FN FC d64 dl64 n _ _ (length ops) Hg) as (L1 & L2 & L3). fold eps in L1, L2, L3.
  destruct (@C68_circuit FN FC CF n (/ 2 ^ 50) ops fs s hs e Hn Hg0 HF Hok Hc ltac:(lra)) as (C1 & T & T1 & T2 & T3). split.
  - intros H30. destruct (C1 H30) as (l & s' & P1 & _ & P3 & P4). exists l, s'. split; [exact P1|]. split; [exact P3|].
    intros i Hi. destruct (P4 i Hi) as [Q1 Q2]. split; [exact Q1|]. eapply Rle_trans; [exact Q2|exact L3].
  - exists T. split; [exact T1|]. split; [intros b Hb; eapply Rle_trans; [exact (T2 b Hb)|exact L2]|].
    intros collapse ths Hl Hu. destruct (T3 collapse ths Hl) as (b & e' & s' & M1 & M2 & M3 & _).
    { intros x Hx. apply (@unif_nr _ FC). exact (Hu x Hx). }
    exists b, e', s'. split; [exact M1|]. split; [exact M2|exact M3].
Qed.
End B64.
(* the Bell state in doubles: 00 and 11 are sampled with probability within 2^-29 of
   1/2, 01 and 10 with probability at most 2^-29 *)
Example bell_sampling dz (CF : @Cfg (FNum rnd64 tol64 dz (cr sqrt) (cr cos) (cr sin))) :
  exists s hs e T, @fcirc _ (FAccur rnd64 tol64 (bpow radix2 (-53)) (bpow radix2 (-1075)) dz (cr sqrt) (cr cos) (cr sin)) CF 2
      (bell_fops rnd64 tol64 dz (cr sqrt) (cr cos) (cr sin)) (s, hs) e /\ looks_up T /\
    Rabs (weight 2 T 0 - 1 / 2) <= / 2 ^ 29 /\ weight 2 T 1 <= / 2 ^ 29 /\ weight 2 T 2 <= / 2 ^ 29 /\ Rabs (weight 2 T 3 - 1 / 2) <= / 2 ^ 29 /\
    forall collapse ths, (2 <= length ths)%nat -> (forall x, In x ths -> 0 <= fv rnd64 x < 1) ->
      exists b e' s', measureAll e collapse ths s = Some (bitstring 2 b, e', s') /\ selects 2 T (map (fv rnd64) ths) b.
Proof.
  destruct (bell_client rnd64 tol64 (bpow radix2 (-53)) (bpow radix2 (-1075)) dz (cr sqrt) (cr cos) (cr sin) _ mathlib64) as (s & hs & e & Hc).
  assert (HF : Forall2 (@rounds _ (FAccur rnd64 tol64 (bpow radix2 (-53)) (bpow radix2 (-1075)) dz (cr sqrt) (cr cos) (cr sin)) (/ 2 ^ 50))
                 bell_ops (bell_fops rnd64 tol64 dz (cr sqrt) (cr cos) (cr sin))).
  { assert (Hle : 2 * bpow radix2 (-52) <= / 2 ^ 50) by (cbn; lra).
    pose proof (bell_rounds rnd64 tol64 (bpow radix2 (-53)) (bpow radix2 (-1075)) dz (cr sqrt) (cr cos) (cr sin) _ mathlib64) as HF.
    unfold bell_ops, bell_fops in *. inversion HF as [|x1 x2 x3 x4 R1 HF1 E1 E2]. inversion HF1 as [|y1 y2 y3 y4 R2 HF2 E3 E4].
    constructor; [eapply rounds_mono; eassumption|]. constructor; [eapply rounds_mono; eassumption|constructor]. }
  assert (Hsm : Q2R (qborn d64 2 (1 # 2 ^ 50) (length bell_ops)) <= / 2 ^ 29).
  { change (length bell_ops) with 2%nat. pose proof num_born_bell as Hx. apply Qle_bool_iff, Qle_Rle in Hx. eapply Rle_trans; [exact Hx|]. unfold Q2R. cbn. lra. }
  destruct (C68_binary64_circuit dz (cr sqrt) (cr cos) (cr sin) 2 bell_ops _ s hs e size2 HF bell_ops_ok Hc) as (_ & T & T1 & T2 & T3).
  { eapply Rle_lt_trans; [exact Hsm|]. cbn. lra. }
  exists s, hs, e, T. split; [exact Hc|]. split; [exact T1|].
  assert (Hs2 : Cmod (RtoC s2) ^ 2 = 1 / 2).
  { rewrite Cmod_R. rewrite <- Rsqr_pow2, <- Rsqr_abs. unfold Rsqr. pose proof s2_sq as X. lra. }
  pose proof (fun b Hb => Rle_trans _ _ _ (T2 b Hb) Hsm) as HT.
  pose proof (HT 0%nat ltac:(cbn; lia)) as W0. pose proof (HT 1%nat ltac:(cbn; lia)) as W1. pose proof (HT 2%nat ltac:(cbn; lia)) as W2. pose proof (HT 3%nat ltac:(cbn; lia)) as W3.
  rewrite bell_ideal in W0, W1, W2, W3 by (cbn; lia). cbn [bellv] in W0, W1, W2, W3. rewrite Hs2 in W0, W3. rewrite Cmod_0 in W1, W2.
  split; [exact W0|]. apply abs_between in W1. apply abs_between in W2. split; [lra|]. split; [lra|]. split; [exact W3|].
  intros collapse ths Hl Hu. destruct (T3 collapse ths Hl Hu) as (b & e' & s' & M1 & M2 & M3). exists b, e', s'. split; [exact M1|]. now apply (M3 b M2).
Qed.
Example sampling_5_50 : Q2R (qborn d64 5 (1 # 2 ^ 50) 50) <= 1 / 100000.
Proof. pose proof num_born_5_50 as Hx. apply Qle_bool_iff, Qle_Rle in Hx. eapply Rle_trans; [exact Hx|]. unfold Q2R. cbn. lra. Qed.
