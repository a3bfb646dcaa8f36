(* FpQ.v -- the error bounds of C67 in numbers: rational evaluation of ecirc and erd. *)
From Coq Require Import Reals Lra Psatz ZArith QArith Qreals Bool List Lia Arith String.
From Coquelicot Require Import Complex.
From Flocq Require Import Core.
From Verif Require Import Num State DD Gates GC Measure Api RNum Wf Sums Err Inv Wp Make Add MulV GateP StateP Kron Spec SpecP Readout
  MeasAllP ApiP Obs Props1 Circuit GateMat SafeF FpA FpE FpW FpM FpAdd FpMul FpGate FpState FpRead FpGC FpKron FpCirc FpProp FpLin FpF FpX.
Import List ListNotations.

Section Qd.
Open Scope Q_scope.
Context (d : Q).
(* upwards to a multiple of 2^-80 *)
Definition up (x : Q) : Q := (Qnum x * 2 ^ 80 / Zpos (Qden x) + 1)%Z # (2 ^ 80).
Fixpoint qpow (x : Q) (n : nat) : Q := match n with O => 1 | S m => up (x * qpow x m) end.
Definition qGr := 1 + d.
Definition qGp n := qpow qGr n.
Definition qmkerr q W := up (qGp q * (d * (qGr + 3 * W))).
Definition qwup s := up (qGr * qGr * s + 2 * d).
Definition qcerr m s := up ((d * qGr * s + 2 * d) * qGp m).
Definition qecomp_ (ea : Q -> Q) m s := let D := up (ea (qwup s) + qcerr m s) in up (D + qmkerr m (up (s * qGp (S m) + D))).
Fixpoint qeadd (n : nat) (s : Q) : Q :=
  match n with O => up (2 * d + d * s) | S m => up (qecomp_ (qeadd m) m (up (s + 2 * d)) + 3 * (d * qGp (S m)) + d * s * qGp (S m)) end.
Definition qBd n := up (qpow 2 n * (qGp n * qGp n)).
Definition qBs m := up (qpow 2 m * (qGp (S m) * qGp (S m))).
Definition qmvbound mu n a b :=
  up (qBd n * (d * (a + b)) + mu * (a * b) + qGp n * (d * (3 * ((qBd n + mu) * (a * b)) + 2 * b + 2 + a * b))).
Definition qhalf_err_ mu m := let p := qmvbound mu m qGr qGr in up (2 * p + qeadd m (up (2 * (qBs m + p)))).
Fixpoint qemul (n : nat) : Q :=
  match n with O => 0 | S m => let D := qhalf_err_ (qemul m) m in up (D + qmkerr m (up (2 * qBs m + D))) end.
Definition qemv n a b := qmvbound (qemul n) n a b.
Fixpoint qegate (z : nat) (B : Q) : Q :=
  match z with O => 0 | S m => let e := qegate m B in up (e + qmkerr m (up (B + e))) end.
Fixpoint qerd (n : nat) (P : Q) : Q :=
  match n with O => up (d * (P + 1)) | S m => up (d * (P + 1) * (qGr * qGp m) + qerd m (up (qGr * (qGr * P + d)))) end.
Definition qeg n gd := up (qegate n (1 + gd) + gd).
Definition qeop n gd W := qemv n (1 + qeg n gd) W + qpow 2 n * (qeg n gd * W).
(* an upper bound of sqrt (2^n) *)
Definition rt (n : nat) : Q := (Z.sqrt (2 ^ (Z.of_nat n + 80)) + 1)%Z # (2 ^ 40).
End Qd.

Section Link.
Open Scope R_scope.
Context {NO : NumOps} {AC : Accur NO} (d : Q) (Hd : @dl NO AC = Q2R d).
Lemma q2 : Q2R 2 = 2. Proof. unfold Q2R. cbn. lra. Qed.
Lemma q3 : Q2R 3 = 3. Proof. unfold Q2R. cbn. lra. Qed.
Lemma q1 : Q2R 1 = 1. Proof. unfold Q2R. cbn. lra. Qed.
Lemma up_ge x : Q2R x <= Q2R (up x).
Proof.
  apply Qle_Rle. unfold up. destruct x as [a b]. unfold Qle. cbn [Qnum Qden].
  pose proof (Z.div_mod (a * 2 ^ 80) (Zpos b) ltac:(lia)) as H1. pose proof (Z.mod_pos_bound (a * 2 ^ 80) (Zpos b) ltac:(lia)) as H2.
  change (Zpos (2 ^ 80)) with (2 ^ 80)%Z. set (q := (a * 2 ^ 80 / Zpos b)%Z) in *. nia.
Qed.
Ltac push := repeat first [rewrite Q2R_plus | rewrite Q2R_mult]; rewrite ?q1, ?q2, ?q3, <- ?Hd.
Ltac upp := eapply Rle_trans; [|apply up_ge]; push.
Lemma mul_le a b a' b' : 0 <= a <= a' -> 0 <= b <= b' -> 0 <= a * b <= a' * b'.
Proof. intros Ha Hb. split; [apply Rmult_le_pos; lra|apply Rmult_le_compat; lra]. Qed.
Lemma add_le a b a' b' : 0 <= a <= a' -> 0 <= b <= b' -> 0 <= a + b <= a' + b'.
Proof. intros Ha Hb. lra. Qed.
Ltac ms := repeat first [assumption | apply add_le | apply mul_le]; try (split; [lra|apply Rle_refl]); try lra.
Ltac upq := match goal with |- 0 <= ?x <= Q2R (up ?y) => let H := fresh in assert (H : 0 <= x <= Q2R y); [push; ms|split; [exact (Logic.proj1 H)|eapply Rle_trans; [exact (proj2 H)|apply up_ge]]] end.
Lemma dp : 0 <= @dl NO AC <= @dl NO AC. Proof. pose proof (@dl_pos NO AC). lra. Qed.
Lemma l_Gr : 0 <= @Gr NO AC <= Q2R (qGr d).
Proof. unfold qGr, Gr. push. pose proof dp. lra. Qed.
Lemma l_pow x y n : 0 <= x <= Q2R y -> 0 <= x ^ n <= Q2R (qpow y n).
Proof. intros Hx. induction n as [|n IH]; cbn [qpow pow]; [rewrite q1; lra|]. upq. Qed.
Lemma l_Gp n : 0 <= @Gp NO AC n <= Q2R (qGp d n).
Proof. apply l_pow, l_Gr. Qed.
Lemma l_mkerr q W w : 0 <= W <= Q2R w -> 0 <= @mkerr NO AC q W <= Q2R (qmkerr d q w).
Proof. intros HW. unfold qmkerr, mkerr. pose proof (l_Gp q). pose proof l_Gr. pose proof dp. upq. Qed.
Lemma l_wup s t : 0 <= s <= Q2R t -> 0 <= @wup NO AC s <= Q2R (qwup d t).
Proof. intros Hs. unfold qwup, wup. pose proof l_Gr. pose proof dp. upq. Qed.
Lemma l_cerr m s t : 0 <= s <= Q2R t -> 0 <= @cerr NO AC m s <= Q2R (qcerr d m t).
Proof. intros Hs. unfold qcerr, cerr. pose proof (l_Gp m). pose proof l_Gr. pose proof dp. upq. Qed.
Lemma up_le x y : 0 <= x <= Q2R y -> 0 <= x <= Q2R (up y).
Proof. intros H. pose proof (up_ge y). lra. Qed.
Lemma l_ecomp qea ea m s t : (forall x y, 0 <= x <= Q2R y -> 0 <= ea x <= Q2R (qea y)) -> 0 <= s <= Q2R t ->
  0 <= @ecomp_ NO AC ea m s <= Q2R (qecomp_ d qea m t).
Proof.
  intros H Hs. unfold qecomp_, ecomp_. cbv zeta. pose proof (l_Gp (S m)) as Hg. set (D := up (qea (qwup d t) + qcerr d m t)).
  assert (HD : 0 <= ea (wup s) + cerr m s <= Q2R D).
  { unfold D. pose proof (H _ _ (l_wup s t Hs)). pose proof (l_cerr m s t Hs). upq. }
  assert (HW : 0 <= s * Gp (S m) + (ea (wup s) + cerr m s) <= Q2R (up (t * qGp d (S m) + D))) by upq.
  pose proof (l_mkerr m _ _ HW). upq.
Qed.
Lemma l_eadd n : forall s t, 0 <= s <= Q2R t -> 0 <= @eadd NO AC n s <= Q2R (qeadd d n t).
Proof.
  pose proof dp as Hdp. induction n as [|n IH]; intros s t Hs; cbn [qeadd eadd]; [upq|].
  assert (H1 : 0 <= s + 2 * dl <= Q2R (up (t + 2 * d))) by upq.
  pose proof (l_ecomp _ _ n _ _ IH H1) as H2. pose proof (l_Gp (S n)) as H3. upq.
Qed.
Lemma l_2 : 0 <= 2 <= Q2R 2. Proof. rewrite q2. lra. Qed.
Lemma l_Bd n : 0 <= @Bd NO AC n <= Q2R (qBd d n).
Proof. unfold qBd, Bd. pose proof (l_pow 2 2 n l_2). pose proof (l_Gp n). upq. Qed.
Lemma l_Bs n : 0 <= @Bs NO AC n <= Q2R (qBs d n).
Proof. unfold qBs, Bs. pose proof (l_pow 2 2 n l_2). pose proof (l_Gp (S n)). upq. Qed.
Lemma l_mvbound mu mu' n a a' b b' : 0 <= mu <= Q2R mu' -> 0 <= a <= Q2R a' -> 0 <= b <= Q2R b' ->
  0 <= @mvbound NO AC mu n a b <= Q2R (qmvbound d mu' n a' b').
Proof. intros. unfold qmvbound, mvbound. pose proof (l_Bd n). pose proof (l_Gp n). pose proof dp. upq. Qed.
Lemma l_half mu mu' m : 0 <= mu <= Q2R mu' -> 0 <= @half_err_ NO AC mu m <= Q2R (qhalf_err_ d mu' m).
Proof.
  intros Hm. unfold qhalf_err_, half_err_. cbv zeta. pose proof (l_mvbound _ _ m _ _ _ _ Hm l_Gr l_Gr) as Hp. pose proof (l_Bs m) as HB.
  set (p := mvbound mu m Gr Gr) in *. set (p' := qmvbound d mu' m (qGr d) (qGr d)) in *.
  assert (H1 : 0 <= 2 * (Bs m + p) <= Q2R (up (2 * (qBs d m + p')))) by upq. pose proof (l_eadd m _ _ H1). upq.
Qed.
Lemma l_emul n : 0 <= @emul NO AC n <= Q2R (qemul d n).
Proof.
  induction n as [|n IH]; cbn [qemul emul]; [unfold Q2R; cbn; lra|]. cbv zeta. pose proof (l_half _ _ n IH) as HD. pose proof (l_Bs n) as HB.
  set (D := half_err_ (emul n) n) in *. set (D' := qhalf_err_ d (qemul d n) n) in *.
  assert (HW : 0 <= 2 * Bs n + D <= Q2R (up (2 * qBs d n + D'))) by upq. pose proof (l_mkerr n _ _ HW). upq.
Qed.
Lemma l_emv n a b a' b' : 0 <= a <= Q2R a' -> 0 <= b <= Q2R b' -> 0 <= @emv NO AC n a b <= Q2R (qemv d n a' b').
Proof. intros. apply l_mvbound; auto. apply l_emul. Qed.
Lemma l_egate n B B' : 0 <= B <= Q2R B' -> 0 <= @egate NO AC n B <= Q2R (qegate d n B').
Proof.
  intros HB. induction n as [|n IH]; cbn [qegate egate]; [unfold Q2R; cbn; lra|]. cbv zeta.
  assert (HW : 0 <= B + egate n B <= Q2R (up (B' + qegate d n B'))) by upq. pose proof (l_mkerr n _ _ HW). upq.
Qed.
Lemma l_erd n : forall P P', 0 <= P <= Q2R P' -> 0 <= @erd NO AC n P <= Q2R (qerd d n P').
Proof.
  pose proof dp as Hdp. pose proof l_Gr as HG. induction n as [|n IH]; intros P P' HP; cbn [qerd erd]; [upq|].
  assert (H1 : 0 <= Gr * (Gr * P + dl) <= Q2R (up (qGr d * (qGr d * P' + d)))) by upq. pose proof (IH _ _ H1). pose proof (l_Gp n). upq.
Qed.
Lemma l_eg n g gd : 0 <= g <= Q2R gd -> 0 <= @eg NO AC n g <= Q2R (qeg d n gd).
Proof.
  intros Hg. unfold qeg, eg. assert (H1 : 0 <= 1 + g <= Q2R (1 + gd)) by (push; lra). pose proof (l_egate n _ _ H1). upq.
Qed.
Lemma l_2n n : 0 <= INR (2 ^ n) <= Q2R (qpow 2 n).
Proof. rewrite pow_INR. apply l_pow. exact l_2. Qed.
Lemma l_eop n g gd W W' : 0 <= g <= Q2R gd -> 0 <= W <= Q2R W' -> 0 <= @eop NO AC n g W <= Q2R (qeop d n gd W').
Proof.
  intros Hg HW. unfold qeop, eop. pose proof (l_eg n _ _ Hg) as He. assert (H1 : 0 <= 1 + eg n g <= Q2R (1 + qeg d n gd)) by (push; lra).
  pose proof (l_emv n _ _ _ _ H1 HW). pose proof (l_2n n). push. ms.
Qed.
Definition qcirc (n : nat) (gd : Q) (k : nat) : Q :=
  let mu := qemul d n in let g := qeg d n gd in let r := rt n in
  (fix go (k : nat) : Q := match k with
   | O => 0%Q
   | S j => let e := go j in up (e + r * (qmvbound d mu n (1 + g) (1 + e) + qpow 2 n * (g * (1 + e))))%Q
   end) k.
Lemma qcirc_S n gd k : qcirc n gd (S k) = up (qcirc n gd k + rt n * qeop d n gd (1 + qcirc n gd k))%Q.
Proof. reflexivity. Qed.
Lemma rt_ge n : sqrt (INR (2 ^ n)) <= Q2R (rt n).
Proof.
  set (s := Z.sqrt (2 ^ (Z.of_nat n + 80))).
  assert (Hs0 : (0 <= s)%Z) by apply Z.sqrt_nonneg.
  assert (Hs : (2 ^ (Z.of_nat n + 80) <= (s + 1) * (s + 1))%Z).
  { pose proof (Z.sqrt_spec (2 ^ (Z.of_nat n + 80)) ltac:(apply Z.pow_nonneg; lia)) as [_ Hx]. fold s in Hx. lia. }
  assert (Hv : Q2R (rt n) = IZR (s + 1) / IZR (2 ^ 40)) by reflexivity.
  assert (Hp : 0 <= Q2R (rt n)).
  { rewrite Hv. apply Rmult_le_pos; [apply IZR_le; lia|]. apply Rlt_le, Rinv_0_lt_compat. apply IZR_lt. reflexivity. }
  rewrite <- (sqrt_Rsqr (Q2R (rt n)) Hp). apply sqrt_le_1_alt. unfold Rsqr. rewrite Hv.
  assert (Hc : INR (2 ^ n) * (IZR (2 ^ 40) * IZR (2 ^ 40)) <= IZR (s + 1) * IZR (s + 1)).
  { rewrite INR_IZR_INZ, <- !mult_IZR. apply IZR_le. rewrite Nat2Z.inj_pow. rewrite Z.pow_add_r in Hs by lia. exact Hs. }
  assert (H40 : 0 < IZR (2 ^ 40)) by (apply IZR_lt; reflexivity).
  apply (Rmult_le_reg_r (IZR (2 ^ 40) * IZR (2 ^ 40))); [now apply Rmult_lt_0_compat|].
  replace (IZR (s + 1) / IZR (2 ^ 40) * (IZR (s + 1) / IZR (2 ^ 40)) * (IZR (2 ^ 40) * IZR (2 ^ 40))) with (IZR (s + 1) * IZR (s + 1)) by (field; lra). exact Hc.
Qed.
Lemma qcirc_ge n g gd k : 0 <= g <= Q2R gd -> 0 <= @ecirc NO AC n g k <= Q2R (qcirc n gd k).
Proof.
  intros Hg. induction k as [|k IH]; [cbn; unfold Q2R; cbn; lra|]. rewrite qcirc_S. cbn [ecirc].
  assert (H1 : 0 <= 1 + ecirc n g k <= Q2R (1 + qcirc n gd k)) by (push; lra). pose proof (l_eop n _ _ _ _ Hg H1) as H2.
  assert (H3 : 0 <= sqrt (INR (2 ^ n)) <= Q2R (rt n)) by (split; [apply sqrt_pos|apply rt_ge]).
  apply up_le. rewrite Q2R_plus, Q2R_mult. ms.
Qed.
(* the accuracy of the amplitudes read after k gates on n qubits *)
Definition qtotal (n : nat) (gd : Q) (k : nat) : Q := let e := qcirc n gd k in (e + qerd d n (1 + e))%Q.
Theorem C67_number n g gd k : 0 <= g <= Q2R gd ->
  @ecirc NO AC n g k + @erd NO AC n (1 + @ecirc NO AC n g k) <= Q2R (qtotal n gd k).
Proof.
  intros Hg. unfold qtotal. cbv zeta. rewrite Q2R_plus. pose proof (qcirc_ge n g gd k Hg) as H1.
  assert (H2 : 0 <= 1 + ecirc n g k <= Q2R (1 + qcirc n gd k)) by (push; lra). pose proof (l_erd n _ _ H2). lra.
Qed.
End Link.

(* ---- binary64 ---- *)
Open Scope R_scope.
Definition d64 : Q := (1 # 2 ^ 41)%Q.
Lemma dl64 : 2 * tol64 = Q2R d64.
Proof. unfold tol64, d64, Q2R. cbn. lra. Qed.
Lemma num_5_50 : (Qle_bool (qtotal d64 5 (1 # 2 ^ 50) 50) (1 # 1000000)) = true.
Proof. vm_compute. reflexivity. Qed.
Lemma num_10_100 : (Qle_bool (qtotal d64 10 (1 # 2 ^ 50) 100) (1 # 1000)) = true.
Proof. vm_compute. reflexivity. Qed.
Lemma num_bell : (Qle_bool (qtotal d64 2 (1 # 2 ^ 50) 2) (1 # 2 ^ 31)) = true.
Proof. vm_compute. reflexivity. Qed.

Section B64.
Context (dz sq co si : fnum rnd64 -> fnum rnd64).
Notation FN := (FNum rnd64 tol64 dz sq co si).
Notation FC := (FAccur rnd64 tol64 (bpow radix2 (-53)) (bpow radix2 (-1075)) dz sq co si).
#[local] Hint Extern 0 NumOps => exact FN : typeclass_instances.
#[local] Hint Extern 0 (Accur _) => exact FC : typeclass_instances.
Context {CF : @Cfg FN}.
Notation machine := (fun z : @cx FN => (fv rnd64 (fst z), fv rnd64 (snd z)) : C).

(* doubles: if the rational bound e(n,k) is below 1, a circuit of k gates with entries
   within 2^-50 of n-qubit unitaries gives amplitudes within e(n,k), under every
   schedule, cache configuration and interleaved client activity *)
Theorem C67_binary64_circuit n ops fs s hs e : size_ok n -> (n <= 30)%nat -> Forall2 (@rounds _ FC (/ 2 ^ 50)) ops fs ->
  (forall o, In o ops -> op_ok n o /\ op_unitary o) -> fcirc n fs (s, hs) e ->
  let eps := Q2R (qtotal d64 n (1 # 2 ^ 50) (length ops)) in eps < 1 ->
  dist n (amps s n e) (ideal n ops) <= eps /\
  exists v, getVector s e = Some v /\ length v = (2 ^ n)%nat /\ vclose n eps (fun i => machine (nth i v c0)) (ideal n ops).
Proof.
  intros Hn H30 HF Hok Hc eps Hlt.
  assert (Hg0 : 0 <= / 2 ^ 50) by (apply Rlt_le, Rinv_0_lt_compat, pow_lt; lra).
  assert (Hg : 0 <= / 2 ^ 50 <= Q2R (1 # 2 ^ 50)).
  { split; [exact Hg0|]. unfold Q2R. cbn [Qnum Qden]. rewrite Rmult_1_l. apply Req_le. f_equal. rewrite pow_IZR. reflexivity. }
  pose proof (@C67_number FN FC d64 dl64 n _ _ (length ops) Hg) as Hb. fold eps in Hb.
  destruct (@C67_circuit FN FC CF n (/ 2 ^ 50) ops fs s hs e Hn Hg0 HF Hok Hc) as (H1 & H2 & H3).
  pose proof (@ecirc_pos FN FC n (/ 2 ^ 50) (length ops) Hg0) as Hp.
  assert (Hr : 0 <= @erd FN FC n (1 + @ecirc FN FC n (/ 2 ^ 50) (length ops))) by (apply erd_pos; lra).
  split; [lra|]. destruct (H2 H30) as (v & Hv & Hl & Hcl); [apply H3; lra|].
  exists v. split; [exact Hv|]. split; [exact Hl|]. intros i Hi. eapply Rle_trans; [exact (Hcl i Hi)|exact Hb].
Qed.
End B64.

(* a library returning the correctly rounded sqrt, cos and sin *)
Definition cr (f : R -> R) (x : fnum rnd64) : fnum rnd64 := mk rnd64 tol64 (f (fv rnd64 x)).
Lemma rnd64_2 : rnd64 2 = 2.
Proof.
  unfold rnd64. apply round_generic; [apply valid_rnd_N|]. replace 2 with (bpow radix2 1) by (cbn; lra). apply generic_format_bpow. cbn. lia.
Qed.
Lemma cr_err f x : Rabs (f (fv rnd64 x)) <= 1 -> Rabs (fv rnd64 (cr f x) - f (fv rnd64 x)) <= bpow radix2 (-52).
Proof.
  intros Hf. unfold cr. rewrite fv_mk. eapply Rle_trans; [apply (rnd_err (rnd := rnd64) (tol := tol64))|].
  replace (-52)%Z with (-53 + 1)%Z by lia. rewrite bpow_plus. change (bpow radix2 1) with 2. pose proof (bpow_ge_0 radix2 (-53)) as Hb.
  assert (H1 : bpow radix2 (-1075) <= bpow radix2 (-53)) by (apply bpow_le; lia).
  assert (H2 : bpow radix2 (-53) * Rabs (f (fv rnd64 x)) <= bpow radix2 (-53) * 1) by (apply Rmult_le_compat_l; assumption). lra.
Qed.
Lemma mathlib64 : mathlib rnd64 (cr sqrt) (cr cos) (cr sin) (bpow radix2 (-52)).
Proof.
  constructor.
  - exact rnd64_2.
  - intros x Hx. apply (cr_err sqrt). rewrite Rabs_pos_eq by apply sqrt_pos. rewrite <- sqrt_1. now apply sqrt_le_1_alt.
  - intros x. apply (cr_err cos). apply abs1, COS_bound.
  - intros x. apply (cr_err sin). apply abs1, SIN_bound.
Qed.
Lemma rounds_mono NO (AC : Accur NO) gd gd' o f : gd <= gd' -> @rounds NO AC gd o f -> @rounds NO AC gd' o f.
Proof. intros Hle [g m t l Hg|g m t0 t1 l Hg]; constructor; intros i j Hi Hj; (eapply Rle_trans; [apply Hg|]); auto. Qed.
Definition bellv : vector := fun i => match i with O => RtoC s2 | 3%nat => RtoC s2 | _ => RtoC 0 end.
Lemma bell_ideal : veq 2 (ideal 2 bell_ops) bellv.
Proof.
  intros i Hi. cbn in Hi. assert (Hc : i = 0%nat \/ i = 1%nat \/ i = 2%nat \/ i = 3%nat) by lia.
  unfold bell_ops. cbn [ideal op_mat]. change (Z.to_nat 1) with 1%nat. change (Z.to_nat 0) with 0%nat.
  destruct Hc as [->|[->|[->| ->]]]; cbn -[SQRT2 Cmult Cplus]; unfold cf_SQRT2_2, cf_mSQRT2_2, cf_one, cf_zero; cbn -[SQRT2 Cmult Cplus]; rewrite ?(SQRT2_n 0);
    apply injective_projections; cbn -[s2]; ring.
Qed.
(* H and CX in doubles: the four amplitudes are read back within 2^-31 of
   (1/sqrt 2, 0, 0, 1/sqrt 2) *)
Example bell_binary64 dz (CF : @Cfg (FNum rnd64 tol64 dz (cr sqrt) (cr cos) (cr sin))) :
  exists s hs e v, @fcirc _ (FAccur rnd64 tol64 (bpow radix2 (-53)) (bpow radix2 (-1075)) dz (cr sqrt) (cr cos) (cr sin)) CF 2 (bell_fops rnd64 tol64 dz (cr sqrt) (cr cos) (cr sin)) (s, hs) e /\ getVector s e = Some v /\ length v = 4%nat /\
    vclose 2 (/ 2 ^ 31) (fun i => (fv rnd64 (fst (nth i v c0)), fv rnd64 (snd (nth i v c0)))) bellv.
Proof.
  destruct (bell_client rnd64 tol64 (bpow radix2 (-53)) (bpow radix2 (-1075)) dz (cr sqrt) (cr cos) (cr sin) _ mathlib64) as (s & hs & e & Hc).
  assert (HF : Forall2 (@rounds _ (FAccur rnd64 tol64 (bpow radix2 (-53)) (bpow radix2 (-1075)) dz (cr sqrt) (cr cos) (cr sin)) (/ 2 ^ 50))
                 bell_ops (bell_fops rnd64 tol64 dz (cr sqrt) (cr cos) (cr sin))).
  { assert (Hle : 2 * bpow radix2 (-52) <= / 2 ^ 50) by (cbn; lra).
    pose proof (bell_rounds rnd64 tol64 (bpow radix2 (-53)) (bpow radix2 (-1075)) dz (cr sqrt) (cr cos) (cr sin) _ mathlib64) as HF.
    unfold bell_ops, bell_fops in *. inversion HF as [|x1 x2 x3 x4 R1 HF1 E1 E2]. inversion HF1 as [|y1 y2 y3 y4 R2 HF2 E3 E4].
    constructor; [eapply rounds_mono; eassumption|]. constructor; [eapply rounds_mono; eassumption|constructor]. }
  assert (Hsm : Q2R (qtotal d64 2 (1 # 2 ^ 50) (length bell_ops)) <= / 2 ^ 31).
  { change (length bell_ops) with 2%nat. pose proof num_bell as Hx. apply Qle_bool_iff, Qle_Rle in Hx. eapply Rle_trans; [exact Hx|]. unfold Q2R. cbn. lra. }
  destruct (C67_binary64_circuit dz (cr sqrt) (cr cos) (cr sin) 2 bell_ops _ s hs e size2 ltac:(lia) HF bell_ops_ok Hc) as (_ & v & Hv & Hl & Hcl).
  { eapply Rle_lt_trans; [exact Hsm|]. cbn. lra. }
  exists s, hs, e, v. split; [exact Hc|]. split; [exact Hv|]. split; [exact Hl|].
  intros i Hi. rewrite <- bell_ideal by exact Hi. eapply Rle_trans; [exact (Hcl i Hi)|exact Hsm].
Qed.
Example accuracy_5_50 : Q2R (qtotal d64 5 (1 # 2 ^ 50) 50) <= 1 / 1000000 /\ Q2R (qtotal d64 10 (1 # 2 ^ 50) 100) <= 1 / 1000.
Proof.
  split; [pose proof num_5_50 as Hx|pose proof num_10_100 as Hx]; apply Qle_bool_iff, Qle_Rle in Hx; (eapply Rle_trans; [exact Hx|]); unfold Q2R; cbn; lra.
Qed.
