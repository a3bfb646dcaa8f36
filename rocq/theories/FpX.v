(* FpX.v -- C67 for rounded arithmetic and for binary64: one constant per circuit
   size, the gates of the library, and a concrete client. *)
From Coq Require Import Reals Lra Psatz ZArith Bool List Lia Arith String.
From Coquelicot Require Import Complex.
From Flocq Require Import Core.
From Verif Require Import Num State DD Gates GC Measure Api RNum Wf Sums Err Inv Wp Make Add MulV GateP StateP Kron Spec SpecP Readout
  MeasAllP ApiP Obs Props1 Circuit GateMat SafeF FpA FpE FpW FpM FpAdd FpMul FpGate FpState FpRead FpGC FpKron FpCirc FpProp FpLin FpF.
Import List ListNotations.
Open Scope R_scope.

(* K depends on the number of qubits and of gates only: not on the rounding, the
   tolerance, the library functions, the cache and hash configuration, the gates,
   the schedule, or what else the client does *)
Theorem C67_rounded_circuit n k : exists K, 0 <= K /\
  forall rnd tol (RD : Rounding rnd tol) u eta (PR : Precise rnd tol u eta) dz sq co si
    (CF : @Cfg (FNum rnd tol dz sq co si)) gd ops fs s hs e,
  let AC := FAccur rnd tol u eta dz sq co si in
  size_ok n -> 0 <= gd <= 1 -> length ops = k -> Forall2 (@rounds _ AC gd) ops fs ->
  (forall o, In o ops -> op_ok n o /\ op_unitary o) -> fcirc n fs (s, hs) e ->
  (dist n (amps s n e) (ideal n ops) <= K * (2 * tol + gd)) /\
  ((n <= 30)%nat -> K * (2 * tol + gd) < 1 ->
     exists v, getVector s e = Some v /\ length v = (2 ^ n)%nat /\
       vclose n (K * (2 * tol + gd)) (fun i => (fv rnd (fst (nth i v c0)), fv rnd (snd (nth i v c0)))) (ideal n ops)).
Proof.
  destruct (C67_error_linear n k) as (K & HK & HL). exists K. split; [exact HK|].
  intros rnd tol RD u eta PR dz sq co si CF gd ops fs s hs e AC Hn Hgd Hk HF Hok Hc.
  specialize (HL _ AC gd Hgd). destruct (C67_circuit n gd ops fs s hs e Hn (Logic.proj1 Hgd) HF Hok Hc) as (H1 & H2 & H3).
  rewrite Hk in *. change (@dl _ AC) with (2 * tol) in HL.
  pose proof (@ecirc_pos _ AC n gd k (Logic.proj1 Hgd)) as Hp.
  assert (Hr : 0 <= @erd _ AC n (1 + @ecirc _ AC n gd k)) by (apply erd_pos; lra).
  split; [lra|]. intros H30 Hlt. assert (Ht : is_term (en e) = false) by (apply H3; lra).
  destruct (H2 H30 Ht) as (v & Hv & Hl & Hcl). exists v. split; [exact Hv|]. split; [exact Hl|].
  intros i Hi. specialize (Hcl i Hi). eapply Rle_trans; [exact Hcl|exact HL].
Qed.

(* ---- the gates of the library ---- *)
Section Lib.
Context (rnd : R -> R) (tol : R) {RD : Rounding rnd tol} (u eta : R) {PR : Precise rnd tol u eta} (dz sq co si : fnum rnd -> fnum rnd).
#[local] Hint Extern 0 NumOps => exact (FNum rnd tol dz sq co si) : typeclass_instances.
#[local] Hint Extern 0 (Accur _) => exact (FAccur rnd tol u eta dz sq co si) : typeclass_instances.
Notation fn := (fnum rnd).
Notation fv := (fv rnd).
Notation FN := (FNum rnd tol dz sq co si).
Notation FC := (FAccur rnd tol u eta dz sq co si).

(* sqrt, cos and sin return a number within ud of the function's value *)
Record mathlib (ud : R) : Prop := {
  ml_two : rnd 2 = 2;
  ml_sqrt : forall x : fn, 0 <= fv x <= 1 -> Rabs (fv (sq x) - sqrt (fv x)) <= ud;
  ml_cos : forall x : fn, Rabs (fv (co x) - cos (fv x)) <= ud;
  ml_sin : forall x : fn, Rabs (fv (si x) - sin (fv x)) <= ud }.
Context (ud : R) (ML : mathlib ud).

Lemma ud_pos : 0 <= ud.
Proof. eapply Rle_trans; [apply Rabs_pos|apply (ml_cos _ ML (mk rnd tol 0))]. Qed.
Lemma v_two : fv (@n2 FN) = 2.
Proof. unfold n2. cbn [nadd FNum]. rewrite fv_mk, (fn1 rnd tol dz sq co si). replace (1 + 1) with 2 by ring. apply (ml_two _ ML). Qed.
Lemma v_half : fv (@nhalf FN) = / 2.
Proof.
  unfold nhalf. cbn [ndiv FNum]. rewrite v_two. destruct (Req_EM_T 2 0) as [Hx|_]; [lra|]. rewrite fv_mk, (fn1 rnd tol dz sq co si).
  rewrite rnd_half. lra.
Qed.
Lemma v_sqrt2 : Rabs (fv (@SQRT2 FN) - s2) <= ud.
Proof. unfold SQRT2, s2. cbn [nsqrt FNum]. pose proof (ml_sqrt _ ML (@nhalf FN)) as Hx. rewrite v_half in Hx. apply Hx. lra. Qed.
Lemma v_opp (x : fn) : fv (@nopp FN x) = - fv x.
Proof. cbn [nopp FNum]. now rewrite fv_mk, (rnd_odd (rnd := rnd) (tol := tol)), (fv_rnd rnd). Qed.
Definition near (n : nat) (d : R) (g : @gmat FN) (G : matrix) : Prop :=
  forall i j, (i < 2 ^ n)%nat -> (j < 2 ^ n)%nat -> Cmod (Cminus (@cv _ FC (g i j)) (G i j)) <= d.
Lemma comps (x : @cx FN) (y : C) d : Rabs (fv (fst x) - fst y) <= d -> Rabs (fv (snd x) - snd y) <= d ->
  Cmod (Cminus (@cv _ FC x) y) <= 2 * d.
Proof.
  intros H1 H2. eapply Rle_trans; [apply (Cmod_comp2 _ d)|pose proof (Rabs_pos (fv (fst x) - fst y)); lra].
  - exact H1.
  - exact H2.
Qed.
Lemma v_refl (x d : R) : 0 <= d -> Rabs (x - x) <= d.
Proof. intros Hd. rewrite Rminus_diag_eq, Rabs_R0 by reflexivity. exact Hd. Qed.
Lemma d_opp (x : fn) y d : Rabs (fv x - y) <= d -> Rabs (fv (@nopp FN x) - - y) <= d.
Proof. intros Hx. rewrite v_opp. replace (- fv x - - y) with (- (fv x - y)) by ring. now rewrite Rabs_Ropp. Qed.
Lemma d_0 d : 0 <= d -> Rabs (fv (@n0 FN) - 0) <= d.
Proof. intros Hd. rewrite (fn0 rnd tol dz sq co si). now apply v_refl. Qed.
Lemma d_1 d : 0 <= d -> Rabs (fv (@n1 FN) - 1) <= d.
Proof. intros Hd. rewrite (fn1 rnd tol dz sq co si). now apply v_refl. Qed.
Lemma d_half d : 0 <= d -> Rabs (fv (@nhalf FN) - / 2) <= d.
Proof. intros Hd. rewrite v_half. now apply v_refl. Qed.
Ltac cases2 Hi Hj := cbn in Hi, Hj; apply lt2 in Hi; apply lt2 in Hj; destruct Hi as [->| ->], Hj as [->| ->].
Ltac cases4 Hi Hj := cbn in Hi, Hj; apply lt4 in Hi; apply lt4 in Hj;
  destruct Hi as [->|[->|[->| ->]]], Hj as [->|[->|[->| ->]]].
Ltac ent := apply comps; cbn [fst snd]; unfold RtoC; cbn [fst snd n0 n1 nopp RNum];
  repeat first [apply d_opp | apply d_0 | apply d_1 | apply d_half | apply v_sqrt2]; try apply ud_pos.

Notation Rgate nm := (@gateMap (RNum 0) nm).
(* the constant gates, by name: the machine entries are within 2 ud of the entries of
   the exact gates, which are the textbook matrices (C23) *)
Theorem C67_named_gates nm : In nm gate_names -> near 1 (2 * ud) (@gateMap FN nm) (Rgate nm).
Proof.
  intros Hin. repeat (destruct Hin as [<-|Hin]; [|]); [..|destruct Hin];
    (match goal with |- near _ _ ?a ?b => let a' := eval cbn [gateMap String.eqb Ascii.eqb Bool.eqb] in a in let b' := eval cbn [gateMap String.eqb Ascii.eqb Bool.eqb] in b in change (near 1 (2 * ud) a' b') end);
    intros i j Hi Hj; cases2 Hi Hj;
    unfold Imat, Hmat, Xmat, Ymat, Zmat, Smat, Sdagmat, Tmat, Tdagmat, SXmat, SXdagmat, Vmat, Vdagmat, mk2,
      cf_one, cf_mone, cf_zero, cf_i, cf_mi, cf_SQRT2_2, cf_mSQRT2_2, cf_iSQRT2_2, cf_miSQRT2_2, cf_1plusi, cf_1minusi, cf_1plusi_2, cf_1minusi_2, c0, c1;
    rewrite ?(half_n 0), ?(SQRT2_n 0); ent.
Qed.
Lemma abs_sin x : Rabs (sin x) <= Rabs x.
Proof.
  destruct (Rtotal_order x 0) as [Hx|[->|Hx]].
  - assert (H1 : sin (- x) < - x) by (apply sin_lt_x; lra). rewrite sin_neg in H1.
    rewrite (Rabs_left x) by exact Hx. destruct (Rle_or_lt (sin x) 0) as [Hs|Hs]; [rewrite Rabs_left1; lra|].
    rewrite Rabs_pos_eq by lra. pose proof (SIN_bound x) as Hb. destruct (Rle_or_lt (- x) 1) as [Hc|Hc]; [|lra].
    assert (Hp : 0 <= sin (- x)) by (apply sin_ge_0; [lra|pose proof PI2_1; pose proof PI_RGT_0; lra]). rewrite sin_neg in Hp. lra.
  - rewrite sin_0. lra.
  - assert (H1 : sin x < x) by (apply sin_lt_x; lra). rewrite (Rabs_pos_eq x) by lra.
    destruct (Rle_or_lt 0 (sin x)) as [Hs|Hs]; [rewrite Rabs_pos_eq; lra|].
    rewrite Rabs_left by exact Hs. pose proof (SIN_bound x) as Hb. destruct (Rle_or_lt x 1) as [Hc|Hc]; [|lra].
    assert (Hp : 0 <= sin x) by (apply sin_ge_0; [lra|pose proof PI2_1; pose proof PI_RGT_0; lra]). lra.
Qed.
Lemma lip_aux p q m : Rabs q <= 1 -> p = m * (2 * q) -> Rabs p <= Rabs m * 2.
Proof. intros Hq ->. rewrite Rabs_mult. apply Rmult_le_compat_l; [apply Rabs_pos|]. rewrite Rabs_mult, (Rabs_pos_eq 2) by lra. lra. Qed.
Lemma abs1 x : -1 <= x <= 1 -> Rabs x <= 1. Proof. intros Hx. apply Rabs_le. exact Hx. Qed.
Lemma cos_lip x y : Rabs (cos x - cos y) <= Rabs (x - y).
Proof.
  rewrite form2. eapply Rle_trans; [apply (lip_aux _ (- sin ((x + y) / 2)) (sin ((x - y) / 2))); [rewrite Rabs_Ropp; apply abs1, SIN_bound|ring]|].
  pose proof (abs_sin ((x - y) / 2)) as Hx. unfold Rdiv in Hx at 2. rewrite Rabs_mult, (Rabs_pos_eq (/ 2)) in Hx by lra. lra.
Qed.
Lemma sin_lip x y : Rabs (sin x - sin y) <= Rabs (x - y).
Proof.
  rewrite form4. eapply Rle_trans; [apply (lip_aux _ (cos ((x + y) / 2)) (sin ((x - y) / 2))); [apply abs1, COS_bound|ring]|].
  pose proof (abs_sin ((x - y) / 2)) as Hx. unfold Rdiv in Hx at 2. rewrite Rabs_mult, (Rabs_pos_eq (/ 2)) in Hx by lra. lra.
Qed.
(* the error of halving an angle *)
Definition ha (a : fn) : R := u * Rabs (fv a) + eta.
Lemma v_halve (a : fn) : Rabs (fv (@halve FN a) - fv a / 2) <= ha a.
Proof.
  unfold halve. cbn [ndiv FNum]. rewrite v_two. destruct (Req_EM_T 2 0) as [Hx|_]; [lra|]. rewrite fv_mk.
  eapply Rle_trans; [apply (rnd_err (rnd := rnd) (tol := tol) (u := u) (eta := eta))|]. unfold ha.
  unfold Rdiv. rewrite Rabs_mult, (Rabs_pos_eq (/ 2)) by lra. pose proof (Rabs_pos (fv a)). pose proof (pr_u (rnd := rnd) (tol := tol) (u := u) (eta := eta)) as Hu.
  assert (0 <= u * Rabs (fv a)) by now apply Rmult_le_pos. lra.
Qed.
Lemma ha_pos a : 0 <= ha a.
Proof.
  unfold ha. pose proof (pr_u (rnd := rnd) (tol := tol) (u := u) (eta := eta)) as Hu. pose proof (pr_eta (rnd := rnd) (tol := tol) (u := u) (eta := eta)) as He.
  assert (0 <= u * Rabs (fv a)) by (apply Rmult_le_pos; [exact Hu|apply Rabs_pos]). lra.
Qed.
Lemma d_cos (a : fn) : Rabs (fv (@ncos FN (@halve FN a)) - cos (fv a / 2)) <= ud + ha a.
Proof.
  replace (fv (@ncos FN (@halve FN a)) - cos (fv a / 2)) with ((fv (co (@halve FN a)) - cos (fv (@halve FN a))) + (cos (fv (@halve FN a)) - cos (fv a / 2))) by (cbn [ncos FNum]; ring).
  eapply Rle_trans; [apply Rabs_triang|]. apply Rplus_le_compat; [apply (ml_cos _ ML)|]. eapply Rle_trans; [apply cos_lip|apply v_halve].
Qed.
Lemma d_sin (a : fn) : Rabs (fv (@nsin FN (@halve FN a)) - sin (fv a / 2)) <= ud + ha a.
Proof.
  replace (fv (@nsin FN (@halve FN a)) - sin (fv a / 2)) with ((fv (si (@halve FN a)) - sin (fv (@halve FN a))) + (sin (fv (@halve FN a)) - sin (fv a / 2))) by (cbn [nsin FNum]; ring).
  eapply Rle_trans; [apply Rabs_triang|]. apply Rplus_le_compat; [apply (ml_sin _ ML)|]. eapply Rle_trans; [apply sin_lip|apply v_halve].
Qed.
Lemma d_cos1 (a : fn) : Rabs (fv (@ncos FN a) - cos (fv a)) <= ud + ha a.
Proof. pose proof (ml_cos _ ML a). pose proof (ha_pos a). cbn [ncos FNum]. lra. Qed.
Lemma d_sin1 (a : fn) : Rabs (fv (@nsin FN a) - sin (fv a)) <= ud + ha a.
Proof. pose proof (ml_sin _ ML a). pose proof (ha_pos a). cbn [nsin FNum]. lra. Qed.
Lemma uha a : 0 <= ud + ha a.
Proof. pose proof ud_pos. pose proof (ha_pos a). lra. Qed.
Ltac entr := apply comps; cbn [fst snd]; unfold RtoC; cbn [fst snd n0 n1 nopp ncos nsin RNum];
  repeat first [apply d_opp | apply d_0 | apply d_1 | apply d_cos | apply d_sin | apply d_cos1 | apply d_sin1]; try apply uha.
(* the rotations, phase and two-qubit rotation gates, for every angle *)
Theorem C67_rotation_gates (a : fn) : let d := 2 * (ud + ha a) in
  near 1 d (@rx FN a) (@rx (RNum 0) (fv a)) /\ near 1 d (@ry FN a) (@ry (RNum 0) (fv a)) /\ near 1 d (@rz FN a) (@rz (RNum 0) (fv a)) /\
  near 1 d (@p_gate FN a) (@p_gate (RNum 0) (fv a)) /\
  near 2 d (@rxx_matrix FN a) (@rxx_matrix (RNum 0) (fv a)) /\ near 2 d (@ryy_matrix FN a) (@ryy_matrix (RNum 0) (fv a)) /\
  near 2 d (@rzz_matrix FN a) (@rzz_matrix (RNum 0) (fv a)) /\ near 2 d (@rzx_matrix FN a) (@rzx_matrix (RNum 0) (fv a)).
Proof.
  cbv zeta. repeat split; intros i j Hi Hj; first [cases2 Hi Hj | cases4 Hi Hj];
    unfold rx, ry, rz, p_gate, rxx_matrix, ryy_matrix, rzz_matrix, rzx_matrix, mk2, mk4; cbn [nth]; unfold copp, c0, c1; cbn [fst snd];
    rewrite ?(halve_n 0); entr.
Qed.

(* a client: H on qubit 0 and CX with control 0 and target 1, the library's own
   constants, run over any rounded arithmetic; the gates are met within 2 ud *)
Context {CF : @Cfg FN}.
Definition bell_ops : list op := [U1 (@Xmat (RNum 0)) 1%Z [(0%Z, true)]; U1 (@Hmat (RNum 0)) 0%Z []].
Definition bell_fops : list (@fop FN) := [F1 (@Xmat FN) 1%Z [(0%Z, true)]; F1 (@Hmat FN) 0%Z []].
Lemma bell_rounds : Forall2 (@rounds _ FC (2 * ud)) bell_ops bell_fops.
Proof.
  constructor; [constructor|constructor; [constructor|constructor]].
  - exact (C67_named_gates "X"%string (or_intror (or_intror (or_introl eq_refl)))).
  - exact (C67_named_gates "H"%string (or_intror (or_introl eq_refl))).
Qed.
Lemma bell_ops_ok o : In o bell_ops -> op_ok 2 o /\ op_unitary o.
Proof.
  destruct (C23_constant_gates_unitary 0) as (_ & UH & UX & _).
  intros [<-|[<-|[]]]; cbn [op_ok op_unitary]; (split; [|assumption]); split; try (unfold qubit; lia).
  - split; [repeat constructor; intros []|]. intros x [<-|[]]. cbn [fst]. split; [unfold qubit; lia|]. intros [Hx|[]]; discriminate Hx.
  - split; [constructor|intros x []].
Qed.
Lemma size2 : size_ok 2. Proof. unfold size_ok, NQUBITS. lia. Qed.
Lemma ran (c : @comp FN) s (P : @edge FN -> @state FN -> Prop) : completes c s P -> exists e s', steps (Cfg_ok c s) (Cfg_ok (CRet e) s') /\ P e s'.
Proof.
  intros (_ & H1 & H2). destruct (H1 0%nat) as (e & s' & He). exists e, s'.
  pose proof (run_on_steps 0%nat c s) as X. rewrite He in X. split; [exact X|now apply H2].
Qed.
Example bell_client : exists s hs e, fcirc 2 bell_fops (s, hs) e.
Proof.
  pose proof ud_pos as Hu. assert (Hg : 0 <= 2 * ud) by lra. pose proof bell_rounds as HF.
  inversion HF as [|o1 f1 l1 l2 R1 HF1 E1 E2]. inversion HF1 as [|o2 f2 l3 l4 R2 _ E3 E4].
  destruct (bell_ops_ok _ (or_introl eq_refl)) as [K1 U1']. destruct (bell_ops_ok _ (or_intror (or_introl eq_refl))) as [K2 U2'].
  destruct (ran _ _ _ (@C67_zero_state FN FC CF _ _ 2 fr_init size2)) as (v & s1 & S1 & _).
  pose proof (fc_start 2 _ _ v s1 fr_init S1) as C1.
  assert (Hno : forall o : op, In o [] -> op_ok 2 o /\ op_unitary o) by (intros o []).
  destruct (ran _ _ _ (@C67_circuit_progress FN FC CF 2 (2 * ud) [] [] _ _ _ _ _ size2 Hg (Forall2_nil _) Hno K2 U2' R2 C1)) as (g & s2 & _ & P2).
  destruct (ran _ _ _ P2) as (v2 & s3 & _ & C2).
  assert (Hno2 : forall o : op, In o [U1 (@Hmat (RNum 0)) 0%Z []] -> op_ok 2 o /\ op_unitary o) by (intros o [<-|[]]; split; assumption).
  destruct (ran _ _ _ (@C67_circuit_progress FN FC CF 2 (2 * ud) _ _ _ _ _ _ _ size2 Hg HF1 Hno2 K1 U1' R1 C2)) as (g2 & s4 & _ & P4).
  destruct (ran _ _ _ P4) as (v3 & s5 & _ & C3). eexists _, _, _. exact C3.
Qed.
End Lib.
