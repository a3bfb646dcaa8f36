(* FpMMQ.v -- the error bounds of C71 in numbers: rational evaluation of emat, eswap and
   emerge, and binary64. *)
From Coq Require Import Reals Lra Psatz ZArith QArith Qreals Bool List Lia Arith String.
From Coquelicot Require Import Complex.
From Flocq Require Import Core.
From Verif Require Import Num State DD Gates GC Measure Api RNum Wf Sums Err Inv Wp Make Add MulV GateP StateP Kron Spec SpecP Readout
  MeasAllP ApiP Obs Props1 Circuit GateMat SafeF FpA FpE FpW FpM FpAdd FpMul FpMM FpMM2 FpGate FpState FpRead FpGC FpKron FpCirc FpProp FpLin FpF FpX FpQ FpMMP FpMMX.
Import List ListNotations.

Section Qd.
Open Scope Q_scope.
Context (d : Q).
Fixpoint qeaddm (n : nat) (s : Q) : Q :=
  match n with O => up (2 * d + d * s) | S m => up (qecomp_ d (qeaddm m) m (up (s + 2 * d)) + 4 * (d * qGp d (S m)) + d * s * qGp d (S m)) end.
Definition qeblk_ mu m := let p := qmvbound d mu m (qGr d) (qGr d) in up (2 * p + qeaddm m (up (2 * (qBs d m + p)))).
Fixpoint qemulm (n : nat) : Q :=
  match n with O => 0 | S m => let D := qeblk_ (qemulm m) m in up (D + qmkerr d m (up (2 * qBs d m + D)) + d * qGp d (S m)) end.
Definition qemm n a b := qmvbound d (qemulm n) n a b.
Fixpoint qemat (n : nat) (gd : Q) (k : nat) : Q :=
  match k with
  | O => 0
  | S O => qeg d n gd
  | S j => up (qemm n (1 + qeg d n gd) (1 + qemat n gd j) + qpow 2 n * ((1 + qeg d n gd) * qemat n gd j + qeg d n gd))
  end.
Definition qeswap2 (n : nat) : Q := let g := qegate d n 1 in up (qemm n (1 + g) (1 + g) + qpow 2 n * ((1 + g) * g + g * 1)).
Definition qeswap (n : nat) : Q :=
  let g := qegate d n 1 in up (qemm n (1 + g) (qpow 2 n + qeswap2 n) + qpow 2 n * ((1 + g) * qeswap2 n + g * qpow 2 n)).
Definition qeapp n gd k W := let e := qemat n gd k in qemv d n (1 + e) W + qpow 2 n * (e * W).
Fixpoint qemerge (n : nat) (gd : Q) (ks : list nat) : Q :=
  match ks with [] => 0 | k :: r => let e := qemerge n gd r in up (e + rt n * qeapp n gd k (1 + e)) end.
Definition qmtotal (n : nat) (gd : Q) (ks : list nat) : Q := let e := qemerge n gd ks in (e + qerd d n (1 + e))%Q.
End Qd.

Section Link.
Open Scope R_scope.
Context {NO : NumOps} {AC : Accur NO} (d : Q) (Hd : @dl NO AC = Q2R d).
Lemma q4 : Q2R 4 = 4. Proof. unfold Q2R. cbn. lra. Qed.
Ltac push := repeat first [rewrite Q2R_plus | rewrite Q2R_mult]; rewrite ?q1, ?q2, ?q3, ?q4, <- ?Hd.
Ltac ms := repeat first [assumption | apply add_le | apply mul_le]; try (split; [lra|apply Rle_refl]); try lra.
Ltac upq := match goal with |- 0 <= ?x <= Q2R (up ?y) => let H := fresh in assert (H : 0 <= x <= Q2R y); [push; ms|split; [exact (Logic.proj1 H)|eapply Rle_trans; [exact (Logic.proj2 H)|apply up_ge]]] end.
Notation dp := (@dp NO AC).
Lemma m_eaddm n : forall s t, 0 <= s <= Q2R t -> 0 <= @eaddm NO AC n s <= Q2R (qeaddm d n t).
Proof.
  pose proof dp as Hdp. induction n as [|n IH]; intros s t Hs; cbn [qeaddm eaddm]; [upq|].
  assert (H1 : 0 <= s + 2 * dl <= Q2R (up (t + 2 * d))) by upq.
  pose proof (l_ecomp d Hd _ _ n _ _ IH H1) as H2. pose proof (l_Gp d Hd (S n)) as H3. upq.
Qed.
Lemma m_eblk mu mu' m : 0 <= mu <= Q2R mu' -> 0 <= @eblk_ NO AC mu m <= Q2R (qeblk_ d mu' m).
Proof.
  intros Hm. unfold qeblk_, eblk_. cbv zeta. pose proof (l_mvbound d Hd _ _ m _ _ _ _ Hm (l_Gr d Hd) (l_Gr d Hd)) as Hp. pose proof (l_Bs d Hd m) as HB.
  set (p := mvbound mu m Gr Gr) in *. set (p' := qmvbound d mu' m (qGr d) (qGr d)) in *.
  assert (H1 : 0 <= 2 * (Bs m + p) <= Q2R (up (2 * (qBs d m + p')))) by upq. pose proof (m_eaddm m _ _ H1). upq.
Qed.
Lemma m_emulm n : 0 <= @emulm NO AC n <= Q2R (qemulm d n).
Proof.
  induction n as [|n IH]; cbn [qemulm emulm]; [unfold Q2R; cbn; lra|]. cbv zeta. pose proof (m_eblk _ _ n IH) as HD. pose proof (l_Bs d Hd n) as HB.
  set (D := eblk_ (emulm n) n) in *. set (D' := qeblk_ d (qemulm d n) n) in *. pose proof dp as Hdp. pose proof (l_Gp d Hd (S n)) as H3.
  assert (HW : 0 <= 2 * Bs n + D <= Q2R (up (2 * qBs d n + D'))) by upq. pose proof (l_mkerr d Hd n _ _ HW). upq.
Qed.
Lemma m_emm n a b a' b' : 0 <= a <= Q2R a' -> 0 <= b <= Q2R b' -> 0 <= @emm NO AC n a b <= Q2R (qemm d n a' b').
Proof. intros Ha Hb. exact (l_mvbound d Hd _ _ n _ _ _ _ (m_emulm n) Ha Hb). Qed.
Lemma m_add1 x y : 0 <= x <= Q2R y -> 0 <= 1 + x <= Q2R (1 + y).
Proof. intros. push. lra. Qed.
Lemma m_emat n g gd k : 0 <= g <= Q2R gd -> 0 <= @emat NO AC n g k <= Q2R (qemat d n gd k).
Proof.
  intros Hg. induction k as [|[|k] IH]; [unfold Q2R; cbn; lra|cbn [emat qemat]; exact (l_eg d Hd n _ _ Hg)|].
  rewrite emat_S. change (qemat d n gd (S (S k))) with (up (qemm d n (1 + qeg d n gd) (1 + qemat d n gd (S k)) + qpow 2 n * ((1 + qeg d n gd) * qemat d n gd (S k) + qeg d n gd)))%Q.
  pose proof (l_eg d Hd n _ _ Hg) as He. pose proof (m_emm n _ _ _ _ (m_add1 _ _ He) (m_add1 _ _ IH)) as H1. pose proof (l_2n n).
  set (q := qemat d n gd (S k)) in *. set (e := emat n g (S k)) in *. upq.
Qed.
Lemma m_eswap n : 0 <= @eswap NO AC n <= Q2R (qeswap d n).
Proof.
  assert (H1 : 0 <= 1 <= Q2R 1) by (rewrite q1; lra). pose proof (l_egate d Hd n _ _ H1) as He. pose proof (l_pow 2 2 n l_2) as HP.
  assert (H2 : 0 <= @eswap2 NO AC n <= Q2R (qeswap2 d n)).
  { unfold eswap2, qeswap2. cbv zeta. pose proof (m_emm n _ _ _ _ (m_add1 _ _ He) (m_add1 _ _ He)). set (e := egate n 1) in *. set (q := qegate d n 1) in *. upq. }
  unfold eswap, qeswap. cbv zeta. assert (H3 : 0 <= 2 ^ n + eswap2 n <= Q2R (qpow 2 n + qeswap2 d n)) by (push; lra).
  pose proof (m_emm n _ _ _ _ (m_add1 _ _ He) H3). set (e := egate n 1) in *. set (q := qegate d n 1) in *. upq.
Qed.
Lemma m_eapp n g gd k W W' : 0 <= g <= Q2R gd -> 0 <= W <= Q2R W' -> 0 <= @eapp NO AC n g k W <= Q2R (qeapp d n gd k W').
Proof.
  intros Hg HW. unfold qeapp, eapp. cbv zeta. pose proof (m_emat n _ _ k Hg) as He.
  pose proof (l_emv d Hd n _ _ _ _ (m_add1 _ _ He) HW). pose proof (l_2n n). push. ms.
Qed.
Lemma m_emerge n g gd ks : 0 <= g <= Q2R gd -> 0 <= @emerge NO AC n g ks <= Q2R (qemerge d n gd ks).
Proof.
  intros Hg. induction ks as [|k r IH]; [cbn; unfold Q2R; cbn; lra|]. cbn [emerge qemerge]. cbv zeta.
  pose proof (m_eapp n _ _ k _ _ Hg (m_add1 _ _ IH)) as H2.
  assert (H3 : 0 <= sqrt (INR (2 ^ n)) <= Q2R (rt n)) by (split; [apply sqrt_pos|apply rt_ge]).
  apply up_le. rewrite Q2R_plus, Q2R_mult. ms.
Qed.
Theorem C71_number n g gd ks : 0 <= g <= Q2R gd ->
  @emerge NO AC n g ks + @erd NO AC n (1 + @emerge NO AC n g ks) <= Q2R (qmtotal d n gd ks).
Proof.
  intros Hg. unfold qmtotal. cbv zeta. rewrite Q2R_plus. pose proof (m_emerge n g gd ks Hg) as H1.
  pose proof (l_erd d Hd n _ _ (m_add1 _ _ H1)). lra.
Qed.
End Link.

(* ---- binary64 ---- *)
Open Scope R_scope.
(* the Bell circuit in one fused matrix, 5 qubits with 10 groups of 5 gates, 10 qubits
   with 10 pairs; makeSwap on 10 qubits *)
Lemma mnum_bell : Qle_bool (qmtotal d64 2 (1 # 2 ^ 50) [2%nat]) (1 # 2 ^ 29) = true.
Proof. vm_compute. reflexivity. Qed.
Lemma mnum_pairs : Qle_bool (qmtotal d64 5 (1 # 2 ^ 50) [2; 2; 2; 2; 2; 2; 2; 2; 2; 2]%nat) (1 # 100000) = true.
Proof. vm_compute. reflexivity. Qed.
Lemma mnum_swap : (Qle_bool (qeswap d64 5) (1 # 1000000) && Qle_bool (qeswap d64 10) (1 # 1000))%bool = true.
Proof. vm_compute. reflexivity. Qed.

Section B64.
Context (dz sq co si : fnum rnd64 -> fnum rnd64).
Notation FN := (FNum rnd64 tol64 dz sq co si).
Notation FC := (FAccur rnd64 tol64 (bpow radix2 (-53)) (bpow radix2 (-1075)) dz sq co si).
#[local] Hint Extern 0 NumOps => exact FN : typeclass_instances.
#[local] Hint Extern 0 (Accur _) => exact FC : typeclass_instances.
Context {CF : @Cfg FN}.
Notation machine := (fun z : @cx FN => (fv rnd64 (fst z), fv rnd64 (snd z)) : C).
Lemma g50 : 0 <= / 2 ^ 50 <= Q2R (1 # 2 ^ 50).
Proof.
  split; [apply Rlt_le, Rinv_0_lt_compat, pow_lt; lra|]. unfold Q2R. cbn [Qnum Qden]. rewrite Rmult_1_l. apply Req_le. f_equal. rewrite pow_IZR. reflexivity.
Qed.
(* doubles: a state to which fused matrices of the given numbers of gates are applied *)
Theorem C71_binary64_merged n groups gs s hs v : size_ok n -> (n <= 30)%nat -> Forall2 (Forall2 (@rounds _ FC (/ 2 ^ 50))) groups gs ->
  (forall o, In o (concat groups) -> op_ok n o /\ op_unitary o) -> fmerge n gs (s, hs) v None ->
  let eps := Q2R (qmtotal d64 n (1 # 2 ^ 50) (map (@length op) groups)) in eps < 1 ->
  dist n (amps s n v) (ideal n (concat groups)) <= eps /\
  exists l, getVector s v = Some l /\ length l = (2 ^ n)%nat /\ vclose n eps (fun i => machine (nth i l c0)) (ideal n (concat groups)).
Proof.
  intros Hn H30 HF Hok Hc eps Hlt. pose proof g50 as Hg.
  pose proof (@C71_number FN FC d64 dl64 n _ _ (map (@length op) groups) Hg) as Hb. fold eps in Hb.
  destruct (@C71_merged FN FC CF n (/ 2 ^ 50) groups gs s hs v Hn (Logic.proj1 Hg) HF Hok Hc) as ((_ & _ & H1) & H2 & H3).
  pose proof (@emerge_pos FN FC n (/ 2 ^ 50) (map (@length op) groups) (Logic.proj1 Hg)) as Hp.
  assert (Hr : 0 <= @erd FN FC n (1 + @emerge FN FC n (/ 2 ^ 50) (map (@length op) groups))) by (apply erd_pos; lra).
  split; [lra|]. destruct (H2 H30) as (l & Hv & Hl & Hcl); [apply H3; lra|].
  exists l. split; [exact Hv|]. split; [exact Hl|]. intros i Hi. eapply Rle_trans; [exact (Hcl i Hi)|exact Hb].
Qed.
(* makeSwap in doubles, on 5 and on 10 qubits *)
Theorem C71_binary64_swap n eps s hs i t0 t1 : (n = 5%nat /\ eps = 1 / 1000000) \/ (n = 10%nat /\ eps = 1 / 1000) ->
  freach (s, hs) -> qubit n t0 -> qubit n t1 -> t0 <> t1 ->
  exists p, (forall x, (x < 2 ^ n)%nat -> swaps (Z.to_nat t0) (Z.to_nat t1) x (p x)) /\
  runs_to i (makeSwap (Z.of_nat n) t0 t1) s (fun e s' => freach (s', H KM n e :: hs) /\ kept hs s s' /\ mclose n eps (ents s' n e) (perm_matrix p)).
Proof.
  intros Hne Hr H0 H1 Hd. assert (Hn : size_ok n) by (unfold size_ok, NQUBITS; destruct Hne as [[-> _]|[-> _]]; lia).
  destruct (@C71_makeSwap FN FC CF s hs i n t0 t1 Hr Hn H0 H1 Hd) as (p & Hp & e & s' & X & R & Kp & D).
  exists p. split; [exact Hp|]. exists e, s'. split; [exact X|]. split; [exact R|]. split; [exact Kp|].
  assert (Hb : @eswap FN FC n <= eps).
  { pose proof (@m_eswap FN FC d64 dl64 n) as [_ Hx]. eapply Rle_trans; [exact Hx|]. pose proof mnum_swap as Hs. apply andb_prop in Hs. destruct Hs as [S5 S10].
    destruct Hne as [[-> ->]|[-> ->]]; [rename S5 into Hs|rename S10 into Hs]; apply Qle_bool_iff, Qle_Rle in Hs; (eapply Rle_trans; [exact Hs|]); unfold Q2R; cbn; lra. }
  intros a b Ha Hb'. eapply Rle_trans; [now apply D|exact Hb].
Qed.
End B64.

(* H and CX fused into one matrix, collected, applied: read back within 2^-29 *)
Example fused_binary64 dz (CF : @Cfg (FNum rnd64 tol64 dz (cr sqrt) (cr cos) (cr sin))) :
  exists s hs v l, @fmerge _ (FAccur rnd64 tol64 (bpow radix2 (-53)) (bpow radix2 (-1075)) dz (cr sqrt) (cr cos) (cr sin)) CF 2 [bell_fops rnd64 tol64 dz (cr sqrt) (cr cos) (cr sin)] (s, hs) v None /\
    getVector s v = Some l /\ length l = 4%nat /\
    vclose 2 (/ 2 ^ 29) (fun i => (fv rnd64 (fst (nth i l c0)), fv rnd64 (snd (nth i l c0)))) bellv.
Proof.
  destruct (fused_client rnd64 tol64 (bpow radix2 (-53)) (bpow radix2 (-1075)) dz (cr sqrt) (cr cos) (cr sin) _ mathlib64) as (s0 & hs0 & v0 & m & _ & v & s & Hc).
  assert (HF : Forall2 (@rounds _ (FAccur rnd64 tol64 (bpow radix2 (-53)) (bpow radix2 (-1075)) dz (cr sqrt) (cr cos) (cr sin)) (/ 2 ^ 50))
                 bell_ops (bell_fops rnd64 tol64 dz (cr sqrt) (cr cos) (cr sin))).
  { assert (Hle : 2 * bpow radix2 (-52) <= / 2 ^ 50) by (cbn; lra).
    pose proof (bell_rounds rnd64 tol64 (bpow radix2 (-53)) (bpow radix2 (-1075)) dz (cr sqrt) (cr cos) (cr sin) _ mathlib64) as HF.
    unfold bell_ops, bell_fops in *. inversion HF as [|x1 x2 x3 x4 R1 HF1 E1 E2]. inversion HF1 as [|y1 y2 y3 y4 R2 HF2 E3 E4].
    constructor; [eapply rounds_mono; eassumption|]. constructor; [eapply rounds_mono; eassumption|constructor]. }
  assert (Hsm : Q2R (qmtotal d64 2 (1 # 2 ^ 50) (map (@length op) [bell_ops])) <= / 2 ^ 29).
  { change (map (@length op) [bell_ops]) with [2%nat]. pose proof mnum_bell as Hx. apply Qle_bool_iff, Qle_Rle in Hx. eapply Rle_trans; [exact Hx|]. unfold Q2R. cbn. lra. }
  assert (Hok : forall o, In o (concat [bell_ops]) -> op_ok 2 o /\ op_unitary o) by (cbn [concat]; rewrite app_nil_r; exact bell_ops_ok).
  destruct (C71_binary64_merged dz (cr sqrt) (cr cos) (cr sin) 2 [bell_ops] _ s _ v size2 ltac:(lia) (Forall2_cons _ _ HF (Forall2_nil _)) Hok Hc) as (_ & l & Hv & Hl & Hcl).
  { eapply Rle_lt_trans; [exact Hsm|]. cbn. lra. }
  eexists s, _, v, l. split; [exact Hc|]. split; [exact Hv|]. split; [exact Hl|].
  intros i Hi. rewrite <- bell_ideal by exact Hi. cbn [concat] in Hcl. rewrite app_nil_r in Hcl. eapply Rle_trans; [exact (Hcl i Hi)|exact Hsm].
Qed.
Example accuracy_pairs : Q2R (qmtotal d64 5 (1 # 2 ^ 50) [2; 2; 2; 2; 2; 2; 2; 2; 2; 2]%nat) <= 1 / 100000.
Proof. pose proof mnum_pairs as Hx. apply Qle_bool_iff, Qle_Rle in Hx. eapply Rle_trans; [exact Hx|]. unfold Q2R. cbn. lra. Qed.
