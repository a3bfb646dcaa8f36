(* FpOneP.v -- C69: measuring one qubit over a rounded arithmetic: the outcome
   probability, the exception, and the collapsed vector. *)
From Coq Require Import Reals Lra Psatz ZArith Bool List Lia Arith FunctionalExtensionality.
From Coquelicot Require Import Complex.
From Verif Require SafeF.
From Verif Require Import Num State DD Gates GC Measure Api RNum Wf Sums Err Inv Wp Make Add MulV GateP StateP Kron Spec SpecP Readout
  MeasAllP ApplyP ApiP Obs Props1 Circuit FpA FpE FpW FpM FpAdd FpMul FpGate FpState FpRead FpMeas FpOne FpGC FpKron FpCirc FpProp FpMeasP.
Import ListNotations.
Open Scope Z_scope.

(* ---- vectors: projecting near a unit vector ---- *)
Lemma probq_l2 n v k b : probq n v k b = (l2 (2 ^ n) (project k b v) * l2 (2 ^ n) (project k b v))%R.
Proof.
  unfold l2. rewrite sqrt_def by apply rsum_sq_nonneg. unfold probq. apply rsum_ext'. intros i _. unfold project.
  destruct (Nat.eqb (bit i k) b); [reflexivity|]. rewrite Cmod_0. ring.
Qed.
Lemma sqrt_probq n v k b : sqrt (probq n v k b) = l2 (2 ^ n) (project k b v).
Proof. rewrite probq_l2. apply sqrt_square, l2_pos. Qed.
Lemma project_le n v k b : (l2 (2 ^ n) (project k b v) <= l2 (2 ^ n) v)%R.
Proof.
  unfold l2. apply sqrt_le_1_alt. generalize (2 ^ n)%nat. intros N. induction N as [|N IH]; cbn [rsum]; [lra|].
  apply Rplus_le_compat; [exact IH|]. unfold project. destruct (Nat.eqb (bit N k) b); [lra|]. rewrite Cmod_0. pose proof (pow2_ge_0 (Cmod (v N))). lra.
Qed.
Lemma project_dist n v w k b : (dist n (project k b v) (project k b w) <= dist n v w)%R.
Proof.
  unfold dist. rewrite (l2_ext _ _ (project k b (fun i => Cminus (v i) (w i)))); [apply project_le|].
  intros i _. unfold project. destruct (Nat.eqb (bit i k) b); ring.
Qed.
Lemma probq_le n v k b i : (i < 2 ^ n)%nat -> (Cmod (project k b v i) <= sqrt (probq n v k b))%R.
Proof. intros Hi. rewrite sqrt_probq. now apply l2_ge. Qed.
(* share of the outcome b of qubit k *)
Definition bornq (n : nat) (v : vector) (k b : nat) : R := (probq n v k b / norm2v n v)%R.
(* the vector after the outcome b *)
Definition after (n : nat) (v : vector) (k b : nat) : vector := fun i => Cdiv (project k b v i) (RtoC (sqrt (probq n v k b))).
Lemma bornq_close n v w d k b : norm2v n w = 1%R -> (dist n v w <= d)%R -> (d < 1)%R ->
  (Rabs (bornq n v k b - probq n w k b) <= 4 * d)%R.
Proof.
  intros Hw Hd Hd1. unfold bornq. rewrite norm2v_sq, !probq_l2.
  pose proof (l2_dist n v w) as Hl. rewrite (l2_norm n w), Hw, sqrt_1 in Hl.
  set (N := l2 (2 ^ n) v) in *. assert (Hl' : (Rabs (N - 1) <= d)%R) by lra. apply SafeF.abs_between in Hl'.
  assert (HN : (0 < N)%R) by lra.
  pose proof (l2_dist n (project k b v) (project k b w)) as Hab. pose proof (project_dist n v w k b) as Hpd.
  pose proof (project_le n v k b) as Ha. pose proof (project_le n w k b) as Hb. fold N in Ha. rewrite (l2_norm n w), Hw, sqrt_1 in Hb.
  pose proof (l2_pos (2 ^ n) (project k b v)) as Pa. pose proof (l2_pos (2 ^ n) (project k b w)) as Pb.
  set (a := l2 (2 ^ n) (project k b v)) in *. set (c := l2 (2 ^ n) (project k b w)) in *.
  assert (Hac : (Rabs (a - c) <= d)%R) by lra. apply SafeF.abs_between in Hac.
  set (q := (a / N)%R). assert (Hq : (0 <= q <= 1)%R).
  { split; [apply Rle_mult_inv_pos; lra|]. apply Rmult_le_reg_r with N; [lra|]. unfold q. replace (a / N * N)%R with a by (field; lra). lra. }
  replace (a * a / (N * N) - c * c)%R with ((q - c) * (q + c))%R by (unfold q; field; lra).
  assert (Hqa : (q - a = q * (1 - N))%R) by (unfold q; field; lra).
  assert (Hqb : (Rabs (q - c) <= 2 * d)%R) by (apply Rabs_le; nra).
  rewrite Rabs_mult, (Rabs_pos_eq (q + c)) by lra. pose proof (Rabs_pos (q - c)). nra.
Qed.
Lemma l2_scal N (c : R) f : (0 <= c)%R -> l2 N (fun i => Cmult (RtoC c) (f i)) = (c * l2 N f)%R.
Proof.
  intros Hc. unfold l2. transitivity (sqrt (c ^ 2) * sqrt (rsum N (fun i => (Cmod (f i) ^ 2)%R)))%R; [|now rewrite (sqrt_pow2 c Hc)].
  rewrite <- sqrt_mult_alt by apply pow2_ge_0. f_equal.
  induction N as [|N IH]; cbn [rsum]; [ring|]. rewrite IH, Cmod_mult, Cmod_R, (Rabs_pos_eq c Hc). ring.
Qed.
Lemma after_dist n v w d k b : (dist n v w <= d)%R -> (0 < probq n v k b)%R -> (0 < probq n w k b)%R ->
  (dist n (after n v k b) (after n w k b) <= 2 * d / sqrt (probq n w k b))%R.
Proof.
  intros Hd Hv Hw. pose proof (project_dist n v w k b) as Hpd. pose proof (l2_dist n (project k b v) (project k b w)) as Hab.
  unfold after. pose proof (sqrt_lt_R0 _ Hv) as Rv. pose proof (sqrt_lt_R0 _ Hw) as Rw. rewrite (sqrt_probq n v k b) in *. rewrite (sqrt_probq n w k b) in *.
  set (x := l2 (2 ^ n) (project k b v)) in *. set (y := l2 (2 ^ n) (project k b w)) in *. fold x y in Hab.
  assert (Hxy : (Rabs (x - y) <= d)%R) by lra.
  set (u := fun i => Cdiv (project k b v i) (RtoC y)).
  eapply Rle_trans; [apply (dist_tri n _ u)|].
  assert (H1 : (dist n (fun i => Cdiv (project k b v i) (RtoC x)) u <= d / y)%R).
  { unfold dist, u.
    assert (Hsg : l2 (2 ^ n) (fun i => Cminus (Cdiv (project k b v i) (RtoC x)) (Cdiv (project k b v i) (RtoC y))) = (Rabs (/ x - / y) * x)%R).
    { unfold x at 3. rewrite <- l2_scal by apply Rabs_pos. unfold l2. f_equal. apply rsum_ext'. intros i _.
      replace (Cminus (Cdiv (project k b v i) (RtoC x)) (Cdiv (project k b v i) (RtoC y))) with (Cmult (RtoC (/ x - / y)) (project k b v i)).
      - rewrite !Cmod_mult, !Cmod_R, Rabs_Rabsolu. reflexivity.
      - rewrite RtoC_minus, !RtoC_inv by lra. unfold Cdiv. ring. }
    rewrite Hsg. replace (/ x - / y)%R with ((y - x) * (/ x * / y))%R by (field; lra).
    rewrite Rabs_mult, Rabs_minus_sym. assert (Hp : (0 < / x * / y)%R) by (apply Rmult_lt_0_compat; now apply Rinv_0_lt_compat).
    rewrite (Rabs_pos_eq (/ x * / y)) by lra. replace (Rabs (x - y) * (/ x * / y) * x)%R with (Rabs (x - y) / y)%R by (field; lra).
    unfold Rdiv. apply Rmult_le_compat_r; [left; now apply Rinv_0_lt_compat|exact Hxy]. }
  assert (H2 : (dist n u (fun i => Cdiv (project k b w i) (RtoC y)) <= d / y)%R).
  { unfold dist, u. rewrite (l2_ext _ _ (fun i => Cmult (RtoC (/ y)) (Cminus (project k b v i) (project k b w i)))).
    2:{ intros i _. rewrite RtoC_inv by lra. unfold Cdiv. ring. }
    rewrite l2_scal by (left; now apply Rinv_0_lt_compat). change (l2 (2 ^ n) (fun i => Cminus (project k b v i) (project k b w i))) with (dist n (project k b v) (project k b w)).
    unfold Rdiv. rewrite (Rmult_comm d). apply Rmult_le_compat_l; [left; now apply Rinv_0_lt_compat|lra]. }
  replace (2 * d / y)%R with (d / y + d / y)%R by (unfold Rdiv; ring). apply Rplus_le_compat; assumption.
Qed.

Section FpOneP.
Context {NO : NumOps} {AC : Accur NO} {CF : Cfg}.
Notation dl := (@dl NO AC).
Notation Gr := (@Gr NO AC).
Notation Gp := (@Gp NO AC).
Notation state := (@State.state NO).
Notation edge := (@State.edge NO).

(* error of the two sums for a vector of squared norm at most 5/4 *)
Definition e1 (n : nat) : R := eone n (5 / 4).
(* error of the reported probability, and of the test that the norm is 1 *)
Definition em (n : nat) : R := (6 * e1 n + 8 * dl)%R.
Lemma eone_mono n N N' : (0 <= N <= N')%R -> (0 <= eone n N <= eone n N')%R.
Proof.
  intros HN. unfold eone. pose proof dl_b as Hd. pose proof (PB_ge1 n) as HP. pose proof (pos_INR n) as Hi. pose proof (pos_INR (2 * 2 ^ n)) as H2.
  assert (A : (0 <= dl * ((N + 1) * PB n) <= dl * ((N' + 1) * PB n))%R).
  { split; [apply Rmult_le_pos; [lra|apply Rmult_le_pos; lra]|]. apply Rmult_le_compat_l; [lra|]. apply Rmult_le_compat_r; lra. }
  split; [apply Rmult_le_pos; [exact H2|apply Rmult_le_pos; lra]|]. apply Rmult_le_compat_l; [exact H2|]. apply Rmult_le_compat_r; lra.
Qed.
Lemma hb_probq t n (e : edge) ii b : (Cmod (cv (ew e)) ^ 2 * FpOne.hb t ii n (en e) b = probq n (vecF (val KV t n e)) ii b)%R.
Proof.
  unfold FpOne.hb, probq. rewrite rbsum_rsum.
  assert (H : forall N f, (Cmod (cv (ew e)) ^ 2 * rsum N f = rsum N (fun i => Cmod (cv (ew e)) ^ 2 * f i))%R).
  { induction N; intros f; cbn [rsum]; [ring|]. rewrite <- IHN. ring. }
  rewrite H. apply rsum_ext. intros i _. unfold bix at 1. destruct (Nat.eqb (bit i ii) b); [|ring].
  unfold vecF. rewrite val_sq. reflexivity.
Qed.

Lemma one_core s n (e : edge) q : Inv s -> (1 <= n)%nat -> Z.of_nat n <= NQUBITS -> qubit n q -> wfp KV (tb s KV) n (en e) ->
  let v := amps s n e in let N := norm2v n v in let k := Z.to_nat q in
  (Rabs (N - 1) <= 1 / 4)%R -> (e1 n <= 1 / 10)%R ->
  exists pz po s1, detProbs e q s = Some (pz, po, s1) /\ pext s s1 /\ Inv s1 /\
    (0 <= nr pz)%R /\ (0 <= nr po)%R /\
    (Rabs (nr pz - probq n v k 0) <= e1 n)%R /\ (Rabs (nr po - probq n v k 1) <= e1 n)%R /\
    let sum := nadd pz po in
    (Rabs (nr (nabs (nsub sum n1)) - Rabs (N - 1)) <= em n)%R /\
    (0 <= nr (ndiv pz sum) <= 1)%R /\ (Rabs (nr (ndiv pz sum) - bornq n v k 0) <= em n)%R.
Proof.
  intros HI Hn1 Hn Hq Hw v N k HN He. pose proof dl_b as Hd. unfold qubit in Hq.
  pose proof (psum_norm2v (tb s KV) n e) as HNp. fold v in HNp. change (vecF (val KV (tb s KV) n e)) with v in HNp. fold N in HNp.
  apply SafeF.abs_between in HN. pose proof (eone_mono n N (5 / 4) ltac:(lra)) as [He0 Hee]. fold (e1 n) in Hee.
  destruct (detProbs_spec s n e k HI ltac:(unfold k; lia) Hn Hw ltac:(rewrite <- HNp; lra)) as (pz & po & s1 & D1 & D2 & D3 & D4 & D5 & D6 & D7 & _).
  rewrite hb_probq in D4, D5. change (vecF (val KV (tb s KV) n e)) with v in D4, D5. rewrite <- HNp in D4, D5.
  replace (Z.of_nat k) with q in D1 by (unfold k; lia).
  exists pz, po, s1. split; [exact D1|]. split; [exact D6|]. split; [exact D7|]. split; [exact D2|]. split; [exact D3|].
  assert (E0 : (Rabs (nr pz - probq n v k 0) <= e1 n)%R) by lra. assert (E1 : (Rabs (nr po - probq n v k 1) <= e1 n)%R) by lra.
  split; [exact E0|]. split; [exact E1|]. cbv zeta. set (sum := nadd pz po).
  destruct (nadd_err pz po D2 D3) as [A1 A2]. fold sum in A1, A2.
  pose proof (probq_total n v k) as Ht. fold N in Ht. pose proof (probq_nonneg n v k 0) as P0. pose proof (probq_nonneg n v k 1) as P1.
  apply SafeF.abs_between in E0, E1.
  assert (B1 : (dl * (nr pz + nr po) <= dl * 2)%R) by (apply Rmult_le_compat_l; lra).
  apply SafeF.abs_between in A1.
  assert (Hs : (Rabs (nr sum - N) <= 2 * e1 n + 2 * dl)%R) by (apply Rabs_le; lra).
  apply SafeF.abs_between in Hs as Hs'. assert (Hs2 : (1 / 2 <= nr sum <= 3 / 2)%R) by lra.
  unfold em. split.
  - rewrite nr_abs. eapply Rle_trans; [apply Rabs_triang_inv2|].
    pose proof (nsub_err2 sum n1) as B. rewrite nr_1, Rabs_R1, (Rabs_pos_eq (nr sum)) in B by lra.
    assert (B2 : (dl * (nr sum + 1) <= dl * 3)%R) by (apply Rmult_le_compat_l; lra). apply SafeF.abs_between in B. apply Rabs_le. lra.
  - destruct (ndiv_err pz sum D2 (Logic.proj1 Hs2)) as (C1 & C2 & C3). specialize (C3 A2). split; [lra|].
    set (y := nr sum) in *. set (x := nr pz) in *.
    assert (Hxy : (0 <= x / y <= 1)%R).
    { split; [apply Rle_mult_inv_pos; lra|]. apply Rmult_le_reg_r with y; [lra|]. replace (x / y * y)%R with x by (field; lra). lra. }
    assert (C4 : (dl * (x / y + 1) <= dl * 2)%R) by (apply Rmult_le_compat_l; lra).
    assert (C5 : (Rabs (x / y - bornq n v k 0) <= 2 * (3 * e1 n + 2 * dl))%R).
    { unfold bornq. fold N. set (T := probq n v k 0) in *.
      replace (x / y - T / N)%R with (((x - T) + (T / N) * (N - y)) * / y)%R by (field; lra).
      assert (HTN : (0 <= T / N <= 1)%R).
      { split; [apply Rle_mult_inv_pos; lra|]. apply Rmult_le_reg_r with N; [lra|]. replace (T / N * N)%R with T by (field; lra). lra. }
      rewrite Rabs_mult. assert (Hy : (0 < / y <= 2)%R).
      { split; [apply Rinv_0_lt_compat; lra|]. replace 2%R with (/ (1 / 2))%R by field. apply Rinv_le_contravar; lra. }
      rewrite (Rabs_pos_eq (/ y)) by lra. rewrite (Rmult_comm 2). apply Rmult_le_compat; try lra; [apply Rabs_pos|].
      eapply Rle_trans; [apply Rabs_triang|]. rewrite Rabs_mult, (Rabs_pos_eq (T / N)) by lra.
      assert (X1 : (Rabs (x - T) <= e1 n)%R) by (apply Rabs_le; lra).
      assert (X2 : (Rabs (N - y) <= 2 * e1 n + 2 * dl)%R) by (rewrite Rabs_minus_sym; exact Hs).
      assert (X3 : (T / N * Rabs (N - y) <= 1 * (2 * e1 n + 2 * dl))%R) by (apply Rmult_le_compat; try lra; apply Rabs_pos). lra. }
    replace (nr (ndiv pz sum) - bornq n v k 0)%R with ((nr (ndiv pz sum) - x / y) + (x / y - bornq n v k 0))%R by ring.
    eapply Rle_trans; [apply Rabs_triang|]. lra.
Qed.

(* the square root of the library, as accurate as the rest *)
Definition good_sqrt : Prop := forall x, (1 / 4 <= nr x)%R -> (Rabs (nr (nsqrt x) - sqrt (nr x)) <= dl * sqrt (nr x))%R.

Lemma scale_spec (f : num) (q E : R) : good_sqrt -> (0 < q <= 5 / 4)%R -> (Rabs (nr f - q) <= E)%R -> (2 * E <= q)%R ->
  (Rabs (nr (nsqrt (ndiv n1 f)) - / sqrt q) <= (E / q + 4 * dl) * / sqrt q)%R.
Proof.
  intros HS [Hq0 Hq] Hf HE. pose proof dl_b as Hd. apply SafeF.abs_between in Hf as Hf'.
  set (y := nr f) in *. assert (Hy : (q / 2 <= y <= 2)%R) by lra. assert (Hy0 : (0 < y)%R) by lra.
  pose proof (ninv_err f (conj Hy0 (Logic.proj2 Hy))) as HX. fold y in HX. set (x := nr (ndiv n1 f)) in *.
  pose proof (sqrt_lt_R0 _ Hq0) as Hr. pose proof (sqrt_sqrt q ltac:(lra)) as Hrr. set (r := sqrt q) in *.
  pose proof (sqrt_lt_R0 _ Hy0) as Ht. pose proof (sqrt_sqrt y ltac:(lra)) as Htt. set (t := sqrt y) in *.
  assert (Hiy : (/ y = / t * / t)%R) by (rewrite <- Htt; field; lra).
  assert (Hit : (0 < / t)%R) by now apply Rinv_0_lt_compat. assert (Hir : (0 < / r)%R) by now apply Rinv_0_lt_compat.
  assert (Hiy2 : (1 / 2 <= / y)%R) by (replace (1 / 2)%R with (/ 2)%R by field; apply Rinv_le_contravar; lra).
  apply SafeF.abs_between in HX as HX'.
  assert (Hdy : (dl * / y <= 1 / 800 * / y)%R) by (apply Rmult_le_compat_r; lra).
  assert (Hx : (1 / 4 <= x)%R) by lra.
  pose proof (HS (ndiv n1 f) Hx) as HG. fold x in HG.
  pose proof (sqrt_pos x) as Hz0. pose proof (sqrt_sqrt x ltac:(lra)) as Hzz. set (z := sqrt x) in *. set (g := nr (nsqrt (ndiv n1 f))) in *.
  (* z against 1/t *)
  assert (Z1 : (Rabs (z - / t) <= dl * / t)%R).
  { apply Rmult_le_reg_r with (z + / t)%R; [lra|].
    replace (Rabs (z - / t) * (z + / t))%R with (Rabs (x - / y)).
    - apply Rle_trans with (dl * / y)%R; [exact HX|]. rewrite Hiy.
      assert (0 <= dl * / t * z)%R by (apply Rmult_le_pos; [apply Rmult_le_pos; lra|lra]). lra.
    - transitivity (Rabs (z - / t) * Rabs (z + / t))%R; [|rewrite (Rabs_pos_eq (z + / t)) by lra; reflexivity]. rewrite <- Rabs_mult. f_equal. rewrite Hiy, <- Hzz. ring. }
  (* t against r *)
  assert (T1 : (7 / 10 * r <= t)%R) by nra.
  assert (T2 : (Rabs (/ t - / r) <= E / q * / r)%R).
  { assert (Hrt : (Rabs (r - t) * (r + t) <= E)%R).
    { replace (Rabs (r - t) * (r + t))%R with (Rabs (r - t) * Rabs (r + t))%R by (rewrite (Rabs_pos_eq (r + t)) by lra; reflexivity).
      rewrite <- Rabs_mult. replace ((r - t) * (r + t))%R with (- (y - q))%R by (rewrite <- Htt, <- Hrr; ring).
      rewrite Rabs_Ropp. exact Hf. }
    replace (/ t - / r)%R with ((r - t) * (/ r * / t))%R by (field; lra).
    assert (Hrt0 : (0 < / r * / t)%R) by (apply Rmult_lt_0_compat; auto).
    rewrite Rabs_mult, (Rabs_pos_eq (/ r * / t)) by lra.
    pose proof (Rabs_pos (r - t)) as Hab.
    apply Rmult_le_reg_r with (q * t * r)%R; [apply Rmult_lt_0_compat; [apply Rmult_lt_0_compat; lra|lra]|].
    replace (Rabs (r - t) * (/ r * / t) * (q * t * r))%R with (Rabs (r - t) * q)%R by (field; lra).
    replace (E / q * / r * (q * t * r))%R with (E * t)%R by (field; lra).
    apply Rle_trans with (Rabs (r - t) * (r + t) * t)%R; [|apply Rmult_le_compat_r; lra].
    rewrite Rmult_assoc. apply Rmult_le_compat_l; [exact Hab|]. rewrite <- Hrr. nra. }
  assert (Hitr : (/ t <= 10 / 7 * / r)%R).
  { apply Rmult_le_reg_r with (t * r)%R; [apply Rmult_lt_0_compat; lra|]. replace (/ t * (t * r))%R with r by (field; lra).
    replace (10 / 7 * / r * (t * r))%R with (10 / 7 * t)%R by (field; lra). lra. }
  apply SafeF.abs_between in Z1 as Z1'.
  assert (Hdt : (dl * / t <= dl * (10 / 7 * / r))%R) by (apply Rmult_le_compat_l; lra).
  assert (Hdt2 : (dl * / t <= 1 / 800 * / t)%R) by (apply Rmult_le_compat_r; lra).
  assert (Hz : (z <= 11 / 7 * / r)%R) by lra.
  assert (Hdz : (dl * z <= dl * (11 / 7 * / r))%R) by (apply Rmult_le_compat_l; lra).
  replace (g - / r)%R with ((g - z) + ((z - / t) + (/ t - / r)))%R by ring.
  eapply Rle_trans; [apply Rabs_triang|]. eapply Rle_trans; [apply Rplus_le_compat_l, Rabs_triang|].
  assert (0 <= dl * / r)%R by (apply Rmult_le_pos; lra). lra.
Qed.

(* error of the collapsed vector when the outcome's weight is q *)
Definition ecol (n : nat) (q : R) : R := (2 * (eop n 0 (6 / 5) / sqrt q) * (1 + dl * Gp n) + e1 n / q + 7 * dl * Gp n)%R.

Lemma proj_spec (z : bool) i j : (i < 2)%nat -> (j < 2)%nat ->
  Cminus (cv ((if z then proj0 else proj1) i j)) (projM (if z then 0 else 1) i j) = RtoC 0.
Proof.
  intros Hi Hj. destruct z; destruct i as [|[|i]]; try lia; destruct j as [|[|j]]; try lia; cbn; unfold cf_one, cf_zero; rewrite ?cv_0, ?cv_1; ring.
Qed.
Lemma norm_amp n v i : (Rabs (norm2v n v - 1) <= 1 / 4)%R -> (i < 2 ^ n)%nat -> (Cmod (v i) <= 6 / 5)%R.
Proof.
  intros HN Hi. apply SafeF.abs_between in HN. eapply Rle_trans; [apply (l2_ge (2 ^ n) v i Hi)|]. rewrite l2_norm.
  replace (6 / 5)%R with (sqrt (6 / 5 * (6 / 5)))%R by (apply sqrt_square; lra). apply sqrt_le_1_alt. lra.
Qed.

(* the projector is applied with the error of one gate *)
Lemma apply_proj s n (e : edge) q (z : bool) : Inv s -> (1 <= n)%nat -> Z.of_nat n <= NQUBITS -> qubit n q -> wfp KV (tb s KV) n (en e) ->
  let v := amps s n e in let k := Z.to_nat q in
  (Rabs (norm2v n v - 1) <= 1 / 4)%R ->
  exists g s2 e2 s3, run (makeGate (Z.of_nat n) (if z then proj0 else proj1) q []) s = Some (g, s2) /\ run (mv_multiply g e) s2 = Some (e2, s3) /\
    rel s s3 /\ wfe KV (tb s3 KV) n e2 /\
    vclose n (eop n 0 (6 / 5)) (amps s3 n e2) (project k (if z then 0 else 1) v).
Proof.
  intros HI Hn1 Hn Hq Hw v k HN.
  destruct (wpr_gate1 n (if z then proj0 else proj1) q [] 1%R s HI (conj Hn1 Hn) Hq (noctl _ _) ltac:(lra) (proj_bound z)) as (F & HF & Hg).
  change (mkControls []) with (@nil control) in Hg.
  destruct (wpr_run _ _ _ HI Hg) as (g & s2 & Hrun & Hrel & Hdg). pose proof (rel_inv _ _ Hrel) as HI2.
  assert (Hw2 : wfp KV (tb s2 KV) n (en e)) by exact (wfp_ext KV _ _ _ _ (rel_ext _ _ KV Hrel) Hw).
  pose proof (wpr_mv_multiply' n s2 g e HI2 Hn1 Hn (dn_wfe _ _ _ _ _ _ Hdg) (or_introl Hw2)) as Hap.
  destruct (wpr_run _ _ _ HI2 Hap) as (e2 & s3 & Hrun2 & Hrel2 & Hd2).
  exists g, s2, e2, s3. split; [exact Hrun|]. split; [exact Hrun2|]. split; [exact (rel_trans _ _ _ Hrel Hrel2)|].
  split; [exact (dn_wfe _ _ _ _ _ _ Hd2)|]. destruct Hd2 as [_ Hd2].
  assert (Hv2 : amps s2 n e = v) by (apply (amps_rel s s2 n e HI Hrel); left; exact Hw).
  assert (Hvb : forall i, (i < 2 ^ n)%nat -> (Cmod (v i) <= 6 / 5)%R) by (intros i Hi; now apply (norm_amp n)).
  pose proof (eg_pos n 0 ltac:(lra)) as Heg.
  assert (Hge : eg n 0 = egate n 1) by (unfold eg; rewrite !Rplus_0_r; reflexivity).
  set (b := if z then 0%nat else 1%nat).
  assert (Hcl : mclose n (eg n 0) (ents s2 n g) (gate1 n (projM b) k [])).
  { intros i j Hi Hj. rewrite Hge. destruct Hdg as [_ Hdg]. specialize (Hdg (mix i j)).
    change (val KM (tb s2 KM) n g (mix i j)) with (ents s2 n g i j) in Hdg. change (F (mix i j)) with (matF F i j) in Hdg.
    rewrite (HF i j Hi Hj) in Hdg.
    assert (Hpm : gate1 n (cvm (if z then proj0 else proj1)) k [] i j = gate1 n (projM b) k [] i j).
    { unfold gate1. destruct (agree_off _ _ _ _); auto. destruct (ctl_ok [] i); auto. unfold cvm.
      pose proof (proj_spec z (bit i k) (bit j k) (bit_lt _ _) (bit_lt _ _)) as X. fold b in X. transitivity (Cplus (Cminus (cv ((if z then proj0 else proj1) (bit i k) (bit j k))) (projM b (bit i k) (bit j k))) (projM b (bit i k) (bit j k))); [ring|rewrite X; ring]. }
    rewrite <- Hpm. exact Hdg. }
  assert (HAA : forall i j, (i < 2 ^ n)%nat -> (j < 2 ^ n)%nat -> (Cmod (ents s2 n g i j) <= 1 + eg n 0)%R).
  { intros i j Hi Hj. specialize (Hcl i j Hi Hj). apply Cmod_sub_le in Hcl.
    assert (Hx : (Cmod (gate1 n (projM b) k [] i j) <= 1)%R).
    { unfold gate1. assert (H0 : (Cmod (RtoC 0) <= 1)%R) by (rewrite Cmod_0; lra). assert (H1 : (Cmod (RtoC 1) <= 1)%R) by (rewrite Cmod_1; lra).
      destruct (agree_off _ _ _ _); auto. destruct (ctl_ok [] i); [|destruct (Nat.eqb _ _); auto]. unfold projM. destruct (_ && _)%bool; auto. }
    lra. }
  intros i Hi. specialize (Hd2 (bix i)).
  change (val KV (tb s3 KV) n e2 (bix i)) with (amps s3 n e2 i) in Hd2.
  change (mvF n (val KM (tb s2 KM) n g) (val KV (tb s2 KV) n e) (bix i)) with (vecF (mvF n (val KM (tb s2 KM) n g) (val KV (tb s2 KV) n e)) i) in Hd2.
  rewrite mvF_mv in Hd2. change (vecF (val KV (tb s2 KV) n e)) with (amps s2 n e) in Hd2. rewrite Hv2 in Hd2.
  assert (Hq2 : (Z.to_nat q < n)%nat) by (unfold qubit in Hq; lia).
  rewrite <- (project_action n k b v Hq2 ltac:(unfold b; destruct z; lia) i Hi).
  eapply Rle_trans; [eapply Cmod_tri3; [exact Hd2|]|].
  - apply (mv_close n (gate1 n (projM b) k []) (ents s2 n g) v _ _ Heg Hcl Hvb i Hi).
  - unfold eop. apply Rplus_le_compat_r. apply emv_mono; split; auto using Cmod_ge_0.
    + apply (wbM s2 n g _ HI2 (dn_wfe _ _ _ _ _ _ Hdg) HAA).
    + apply (wbV s n e _ HI (or_introl Hw) Hvb).
Qed.

Lemma kept s1 s s' hs : freach (s, hs) -> Inv s1 -> tb s1 = tb s -> rel s1 s' -> forall m x, In (H KV m x) hs -> amps s' m x = amps s m x.
Proof.
  intros Hr HI1 Htb Hrel m x Hx. destruct (reach_V _ _ _ _ Hr Hx) as (_ & _ & _ & Hw). rewrite <- Htb in Hw.
  rewrite (amps_rel s1 s' m x HI1 Hrel Hw). unfold amps. now rewrite Htb.
Qed.
Theorem C69_measureOne s hs n e q eps : freach (s, hs) -> In (H KV n e) hs -> is_term (en e) = false -> qubit n q ->
  let v := amps s n e in (Rabs (norm2v n v - 1) <= 1 / 4)%R -> (e1 n <= 1 / 10)%R ->
  exists r s', measureOne e q eps s = Some (r, s') /\ freach (s', hs) /\ (forall m x, In (H KV m x) hs -> amps s' m x = amps s m x) /\
    match r with
    | Throw => (nr eps - em n <= Rabs (norm2v n v - 1))%R
    | Ret p => (Rabs (norm2v n v - 1) <= nr eps + em n)%R /\ (0 <= nr p <= 1)%R /\ (Rabs (nr p - bornq n v (Z.to_nat q) 0) <= em n)%R
    end.
Proof.
  intros Hr Hin Ht Hq v HN He. destruct (reach_V _ _ _ _ Hr Hin) as (HI & Hn1 & Hn & Hw).
  destruct (one_core s n e q HI Hn1 Hn Hq (wfp_nt _ _ _ Hw Ht) HN He) as (pz & po & s1 & D1 & D2 & D3 & D4 & D5 & D6 & D7 & D8 & D9 & D10).
  fold v in D8, D10. apply SafeF.abs_between in D8.
  assert (Hm : exists r, measureOne e q eps s = Some (r, s1) /\
    match r with
    | Throw => (nr eps - em n <= Rabs (norm2v n v - 1))%R
    | Ret p => (Rabs (norm2v n v - 1) <= nr eps + em n)%R /\ (0 <= nr p <= 1)%R /\ (Rabs (nr p - bornq n v (Z.to_nat q) 0) <= em n)%R
    end).
  { unfold measureOne. rewrite D1. cbv zeta. destruct (nltb eps (nabs (nsub (nadd pz po) n1))) eqn:Hlt.
    - eexists; split; [reflexivity|]. apply nr_lt in Hlt. lra.
    - eexists; split; [reflexivity|]. split; [|split; auto].
      assert (Hle : ~ (nr eps < nr (nabs (nsub (nadd pz po) n1)))%R) by (intros X; apply nr_lt in X; congruence). lra. }
  destruct Hm as (r & Hm & Hres). exists r, s1. split; [exact Hm|].
  split; [eapply fr_step; [exact Hr|exact (fs_one' s hs n e q eps r s1 Hin Ht Hq Hm)]|].
  split; [|exact Hres]. intros m x _. unfold amps. now rewrite (pe_tb _ _ D2).
Qed.

(* with p the probability of reading 0 that the library uses *)
Theorem C69_collapse s hs n e q eps : good_sqrt -> freach (s, hs) -> In (H KV n e) hs -> is_term (en e) = false -> qubit n q ->
  let v := amps s n e in let k := Z.to_nat q in (Rabs (norm2v n v - 1) <= 1 / 4)%R -> (e1 n <= 1 / 10)%R ->
  exists p : num, (0 <= nr p <= 1)%R /\ (Rabs (nr p - bornq n v k 0) <= em n)%R /\ forall th,
  exists r s', measureOneCollapsing e q eps th s = Some (r, s') /\
    freach (s', match r with Ret (_, e') => H KV n e' :: hs | Throw => hs end) /\
    (forall m x, In (H KV m x) hs -> amps s' m x = amps s m x) /\
    match r with
    | Throw => (nr eps - em n <= Rabs (norm2v n v - 1))%R
    | Ret (b, e') => (Rabs (norm2v n v - 1) <= nr eps + em n)%R /\ (b = false <-> (nr th < nr p)%R) /\
        let b' := if b then 1%nat else 0%nat in
        ((2 * e1 n <= probq n v k b')%R -> (0 < probq n v k b')%R -> vclose n (ecol n (probq n v k b')) (amps s' n e') (after n v k b'))
    end.
Proof.
  intros HS Hr Hin Ht Hq v k HN He. destruct (reach_V _ _ _ _ Hr Hin) as (HI & Hn1 & Hn & Hw).
  pose proof (wfp_nt _ _ _ Hw Ht) as Hwp.
  destruct (one_core s n e q HI Hn1 Hn Hq Hwp HN He) as (pz & po & s1 & D1 & D2 & D3 & D4 & D5 & D6 & D7 & D8 & D9 & D10).
  fold v k in D6, D7, D8, D10. exists (ndiv pz (nadd pz po)). split; [exact D9|]. split; [exact D10|]. intros th.
  apply SafeF.abs_between in D8. set (sum := nadd pz po) in *. pose proof (pe_tb _ _ D2) as Htb.
  assert (Hv1 : amps s1 n e = v) by (unfold v, amps; now rewrite Htb).
  assert (Hm : exists r s', measureOneCollapsing e q eps th s = Some (r, s') /\ rel s1 s' /\
    match r with
    | Throw => (nr eps - em n <= Rabs (norm2v n v - 1))%R
    | Ret (b, e') => (Rabs (norm2v n v - 1) <= nr eps + em n)%R /\ (b = false <-> (nr th < nr (ndiv pz sum))%R) /\
        let b' := if b then 1%nat else 0%nat in
        ((2 * e1 n <= probq n v k b')%R -> (0 < probq n v k b')%R -> vclose n (ecol n (probq n v k b')) (amps s' n e') (after n v k b'))
    end).
  2:{ destruct Hm as (r & s' & Hm & Hrel & Hres). exists r, s'. split; [exact Hm|].
      split; [eapply fr_step; [exact Hr|exact (fs_one s hs n e q eps th r s' Hin Ht Hq Hm)]|].
      split; [|exact Hres]. exact (kept s1 s s' hs Hr D3 Htb Hrel). }
  unfold measureOneCollapsing. rewrite D1. cbv zeta. fold sum. destruct (nltb eps (nabs (nsub sum n1))) eqn:Hlt.
  - exists Throw, s1. split; [reflexivity|]. split; [now apply rel_refl|]. apply nr_lt in Hlt. lra.
  - assert (Hle : ~ (nr eps < nr (nabs (nsub sum n1)))%R) by (intros X; apply nr_lt in X; congruence).
    set (zero := nltb th (ndiv pz sum)). pose proof Hwp as Hw1. rewrite <- Htb in Hw1. destruct n as [|m]; [lia|]. rewrite (getVarV s1 m (en e) Hw1).
    replace (Z.of_nat m + 1) with (Z.of_nat (S m)) by lia. set (n := S m) in *.
    destruct (apply_proj s1 n e q zero D3 Hn1 Hn Hq Hw1 ltac:(rewrite Hv1; exact HN)) as (g & s2 & e2 & s3 & R1 & R2 & R3 & R4 & R5).
    rewrite Hv1 in R5. fold k in R5.
    match goal with |- context [run ?c s1] => assert (R1' : run c s1 = Some (g, s2)) by exact R1; rewrite R1' end. rewrite R2.
    eexists (Ret (negb zero, _)), s3. split; [reflexivity|]. split; [exact R3|]. split; [lra|]. split.
    { unfold zero. destruct (nltb th (ndiv pz sum)) eqn:Hz; cbn [negb].
      - split; [intros _; now apply nr_lt|reflexivity].
      - split; [discriminate|]. intros X. apply nr_lt in X. congruence. }
    assert (Hb : (if negb zero then 1%nat else 0%nat) = (if zero then 0%nat else 1%nat)) by (destruct zero; reflexivity).
    cbv zeta. rewrite Hb. set (b := if zero then 0%nat else 1%nat) in *. intros H2 H0.
    set (f := if zero then pz else po). assert (Hf : (Rabs (nr f - probq n v k b) <= e1 n)%R) by (unfold f, b; destruct zero; assumption).
    set (Q := probq n v k b) in *.
    assert (HQ : (Q <= 5 / 4)%R).
    { pose proof (probq_total n v k). pose proof (probq_nonneg n v k 0). pose proof (probq_nonneg n v k 1). apply SafeF.abs_between in HN.
      unfold Q, b. destruct zero; lra. }
    pose proof (scale_spec f Q (e1 n) HS (conj H0 HQ) Hf H2) as HG. set (x := nsqrt (ndiv n1 f)) in *.
    pose proof (sqrt_lt_R0 _ H0) as Hr0. pose proof (sqrt_sqrt Q ltac:(lra)) as Hrr. set (r := sqrt Q) in *.
    pose proof dl_b as Hd. pose proof (Grn_ge1 n) as HGp. pose proof (eop_pos n 0 (6 / 5) ltac:(lra) ltac:(lra)) as Heop. set (ep := eop n 0 (6 / 5)) in *.
    assert (Hir : (0 < / r)%R) by now apply Rinv_0_lt_compat.
    assert (HeQ : (0 <= e1 n / Q <= 1 / 2)%R).
    { pose proof (eone_mono n 0 (5 / 4) ltac:(lra)) as [X Y]. fold (e1 n) in Y. split; [apply Rle_mult_inv_pos; lra|].
      apply Rmult_le_reg_r with Q; [lra|]. replace (e1 n / Q * Q)%R with (e1 n) by (field; lra). lra. }
    assert (Hx2 : (Rabs (nr x) <= 2 * / r)%R).
    { apply SafeF.abs_between in HG. apply Rabs_le. assert ((e1 n / Q + 4 * dl) * / r <= 1 * / r)%R by (apply Rmult_le_compat_r; lra). lra. }
    intros i Hi. unfold amps, vecF, FpA.val. cbn [ew en].
    pose proof (cmul_err (ew e2) (x, n0)) as HC. rewrite cv_real in HC. rewrite Cmod_R in HC.
    set (vp := valp KV (tb s3 KV) n (en e2) (bix i)). set (w2 := cv (ew e2)) in *.
    assert (Hvp : (Cmod vp <= Gp n)%R).
    { apply (valp_le1 KV (tb s3 KV) (inv_tb _ (rel_inv _ _ R3) KV)). destruct R4 as [X|[_ X]]; auto. }
    assert (Hz : Cmult w2 vp = amps s3 n e2 i) by reflexivity. specialize (R5 i Hi) as R5i. rewrite <- Hz in R5i.
    pose proof (probq_le n v k b i Hi) as Hpi. fold Q r in Hpi. set (a := project k b v i) in *.
    assert (Hw2 : (Cmod w2 <= r + ep)%R).
    { apply (wbV s3 n e2 (r + ep)%R (rel_inv _ _ R3) R4). intros j Hj. specialize (R5 j Hj). apply Cmod_sub_le in R5.
      pose proof (probq_le n v k b j Hj) as X. fold Q r in X. lra. }
    unfold after. fold Q r. fold a.
    replace (Cminus (Cmult (cv (cmul (ew e2) (x, n0))) vp) (Cdiv a (RtoC r)))
      with (Cplus (Cmult (Cminus (cv (cmul (ew e2) (x, n0))) (Cmult w2 (RtoC (nr x)))) vp)
             (Cplus (Cmult (RtoC (nr x)) (Cminus (Cmult w2 vp) a)) (Cmult (RtoC (nr x - / r)) a))).
    2:{ rewrite RtoC_minus, RtoC_inv by lra. unfold Cdiv. ring. }
    eapply Rle_trans; [apply Cmod_triangle|]. eapply Rle_trans; [apply Rplus_le_compat_l, Cmod_triangle|]. rewrite !Cmod_mult, !Cmod_R.
    assert (S1 : (dl * (Cmod w2 * Rabs (nr x) + 1) <= dl * ((r + ep) * (2 * / r) + 1))%R).
    { apply Rmult_le_compat_l; [lra|]. apply Rplus_le_compat_r. apply Rmult_le_compat; auto using Cmod_ge_0, Rabs_pos. }
    assert (S2 : (Cmod (Cminus (cv (cmul (ew e2) (x, n0))) (Cmult w2 (RtoC (nr x)))) * Cmod vp <= dl * ((r + ep) * (2 * / r) + 1) * Gp n)%R)
      by (apply Rmult_le_compat; auto using Cmod_ge_0; lra).
    assert (S3 : (Rabs (nr x) * Cmod (Cminus (Cmult w2 vp) a) <= 2 * / r * ep)%R) by (apply Rmult_le_compat; auto using Cmod_ge_0, Rabs_pos).
    assert (S4 : (Rabs (nr x - / r) * Cmod a <= (e1 n / Q + 4 * dl) * / r * r)%R) by (apply Rmult_le_compat; auto using Cmod_ge_0, Rabs_pos).
    eapply Rle_trans; [apply Rplus_le_compat; [exact S2|apply Rplus_le_compat; [exact S3|exact S4]]|].
    replace ((e1 n / Q + 4 * dl) * / r * r)%R with (e1 n / Q + 4 * dl)%R by (field; lra).
    replace ((r + ep) * (2 * / r) + 1)%R with (3 + 2 * (ep / r))%R by (field; lra).
    unfold ecol. fold ep r. unfold Rdiv. assert (H4 : (4 * dl * 1 <= 4 * dl * Gp n)%R) by (apply Rmult_le_compat_l; lra). lra.
Qed.

Lemma ecol_anti n q q' : (0 < q <= q')%R -> (0 <= ecol n q' <= ecol n q)%R.
Proof.
  intros Hq. pose proof dl_b as Hd. pose proof (Grn_ge1 n) as HG. pose proof (eop_pos n 0 (6 / 5) ltac:(lra) ltac:(lra)) as He.
  pose proof (eone_mono n (5 / 4) (5 / 4) ltac:(lra)) as [He1 _]. fold (e1 n) in He1.
  pose proof (sqrt_lt_R0 q ltac:(lra)) as H0. pose proof (sqrt_le_1_alt q q' ltac:(lra)) as H1. unfold ecol.
  assert (HP : (0 <= dl * Gp n)%R) by (apply Rmult_le_pos; lra).
  assert (Ha : (0 <= eop n 0 (6 / 5) / sqrt q' <= eop n 0 (6 / 5) / sqrt q)%R).
  { split; [apply Rle_mult_inv_pos; lra|]. unfold Rdiv. apply Rmult_le_compat_l; [lra|]. apply Rinv_le_contravar; lra. }
  assert (Hb : (0 <= e1 n / q' <= e1 n / q)%R).
  { split; [apply Rle_mult_inv_pos; lra|]. unfold Rdiv. apply Rmult_le_compat_l; [lra|]. apply Rinv_le_contravar; lra. }
  set (a' := (eop n 0 (6 / 5) / sqrt q')%R) in *. set (a := (eop n 0 (6 / 5) / sqrt q)%R) in *.
  assert (Hc : (0 <= 2 * a' * (1 + dl * Gp n) <= 2 * a * (1 + dl * Gp n))%R)
    by (split; [apply Rmult_le_pos; lra|apply Rmult_le_compat_r; lra]).
  lra.
Qed.
Lemma probq_close n v w d k b : norm2v n w = 1%R -> (dist n v w <= d)%R -> (d <= 1 / 10)%R ->
  (Rabs (norm2v n v - 1) <= 21 / 10 * d)%R /\ (Rabs (probq n v k b - probq n w k b) <= 21 / 10 * d)%R.
Proof.
  intros Hw Hd Hs. assert (Hw1 : l2 (2 ^ n) w = 1%R) by (rewrite l2_norm, Hw; apply sqrt_1).
  assert (Hd0 : (0 <= d)%R) by (eapply Rle_trans; [|exact Hd]; apply l2_pos).
  assert (G : forall x y, (0 <= x)%R -> (0 <= y <= 1)%R -> (Rabs (x - y) <= d)%R -> (Rabs (x * x - y * y) <= 21 / 10 * d)%R).
  { intros x y H1 H2 H3. replace (x * x - y * y)%R with ((x - y) * (x + y))%R by ring. rewrite Rabs_mult.
    apply Rle_trans with (d * (21 / 10))%R; [|lra]. apply Rmult_le_compat; auto using Rabs_pos. rewrite Rabs_pos_eq by lra. apply SafeF.abs_between in H3. lra. }
  split.
  - rewrite norm2v_sq. replace (l2 (2 ^ n) v * l2 (2 ^ n) v - 1)%R with (l2 (2 ^ n) v * l2 (2 ^ n) v - 1 * 1)%R by ring. apply G; [apply l2_pos|lra|]. rewrite <- Hw1. eapply Rle_trans; [apply l2_dist|exact Hd].
  - rewrite !probq_l2. apply G; [apply l2_pos|split; [apply l2_pos|rewrite <- Hw1; apply project_le]|].
    eapply Rle_trans; [apply l2_dist|]. eapply Rle_trans; [apply project_dist|exact Hd].
Qed.

(* a handle within d of a unit vector w *)
Definition eaft_at (n : nat) (d Q : R) : R := (sqrt (INR (2 ^ n)) * ecol n (Q / 4) + 2 * d / sqrt Q)%R.
Theorem C69_near s hs n e q eps w d : freach (s, hs) -> In (H KV n e) hs -> qubit n q ->
  norm2v n w = 1%R -> (dist n (amps s n e) w <= d)%R -> (d <= 1 / 10)%R -> (e1 n <= 1 / 10)%R ->
  let err := (em n + 4 * d)%R in let k := Z.to_nat q in
  is_term (en e) = false /\
  (exists r s', measureOne e q eps s = Some (r, s') /\
     match r with Throw => (nr eps <= err)%R | Ret p => (0 <= nr p <= 1)%R /\ (Rabs (nr p - probq n w k 0) <= err)%R end) /\
  (good_sqrt -> exists p : num, (0 <= nr p <= 1)%R /\ (Rabs (nr p - probq n w k 0) <= err)%R /\ forall th,
     exists r s', measureOneCollapsing e q eps th s = Some (r, s') /\
       match r with
       | Throw => (nr eps <= err)%R
       | Ret (b, e') => (b = false <-> (nr th < nr p)%R) /\
           let b' := if b then 1%nat else 0%nat in let Q := probq n w k b' in
           ((0 < Q)%R -> (4 * (e1 n + d) <= Q)%R -> (dist n (amps s' n e') (after n w k b') <= eaft_at n d Q)%R)
       end).
Proof.
  intros Hr Hin Hq Hw1 Hd Hec He err k. set (v := amps s n e) in *.
  assert (Hec0 : (0 <= d)%R) by (eapply Rle_trans; [|exact Hd]; apply l2_pos).
  destruct (reach_V _ _ _ _ Hr Hin) as (_ & Hnz & _ & Hw).
  assert (Hnt : is_term (en e) = false).
  { destruct (wfe_cases_V _ _ _ Hw Hnz) as [[_ Ht]|X]; auto. exfalso. unfold v in Hd. rewrite X in Hd.
    rewrite (dist_zero n (amps s n zeroE)) in Hd; [lra| |exact Hw1]. intros i _. unfold amps, vecF. apply val_zeroE. }
  destruct (probq_close n v w d 0 0 Hw1 Hd Hec) as [HN _].
  assert (HN4 : (Rabs (norm2v n v - 1) <= 1 / 4)%R) by lra.
  pose proof (bornq_close n v w d k 0 Hw1 Hd ltac:(lra)) as HB.
  assert (Htri : forall x y z a b, (Rabs (x - y) <= a)%R -> (Rabs (y - z) <= b)%R -> (Rabs (x - z) <= a + b)%R).
  { intros x y z a b H1 H2. replace (x - z)%R with ((x - y) + (y - z))%R by ring. eapply Rle_trans; [apply Rabs_triang|lra]. }
  split; [exact Hnt|]. split.
  - destruct (C69_measureOne s hs n e q eps Hr Hin Hnt Hq HN4 He) as (r & s' & M1 & _ & _ & M4). exists r, s'. split; [exact M1|].
    destruct r as [p|]; fold v in M4.
    + destruct M4 as (_ & M5 & M6). split; [exact M5|]. fold k in M6. exact (Htri _ _ _ _ _ M6 HB).
    + unfold err. lra.
  - intros HS. destruct (C69_collapse s hs n e q eps HS Hr Hin Hnt Hq HN4 He) as (p & P1 & P2 & P3). fold v k in P2, P3.
    exists p. split; [exact P1|]. split; [exact (Htri _ _ _ _ _ P2 HB)|]. intros th. destruct (P3 th) as (r & s' & M1 & _ & _ & M4).
    exists r, s'. split; [exact M1|]. destruct r as [[b e']|]; [|unfold err; lra].
    destruct M4 as (_ & M5 & M6). split; [exact M5|]. cbv zeta in M6 |- *. set (b' := if b then 1%nat else 0%nat) in *. set (Q := probq n w k b') in *.
    intros HQ0 HQ. destruct (probq_close n v w d k b' Hw1 Hd Hec) as [_ HP]. fold Q in HP. apply SafeF.abs_between in HP.
    pose proof (eone_mono n (5 / 4) (5 / 4) ltac:(lra)) as [He1 _]. fold (e1 n) in He1.
    specialize (M6 ltac:(lra) ltac:(lra)). set (P := probq n v k b') in *.
    destruct (ecol_anti n (Q / 4) P ltac:(lra)) as [Hc0 Hc1]. unfold eaft_at.
    eapply Rle_trans; [apply (dist_tri n _ (after n v k b'))|]. apply Rplus_le_compat.
    + eapply Rle_trans; [apply dist_of_close; [exact Hc0|exact M6]|]. apply Rmult_le_compat_l; [apply sqrt_pos|exact Hc1].
    + apply after_dist; [exact Hd|fold P; lra|exact HQ0].
Qed.

(* after a circuit, with k gates: the ideal vector has norm 1, and the probabilities are
   those prescribed by quantum mechanics *)
Theorem C69_circuit n gd ops fs s hs e q eps : size_ok n -> (0 <= gd)%R -> Forall2 (rounds gd) ops fs ->
  (forall o, In o ops -> op_ok n o /\ op_unitary o) -> fcirc n fs (s, hs) e -> qubit n q ->
  let ec := ecirc n gd (length ops) in let err := (em n + 4 * ec)%R in let k := Z.to_nat q in let w := ideal n ops in
  (ec <= 1 / 10)%R -> (e1 n <= 1 / 10)%R ->
  (exists r s', measureOne e q eps s = Some (r, s') /\ fcirc n fs (s', hs) e /\
     match r with Throw => (nr eps <= err)%R | Ret p => (0 <= nr p <= 1)%R /\ (Rabs (nr p - probq n w k 0) <= err)%R end) /\
  (good_sqrt -> exists p, (0 <= p <= 1)%R /\ (Rabs (p - probq n w k 0) <= err)%R /\ forall th,
     exists r s', measureOneCollapsing e q eps th s = Some (r, s') /\
       fcirc n fs (s', match r with Ret (_, e') => H KV n e' :: hs | Throw => hs end) e /\
       match r with
       | Throw => (nr eps <= err)%R
       | Ret (b, e') => (b = false <-> (nr th < p)%R) /\
           let b' := if b then 1%nat else 0%nat in let Q := probq n w k b' in
           ((0 < Q)%R -> (4 * (e1 n + ec) <= Q)%R ->
            (dist n (amps s' n e') (after n w k b') <= sqrt (INR (2 ^ n)) * ecol n (Q / 4) + 2 * ec / sqrt Q)%R)
       end).
Proof.
  intros Hn Hgd HF Hok Hc Hq ec err k w Hec He. destruct (fcirc_ok n gd fs (s, hs) e Hn Hgd Hc ops HF Hok) as (Hr & Hin & Hd). cbn [fst snd] in *. fold ec in Hd. fold w in Hd.
  pose proof (ideal_norm n ops Hok) as Hw1. fold w in Hw1.
  destruct (C69_near s hs n e q eps w ec Hr Hin Hq Hw1 Hd Hec He) as (Hnt & C1 & C2). fold err k in C1, C2. split.
  - destruct C1 as (r & s' & M1 & M4). exists r, s'. split; [exact M1|].
    split; [exact (fc_one' n fs s hs e n e q eps r s' Hc Hin Hnt Hq M1)|exact M4].
  - intros HS. destruct (C2 HS) as (p & P1 & P2 & P3).
    exists (nr p). split; [exact P1|]. split; [exact P2|]. intros th. destruct (P3 th) as (r & s' & M1 & M4).
    exists r, s'. split; [exact M1|]. split; [exact (fc_one n fs s hs e n e q eps th r s' Hc Hin Hnt Hq M1)|exact M4].
Qed.
End FpOneP.
