(* FpF.v -- the arithmetics C67 is about: rounding with a small relative error.
   IEEE-754 binary64 (round to nearest even, gradual underflow, no overflow) with
   the tolerance of the code is one of them: accuracy 2^-41. *)
From Coq Require Import Reals Lra Psatz ZArith Bool List Lia.
From Coquelicot Require Import Complex.
From Flocq Require Import Core Plus_error Relative.
From Verif Require Import Num State DD RNum Wf SafeF FpA.
Import ListNotations.
Open Scope R_scope.

(* a rounding of relative error u (plus eta for results that underflow), much
   smaller than the tolerance; sums do not underflow *)
Class Precise (rnd : R -> R) (tol u eta : R) : Prop := {
  pr_u : 0 <= u;
  pr_ut : 64 * u <= tol;
  pr_small : tol <= 1 / 1600;
  pr_eta : 0 <= eta <= u * (tol * tol);
  rnd_err : forall x, Rabs (rnd x - x) <= u * Rabs x + eta;
  rnd_add : forall x y, rnd x = x -> rnd y = y -> Rabs (rnd (x + y) - (x + y)) <= u * Rabs (x + y)
}.

Lemma Cmod_comp (x : C) d : Rabs (fst x) <= d -> Rabs (snd x) <= d -> Cmod x <= sqrt 2 * d.
Proof.
  intros H1 H2. assert (Hd : 0 <= d) by (pose proof (Rabs_pos (fst x)); lra).
  unfold Cmod. rewrite <- (sqrt_Rsqr d Hd), <- sqrt_mult by (try lra; apply Rle_0_sqr). apply sqrt_le_1_alt. unfold Rsqr. cbn [pow]. rewrite !Rmult_1_r.
  rewrite <- (Rabs_pos_eq (fst x * fst x)) by apply Rle_0_sqr. rewrite <- (Rabs_pos_eq (snd x * snd x)) by apply Rle_0_sqr.
  rewrite !Rabs_mult. pose proof (Rabs_pos (fst x)) as P1. pose proof (Rabs_pos (snd x)) as P2.
  pose proof (Rmult_le_compat _ _ _ _ P1 P1 H1 H1). pose proof (Rmult_le_compat _ _ _ _ P2 P2 H2 H2). lra.
Qed.
Lemma sqrt2_le : sqrt 2 <= 3 / 2.
Proof. rewrite <- (sqrt_Rsqr (3 / 2)) by lra. apply sqrt_le_1_alt. unfold Rsqr. lra. Qed.
Lemma Cmod_comp2 (x : C) d : Rabs (fst x) <= d -> Rabs (snd x) <= d -> Cmod x <= 3 / 2 * d.
Proof.
  intros H1 H2. pose proof (Cmod_comp x d H1 H2). pose proof sqrt2_le. pose proof (Rabs_pos (fst x)).
  eapply Rle_trans; [eassumption|]. apply Rmult_le_compat_r; lra.
Qed.
Lemma Cmod_fst (x : C) : Rabs (fst x) <= Cmod x.
Proof. eapply Rle_trans; [|apply Rmax_Cmod]. apply Rmax_l. Qed.
Lemma Cmod_snd (x : C) : Rabs (snd x) <= Cmod x.
Proof. eapply Rle_trans; [|apply Rmax_Cmod]. apply Rmax_r. Qed.
Lemma Cmod_abs (a b : R) : Cmod (Rabs a, Rabs b) = Cmod (a, b).
Proof. unfold Cmod. cbn [fst snd]. now rewrite !pow2_abs. Qed.
Lemma cauchy (a b p q : R) : Rabs (a * p) + Rabs (b * q) <= Cmod (a, b) * Cmod (p, q).
Proof.
  rewrite !Rabs_mult. rewrite <- (Cmod_abs a b).
  replace (Cmod (p, q)) with (Cmod (Rabs p, - Rabs q)).
  2:{ unfold Cmod. cbn [fst snd]. rewrite <- (pow2_abs (- Rabs q)), Rabs_Ropp, Rabs_Rabsolu, !pow2_abs. reflexivity. }
  rewrite <- Cmod_mult. eapply Rle_trans; [|apply Cmod_fst]. cbn [fst Cmult]. eapply Rle_trans; [|apply Rle_abs]. cbn [snd]. apply Req_le. ring.
Qed.
Lemma Cmod_sq (a b : R) : Cmod (a, b) * Cmod (a, b) = a * a + b * b.
Proof.
  unfold Cmod. cbn [fst snd]. rewrite sqrt_sqrt; [cbn [pow]; ring|]. apply Rplus_le_le_0_compat; apply pow2_ge_0.
Qed.
Lemma abs_tri x y z : Rabs (x - z) <= Rabs (x - y) + Rabs (y - z).
Proof. replace (x - z) with ((x - y) + (y - z)) by ring. apply Rabs_triang. Qed.
Lemma Rabs_def2b x d : Rabs x <= d -> - d <= x <= d.
Proof. apply abs_between. Qed.
Lemma abs_le_add x y d : Rabs (x - y) <= d -> Rabs x <= Rabs y + d.
Proof. intros H. replace x with (y + (x - y)) by ring. eapply Rle_trans; [apply Rabs_triang|]. lra. Qed.

Section Acc.
Context (rnd : R -> R) (tol : R) {RD : Rounding rnd tol} (u eta : R) {PR : Precise rnd tol u eta}.
Context (dz sq co si : fnum rnd -> fnum rnd).
Notation FNum := (FNum rnd tol dz sq co si).
Notation fv := (fv rnd).
#[local] Hint Extern 0 NumOps => exact FNum : typeclass_instances.

Let Hu : 0 <= u <= 1 / 256.
Proof. pose proof (pr_u : 0 <= u). pose proof (pr_ut : 64 * u <= tol). pose proof (@tol_range rnd tol RD). lra. Qed.
Let Ht : 0 < tol <= 1 / 4.
Proof. apply (@tol_range rnd tol RD). Qed.
Let Hut : 64 * u <= tol.
Proof. apply (pr_ut : 64 * u <= tol). Qed.
Let Heta : 0 <= eta <= u * (tol * tol).
Proof. apply (pr_eta). Qed.
Let Htt : 0 < tol * tol <= tol / 4.
Proof. nra. Qed.
Let Heu : eta <= u / 16.
Proof. nra. Qed.

Definition fcv (w : @cx FNum) : C := (fv (fst w), fv (snd w)).
Lemma fcv_eta (w : @cx FNum) : fcv w = (fv (fst w), fv (snd w)). Proof. reflexivity. Qed.

Lemma fadd x y : Rabs (rnd (fv x + fv y) - (fv x + fv y)) <= u * Rabs (fv x + fv y).
Proof. apply rnd_add; apply fv_rnd. Qed.
Lemma fsub x y : Rabs (rnd (fv x - fv y) - (fv x - fv y)) <= u * Rabs (fv x - fv y).
Proof. unfold Rminus at 1 3 4. apply rnd_add; [apply fv_rnd|]. rewrite rnd_odd. now rewrite fv_rnd. Qed.

(* two rounded products added or subtracted: relative error 3u, absolute 4eta *)
Lemma two_prod (s : R) a p b q : (s = 1 \/ s = - (1)) ->
  Rabs (rnd (rnd (a * p) + s * rnd (b * q)) - (a * p + s * (b * q))) <= 3 * u * (Rabs (a * p) + Rabs (b * q)) + 4 * eta.
Proof.
  intros Hs. set (A := a * p). set (B := b * q).
  assert (Hr : rnd (s * rnd B) = s * rnd B).
  { destruct Hs as [-> | ->]; [rewrite Rmult_1_l; apply rnd_idem|]. replace (- (1) * rnd B) with (- rnd B) by ring. now rewrite rnd_odd, rnd_idem. }
  pose proof (rnd_add (rnd A) (s * rnd B) (rnd_idem A) Hr) as H1.
  pose proof (rnd_err A) as H2. pose proof (rnd_err B) as H3.
  pose proof (Rabs_pos A) as PA. pose proof (Rabs_pos B) as PB.
  assert (Hss : forall x, Rabs (s * x) = Rabs x).
  { intros x. rewrite Rabs_mult. destruct Hs as [-> | ->]; rewrite ?Rabs_Ropp, Rabs_R1; ring. }
  assert (H4 : Rabs (rnd A + s * rnd B - (A + s * B)) <= u * (Rabs A + Rabs B) + 2 * eta).
  { replace (rnd A + s * rnd B - (A + s * B)) with ((rnd A - A) + s * (rnd B - B)) by ring.
    eapply Rle_trans; [apply Rabs_triang|]. rewrite Hss. lra. }
  assert (H5 : Rabs (rnd A + s * rnd B) <= 2 * (Rabs A + Rabs B) + 2 * eta).
  { apply abs_le_add in H4. pose proof (Rabs_triang A (s * B)) as H6. rewrite Hss in H6.
    assert (u * (Rabs A + Rabs B) <= 1 * (Rabs A + Rabs B)) by (apply Rmult_le_compat_r; lra). lra. }
  eapply Rle_trans; [apply (abs_tri _ (rnd A + s * rnd B))|].
  assert (H7 : u * Rabs (rnd A + s * rnd B) <= u * (2 * (Rabs A + Rabs B) + 2 * eta)) by (apply Rmult_le_compat_l; lra).
  assert (H8 : u * (2 * eta) <= 1 * (2 * eta)) by (apply Rmult_le_compat_r; lra).
  lra.
Qed.
Lemma mul_add a p b q : Rabs (rnd (rnd (a * p) + rnd (b * q)) - (a * p + b * q)) <= 3 * u * (Rabs (a * p) + Rabs (b * q)) + 4 * eta.
Proof. pose proof (two_prod 1 a p b q (or_introl eq_refl)) as H. now rewrite !Rmult_1_l in H. Qed.
Lemma mul_sub a p b q : Rabs (rnd (rnd (a * p) - rnd (b * q)) - (a * p - b * q)) <= 3 * u * (Rabs (a * p) + Rabs (b * q)) + 4 * eta.
Proof.
  pose proof (two_prod (- (1)) a p b q (or_intror eq_refl)) as H.
  replace (rnd (a * p) + - (1) * rnd (b * q)) with (rnd (a * p) - rnd (b * q)) in H by ring.
  now replace (a * p + - (1) * (b * q)) with (a * p - b * q) in H by ring.
Qed.
(* the squared modulus as computed *)
Definition Nf (w : @cx FNum) : R := fv (norm2 w).
Definition M2 (w : @cx FNum) : R := Cmod (fcv w) * Cmod (fcv w).
Lemma M2_pos w : 0 <= M2 w. Proof. apply Rle_0_sqr. Qed.
Lemma Nf_err w : Rabs (Nf w - M2 w) <= 3 * u * M2 w + 4 * eta.
Proof.
  unfold M2. rewrite fcv_eta, Cmod_sq. pose proof (mul_add (fv (fst w)) (fv (fst w)) (fv (snd w)) (fv (snd w))) as H.
  rewrite (Rabs_pos_eq (fv (fst w) * fv (fst w))), (Rabs_pos_eq (fv (snd w) * fv (snd w))) in H by apply Rle_0_sqr. exact H.
Qed.
Lemma nz_M2 w : iszero w = false -> tol * tol <= M2 w.
Proof.
  intros H. unfold M2. rewrite fcv_eta, Cmod_sq.
  assert (Hx : tol < Rabs (fv (fst w)) \/ tol < Rabs (fv (snd w))).
  { destruct (Rlt_or_le tol (Rabs (fv (fst w)))); [now left|]. destruct (Rlt_or_le tol (Rabs (fv (snd w)))); [now right|].
    assert (X : iszero w = true) by (apply iszero_iff; auto). congruence. }
  assert (Hs : forall x, tol < Rabs x -> tol * tol <= x * x).
  { intros x h. rewrite <- (Rabs_pos_eq (x * x)) by apply Rle_0_sqr. rewrite Rabs_mult. apply Rmult_le_compat; lra. }
  pose proof (Rle_0_sqr (fv (fst w))) as P0. pose proof (Rle_0_sqr (fv (snd w))) as P1. unfold Rsqr in *.
  destruct Hx as [h|h]; apply Hs in h; lra.
Qed.
Lemma z_mod w : iszero w = true -> Cmod (fcv w) <= 3 / 2 * tol.
Proof. intros H. apply iszero_iff in H as [H1 H2]. now apply Cmod_comp2. Qed.

Lemma f_cadd_err (x y : @cx FNum) : Cmod (Cminus (fcv (cadd x y)) (Cplus (fcv x) (fcv y))) <= 2 * tol * (Cmod (fcv x) + Cmod (fcv y)).
Proof.
  pose proof (Cmod_ge_0 (fcv x)) as P1. pose proof (Cmod_ge_0 (fcv y)) as P2.
  pose proof (Cmod_triangle (fcv x) (fcv y)) as H3.
  assert (He : Cmod (Cminus (fcv (cadd x y)) (Cplus (fcv x) (fcv y))) <= 3 / 2 * (u * Cmod (Cplus (fcv x) (fcv y)))).
  { apply Cmod_comp2.
    - eapply Rle_trans; [exact (fadd (fst x) (fst y))|]. apply Rmult_le_compat_l; [lra|]. exact (Cmod_fst (Cplus (fcv x) (fcv y))).
    - eapply Rle_trans; [exact (fadd (snd x) (snd y))|]. apply Rmult_le_compat_l; [lra|]. exact (Cmod_snd (Cplus (fcv x) (fcv y))). }
  assert (u * Cmod (Cplus (fcv x) (fcv y)) <= u * (Cmod (fcv x) + Cmod (fcv y))) by (apply Rmult_le_compat_l; lra).
  assert (3 / 2 * u * (Cmod (fcv x) + Cmod (fcv y)) <= 2 * tol * (Cmod (fcv x) + Cmod (fcv y))) by (apply Rmult_le_compat_r; lra). lra.
Qed.
Lemma f_cmul_err (x y : @cx FNum) : Cmod (Cminus (fcv (cmul x y)) (Cmult (fcv x) (fcv y))) <= 2 * tol * (Cmod (fcv x) * Cmod (fcv y) + 1).
Proof.
  pose proof (Cmod_ge_0 (fcv x)) as P1. pose proof (Cmod_ge_0 (fcv y)) as P2.
  assert (Pxy : 0 <= Cmod (fcv x) * Cmod (fcv y)) by (apply Rmult_le_pos; auto).
  assert (He : Cmod (Cminus (fcv (cmul x y)) (Cmult (fcv x) (fcv y))) <= 3 / 2 * (3 * u * (Cmod (fcv x) * Cmod (fcv y)) + 4 * eta)).
  { apply Cmod_comp2.
    - eapply Rle_trans; [exact (mul_sub (fv (fst x)) (fv (fst y)) (fv (snd x)) (fv (snd y)))|]. apply Rplus_le_compat_r.
      apply Rmult_le_compat_l; [lra|]. apply cauchy.
    - eapply Rle_trans; [exact (mul_add (fv (fst x)) (fv (snd y)) (fv (snd x)) (fv (fst y)))|]. apply Rplus_le_compat_r.
      apply Rmult_le_compat_l; [lra|]. eapply Rle_trans; [apply cauchy|]. apply Rmult_le_compat_l; [apply Cmod_ge_0|].
      apply Req_le. rewrite fcv_eta. unfold Cmod. cbn [fst snd]. f_equal. ring. }
  assert (9 / 2 * u * (Cmod (fcv x) * Cmod (fcv y)) <= 2 * tol * (Cmod (fcv x) * Cmod (fcv y))) by (apply Rmult_le_compat_r; lra). lra.
Qed.
Lemma f_eq_true (x y : @cx FNum) : isequal x y = true -> Cmod (Cminus (fcv x) (fcv y)) <= 2 * tol.
Proof.
  intros H. unfold isequal in H. rewrite orb_true_iff, !andb_true_iff in H.
  cbn [nleb neqb SafeF.FNum] in H. rewrite !Rleb_true, !Reqb_true, ftol in H. rewrite !fabs in H.
  destruct H as [[H1 H2]|[H1 H2]].
  - replace (Cminus (fcv x) (fcv y)) with (RtoC 0); [rewrite Cmod_0; lra|]. unfold Cminus, Cplus, Copp, fcv, RtoC. cbn [fst snd].
    rewrite H1, H2. f_equal; ring.
  - assert (Hs : forall a b, Rabs (rnd (fv a - fv b)) <= tol -> Rabs (fv a - fv b) <= 4 / 3 * tol).
    { intros a b h. pose proof (fsub a b) as h2. rewrite Rabs_minus_sym in h2. apply abs_le_add in h2.
      pose proof (Rabs_pos (fv a - fv b)). assert (u * Rabs (fv a - fv b) <= 1 / 256 * Rabs (fv a - fv b)) by (apply Rmult_le_compat_r; lra). lra. }
    replace (2 * tol) with (3 / 2 * (4 / 3 * tol)) by field. apply Cmod_comp2; [exact (Hs (fst x) (fst y) H1)|exact (Hs (snd x) (snd y) H2)].
Qed.
(* comparing moduli as the code does *)
Lemma f_ge (m y : @cx FNum) : nltb (norm2 m) (norm2 y) = false -> Nf y <= Nf m.
Proof. intros H. cbn [nltb SafeF.FNum] in H. apply Rltb_false in H. exact H. Qed.
Lemma f_max_z (m y : @cx FNum) : iszero m = true -> nltb (norm2 m) (norm2 y) = false -> Cmod (fcv y) <= 2 * tol.
Proof.
  intros Hz Hl. apply f_ge in Hl. apply iszero_iff in Hz as [H1 H2].
  assert (Hm : M2 m <= 2 * (tol * tol)).
  { unfold M2. rewrite fcv_eta, Cmod_sq.
    rewrite <- (Rabs_pos_eq (fv (fst m) * fv (fst m))) by apply Rle_0_sqr. rewrite <- (Rabs_pos_eq (fv (snd m) * fv (snd m))) by apply Rle_0_sqr.
    rewrite !Rabs_mult. pose proof (Rabs_pos (fv (fst m))) as P1. pose proof (Rabs_pos (fv (snd m))) as P2.
    pose proof (Rmult_le_compat _ _ _ _ P1 P1 H1 H1). pose proof (Rmult_le_compat _ _ _ _ P2 P2 H2 H2). lra. }
  pose proof (Nf_err m) as E1. pose proof (Nf_err y) as E2. apply Rabs_def2b in E1. apply Rabs_def2b in E2.
  pose proof (M2_pos m) as P1. pose proof (M2_pos y) as P2.
  assert (A1 : 3 * u * M2 m <= 3 / 256 * M2 m) by (apply Rmult_le_compat_r; lra).
  assert (A2 : 3 * u * M2 y <= 3 / 256 * M2 y) by (apply Rmult_le_compat_r; lra).
  assert (A3 : eta <= 1 / 256 * (tol * tol)) by (eapply Rle_trans; [apply Heta|]; apply Rmult_le_compat_r; lra).
  assert (HY : M2 y <= (2 * tol) * (2 * tol)) by lra.
  unfold M2 in HY. destruct (Rle_or_lt (Cmod (fcv y)) (2 * tol)) as [h|h]; auto.
  assert (2 * tol * (2 * tol) < Cmod (fcv y) * Cmod (fcv y)) by (apply Rmult_le_0_lt_compat; lra). lra.
Qed.
Lemma ndiv_nz (x y : @num FNum) : fv y <> 0 -> fv (ndiv x y) = rnd (fv x / fv y).
Proof. intros H. cbn [ndiv SafeF.FNum]. destruct (Req_EM_T (fv y) 0); [contradiction|reflexivity]. Qed.

(* one component of the quotient *)
Lemma quot_err (A A' N M P : R) : 0 < M -> tol * tol <= M -> Rabs (N - M) <= 3 * u * M + 4 * eta -> 0 <= P -> P <= 2 * M -> Rabs A <= P ->
  Rabs (A' - A) <= 3 * u * P + 4 * eta -> Rabs (rnd (A' / N) - A / M) <= 56 * u.
Proof.
  intros HM HtM HN HP HPM HA HA'.
  assert (HeM : eta <= u * M) by (eapply Rle_trans; [apply Heta|]; apply Rmult_le_compat_l; lra).
  assert (HuM : u * M <= 1 / 256 * M) by (apply Rmult_le_compat_r; lra).
  assert (HuP : u * P <= u * (2 * M)) by (apply Rmult_le_compat_l; lra).
  assert (HNM : Rabs (N - M) <= 7 * (u * M)) by lra.
  assert (HAA : Rabs (A' - A) <= 10 * (u * M)) by lra.
  assert (HNp : 3 / 4 * M <= N) by (apply Rabs_def2b in HNM; lra).
  assert (HNp' : 0 < N) by lra.
  assert (Hq : Rabs (A' / N - A / M) <= 40 * u).
  { replace (A' / N - A / M) with (((A' - A) * M - A * (N - M)) / (N * M)) by (field; lra).
    unfold Rdiv. rewrite Rabs_mult, (Rabs_pos_eq (/ (N * M))) by (apply Rlt_le, Rinv_0_lt_compat, Rmult_lt_0_compat; lra).
    apply (Rmult_le_reg_r (N * M)); [apply Rmult_lt_0_compat; lra|].
    rewrite Rmult_assoc, Rinv_l, Rmult_1_r by (apply Rgt_not_eq, Rmult_lt_0_compat; lra).
    eapply Rle_trans; [apply Rabs_triang|]. rewrite Rabs_Ropp, !Rabs_mult, (Rabs_pos_eq M) by lra.
    assert (B1 : Rabs (A' - A) * M <= 10 * (u * M) * M) by (apply Rmult_le_compat_r; lra).
    assert (B2 : Rabs A * Rabs (N - M) <= 2 * M * (7 * (u * M))) by (apply Rmult_le_compat; try apply Rabs_pos; lra).
    assert (B3 : 40 * u * (3 / 4 * M * M) <= 40 * u * (N * M)).
    { apply Rmult_le_compat_l; [lra|]. apply Rmult_le_compat_r; lra. }
    assert (B4 : 0 <= u * M * M) by (apply Rmult_le_pos; [apply Rmult_le_pos; lra|lra]). nra. }
  assert (HAM : Rabs (A / M) <= 2).
  { unfold Rdiv. rewrite Rabs_mult, (Rabs_pos_eq (/ M)) by (apply Rlt_le, Rinv_0_lt_compat; lra).
    apply (Rmult_le_reg_r M); [lra|]. rewrite Rmult_assoc, Rinv_l, Rmult_1_r by lra. lra. }
  assert (HAN : Rabs (A' / N) <= 3) by (apply abs_le_add in Hq; lra).
  pose proof (rnd_err (A' / N)) as Hr. assert (u * Rabs (A' / N) <= u * 3) by (apply Rmult_le_compat_l; lra).
  eapply Rle_trans; [apply (abs_tri _ (A' / N))|]. lra.
Qed.
Lemma f_max_div (m y : @cx FNum) : iszero m = false -> nltb (norm2 m) (norm2 y) = false ->
  Cmod (Cminus (fcv (cdiv y m)) (Cdiv (fcv y) (fcv m))) <= 2 * tol /\ Cmod (fcv (cdiv y m)) <= 1 + 2 * tol.
Proof.
  intros Hz Hl. apply f_ge in Hl. pose proof (norm2_nz rnd tol dz sq co si m Hz) as HN0. pose proof (nz_M2 m Hz) as Hm.
  pose proof (Nf_err m) as E1. pose proof (Nf_err y) as E2.
  pose proof (M2_pos y) as Py. set (M := M2 m) in *. assert (HM : 0 < M) by lra.
  assert (HeM : eta <= u * M) by (eapply Rle_trans; [apply Heta|]; apply Rmult_le_compat_l; lra).
  assert (HuM0 : 0 <= u * M) by (apply Rmult_le_pos; lra).
  pose proof (Rabs_def2b _ _ E1) as E1'. pose proof (Rabs_def2b _ _ E2) as E2'.
  assert (HY : M2 y * (1 - 3 * u) <= M * (1 + 11 * u)) by lra.
  assert (HY2 : M2 y <= M * ((1 + 8 * u) * (1 + 8 * u))).
  { apply (Rmult_le_reg_r (1 - 3 * u)); [lra|]. eapply Rle_trans; [exact HY|]. rewrite Rmult_assoc. apply Rmult_le_compat_l; [lra|].
    assert (0 <= u * u) by (apply Rmult_le_pos; lra). assert (u * u <= 1 / 256 * u) by (apply Rmult_le_compat_r; lra).
    assert (u * u * u <= 1 / 256 * (u * u)) by (rewrite Rmult_assoc; apply Rmult_le_compat_r; lra). nra. }
  set (a := Cmod (fcv y)) in *. set (b := Cmod (fcv m)) in *.
  assert (Ha : 0 <= a) by apply Cmod_ge_0. assert (Hb0 : 0 <= b) by apply Cmod_ge_0.
  assert (HMb : M = b * b) by reflexivity. assert (HYa : M2 y = a * a) by reflexivity.
  assert (Hb : 0 < b) by (destruct (Req_dec b 0) as [h|h]; [rewrite h in HMb; lra|lra]).
  assert (Hab : a <= (1 + 8 * u) * b).
  { destruct (Rle_or_lt a ((1 + 8 * u) * b)) as [h|h]; auto. exfalso.
    assert (0 <= (1 + 8 * u) * b) by (apply Rmult_le_pos; lra).
    assert ((1 + 8 * u) * b * ((1 + 8 * u) * b) < a * a) by (apply Rmult_le_0_lt_compat; lra).
    rewrite HYa, HMb in HY2. lra. }
  assert (HPM : a * b <= 2 * M).
  { rewrite HMb, <- Rmult_assoc. apply Rmult_le_compat_r; [lra|]. eapply Rle_trans; [exact Hab|]. apply Rmult_le_compat_r; lra. }
  assert (HP0 : 0 <= a * b) by (apply Rmult_le_pos; auto).
  (* the exact quotient by components *)
  destruct y as [ya yb]. destruct m as [p q]. cbn [fst snd] in *.
  set (Y := (fv ya, fv yb) : C) in *. assert (EY : fcv (ya, yb) = (fv ya, fv yb)) by reflexivity.
  assert (EM : fcv (p, q) = (fv p, fv q)) by reflexivity.
  assert (HMe : M = fv p * fv p + fv q * fv q) by (unfold M, M2; rewrite EM; apply Cmod_sq).
  assert (Hnz : fcv (p, q) <> RtoC 0) by (intros h; unfold b in Hb; rewrite h, Cmod_0 in Hb; lra).
  assert (Hq : Cdiv (fcv (ya, yb)) (fcv (p, q)) =
    ((fv ya * fv p + fv yb * fv q) / M, (fv yb * fv p - fv ya * fv q) / M)).
  { assert (X : Cmult ((fv ya * fv p + fv yb * fv q) / M, (fv yb * fv p - fv ya * fv q) / M) (fcv (p, q)) = fcv (ya, yb)).
    { rewrite EM, EY. unfold Cmult. cbn [fst snd]. f_equal; rewrite HMe; field; rewrite <- HMe; lra. }
    rewrite <- X. unfold Cdiv. rewrite <- Cmult_assoc, Cinv_r, Cmult_1_r by auto. reflexivity. }
  assert (Ec : Cmod (Cminus (fcv (cdiv (ya, yb) (p, q))) (Cdiv (fcv (ya, yb)) (fcv (p, q)))) <= 3 / 2 * (56 * u)).
  { rewrite Hq. apply Cmod_comp2; unfold Cminus, Cplus, Copp; cbn [fst snd fcv cdiv].
    - rewrite ndiv_nz by exact HN0. fold (Nf (p, q)). fold (Rminus (rnd (fv (nadd (nmul ya p) (nmul yb q)) / Nf (p, q))) ((fv ya * fv p + fv yb * fv q) / M)).
      apply (quot_err _ _ _ M (a * b)); auto.
      + eapply Rle_trans; [apply Rabs_triang|]. apply cauchy.
      + eapply Rle_trans; [exact (mul_add (fv ya) (fv p) (fv yb) (fv q))|]. apply Rplus_le_compat_r. apply Rmult_le_compat_l; [lra|]. apply cauchy.
    - rewrite ndiv_nz by exact HN0. fold (Nf (p, q)). fold (Rminus (rnd (fv (nsub (nmul yb p) (nmul ya q)) / Nf (p, q))) ((fv yb * fv p - fv ya * fv q) / M)).
      assert (Hc : Rabs (fv yb * fv p) + Rabs (fv ya * fv q) <= a * b).
      { eapply Rle_trans; [apply cauchy|]. apply Rmult_le_compat_r; [apply Cmod_ge_0|]. apply Req_le. unfold a. rewrite EY. unfold Cmod. cbn [fst snd]. f_equal. ring. }
      apply (quot_err _ _ _ M (a * b)); auto.
      + unfold Rminus. eapply Rle_trans; [apply Rabs_triang|]. rewrite Rabs_Ropp. exact Hc.
      + eapply Rle_trans; [exact (mul_sub (fv yb) (fv p) (fv ya) (fv q))|]. apply Rplus_le_compat_r. apply Rmult_le_compat_l; [lra|]. exact Hc. }
  split; [lra|].
  assert (Hd : Cmod (Cdiv (fcv (ya, yb)) (fcv (p, q))) <= 1 + 8 * u).
  { rewrite Cmod_div by auto. fold a b. apply (Rmult_le_reg_r b); [lra|]. unfold Rdiv. rewrite Rmult_assoc, Rinv_l by lra. lra. }
  replace (fcv (cdiv (ya, yb) (p, q))) with (Cplus (Cdiv (fcv (ya, yb)) (fcv (p, q))) (Cminus (fcv (cdiv (ya, yb) (p, q))) (Cdiv (fcv (ya, yb)) (fcv (p, q))))) by ring.
  eapply Rle_trans; [apply Cmod_triangle|]. lra.
Qed.

(* ---- the numbers themselves ---- *)
Lemma Nf_rel w : iszero w = false -> Rabs (Nf w - M2 w) <= 7 * u * M2 w.
Proof.
  intros Hz. pose proof (nz_M2 w Hz) as Hm. pose proof (Nf_err w) as H1.
  assert (HeM : eta <= u * M2 w) by (eapply Rle_trans; [apply Heta|]; apply Rmult_le_compat_l; lra). lra.
Qed.
Lemma Nf_pos w : 0 <= Nf w. Proof. apply (norm2_pos rnd tol dz sq co si). Qed.
Lemma Nf_ge w : iszero w = false -> 3 / 4 * (tol * tol) <= Nf w.
Proof.
  intros Hz. pose proof (nz_M2 w Hz) as Hm. pose proof (Nf_rel w Hz) as H1. apply Rabs_def2b in H1.
  assert (7 * u * M2 w <= 7 / 256 * M2 w) by (apply Rmult_le_compat_r; [apply M2_pos|lra]). lra.
Qed.
Lemma f_norm_err (w : @cx FNum) : iszero w = false -> Rabs (fv (norm2 w) - Cmod (fcv w) ^ 2) <= 2 * tol * Cmod (fcv w) ^ 2.
Proof.
  intros Hz. replace (Cmod (fcv w) ^ 2) with (M2 w) by (unfold M2; ring). eapply Rle_trans; [exact (Nf_rel w Hz)|].
  apply Rmult_le_compat_r; [apply M2_pos|lra].
Qed.
Lemma f_norm_0 : fv (norm2 (@c0 FNum)) = 0.
Proof. unfold norm2, c0. cbn [fst snd]. cbn [nadd nmul SafeF.FNum]. rewrite !fv_mk, !(fn0 rnd tol dz sq co si), !Rmult_0_l, !(rnd_0 rnd tol), Rplus_0_r. apply (rnd_0 rnd tol). Qed.
Lemma f_norm_1 : fv (norm2 (@c1 FNum)) = 1.
Proof. unfold norm2, c1. cbn [fst snd]. cbn [nadd nmul SafeF.FNum]. rewrite !fv_mk, !(fn0 rnd tol dz sq co si), !(fn1 rnd tol dz sq co si), Rmult_0_l, Rmult_1_l, !(rnd_0 rnd tol), rnd_1, Rplus_0_r. apply rnd_1. Qed.
Lemma f_pmul (x : @num FNum) (w : @cx FNum) z : 1 / 2 <= fv x -> iszero w = false -> z = fv x * Nf w -> Rabs (rnd z - fv x * Nf w) <= 2 * tol * (fv x * Nf w).
Proof.
  intros Hx Hz ->. pose proof (Nf_ge w Hz) as Hn. pose proof (Nf_pos w) as Hp.
  assert (H1 : 1 / 2 * (3 / 4 * (tol * tol)) <= fv x * Nf w) by (apply Rmult_le_compat; lra).
  eapply Rle_trans; [apply rnd_err|]. rewrite Rabs_pos_eq by lra.
  assert (H2 : u * (tol * tol) <= u * (8 / 3 * (fv x * Nf w))) by (apply Rmult_le_compat_l; lra).
  assert (H3 : 4 * u * (fv x * Nf w) <= 2 * tol * (fv x * Nf w)) by (apply Rmult_le_compat_r; lra). lra.
Qed.
Lemma f_ndiv_err (x y : @num FNum) : 0 <= fv x -> 1 / 2 <= fv y ->
  Rabs (fv (ndiv x y) - fv x / fv y) <= 2 * tol * (fv x / fv y + 1) /\ 0 <= fv (ndiv x y) /\ (fv x <= fv y -> fv (ndiv x y) <= 1).
Proof.
  intros Hx Hy. rewrite ndiv_nz by lra. assert (Hq : 0 <= fv x / fv y) by (apply Rmult_le_pos; [lra|apply Rlt_le, Rinv_0_lt_compat; lra]).
  split; [|split].
  - eapply Rle_trans; [apply rnd_err|]. rewrite Rabs_pos_eq by lra.
    assert (u * (fv x / fv y) <= 2 * tol * (fv x / fv y)) by (apply Rmult_le_compat_r; lra). lra.
  - rewrite <- (rnd_0 rnd tol). apply rnd_mono. exact Hq.
  - intros Hle. rewrite <- rnd_1. apply rnd_mono. apply (Rmult_le_reg_r (fv y)); [lra|]. unfold Rdiv. rewrite Rmult_assoc, Rinv_l by lra. lra.
Qed.

Definition FAccur : Accur FNum.
Proof.
  assert (Hn0 : forall x : @num FNum, fv x = 0 -> x = n0) by (intros x h; apply f_eq; rewrite h; symmetry; apply (fn0 rnd tol dz sq co si)).
  assert (Hcz : forall x : @cx FNum, fcv x = RtoC 0 -> x = c0).
  { intros [a b] h. injection h as h1 h2. unfold c0. f_equal; apply Hn0; assumption. }
  assert (Hc0 : fcv c0 = RtoC 0) by (unfold fcv, c0; cbn [fst snd]; rewrite !(fn0 rnd tol dz sq co si); reflexivity).
  assert (Hz0 : iszero (@c0 FNum) = true).
  { apply iszero_iff. unfold c0. cbn [fst snd]. rewrite !(fn0 rnd tol dz sq co si), Rabs_R0. lra. }
  pose proof (FArith rnd tol dz sq co si) as FA.
  refine {| cv := fcv; dl := 2 * tol; nr := fv |}.
  - lra.
  - pose proof (pr_small : tol <= 1 / 1600). lra.
  - exact Hcz.
  - exact Hc0.
  - unfold fcv, c1. cbn [fst snd]. rewrite (fn0 rnd tol dz sq co si), (fn1 rnd tol dz sq co si). reflexivity.
  - exact f_cadd_err.
  - exact f_cmul_err.
  - intros x y h. rewrite (Hcz x h). unfold cmul, c0, fcv. cbn [fst snd]. cbn [nmul nadd nsub SafeF.FNum].
    unfold RtoC. cbn [n0 SafeF.FNum]. rewrite !fv_mk. rewrite !(rnd_0 rnd tol), !Rmult_0_l, !(rnd_0 rnd tol), Rminus_0_r, Rplus_0_r, !(rnd_0 rnd tol). reflexivity.
  - intros x y h. rewrite (Hcz x h). unfold cmul, c0, fcv. cbn [fst snd]. cbn [nmul nadd nsub SafeF.FNum].
    unfold RtoC. cbn [n0 SafeF.FNum]. rewrite !fv_mk. rewrite !(rnd_0 rnd tol), !Rmult_0_r, !(rnd_0 rnd tol), Rminus_0_r, Rplus_0_r, !(rnd_0 rnd tol). reflexivity.
  - exact (cmul1 rnd tol dz sq co si).
  - intros x h. apply z_mod in h. lra.
  - intros x h. now rewrite (Hcz x h).
  - destruct (iszero c1) eqn:H1; [|reflexivity]. apply iszero_iff in H1. cbn [fst snd c1] in H1. rewrite (fn1 rnd tol dz sq co si), Rabs_R1 in H1. lra.
  - exact f_eq_true.
  - intros x. unfold isequal. cbn [neqb SafeF.FNum]. apply orb_true_iff. left. apply andb_true_iff. split; apply Reqb_true; reflexivity.
  - intros x h1 h2. apply z_mod in h1. apply f_eq_true in h2.
    assert (h3 : fcv c1 = RtoC 1) by (unfold fcv, c1; cbn [fst snd]; rewrite (fn0 rnd tol dz sq co si), (fn1 rnd tol dz sq co si); reflexivity).
    rewrite h3 in h2. assert (h4 : Cmod (RtoC 1) <= 7 / 2 * tol).
    { replace (RtoC 1) with (Cplus (fcv x) (Copp (Cminus (fcv x) (RtoC 1)))) by ring. eapply Rle_trans; [apply Cmod_triangle|].
      rewrite Cmod_opp. lra. }
    rewrite Cmod_1 in h4. lra.
  - intros x h. apply iszero_iff. unfold isequal in h. rewrite orb_true_iff, !andb_true_iff in h.
    cbn [nleb neqb SafeF.FNum] in h. rewrite !Rleb_true, !Reqb_true, ftol in h. rewrite !fabs in h. unfold c0 in h. cbn [fst snd] in h.
    cbn [nsub SafeF.FNum] in h. rewrite !fv_mk, !(fn0 rnd tol dz sq co si) in h.
    destruct h as [[h1 h2]|[h1 h2]]; [rewrite <- h1, <- h2, Rabs_R0; lra|].
    rewrite Rminus_0_l, rnd_odd, Rabs_Ropp, fv_rnd in h1, h2. auto.
  - intros x h. apply iszero_iff. unfold isequal in h. rewrite orb_true_iff, !andb_true_iff in h.
    cbn [nleb neqb SafeF.FNum] in h. rewrite !Rleb_true, !Reqb_true, ftol in h. rewrite !fabs in h. unfold c0 in h. cbn [fst snd] in h.
    cbn [nsub SafeF.FNum] in h. rewrite !fv_mk, !(fn0 rnd tol dz sq co si) in h.
    destruct h as [[h1 h2]|[h1 h2]]; [rewrite h1, h2, Rabs_R0; lra|].
    rewrite Rminus_0_r, fv_rnd in h1, h2. auto.
  - intros x h. destruct (iszero x) eqn:Hz; [apply z_mod in Hz; lra|]. exfalso.
    apply (norm2_nz rnd tol dz sq co si x Hz). unfold isnull in h. cbn [neqb SafeF.FNum] in h. apply Reqb_true in h. rewrite h. apply (fn0 rnd tol dz sq co si).
  - intros x y z h1 h2. cbn [nltb SafeF.FNum] in *. apply Rltb_false in h1. apply Rltb_false in h2. apply Rltb_false. lra.
  - intros x y h1. cbn [nltb SafeF.FNum] in *. apply Rltb_true in h1. apply Rltb_false. lra.
  - exact f_max_div.
  - exact f_max_z.
  - intros m Hz. pose proof (norm2_nz rnd tol dz sq co si m Hz) as HN0. unfold cdiv, c1. f_equal; apply f_eq; rewrite (ndiv_nz _ _ HN0).
    + change (nadd (nmul (fst m) (fst m)) (nmul (snd m) (snd m))) with (norm2 m).
      rewrite (fn1 rnd tol dz sq co si). unfold Rdiv. rewrite Rinv_r by exact HN0. apply rnd_1.
    + rewrite (fn0 rnd tol dz sq co si). replace (fv (nsub (nmul (snd m) (fst m)) (nmul (fst m) (snd m)))) with 0.
      * unfold Rdiv. rewrite Rmult_0_l. apply (rnd_0 rnd tol).
      * cbn [nsub nmul SafeF.FNum]. rewrite !fv_mk. rewrite (Rmult_comm (fv (snd m))), Rminus_diag_eq by reflexivity. symmetry. apply (rnd_0 rnd tol).
  - intros m Hz. pose proof (norm2_nz rnd tol dz sq co si m Hz) as HN0. unfold cdiv, c0. cbn [fst snd]. f_equal; apply f_eq; rewrite (ndiv_nz _ _ HN0);
      cbn [nsub nadd nmul SafeF.FNum]; rewrite !fv_mk, !(fn0 rnd tol dz sq co si), !Rmult_0_l, !(rnd_0 rnd tol);
      rewrite ?Rplus_0_r, ?Rminus_0_r, (rnd_0 rnd tol); unfold Rdiv; rewrite Rmult_0_l; apply (rnd_0 rnd tol).
  - intros x Hz. cbn [nltb SafeF.FNum]. apply Rltb_true.
    assert (Hn : fv (norm2 (@c0 FNum)) = 0).
    { unfold norm2, c0. cbn [fst snd]. cbn [nadd nmul SafeF.FNum]. rewrite !fv_mk, !(fn0 rnd tol dz sq co si), !Rmult_0_l, !(rnd_0 rnd tol), Rplus_0_r. apply (rnd_0 rnd tol). }
    rewrite Hn. pose proof (norm2_nz rnd tol dz sq co si x Hz) as HN0. pose proof (norm2_pos rnd tol dz sq co si x). lra.
  - intros x. cbn [nltb SafeF.FNum]. apply Rltb_false.
    assert (Hn : fv (norm2 (@c0 FNum)) = 0).
    { unfold norm2, c0. cbn [fst snd]. cbn [nadd nmul SafeF.FNum]. rewrite !fv_mk, !(fn0 rnd tol dz sq co si), !Rmult_0_l, !(rnd_0 rnd tol), Rplus_0_r. apply (rnd_0 rnd tol). }
    rewrite Hn. apply (norm2_pos rnd tol dz sq co si x).
  - apply (fn0 rnd tol dz sq co si).
  - apply (fn1 rnd tol dz sq co si).
  - intros x y. cbn [nltb SafeF.FNum]. apply Rltb_true.
  - intros x y. cbn [nleb SafeF.FNum]. apply Rleb_true.
  - intros x. cbn [neqb SafeF.FNum]. rewrite Reqb_true, (fn0 rnd tol dz sq co si). tauto.
  - exact f_norm_err.
  - exact f_norm_0.
  - exact f_norm_1.
  - intros x w Hx Hz. split; cbn [nmul SafeF.FNum]; rewrite fv_mk; apply (f_pmul x w); auto. fold (Nf w). ring.
  - intros x y. cbn [nmul SafeF.FNum]. rewrite fv_mk. eapply Rle_trans; [apply rnd_err|]. pose proof (Rabs_pos (fv x * fv y)) as Hp.
    assert (u * Rabs (fv x * fv y) <= 2 * tol * Rabs (fv x * fv y)) by (apply Rmult_le_compat_r; lra). lra.
  - intros x y Hx. cbn [nmul SafeF.FNum]. rewrite !fv_mk, Hx, Rmult_0_l, Rmult_0_r. split; apply (rnd_0 rnd tol).
  - intros x y Hx Hy. cbn [nadd SafeF.FNum]. rewrite fv_mk. split.
    + eapply Rle_trans; [apply fadd|]. rewrite Rabs_pos_eq by lra. apply Rmult_le_compat_r; lra.
    + rewrite <- (fv_rnd rnd x) at 1. apply rnd_mono. lra.
  - intros x y Hy. cbn [nadd SafeF.FNum]. rewrite !fv_mk, Hy, Rplus_0_r, Rplus_0_l. split; apply fv_rnd.
  - exact f_ndiv_err.
  - intros x y He Hy. rewrite ndiv_nz by lra. rewrite He. unfold Rdiv. rewrite Rinv_r by lra. apply rnd_1.
  - intros x y He Hy. rewrite ndiv_nz by lra. rewrite He. unfold Rdiv. rewrite Rmult_0_l. apply (rnd_0 rnd tol).
  - intros p. pose proof (fsub n1 p) as Hp. rewrite (fn1 rnd tol dz sq co si) in Hp. cbn [nsub SafeF.FNum]. rewrite fv_mk.
    rewrite (fn1 rnd tol dz sq co si). eapply Rle_trans; [exact Hp|]. pose proof (Rabs_pos (fv p)) as Pp.
    assert (Rabs (1 - fv p) <= 1 + Rabs (fv p)) by (unfold Rminus; eapply Rle_trans; [apply Rabs_triang|]; rewrite Rabs_Ropp, Rabs_R1; lra).
    eapply Rle_trans; [apply Rmult_le_compat_l; [lra|eassumption]|]. apply Rmult_le_compat_r; lra.
  - intros p Hp. cbn [nsub SafeF.FNum]. rewrite fv_mk, (fn1 rnd tol dz sq co si), Hp, Rminus_eq_0. apply (rnd_0 rnd tol).
  - intros x y Hx Hy. cbn [nmul SafeF.FNum]. rewrite fv_mk. assert (Hp : 0 <= fv x * fv y <= 1) by nra.
    split; [apply Rle_trans with (rnd 0); [rewrite (rnd_0 rnd tol); lra|]|apply Rle_trans with (rnd 1); [|rewrite rnd_1; lra]]; apply rnd_mono; lra.
  - intros p Hp. cbn [nsub SafeF.FNum]. rewrite fv_mk, (fn1 rnd tol dz sq co si).
    split; [apply Rle_trans with (rnd 0); [rewrite (rnd_0 rnd tol); lra|]|apply Rle_trans with (rnd 1); [|rewrite rnd_1; lra]]; apply rnd_mono; lra.
  - exact (fabs rnd tol dz sq co si).
  - intros x y. cbn [nsub SafeF.FNum]. rewrite fv_mk. eapply Rle_trans; [apply fsub|]. pose proof (Rabs_pos (fv x)) as Px. pose proof (Rabs_pos (fv y)) as Py.
    assert (Rabs (fv x - fv y) <= Rabs (fv x) + Rabs (fv y)) by (unfold Rminus; eapply Rle_trans; [apply Rabs_triang|]; rewrite Rabs_Ropp; lra).
    eapply Rle_trans; [apply Rmult_le_compat_l; [lra|eassumption]|]. apply Rmult_le_compat_r; lra.
  - intros x y Hx Hy. cbn [nmul SafeF.FNum]. rewrite fv_mk. apply Rle_trans with (rnd 0); [rewrite (rnd_0 rnd tol); lra|]. apply rnd_mono. nra.
  - intros w. split; [exact (Nf_pos w)|]. change (Rabs (Nf w - Cmod (fcv w) ^ 2) <= 2 * tol * (Cmod (fcv w) ^ 2 + 1)).
    replace (Cmod (fcv w) ^ 2) with (M2 w) by (unfold M2; ring). eapply Rle_trans; [exact (Nf_err w)|]. pose proof (M2_pos w) as Pm.
    assert (3 * u * M2 w <= 2 * tol * M2 w) by (apply Rmult_le_compat_r; lra). lra.
  - intros x. unfold fcv. cbn [fst snd]. rewrite (fn0 rnd tol dz sq co si). reflexivity.
  - intros y Hy. rewrite ndiv_nz by lra. rewrite (fn1 rnd tol dz sq co si). unfold Rdiv. rewrite Rmult_1_l.
    assert (Hi : 1 / 2 <= / fv y) by (replace (1 / 2) with (/ 2) by lra; apply Rinv_le_contravar; lra).
    eapply Rle_trans; [apply rnd_err|]. rewrite Rabs_pos_eq by lra. nra.
  - exact (@SafeA.eq_sym' _ FA).
Defined.
End Acc.

(* exact arithmetic, any small tolerance *)
#[export] Instance exact_precise tol : 0 < tol <= 1 / 1600 -> Precise (fun x => x) tol 0 0.
Proof.
  intros H. constructor; intros; try lra.
  - unfold Rminus. rewrite Rplus_opp_r, Rabs_R0. lra.
  - unfold Rminus. rewrite Rplus_opp_r, Rabs_R0. lra.
Qed.
(* binary64: unit roundoff 2^-53, underflow error 2^-1075 *)
#[export] Instance precise64 : Precise rnd64 tol64 (bpow radix2 (-53)) (bpow radix2 (-1075)).
Proof.
  assert (Hp : Prec_gt_0 53) by reflexivity.
  pose proof (FLT_exp_valid (-1074) 53) as Hv.
  constructor.
  - apply bpow_ge_0.
  - unfold tol64. replace 64 with (bpow radix2 6) by (cbn; lra). rewrite <- bpow_plus. apply bpow_le. lia.
  - unfold tol64. apply Rle_trans with (bpow radix2 (-11)); [apply bpow_le; lia|cbn; lra].
  - split; [apply bpow_ge_0|]. unfold tol64. rewrite <- !bpow_plus. apply bpow_le. lia.
  - intros x. destruct (error_N_FLT radix2 (-1074) 53 Hp (fun z => negb (Z.even z)) x) as (e & n & H1 & H2 & H3 & H4).
    unfold rnd64. rewrite H4. replace (x * (1 + e) + n - x) with (x * e + n) by ring.
    eapply Rle_trans; [apply Rabs_triang|]. rewrite Rabs_mult. apply Rplus_le_compat.
    + rewrite Rmult_comm. apply Rmult_le_compat_r; [apply Rabs_pos|]. eapply Rle_trans; [exact H1|].
      replace (/ 2) with (bpow radix2 (-1)) by (cbn; lra). unfold u_ro. try (replace (/ 2) with (bpow radix2 (-1)) by (cbn; lra)). rewrite <- bpow_plus. apply bpow_le. lia.
    + eapply Rle_trans; [exact H2|]. replace (/ 2) with (bpow radix2 (-1)) by (cbn; lra). rewrite <- bpow_plus. apply bpow_le. lia.
  - intros x y Hx Hy.
    assert (Fx : generic_format radix2 (FLT_exp (-1074) 53) x) by (rewrite <- Hx; apply generic_format_round; [exact Hv|apply valid_rnd_N]).
    assert (Fy : generic_format radix2 (FLT_exp (-1074) 53) y) by (rewrite <- Hy; apply generic_format_round; [exact Hv|apply valid_rnd_N]).
    destruct (FLT_plus_error_N_ex radix2 (-1074) 53 (fun z => negb (Z.even z)) x y Fx Fy) as (e & H1 & H2).
    unfold rnd64. rewrite H2. replace ((x + y) * (1 + e) - (x + y)) with (e * (x + y)) by ring. rewrite Rabs_mult.
    apply Rmult_le_compat_r; [apply Rabs_pos|]. eapply Rle_trans; [exact H1|].
    assert (Hur : u_ro radix2 53 = bpow radix2 (-53)).
    { unfold u_ro. replace (/ 2) with (bpow radix2 (-1)) by (cbn; lra). rewrite <- bpow_plus. reflexivity. }
    rewrite Hur. pose proof (bpow_gt_0 radix2 (-53)) as Hb. unfold Rdiv.
    set (b := bpow radix2 (-53)) in *. apply Rle_trans with (b * 1); [|lra]. apply Rmult_le_compat_l; [lra|].
    rewrite <- Rinv_1. apply Rinv_le_contravar; lra.
Qed.
