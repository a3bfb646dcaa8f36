(* RNum.v -- the real-number instance and its basic facts. *)
From Coq Require Import Reals Lra Psatz Bool.
From Coquelicot Require Import Complex.
From Verif Require Import Num.
Open Scope R_scope.

(* the range of tolerances the theorems cover; Complex::TOLERANCE = 2^-42 is in it *)
Class Tol (tau : R) : Prop := tol_ok : 0 <= tau < 1 / 2.

Definition Rltb (x y : R) : bool := if Rlt_dec x y then true else false.
Definition Rleb (x y : R) : bool := if Rle_dec x y then true else false.
Definition Reqb (x y : R) : bool := if Req_EM_T x y then true else false.

Definition RNum (tol : R) : NumOps := {|
  num := R; n0 := 0; n1 := 1;
  nadd := Rplus; nsub := Rminus; nmul := Rmult; ndiv := Rdiv; nopp := Ropp; nabs := Rabs;
  nsqrt := sqrt; ncos := cos; nsin := sin;
  nltb := Rltb; nleb := Rleb; neqb := Reqb; ntol := tol |}.

Lemma Rltb_spec x y : reflect (x < y) (Rltb x y).
Proof. unfold Rltb; destruct (Rlt_dec x y); constructor; auto. Qed.
Lemma Rleb_spec x y : reflect (x <= y) (Rleb x y).
Proof. unfold Rleb; destruct (Rle_dec x y); constructor; auto. Qed.
Lemma Reqb_spec x y : reflect (x = y) (Reqb x y).
Proof. unfold Reqb; destruct (Req_EM_T x y); constructor; auto. Qed.

Lemma Rltb_true x y : Rltb x y = true <-> x < y.
Proof. destruct (Rltb_spec x y); split; auto; discriminate. Qed.
Lemma Rleb_true x y : Rleb x y = true <-> x <= y.
Proof. destruct (Rleb_spec x y); split; auto; discriminate. Qed.
Lemma Reqb_true x y : Reqb x y = true <-> x = y.
Proof. destruct (Reqb_spec x y); split; auto; discriminate. Qed.
Lemma Rltb_false x y : Rltb x y = false <-> y <= x.
Proof. destruct (Rltb_spec x y); split; auto; try discriminate; lra. Qed.
Lemma Rleb_false x y : Rleb x y = false <-> y < x.
Proof. destruct (Rleb_spec x y); split; auto; try discriminate; lra. Qed.

Section R.
Context (tau : R).
#[local] Hint Extern 0 NumOps => exact (RNum tau) : typeclass_instances.

Lemma cadd_C (x y : cx) : @eq C (cadd x y) (Cplus x y). Proof. reflexivity. Qed.
Lemma csub_C (x y : cx) : @eq C (csub x y) (Cminus x y). Proof. reflexivity. Qed.
Lemma cmul_C (x y : cx) : @eq C (cmul x y) (Cmult x y). Proof. reflexivity. Qed.
Lemma copp_C (x : cx) : @eq C (copp x) (Copp x). Proof. reflexivity. Qed.
Lemma c0_C : @eq C c0 (RtoC 0). Proof. reflexivity. Qed.
Lemma c1_C : @eq C c1 (RtoC 1). Proof. reflexivity. Qed.
Lemma cdiv_C (x y : cx) : @eq C (cdiv x y) (Cdiv x y).
Proof.
  destruct x as [a b], y as [p q]. unfold cdiv, Cdiv, Cmult, Cinv, norm2; cbn.
  apply injective_projections; cbn; unfold Rdiv;
    replace (p * (p * 1) + q * (q * 1)) with (p * p + q * q) by ring; ring.
Qed.

Lemma norm2_Cmod (x : cx) : norm2 x = Cmod x ^ 2.
Proof.
  destruct x as [a b]. unfold norm2, Cmod; cbn [fst snd nadd nmul RNum].
  rewrite pow2_sqrt; [cbn; ring|]. cbn. nra.
Qed.

Lemma Cmod_le_of_comp (x : C) t : Rabs (fst x) <= t -> Rabs (snd x) <= t -> Cmod x <= 2 * t.
Proof.
  intros H1 H2. eapply Rle_trans; [apply Cmod_2Rmax|].
  assert (Ht : 0 <= t) by (eapply Rle_trans; [apply Rabs_pos|exact H1]).
  assert (HM : Rmax (Rabs (fst x)) (Rabs (snd x)) <= t) by (apply Rmax_lub; auto).
  assert (Hs : sqrt 2 <= 2).
  { rewrite <- (sqrt_square 2) at 2 by lra. apply sqrt_le_1_alt. lra. }
  assert (0 <= sqrt 2) by apply sqrt_pos.
  assert (0 <= Rmax (Rabs (fst x)) (Rabs (snd x)))
    by (eapply Rle_trans; [apply Rabs_pos|apply Rmax_l]).
  nra.
Qed.

Lemma iszero_true (x : cx) : iszero x = true -> Cmod x <= 2 * tau.
Proof.
  unfold iszero; cbn. intros H. apply andb_prop in H as [H1 H2].
  apply Rleb_true in H1, H2.
  now apply Cmod_le_of_comp.
Qed.
Lemma iszero_false (x : cx) : 0 <= tau -> iszero x = false -> tau < Cmod x.
Proof.
  destruct x as [a b]. unfold iszero; cbn. intros Ht H.
  pose proof (Rmax_Cmod (a, b)) as Hm. cbn in Hm.
  pose proof (Rmax_r (Rabs a) (Rabs b)). pose proof (Rmax_l (Rabs a) (Rabs b)).
  apply andb_false_iff in H as [h|h]; apply Rleb_false in h; lra.
Qed.
Lemma iszero_c0 : 0 <= tau -> iszero c0 = true.
Proof.
  intros. unfold iszero; cbn. rewrite Rabs_R0.
  destruct (Rleb_spec 0 tau); auto; lra.
Qed.
Lemma iszero_0 (x : cx) : 0 <= tau -> x = c0 -> iszero x = true.
Proof. intros H ->. now apply iszero_c0. Qed.
Lemma iszero_ex (x : cx) : tau = 0 -> iszero x = true -> x = c0.
Proof.
  intros Ht H. apply iszero_true in H. rewrite Ht in H.
  assert (Cmod x = 0) by (pose proof (Cmod_ge_0 x); lra).
  apply (Cmod_eq_0 x) in H0. exact H0.
Qed.
Lemma isequal_true (x y : cx) : 0 <= tau -> isequal x y = true -> Cmod (Cminus x y) <= 2 * tau.
Proof.
  unfold isequal; cbn. intros Ht H. apply orb_prop in H as [H|H].
  - apply andb_prop in H as [H1 H2].
    apply Reqb_true in H1, H2.
    replace (Cminus x y) with (RtoC 0).
    + rewrite Cmod_0. lra.
    + destruct x, y; cbn in *; subst. unfold Cminus, Cplus, Copp, RtoC; cbn. f_equal; ring.
  - apply andb_prop in H as [H1 H2].
    apply Rleb_true in H1, H2.
    now apply Cmod_le_of_comp.
Qed.
Lemma isequal_refl (x : cx) : isequal x x = true.
Proof.
  destruct x as [a b]. unfold isequal; cbn.
  assert (H : forall y, Reqb y y = true) by (intros; now apply Reqb_true).
  now rewrite !H.
Qed.
Lemma isequal_ex (x y : cx) : tau = 0 -> isequal x y = true -> x = y.
Proof.
  intros Ht H. apply isequal_true in H; [|lra]. rewrite Ht in H.
  assert (Hz : Cmod (Cminus x y) = 0) by (pose proof (Cmod_ge_0 (Cminus x y)); lra).
  apply Cmod_eq_0 in Hz.
  change (@eq C x y).
  replace (x : C) with (Cplus (Cminus x y) y) by ring. rewrite Hz. ring.
Qed.
Lemma isone_true (x : cx) : 0 <= tau -> isone x = true -> Cmod (Cminus x (RtoC 1)) <= 2 * tau.
Proof. intros. apply isequal_true; auto. Qed.
Lemma isone_ex (x : cx) : tau = 0 -> isone x = true -> x = c1.
Proof. intros. now apply isequal_ex. Qed.
Lemma isnull_spec (x : cx) : isnull x = true <-> x = c0.
Proof.
  unfold isnull. rewrite norm2_Cmod. cbn.
  destruct (Reqb_spec (Cmod x * (Cmod x * 1)) 0) as [h|h]; split; intros H; auto; try discriminate.
  - apply Cmod_eq_0. nra.
  - exfalso; apply h. subst. change (@c0 (RNum tau)) with (RtoC 0). rewrite Cmod_0. ring.
Qed.
Lemma iszero_c1 : 0 <= tau < 1 -> iszero c1 = false.
Proof.
  intros. unfold iszero; cbn. rewrite Rabs_R1.
  destruct (Rleb_spec 1 tau); auto; lra.
Qed.
Lemma c1_neq_c0 : c1 <> c0.
Proof. intros H. apply (f_equal fst) in H. cbn in H. lra. Qed.
Lemma nltb_norm2 (x y : cx) : nltb (norm2 x) (norm2 y) = true <-> Cmod x < Cmod y.
Proof.
  rewrite !norm2_Cmod. pose proof (Cmod_ge_0 x); pose proof (Cmod_ge_0 y).
  cbn [nltb RNum]. rewrite Rltb_true. split; intros; nra.
Qed.
End R.
