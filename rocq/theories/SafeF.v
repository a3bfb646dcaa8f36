(* SafeF.v -- the arithmetics C66 is about: exact reals with any tolerance below
   one quarter, and reals rounded after every operation, of which IEEE-754
   binary64 with rounding to nearest even (no overflow) is an instance. *)
From Coq Require Import Reals Lra ZArith Bool List Lia Eqdep_dec.
From Flocq Require Import Core.
From Verif Require Import Num State DD Gates GC Measure Api RNum Wf Wp SafeA SafeW SafeO SafeC.
Import ListNotations.
Open Scope R_scope.

(* A rounding function: monotone, symmetric, idempotent; one, one half and the
   tolerance are representable; the square of the tolerance does not underflow.
   [dz] = the quotient by zero, [sq], [co], [si] = sqrt, cos, sin : any
   functions (the library never relies on their values for safety). *)
Class Rounding (rnd : R -> R) (tol : R) : Prop := {
  rnd_mono : forall x y, x <= y -> rnd x <= rnd y;
  rnd_odd : forall x, rnd (- x) = - rnd x;
  rnd_idem : forall x, rnd (rnd x) = rnd x;
  rnd_1 : rnd 1 = 1;
  rnd_half : rnd (1 / 2) = 1 / 2;
  rnd_tol : rnd tol = tol;
  tol_range : 0 < tol <= 1 / 4;
  rnd_tol2 : 0 < rnd (tol * tol)
}.

Lemma abs_between x y : Rabs x <= y -> - y <= x <= y.
Proof. intros H. pose proof (Rle_abs x). pose proof (Rle_abs (- x)). rewrite Rabs_Ropp in *. lra. Qed.

Section Rounded.
Context (rnd : R -> R) (tol : R) {RD : Rounding rnd tol}.

(* the machine numbers; double in include/dd.h:22-34 *)
Definition fnum : Type := {x : R | rnd x = x}.
Definition fv (x : fnum) : R := proj1_sig x.
Definition mk (x : R) : fnum := exist _ (rnd x) (rnd_idem x).
Lemma f_eq (x y : fnum) : fv x = fv y -> x = y.
Proof.
  destruct x as [x p], y as [y q]. cbn. intros ->. f_equal. apply UIP_dec. apply Req_EM_T.
Qed.

Context (dz sq co si : fnum -> fnum).

(* every operation rounds its exact result; comparisons are exact.
   SIMPLIFICATION: no overflow, no NaN, one zero *)
Definition FNum : NumOps := {|
  num := fnum; n0 := mk 0; n1 := mk 1;
  nadd := fun x y => mk (fv x + fv y); nsub := fun x y => mk (fv x - fv y);
  nmul := fun x y => mk (fv x * fv y);
  ndiv := fun x y => if Req_EM_T (fv y) 0 then dz x else mk (fv x / fv y);
  nopp := fun x => mk (- fv x); nabs := fun x => mk (Rabs (fv x));
  nsqrt := sq; ncos := co; nsin := si;
  nltb := fun x y => Rltb (fv x) (fv y); nleb := fun x y => Rleb (fv x) (fv y);
  neqb := fun x y => Reqb (fv x) (fv y); ntol := mk tol |}.

Lemma rnd_0 : rnd 0 = 0.
Proof. pose proof (rnd_odd 0) as H. rewrite Ropp_0 in H. lra. Qed.
Lemma fv_rnd x : rnd (fv x) = fv x. Proof. exact (proj2_sig x). Qed.
Lemma fv_mk x : fv (mk x) = rnd x. Proof. reflexivity. Qed.
Lemma rnd_abs (x : fnum) : rnd (Rabs (fv x)) = Rabs (fv x).
Proof. unfold Rabs. destruct (Rcase_abs (fv x)); [rewrite rnd_odd|]; rewrite fv_rnd; reflexivity. Qed.
Lemma rnd_pos x : 0 <= x -> 0 <= rnd x.
Proof. intros H. rewrite <- rnd_0. now apply rnd_mono. Qed.
Lemma rnd_ge1 x : 1 <= x -> 1 <= rnd x.
Proof. intros H. rewrite <- rnd_1. now apply rnd_mono. Qed.

#[local] Hint Extern 0 NumOps => exact FNum : typeclass_instances.
Lemma fn0 : fv (@n0 FNum) = 0. Proof. change (rnd 0 = 0). exact rnd_0. Qed.
Lemma fn1 : fv (@n1 FNum) = 1. Proof. change (rnd 1 = 1). apply rnd_1. Qed.
Lemma ftol : fv (@ntol FNum) = tol. Proof. change (rnd tol = tol). apply rnd_tol. Qed.
Lemma fabs (x : @num FNum) : fv (nabs x) = Rabs (fv x). Proof. exact (rnd_abs x). Qed.
Lemma fmul1 (x : @num FNum) : fv (nmul x n1) = fv x.
Proof. change (rnd (fv x * fv (@n1 FNum)) = fv x). rewrite fn1, Rmult_1_r. apply fv_rnd. Qed.
Lemma fmul0 (x : @num FNum) : fv (nmul x n0) = 0.
Proof. change (rnd (fv x * fv (@n0 FNum)) = 0). rewrite fn0, Rmult_0_r. apply rnd_0. Qed.
Lemma cmul1 (w : @cx FNum) : cmul w c1 = w.
Proof.
  destruct w as [a b]. unfold cmul, c1. cbn [fst snd]. f_equal; apply f_eq.
  - change (rnd (fv (nmul a n1) - fv (nmul b n0)) = fv a). rewrite fmul1, fmul0, Rminus_0_r. apply fv_rnd.
  - change (rnd (fv (nmul a n0) + fv (nmul b n1)) = fv b). rewrite fmul1, fmul0, Rplus_0_l. apply fv_rnd.
Qed.
Lemma iszero_iff (w : @cx FNum) : iszero w = true <-> Rabs (fv (fst w)) <= tol /\ Rabs (fv (snd w)) <= tol.
Proof.
  unfold iszero. rewrite andb_true_iff. cbn [nleb FNum]. rewrite !Rleb_true, ftol.
  change (rnd (Rabs (fv (fst w))) <= tol /\ rnd (Rabs (fv (snd w))) <= tol <-> Rabs (fv (fst w)) <= tol /\ Rabs (fv (snd w)) <= tol).
  rewrite !rnd_abs. reflexivity.
Qed.
Lemma norm2_pos (w : @cx FNum) : 0 <= fv (norm2 w).
Proof.
  apply rnd_pos. apply Rplus_le_le_0_compat; apply rnd_pos; apply Rle_0_sqr.
Qed.
Lemma sq_tol x : tol < Rabs x -> rnd (tol * tol) <= rnd (x * x).
Proof.
  intros H. apply rnd_mono. pose proof tol_range as HH. rewrite <- (Rabs_right (x * x)) by (apply Rle_ge, Rle_0_sqr).
  rewrite Rabs_mult. apply Rmult_le_compat; lra.
Qed.
Lemma norm2_nz (w : @cx FNum) : iszero w = false -> fv (norm2 w) <> 0.
Proof.
  intros Hz. pose proof rnd_tol2 as Ht.
  assert (H : tol < Rabs (fv (fst w)) \/ tol < Rabs (fv (snd w))).
  { destruct (Rlt_or_le tol (Rabs (fv (fst w)))); [now left|]. destruct (Rlt_or_le tol (Rabs (fv (snd w)))); [now right|].
    assert (X : iszero w = true) by (apply iszero_iff; auto). congruence. }
  assert (Hp : rnd (tol * tol) <= fv (norm2 w)); [|lra].
  change (rnd (tol * tol) <= rnd (rnd (fv (fst w) * fv (fst w)) + rnd (fv (snd w) * fv (snd w)))).
  rewrite <- (rnd_idem (tol * tol)). apply rnd_mono.
  pose proof (rnd_pos _ (Rle_0_sqr (fv (fst w)))) as P0. pose proof (rnd_pos _ (Rle_0_sqr (fv (snd w)))) as P1. unfold Rsqr in *.
  destruct H as [H|H]; apply sq_tol in H; lra.
Qed.

#[export] Instance FArith : Arith FNum.
Proof.
  pose proof tol_range as Htol.
  assert (Hequal : forall w x : @cx FNum, isequal w x = true <->
    (fv (fst w) = fv (fst x) /\ fv (snd w) = fv (snd x)) \/
    (Rabs (rnd (fv (fst w) - fv (fst x))) <= tol /\ Rabs (rnd (fv (snd w) - fv (snd x))) <= tol)).
  { intros w x. unfold isequal. rewrite orb_true_iff, !andb_true_iff. cbn [nleb neqb FNum]. rewrite !Rleb_true, !Reqb_true, ftol.
    rewrite !fabs. reflexivity. }
  refine {| zr := fun x => fv x = 0; ps := fun x => 1 <= fv x; nn := fun x => 0 <= fv x |}.
  - exact fn0.
  - intros x y Hx Hy. change (rnd (fv x + fv y) = 0). rewrite Hx, Hy, Rplus_0_r. apply rnd_0.
  - intros x y Hx Hy. change (rnd (fv x - fv y) = 0). rewrite Hx, Hy, Rminus_0_r. apply rnd_0.
  - intros x y Hx. change (rnd (fv x * fv y) = 0). rewrite Hx, Rmult_0_l. apply rnd_0.
  - intros x y Hx. change (rnd (fv y * fv x) = 0). rewrite Hx, Rmult_0_r. apply rnd_0.
  - intros x w Hx Hw. rewrite cmul1 in Hw. apply norm2_nz in Hw.
    change (fv (if Req_EM_T (fv (norm2 w)) 0 then dz x else mk (fv x / fv (norm2 w))) = 0).
    destruct (Req_EM_T (fv (norm2 w)) 0); [contradiction|]. rewrite fv_mk, Hx. unfold Rdiv. rewrite Rmult_0_l. apply rnd_0.
  - intros x Hx. cbn [nleb FNum]. apply Rleb_true. rewrite ftol, fabs, Hx, Rabs_R0. lra.
  - intros x y Hx Hy. destruct (isone (x, y)) eqn:H1; [|reflexivity]. exfalso. apply Hequal in H1. cbn [fst snd c1] in H1.
    rewrite Hx, Hy, fn1, fn0 in H1. destruct H1 as [[H1 _]|[H1 _]]; [lra|].
    replace (0 - 1) with (- (1)) in H1 by ring. rewrite rnd_odd, rnd_1, Rabs_Ropp, Rabs_R1 in H1. lra.
  - intros x Hx. cbn [neqb FNum]. apply Reqb_true. rewrite Hx, fn0. reflexivity.
  - intros x th Hx Hth. cbn [nltb nleb FNum] in *. apply Rleb_true in Hth. apply Rltb_false. rewrite fn0 in Hth. lra.
  - destruct (iszero c1) eqn:H1; [|reflexivity]. apply iszero_iff in H1. cbn [fst snd c1] in H1. rewrite fn1, Rabs_R1 in H1. lra.
  - exact cmul1.
  - intros w. apply Hequal. left. auto.
  - intros w x H. apply Hequal in H. apply Hequal. destruct H as [[H1 H2]|[H1 H2]]; [left; auto|right].
    split; [rewrite <- (Ropp_minus_distr (fv (fst w)))|rewrite <- (Ropp_minus_distr (fv (snd w)))]; rewrite rnd_odd, Rabs_Ropp; assumption.
  - intros w H. destruct (iszero w) eqn:Hz; [|reflexivity]. exfalso. apply iszero_iff in Hz as [Hz _]. apply Hequal in H. cbn [fst snd c1] in H.
    rewrite fn1 in H. destruct H as [[H _]|[H _]]; [rewrite H, Rabs_R1 in Hz; lra|].
    apply abs_between in Hz. assert (X : rnd (fv (fst w) - 1) <= - (1 / 2)).
    { rewrite <- rnd_half, <- rnd_odd. apply rnd_mono. lra. }
    apply abs_between in H. lra.
  - intros w H. apply iszero_iff. apply Hequal in H. cbn [fst snd c0] in H. rewrite fn0, !Rminus_0_r, !fv_rnd in H.
    destruct H as [[-> ->]|H]; [|exact H]. rewrite Rabs_R0. lra.
  - rewrite fn1. lra.
  - intros x w Hx. pose proof (norm2_pos w) as Hp. split; apply rnd_pos; apply Rmult_le_pos; lra.
  - assert (Hc1 : fv (norm2 (@c1 FNum)) = 1).
    { change (rnd (fv (@nmul FNum n1 n1) + fv (@nmul FNum n0 n0)) = 1). rewrite fmul1, fmul0, fn1, Rplus_0_r. apply rnd_1. }
    intros x Hx. split; apply rnd_ge1; rewrite Hc1; lra.
  - intros x y Hx Hy. split; apply rnd_ge1; lra.
  - intros x Hx. cbn [neqb nltb FNum]. rewrite fn0. split.
    + destruct (Reqb_spec (fv x) 0); [lra|reflexivity].
    + apply Rltb_true. lra.
  - intros x z th Hx Hz Hth. cbn [nltb FNum] in *. apply Rltb_true in Hth. apply Rltb_true. rewrite fn1 in Hth.
    change (fv (ndiv x (nadd x z))) with (fv (if Req_EM_T (rnd (fv x + fv z)) 0 then dz x else mk (fv x / rnd (fv x + fv z)))).
    rewrite Hz, Rplus_0_r, fv_rnd. destruct (Req_EM_T (fv x) 0); [lra|]. rewrite fv_mk. replace (fv x / fv x) with 1 by (field; assumption). now rewrite rnd_1.
  - intros x z Hx Hz. change (rnd (fv (@n1 FNum) - fv (ndiv x (nadd x z))) = 0). rewrite fn1.
    change (fv (ndiv x (nadd x z))) with (fv (if Req_EM_T (rnd (fv x + fv z)) 0 then dz x else mk (fv x / rnd (fv x + fv z)))).
    rewrite Hz, Rplus_0_r, fv_rnd. destruct (Req_EM_T (fv x) 0); [lra|]. rewrite fv_mk. replace (fv x / fv x) with 1 by (field; assumption).
    rewrite rnd_1. replace (1 - 1) with 0 by ring. apply rnd_0.
  - intros x z Hx Hz.
    change (fv (ndiv z (nadd z x))) with (fv (if Req_EM_T (rnd (fv z + fv x)) 0 then dz z else mk (fv z / rnd (fv z + fv x)))).
    rewrite Hz, Rplus_0_l, fv_rnd. destruct (Req_EM_T (fv x) 0); [lra|]. rewrite fv_mk. unfold Rdiv. rewrite Rmult_0_l. apply rnd_0.
Qed.
Lemma FNum_tol : @ntol FNum <> @n0 FNum.
Proof. intros H. apply (f_equal fv) in H. rewrite ftol, fn0 in H. pose proof tol_range. lra. Qed.
End Rounded.

(* exact arithmetic is the rounding that does nothing *)
#[export] Instance exact_rounding tol : 0 < tol <= 1 / 4 -> Rounding (fun x => x) tol.
Proof. intros H. constructor; auto; intros; lra || nra. Qed.

(* IEEE-754 binary64, round to nearest even, gradual underflow *)
Definition rnd64 : R -> R := round radix2 (FLT_exp (-1074) 53) ZnearestE.
Definition tol64 : R := bpow radix2 (-42).
#[export] Instance binary64 : Rounding rnd64 tol64.
Proof.
  assert (Hp : Prec_gt_0 53) by reflexivity.
  pose proof (FLT_exp_valid (-1074) 53) as Hv.
  assert (Hb : forall e, (-1074 <= e)%Z -> rnd64 (bpow radix2 e) = bpow radix2 e).
  { intros e He. apply round_generic; [apply valid_rnd_N|]. apply generic_format_FLT_bpow; auto. }
  assert (Hhalf : 1 / 2 = bpow radix2 (-1)) by (cbn; lra).
  assert (Hone : 1 = bpow radix2 0) by reflexivity.
  constructor.
  - intros x y H. apply round_le; [apply FLT_exp_valid; reflexivity|apply valid_rnd_N|exact H].
  - intros x. apply round_NE_opp.
  - intros x. apply round_generic; [apply valid_rnd_N|]. apply generic_format_round; [apply FLT_exp_valid; reflexivity|apply valid_rnd_N].
  - rewrite Hone. apply Hb. lia.
  - rewrite Hhalf. apply Hb. lia.
  - apply Hb. lia.
  - unfold tol64. split; [apply bpow_gt_0|]. replace (1 / 4) with (bpow radix2 (-2)) by (cbn; lra). apply bpow_le. lia.
  - unfold tol64. rewrite <- bpow_plus. rewrite Hb by lia. apply bpow_gt_0.
Qed.
