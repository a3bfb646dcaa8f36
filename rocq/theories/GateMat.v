(* GateMat.v -- property C23: the gate matrices are the documented unitaries. *)
From Coq Require Import Reals Lra Psatz ZArith Bool List Lia Arith String.
From Coquelicot Require Import Complex.
From Verif Require Import Num State DD Gates RNum Spec SpecP.
Import ListNotations.
Open Scope R_scope.

(* ---- the documented matrices ---- *)
Definition cis (a : R) : C := (cos a, sin a).                    (* e^{ia} *)
Definition mscal (c : C) (A : matrix) : matrix := fun i j => Cmult c (A i j).
Definition madd (A B : matrix) : matrix := fun i j => Cplus (A i j) (B i j).
Definition m2x2 (a b c d : C) : matrix := fun i j =>
  match i, j with O, O => a | O, S O => b | S O, O => c | S O, S O => d | _, _ => RtoC 0 end.
Definition PX := m2x2 (RtoC 0) (RtoC 1) (RtoC 1) (RtoC 0).
Definition PY := m2x2 (RtoC 0) (Copp Ci) Ci (RtoC 0).
Definition PZ := m2x2 (RtoC 1) (RtoC 0) (RtoC 0) (RtoC (-1)).
(* exp(-i a/2 P) for an involution P *)
Definition rot (a : R) (P : matrix) : matrix :=
  madd (mscal (RtoC (cos (a / 2))) ident) (mscal (Cmult (Copp Ci) (RtoC (sin (a / 2)))) P).
Definition phase_gate (a : R) : matrix := m2x2 (RtoC 1) (RtoC 0) (RtoC 0) (cis a).

Section GateMat.
Context (tau : R).
#[local] Hint Extern 0 NumOps => exact (RNum tau) : typeclass_instances.
Notation gmat := (@gmat (RNum tau)).

Lemma half_n : @nhalf (RNum tau) = / 2.
Proof. unfold nhalf, n2. cbn. lra. Qed.
Lemma halve_n a : @halve (RNum tau) a = a / 2.
Proof. unfold halve, n2. cbn. change (1 + 1) with 2. reflexivity. Qed.
Definition s2 : R := sqrt (/ 2).
Lemma SQRT2_n : @SQRT2 (RNum tau) = s2.
Proof. unfold SQRT2, s2. rewrite half_n. reflexivity. Qed.
Lemma s2_sq : s2 * s2 = / 2.
Proof. unfold s2. apply sqrt_sqrt. lra. Qed.
Lemma cs2 a : cos a * cos a + sin a * sin a = 1.
Proof. pose proof (sin2_cos2 a) as Hs. unfold Rsqr in Hs. lra. Qed.

Lemma lt2 i : (i < 2)%nat -> i = 0%nat \/ i = 1%nat. Proof. lia. Qed.
Lemma lt4 i : (i < 4)%nat -> i = 0%nat \/ i = 1%nat \/ i = 2%nat \/ i = 3%nat. Proof. lia. Qed.
Ltac cases2 Hi Hj := cbn in Hi, Hj; apply lt2 in Hi; apply lt2 in Hj; destruct Hi as [->| ->], Hj as [->| ->].
Ltac cases4 Hi Hj := cbn in Hi, Hj; apply lt4 in Hi; apply lt4 in Hj;
  destruct Hi as [->|[->|[->| ->]]], Hj as [->|[->|[->| ->]]].
Ltac norm := unfold mm, adjoint, ident, madd, mscal, rot, kronm, phase_gate, PX, PY, PZ, m2x2, Imat, Hmat, Xmat, Ymat, Zmat, Smat, Sdagmat, Tmat, Tdagmat, SXmat, SXdagmat,
    Vmat, Vdagmat, mk2, mk4, cf_one, cf_mone, cf_zero, cf_i, cf_mi, cf_SQRT2_2, cf_mSQRT2_2, cf_iSQRT2_2, cf_miSQRT2_2,
    cf_1plusi, cf_1minusi, cf_1plusi_2, cf_1minusi_2, rx, ry, rz, u, u3, u1, u2, p_gate, r_gate, rxx_matrix, ryy_matrix, rzz_matrix,
    rzx_matrix, swap_matrix, iswap_matrix, cexp, cscale, copp, cmul, c0, c1, cis;
  rewrite ?half_n, ?SQRT2_n, ?halve_n;
  cbn -[s2 cos sin Rdiv Rinv IZR];
  unfold Cplus, Cmult, Copp, Cconj, RtoC, Ci; cbn -[s2 cos sin Rdiv Rinv IZR].
Ltac fin := pose proof s2_sq; apply injective_projections; cbn -[s2 cos sin Rdiv Rinv IZR]; try lra; try nra.


Ltac un2 := split; intros i j Hi Hj; cases2 Hi Hj; norm; fin.
Ltac un4 := split; intros i j Hi Hj; cases4 Hi Hj; norm; fin.
Ltac eq2 := intros i j Hi Hj; cases2 Hi Hj; norm; fin.
Ltac eq4 := intros i j Hi Hj; cases4 Hi Hj; norm; fin.

Theorem C23_constant_gates_unitary :
  unitary 1 (Imat : gmat) /\ unitary 1 (Hmat : gmat) /\ unitary 1 (Xmat : gmat) /\ unitary 1 (Ymat : gmat) /\
  unitary 1 (Zmat : gmat) /\ unitary 1 (Smat : gmat) /\ unitary 1 (Sdagmat : gmat) /\ unitary 1 (Tmat : gmat) /\
  unitary 1 (Tdagmat : gmat) /\ unitary 1 (SXmat : gmat) /\ unitary 1 (SXdagmat : gmat) /\ unitary 1 (Vmat : gmat) /\
  unitary 1 (Vdagmat : gmat) /\ unitary 2 (swap_matrix : gmat) /\ unitary 2 (iswap_matrix : gmat).
Proof.
  do 13 (split; [un2|]). split; un4.
Qed.

(* documented relations between the constant gates *)
Theorem C23_constant_relations :
  meq 1 (mm 1 (Smat : gmat) (Sdagmat : gmat)) ident /\ meq 1 (mm 1 (Tmat : gmat) (Tdagmat : gmat)) ident /\
  meq 1 (mm 1 (SXmat : gmat) (SXdagmat : gmat)) ident /\ meq 1 (mm 1 (Vmat : gmat) (Vdagmat : gmat)) ident /\
  meq 1 (mm 1 (Tmat : gmat) (Tmat : gmat)) (Smat : gmat) /\ meq 1 (mm 1 (Smat : gmat) (Smat : gmat)) (Zmat : gmat) /\
  meq 1 (mm 1 (SXmat : gmat) (SXmat : gmat)) (Xmat : gmat) /\
  meq 1 (mm 1 (Hmat : gmat) (Hmat : gmat)) ident /\ meq 1 (mm 1 (Xmat : gmat) (Xmat : gmat)) ident /\
  meq 1 (mm 1 (Ymat : gmat) (Ymat : gmat)) ident /\ meq 1 (mm 1 (Zmat : gmat) (Zmat : gmat)) ident /\
  meq 1 (mm 1 (Hmat : gmat) (mm 1 (Xmat : gmat) (Hmat : gmat))) (Zmat : gmat) /\
  meq 1 (mm 1 (Xmat : gmat) (Ymat : gmat)) (mscal Ci (Zmat : gmat)) /\
  meq 1 (mm 1 (Vmat : gmat) (Vmat : gmat)) (mscal (Copp Ci) (Xmat : gmat)) /\
  meq 2 (mm 2 (swap_matrix : gmat) (swap_matrix : gmat)) ident.
Proof.
  do 14 (split; [eq2|]). eq4.
Qed.
(* the constant gates are the textbook matrices *)
Theorem C23_constant_values :
  meq 1 (Imat : gmat) ident /\ meq 1 (Xmat : gmat) PX /\ meq 1 (Ymat : gmat) PY /\ meq 1 (Zmat : gmat) PZ /\
  meq 1 (Hmat : gmat) (mscal (RtoC (/ sqrt 2)) (madd PX PZ)) /\
  meq 1 (Smat : gmat) (phase_gate (PI / 2)) /\ meq 1 (Sdagmat : gmat) (phase_gate (- (PI / 2))) /\
  meq 1 (Tmat : gmat) (phase_gate (PI / 4)) /\ meq 1 (Tdagmat : gmat) (phase_gate (- (PI / 4))).
Proof.
  assert (Hs : s2 = / sqrt 2) by (unfold s2; apply sqrt_inv).
  do 4 (split; [eq2|]).
  split; [eq2; lra|].
  split; [intros i j Hi Hj; cases2 Hi Hj; norm; rewrite ?cos_PI2, ?sin_PI2; fin|].
  split; [intros i j Hi Hj; cases2 Hi Hj; norm; rewrite ?cos_neg, ?sin_neg, ?cos_PI2, ?sin_PI2; fin|].
  split; [intros i j Hi Hj; cases2 Hi Hj; norm; rewrite ?cos_PI4, ?sin_PI4; fin|].
  intros i j Hi Hj; cases2 Hi Hj; norm; rewrite ?cos_neg, ?sin_neg, ?cos_PI4, ?sin_PI4; fin.
Qed.

Lemma ss a : sin a * sin a = 1 - cos a * cos a.
Proof. pose proof (cs2 a). lra. Qed.
Ltac trig := apply injective_projections; cbn -[s2 cos sin Rdiv Rinv IZR];
  repeat (rewrite ?cos_plus, ?sin_plus); rewrite ?cos_neg, ?sin_neg.

(* every parametrised gate is unitary, for all angles *)
Theorem C23_rotation_gates_unitary (a b c d : R) :
  unitary 1 (rx a : gmat) /\ unitary 1 (ry a : gmat) /\ unitary 1 (rz a : gmat) /\
  unitary 1 (p_gate a : gmat) /\ unitary 1 (u1 a : gmat) /\ unitary 1 (u2 PI a b : gmat) /\
  unitary 1 (u3 a b c : gmat) /\ unitary 1 (u a b c d : gmat) /\ unitary 1 (r_gate a b : gmat) /\
  unitary 2 (rxx_matrix a : gmat) /\ unitary 2 (ryy_matrix a : gmat) /\
  unitary 2 (rzz_matrix a : gmat) /\ unitary 2 (rzx_matrix a : gmat).
Proof.
  assert (Hu : forall a b c d, unitary 1 (u a b c d : gmat)).
  { clear. intros a b c d. split; intros i j Hi Hj; cases2 Hi Hj; norm; trig;
    pose proof (ss (a / 2)) as H1; pose proof (ss b) as H2; pose proof (ss c) as H3; pose proof (ss d) as H4;
    ring [H1 H2 H3 H4]. }
  pose proof (cs2 (a / 2)) as Ha. pose proof (cs2 a) as Ha'.
  do 4 (split; [un2|]).
  do 4 (split; [apply Hu|]).
  split; [split; intros i j Hi Hj; cases2 Hi Hj; norm; trig; pose proof (ss (a / 2)) as H1; pose proof (ss b) as H2; ring [H1 H2]|].
  do 3 (split; [un4|]). un4.
Qed.

(* the rotations are exp(-i a/2 P) for the documented generator P; on two
   qubits the FIRST factor of the tensor product is the more significant index
   bit (target 0 of makeTwoQubitGate) *)
Theorem C23_rotation_values (a b c d : R) :
  meq 1 (rx a : gmat) (rot a PX) /\ meq 1 (ry a : gmat) (rot a PY) /\ meq 1 (rz a : gmat) (rot a PZ) /\
  meq 1 (p_gate a : gmat) (phase_gate a) /\ meq 1 (u1 a : gmat) (phase_gate a) /\
  meq 1 (r_gate a b : gmat) (rot a (madd (mscal (RtoC (cos b)) PX) (mscal (RtoC (sin b)) PY))) /\
  meq 2 (rxx_matrix a : gmat) (rot a (kronm 1 PX PX)) /\ meq 2 (ryy_matrix a : gmat) (rot a (kronm 1 PY PY)) /\
  meq 2 (rzz_matrix a : gmat) (rot a (kronm 1 PZ PZ)) /\ meq 2 (rzx_matrix a : gmat) (rot a (kronm 1 PX PZ)) /\
  meq 1 (u a b c d : gmat)
        (mscal (Cmult (cis d) (cis ((b + c) / 2))) (mm 1 (rot b PZ) (mm 1 (rot a PY) (rot c PZ)))) /\
  meq 1 (u3 a b c : gmat) (u a b c 0 : gmat) /\ meq 1 (u2 PI b c : gmat) (u3 (PI / 2) b c : gmat).
Proof.
  do 4 (split; [eq2|]).
  split. { intros i j Hi Hj; cases2 Hi Hj; norm; rewrite ?Rplus_0_l, ?Rplus_0_r; unfold Rdiv; rewrite ?Rmult_0_l, ?cos_0, ?sin_0; fin; rewrite ?cos_0, ?sin_0; lra. }
  split. { intros i j Hi Hj; cases2 Hi Hj; norm; trig; ring. }
  do 4 (split; [eq4|]).
  split.
  { intros i j Hi Hj; cases2 Hi Hj; norm; unfold Cplus, Cmult; cbn -[s2 cos sin Rdiv Rinv IZR];
      replace ((b + c) / 2) with (b / 2 + c / 2) by field.
    all: pose proof (cos_plus (b/2) (b/2)) as E1; pose proof (sin_plus (b/2) (b/2)) as E2;
      replace (b / 2 + b / 2) with b in E1, E2 by field;
      pose proof (cos_plus (c/2) (c/2)) as E3; pose proof (sin_plus (c/2) (c/2)) as E4;
      replace (c / 2 + c / 2) with c in E3, E4 by field;
      trig; rewrite ?E1, ?E2, ?E3, ?E4;
      pose proof (ss (b / 2)) as H2; pose proof (ss (c / 2)) as H3; ring [H2 H3]. }
  split; [intros i j Hi Hj; reflexivity|]. intros i j Hi Hj. unfold u2, u3. rewrite halve_n. reflexivity.
Qed.

(* rotations about one axis compose by adding angles, and angle 0 is the identity *)
Theorem C23_rotations_compose (a b : R) :
  meq 1 (mm 1 (rx a : gmat) (rx b : gmat)) (rx (a + b) : gmat) /\
  meq 1 (mm 1 (ry a : gmat) (ry b : gmat)) (ry (a + b) : gmat) /\
  meq 1 (mm 1 (rz a : gmat) (rz b : gmat)) (rz (a + b) : gmat) /\
  meq 1 (mm 1 (p_gate a : gmat) (p_gate b : gmat)) (p_gate (a + b) : gmat) /\
  meq 2 (mm 2 (rxx_matrix a : gmat) (rxx_matrix b : gmat)) (rxx_matrix (a + b) : gmat) /\
  meq 2 (mm 2 (ryy_matrix a : gmat) (ryy_matrix b : gmat)) (ryy_matrix (a + b) : gmat) /\
  meq 2 (mm 2 (rzz_matrix a : gmat) (rzz_matrix b : gmat)) (rzz_matrix (a + b) : gmat) /\
  meq 2 (mm 2 (rzx_matrix a : gmat) (rzx_matrix b : gmat)) (rzx_matrix (a + b) : gmat).
Proof.
  assert (E : forall x y, (x + y) / 2 = x / 2 + y / 2) by (intros; field).
  repeat match goal with |- _ /\ _ => split end; intros i j Hi Hj; (cases2 Hi Hj || cases4 Hi Hj); norm;
  rewrite ?E; trig; ring.
Qed.

(* the gates looked up by name *)
Theorem C23_names :
  map (fun nm => gateMap nm : gmat) ["I"; "H"; "X"; "Y"; "Z"; "S"; "Sdag"; "T"; "Tdag"; "SX"; "SXdag"; "V"; "Vdag"]%string
  = [Imat; Hmat; Xmat; Ymat; Zmat; Smat; Sdagmat; Tmat; Tdagmat; SXmat; SXdagmat; Vmat; Vdagmat].
Proof. reflexivity. Qed.
Definition gate_names := ["I"; "H"; "X"; "Y"; "Z"; "S"; "Sdag"; "T"; "Tdag"; "SX"; "SXdag"; "V"; "Vdag"]%string.
(* FINDING: an unknown name is not rejected; it silently gives the zero matrix,
   which is not unitary (and maps every state to the zero vector) *)
Theorem C23_unknown_name_refuted (nm : string) :
  ~ In nm gate_names -> meq 1 (gateMap nm : gmat) (fun _ _ => RtoC 0) /\ ~ unitary 1 (gateMap nm : gmat).
Proof.
  intros Hn.
  assert (E : gateMap nm = (mk2 c0 c0 c0 c0 : gmat)).
  { unfold gateMap. repeat match goal with |- context [String.eqb nm ?x] =>
      destruct (String.eqb_spec nm x) as [->|]; [exfalso; apply Hn; cbn; tauto|] end. reflexivity. }
  assert (Hz : meq 1 (gateMap nm : gmat) (fun _ _ => RtoC 0)).
  { rewrite E. intros i j Hi Hj; cases2 Hi Hj; reflexivity. }
  split; [exact Hz|].
  intros [Hu _]. specialize (Hu 0%nat 0%nat). revert Hu. norm.
  rewrite !E. cbn. intros Hu. assert (H2 : (0 < 2)%nat) by auto.
  specialize (Hu H2 H2). injection Hu as Hu _. lra.
Qed.
(* every gate that can be looked up successfully is unitary *)
Theorem C23_named_unitary nm : In nm gate_names -> unitary 1 (gateMap nm : gmat).
Proof.
  intros Hin. pose proof C23_constant_gates_unitary as H.
  destruct H as (H1&H2&H3&H4&H5&H6&H7&H8&H9&H10&H11&H12&H13&_).
  cbn in Hin. repeat (destruct Hin as [<-|Hin]; [assumption|]). contradiction.
Qed.
End GateMat.
