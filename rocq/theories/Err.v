(* Err.v -- the error bounds induced by the comparison tolerance.  Every bound
   is 0 when the tolerance is 0. *)
From Coq Require Import Reals Lra Psatz.
From Verif Require Import RNum.
Open Scope R_scope.

Section Err.
Context (tau : R) {HTol : Tol tau}.
Let Htau : 0 <= tau < 1 / 2 := tol_ok.
(* two components within tau of each other differ by at most 2 tau in modulus *)
Definition eps : R := 2 * tau.
Lemma eps_pos : 0 <= eps. Proof. unfold eps; lra. Qed.

(* makeVEdge / makeMEdge on children of modulus <= W *)
Definition mkerr (W : R) : R := eps + 2 * eps * (W + eps).
Lemma mkerr_pos W : 0 <= W -> 0 <= mkerr W.
Proof. pose proof eps_pos. unfold mkerr; intros; nra. Qed.
Lemma mkerr_mono W W' : W <= W' -> mkerr W <= mkerr W'.
Proof. pose proof eps_pos. unfold mkerr; intros; nra. Qed.

(* vv_add2 at level n on operands with |l.w| + |r.w| <= s *)
Fixpoint eadd (n : nat) (s : R) : R :=
  match n with
  | O => 2 * eps
  | S m => let s' := s + 2 * eps in eadd m s' + mkerr (s' + eadd m s') + 3 * eps
  end.
(* the freshly computed (cached) result *)
Definition ecomp (m : nat) (s : R) : R := eadd m s + mkerr (s + eadd m s).
Lemma eadd_S n s : eadd (S n) s = ecomp n (s + 2 * eps) + 3 * eps.
Proof. reflexivity. Qed.
Lemma eadd_pos n s : 0 <= s -> 0 <= eadd n s.
Proof.
  revert s. pose proof eps_pos as He. induction n as [|m IH]; intros s Hs; [cbn; lra|].
  rewrite eadd_S. unfold ecomp.
  pose proof (IH (s + 2 * eps) ltac:(lra)).
  pose proof (mkerr_pos (s + 2 * eps + eadd m (s + 2 * eps)) ltac:(lra)). lra.
Qed.
Lemma eadd_mono n s s' : 0 <= s <= s' -> eadd n s <= eadd n s'.
Proof.
  revert s s'. pose proof eps_pos as He. induction n as [|m IH]; intros s s' Hs; [cbn; lra|].
  rewrite !eadd_S. unfold ecomp.
  pose proof (IH (s + 2 * eps) (s' + 2 * eps) ltac:(lra)).
  pose proof (mkerr_mono (s + 2 * eps + eadd m (s + 2 * eps)) (s' + 2 * eps + eadd m (s' + 2 * eps)) ltac:(lra)).
  lra.
Qed.
Lemma ecomp_mono n s s' : 0 <= s <= s' -> ecomp n s <= ecomp n s'.
Proof.
  intros H. unfold ecomp. pose proof (eadd_mono n s s' H).
  pose proof (mkerr_mono (s + eadd n s) (s' + eadd n s') ltac:(lra)). lra.
Qed.
Lemma ecomp_pos n s : 0 <= s -> 0 <= ecomp n s.
Proof.
  intros H. unfold ecomp. pose proof (eadd_pos n s H). pose proof (mkerr_pos (s + eadd n s) ltac:(lra)). lra.
Qed.
Lemma eadd_ge2 n s : 0 <= s -> 2 * eps <= eadd n s.
Proof.
  destruct n as [|m]; intros; [cbn; lra|]. rewrite eadd_S.
  pose proof eps_pos. pose proof (ecomp_pos m (s + 2 * eps) ltac:(lra)). lra.
Qed.

(* mm_add2: as eadd, with one more eps because an identity level may turn a tiny
   cached result into zero *)
Fixpoint eaddm (n : nat) (s : R) : R :=
  match n with
  | O => 2 * eps
  | S m => let s' := s + 2 * eps in eaddm m s' + mkerr (s' + eaddm m s') + 4 * eps
  end.
Definition ecb (m : nat) (s : R) : R := eaddm m s + mkerr (s + eaddm m s).
(* the cached result *)
Definition ecompm (m : nat) (s : R) : R := ecb m s + eps.
Lemma eaddm_S n s : eaddm (S n) s = ecompm n (s + 2 * eps) + 3 * eps.
Proof. unfold ecompm, ecb. cbn [eaddm]. ring. Qed.
Lemma eaddm_pos n s : 0 <= s -> 0 <= eaddm n s.
Proof.
  revert s. pose proof eps_pos as He. induction n as [|m IH]; intros s Hs; [cbn; lra|].
  rewrite eaddm_S. unfold ecompm, ecb.
  pose proof (IH (s + 2 * eps) ltac:(lra)).
  pose proof (mkerr_pos (s + 2 * eps + eaddm m (s + 2 * eps)) ltac:(lra)). lra.
Qed.
Lemma eaddm_mono n s s' : 0 <= s <= s' -> eaddm n s <= eaddm n s'.
Proof.
  revert s s'. pose proof eps_pos as He. induction n as [|m IH]; intros s s' Hs; [cbn; lra|].
  rewrite !eaddm_S. unfold ecompm, ecb.
  pose proof (IH (s + 2 * eps) (s' + 2 * eps) ltac:(lra)).
  pose proof (mkerr_mono (s + 2 * eps + eaddm m (s + 2 * eps)) (s' + 2 * eps + eaddm m (s' + 2 * eps)) ltac:(lra)).
  lra.
Qed.
Lemma ecb_mono n s s' : 0 <= s <= s' -> ecb n s <= ecb n s'.
Proof.
  intros H. unfold ecb. pose proof (eaddm_mono n s s' H).
  pose proof (mkerr_mono (s + eaddm n s) (s' + eaddm n s') ltac:(lra)). lra.
Qed.
Lemma ecompm_mono n s s' : 0 <= s <= s' -> ecompm n s <= ecompm n s'.
Proof. intros H. unfold ecompm. pose proof (ecb_mono n s s' H). lra. Qed.
Lemma ecb_pos n s : 0 <= s -> 0 <= ecb n s.
Proof.
  intros H. unfold ecb. pose proof (eaddm_pos n s H). pose proof (mkerr_pos (s + eaddm n s) ltac:(lra)). lra.
Qed.
Lemma ecompm_pos n s : 0 <= s -> 0 <= ecompm n s.
Proof. intros H. unfold ecompm. pose proof (ecb_pos n s H). pose proof eps_pos. lra. Qed.
Lemma eaddm_ge2 n s : 0 <= s -> 2 * eps <= eaddm n s.
Proof.
  destruct n as [|m]; intros; [cbn; lra|]. rewrite eaddm_S.
  pose proof eps_pos. pose proof (ecompm_pos m (s + 2 * eps) ltac:(lra)). lra.
Qed.
Lemma eaddm_ecb n s : 0 <= s -> ecb n s + eps <= eaddm (S n) s.
Proof.
  intros H. rewrite eaddm_S. pose proof eps_pos as He.
  pose proof (ecompm_mono n s (s + 2 * eps) ltac:(lra)). unfold ecompm in *. lra.
Qed.
Lemma eaddm_up1 n s : 0 <= s -> eaddm n s <= eaddm (S n) s.
Proof.
  intros H. pose proof (eaddm_ecb n s H). unfold ecb in *. pose proof eps_pos.
  pose proof (eaddm_pos n s H). pose proof (mkerr_pos (s + eaddm n s) ltac:(lra)). lra.
Qed.
Lemma eaddm_up n m s : 0 <= s -> (n <= m)%nat -> eaddm n s <= eaddm m s.
Proof. intros H. induction 1 as [|m Hm IH]; [lra|]. pose proof (eaddm_up1 m s H). lra. Qed.
Lemma ecb_up n m s : 0 <= s -> (n <= m)%nat -> ecb n s <= ecb m s.
Proof.
  intros H Hm. unfold ecb. pose proof (eaddm_up n m s H Hm).
  pose proof (mkerr_mono (s + eaddm n s) (s + eaddm m s) ltac:(lra)). lra.
Qed.
Lemma ecompm_up n m s : 0 <= s -> (n <= m)%nat -> ecompm n s <= ecompm m s.
Proof. intros H Hm. unfold ecompm. pose proof (ecb_up n m s H Hm). lra. Qed.

(* mv_multiply2 at level n on operands with |l.w| <= a, |r.w| <= b, given the
   error [mu] of unit-weight products at that level *)
Definition mvbound (mu : R) (n : nat) (a b : R) : R :=
  2 ^ n * eps * (a + b) + (mu + eps) * (a * b) + eps.
Fixpoint emul (n : nat) : R :=
  match n with
  | O => 0
  | S m =>
      let p := mvbound (emul m) m 1 1 in
      let d := 2 * p + eadd m (2 * (2 ^ m + p)) in
      d + mkerr (2 ^ (S m) + d)
  end.
Definition emv (n : nat) (a b : R) : R := mvbound (emul n) n a b.
Lemma pow2_ge1 n : 1 <= 2 ^ n.
Proof. induction n as [|n IH]; cbn; lra. Qed.
Lemma mvbound_pos mu n a b : 0 <= mu -> 0 <= a -> 0 <= b -> 0 <= mvbound mu n a b.
Proof.
  intros. unfold mvbound. pose proof eps_pos as He. pose proof (pow2_ge1 n).
  assert (0 <= 2 ^ n * eps * (a + b)) by (repeat apply Rmult_le_pos; lra).
  assert (0 <= (mu + eps) * (a * b)) by (repeat apply Rmult_le_pos; lra). lra.
Qed.
Lemma emul_pos n : 0 <= emul n.
Proof.
  induction n as [|m IH]; cbn [emul]; [lra|].
  pose proof (mvbound_pos (emul m) m 1 1 IH ltac:(lra) ltac:(lra)).
  pose proof (pow2_ge1 m). pose proof (pow2_ge1 (S m)).
  pose proof (eadd_pos m (2 * (2 ^ m + mvbound (emul m) m 1 1)) ltac:(lra)).
  match goal with |- 0 <= ?d + mkerr ?x => pose proof (mkerr_pos x ltac:(lra)) end. lra.
Qed.
Lemma emv_pos n a b : 0 <= a -> 0 <= b -> 0 <= emv n a b.
Proof. intros. apply mvbound_pos; auto using emul_pos. Qed.
Lemma emv_mono n a b a' b' : 0 <= a <= a' -> 0 <= b <= b' -> emv n a b <= emv n a' b'.
Proof.
  intros. unfold emv, mvbound. pose proof eps_pos as He. pose proof (pow2_ge1 n). pose proof (emul_pos n).
  assert (2 ^ n * eps * (a + b) <= 2 ^ n * eps * (a' + b')).
  { apply Rmult_le_compat_l; [apply Rmult_le_pos; lra|lra]. }
  assert ((emul n + eps) * (a * b) <= (emul n + eps) * (a' * b')).
  { apply Rmult_le_compat_l; [lra|]. apply Rmult_le_compat; lra. }
  lra.
Qed.

(* mm_multiply2: the cached unit-weight product; one more eps for the rounding
   of the weight on identity levels *)
Fixpoint emulm (n : nat) : R :=
  match n with
  | O => 0
  | S m =>
      let p := mvbound (emulm m) m 1 1 in
      let d := 2 * p + eaddm m (2 * (2 ^ m + p)) in
      d + mkerr (2 ^ (S m) + d) + eps
  end.
Definition emm (n : nat) (a b : R) : R := mvbound (emulm n) n a b.
(* one block of a product *)
Definition eblk (m : nat) : R :=
  let p := mvbound (emulm m) m 1 1 in 2 * p + eaddm m (2 * (2 ^ m + p)).
Definition emulb (m : nat) : R := eblk m + mkerr (2 ^ (S m) + eblk m).
Lemma emulm_S m : emulm (S m) = emulb m + eps.
Proof. reflexivity. Qed.
Lemma emulm_pos n : 0 <= emulm n.
Proof.
  induction n as [|m IH]; cbn [emulm]; [lra|].
  pose proof (mvbound_pos (emulm m) m 1 1 IH ltac:(lra) ltac:(lra)).
  pose proof (pow2_ge1 m). pose proof (pow2_ge1 (S m)). pose proof eps_pos.
  pose proof (eaddm_pos m (2 * (2 ^ m + mvbound (emulm m) m 1 1)) ltac:(lra)).
  match goal with |- 0 <= ?d + mkerr ?x + eps => pose proof (mkerr_pos x ltac:(lra)) end. lra.
Qed.
Lemma eblk_pos m : 0 <= eblk m.
Proof.
  unfold eblk. pose proof (mvbound_pos (emulm m) m 1 1 (emulm_pos m) ltac:(lra) ltac:(lra)).
  pose proof (pow2_ge1 m). pose proof (eaddm_pos m (2 * (2 ^ m + mvbound (emulm m) m 1 1)) ltac:(lra)). lra.
Qed.
Lemma emulb_pos m : 0 <= emulb m.
Proof.
  unfold emulb. pose proof (eblk_pos m). pose proof (pow2_ge1 (S m)).
  pose proof (mkerr_pos (2 ^ S m + eblk m) ltac:(lra)). lra.
Qed.
Lemma mvbound_mono mu mu' n n' a b a' b' : 0 <= mu <= mu' -> (n <= n')%nat -> 0 <= a <= a' -> 0 <= b <= b' ->
  mvbound mu n a b <= mvbound mu' n' a' b'.
Proof.
  intros Hmu Hn Ha Hb. unfold mvbound. pose proof eps_pos as He. pose proof (pow2_ge1 n).
  assert (2 ^ n <= 2 ^ n') by (apply Rle_pow; [lra|auto]).
  assert (0 <= a * b) by (apply Rmult_le_pos; lra).
  assert (2 ^ n * eps * (a + b) <= 2 ^ n' * eps * (a' + b')).
  { rewrite !Rmult_assoc. apply Rmult_le_compat; try lra.
    - apply Rmult_le_pos; lra.
    - apply Rmult_le_compat_l; lra. }
  assert ((mu + eps) * (a * b) <= (mu' + eps) * (a' * b')).
  { apply Rmult_le_compat; try lra. apply Rmult_le_compat; lra. }
  lra.
Qed.
Lemma emulm_up1 n : emulm n <= emulm (S n).
Proof.
  rewrite emulm_S. unfold emulb, eblk. pose proof eps_pos. pose proof (emulm_pos n) as Hp.
  assert (Hm : emulm n <= mvbound (emulm n) n 1 1).
  { unfold mvbound. pose proof (pow2_ge1 n). assert (0 <= 2 ^ n * eps * (1 + 1)) by (repeat apply Rmult_le_pos; lra). lra. }
  pose proof (pow2_ge1 n). pose proof (pow2_ge1 (S n)).
  pose proof (eaddm_pos n (2 * (2 ^ n + mvbound (emulm n) n 1 1)) ltac:(lra)).
  match goal with |- _ <= ?d + mkerr ?x + eps => pose proof (mkerr_pos x ltac:(lra)) end. lra.
Qed.
Lemma emulm_up n m : (n <= m)%nat -> emulm n <= emulm m.
Proof. induction 1 as [|m Hm IH]; [lra|]. pose proof (emulm_up1 m). lra. Qed.
Lemma emm_pos n a b : 0 <= a -> 0 <= b -> 0 <= emm n a b.
Proof. intros. apply mvbound_pos; auto using emulm_pos. Qed.
Lemma emm_mono n n' a b a' b' : (n <= n')%nat -> 0 <= a <= a' -> 0 <= b <= b' -> emm n a b <= emm n' a' b'.
Proof. intros. apply mvbound_mono; auto. split; [apply emulm_pos|now apply emulm_up]. Qed.

Lemma eps_0 : tau = 0 -> eps = 0.
Proof. unfold eps; intros ->; ring. Qed.
Lemma mkerr_0 W : tau = 0 -> mkerr W = 0.
Proof. intros H. unfold mkerr. rewrite (eps_0 H). ring. Qed.
Lemma eadd_0 n s : tau = 0 -> eadd n s = 0.
Proof.
  intros H. revert s. induction n as [|m IH]; intros s; cbn [eadd]; rewrite ?(eps_0 H).
  - ring.
  - rewrite IH, mkerr_0 by auto. ring.
Qed.
Lemma ecomp_0 n s : tau = 0 -> ecomp n s = 0.
Proof. intros H. unfold ecomp. rewrite eadd_0, mkerr_0 by auto. ring. Qed.
Lemma emul_0 n : tau = 0 -> emul n = 0.
Proof.
  intros H. induction n as [|m IH]; cbn [emul]; auto.
  rewrite IH, eadd_0, mkerr_0 by auto. unfold mvbound. rewrite (eps_0 H). ring.
Qed.
Lemma emv_0 n a b : tau = 0 -> emv n a b = 0.
Proof. intros H. unfold emv, mvbound. rewrite (emul_0 n H), (eps_0 H). ring. Qed.
Lemma eaddm_0 n s : tau = 0 -> eaddm n s = 0.
Proof.
  intros H. revert s. induction n as [|m IH]; intros s; cbn [eaddm]; rewrite ?(eps_0 H).
  - ring.
  - rewrite IH, mkerr_0 by auto. ring.
Qed.
Lemma ecompm_0 n s : tau = 0 -> ecompm n s = 0.
Proof. intros H. unfold ecompm, ecb. rewrite eaddm_0, mkerr_0, eps_0 by auto. ring. Qed.
Lemma emulm_0 n : tau = 0 -> emulm n = 0.
Proof.
  intros H. induction n as [|m IH]; cbn [emulm]; auto.
  rewrite IH, eaddm_0, mkerr_0, (eps_0 H) by auto. unfold mvbound. rewrite (eps_0 H). ring.
Qed.
Lemma emm_0 n a b : tau = 0 -> emm n a b = 0.
Proof. intros H. unfold emm, mvbound. rewrite (emulm_0 n H), (eps_0 H). ring. Qed.
End Err.
