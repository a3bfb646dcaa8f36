(* Sums.v -- sums over bit assignments. *)
From Coq Require Import Reals Lra Psatz ZArith Bool List Lia Arith.
From Coquelicot Require Import Complex.
Import ListNotations.

Definition ixset (k : nat -> nat) (m b : nat) : nat -> nat := fun l => if Nat.eqb l m then b else k l.
Definition comb (r c : nat -> nat) : nat -> nat := fun l => (2 * r l + c l)%nat.

Lemma ixset_same k m b : ixset k m b m = b.
Proof. unfold ixset. now rewrite Nat.eqb_refl. Qed.
Lemma ixset_other k m b l : l <> m -> ixset k m b l = k l.
Proof. intros. unfold ixset. destruct (Nat.eqb_spec l m); congruence. Qed.

Section Csum.
Local Open Scope C_scope.
(* sum over all k : {0..n-1} -> {0,1} (levels >= n are 0) *)
Fixpoint bsum (n : nat) (F : (nat -> nat) -> C) : C :=
  match n with
  | O => F (fun _ => O)
  | S m => bsum m (fun k => F (ixset k m 0)) + bsum m (fun k => F (ixset k m 1))
  end.
Lemma bsum_ext n F G : (forall k, F k = G k) -> bsum n F = bsum n G.
Proof.
  revert F G. induction n as [|m IH]; intros F G H; cbn; auto.
  f_equal; apply IH; intros; apply H.
Qed.
Lemma bsum_plus n F G : bsum n (fun k => F k + G k) = bsum n F + bsum n G.
Proof.
  revert F G. induction n as [|m IH]; intros F G; cbn; auto.
  rewrite !IH. ring.
Qed.
Lemma bsum_scal n a F : bsum n (fun k => a * F k) = a * bsum n F.
Proof.
  revert F. induction n as [|m IH]; intros F; cbn; auto. rewrite !IH. ring.
Qed.
Lemma bsum_scal_r n a F : bsum n (fun k => F k * a) = bsum n F * a.
Proof.
  revert F. induction n as [|m IH]; intros F; cbn; auto. rewrite !IH. ring.
Qed.
Lemma bsum_0 n : bsum n (fun _ => RtoC 0) = RtoC 0.
Proof. induction n as [|m IH]; cbn; auto. rewrite IH. ring. Qed.
Lemma bsum_minus n F G : bsum n (fun k => F k - G k) = bsum n F - bsum n G.
Proof.
  revert F G. induction n as [|m IH]; intros F G; cbn; auto. rewrite !IH. ring.
Qed.
Lemma bsum_swap n m F :
  bsum n (fun i => bsum m (fun j => F i j)) = bsum m (fun j => bsum n (fun i => F i j)).
Proof.
  revert F. induction n as [|n IH]; intros F; cbn; auto.
  rewrite !IH. now rewrite <- bsum_plus.
Qed.
Lemma bsum_bound n F B : (forall k, Cmod (F k) <= B)%R -> (Cmod (bsum n F) <= 2 ^ n * B)%R.
Proof.
  revert F. induction n as [|m IH]; intros F H; cbn.
  - specialize (H (fun _ => O)). lra.
  - eapply Rle_trans; [apply Cmod_triangle|].
    pose proof (IH (fun k => F (ixset k m 0)) ltac:(intros; apply H)).
    pose proof (IH (fun k => F (ixset k m 1)) ltac:(intros; apply H)). lra.
Qed.
End Csum.

Section Rsum.
Local Open Scope R_scope.
Fixpoint rbsum (n : nat) (F : (nat -> nat) -> R) : R :=
  match n with
  | O => F (fun _ => O)
  | S m => rbsum m (fun k => F (ixset k m 0)) + rbsum m (fun k => F (ixset k m 1))
  end.
Lemma rbsum_ext n F G : (forall k, F k = G k) -> rbsum n F = rbsum n G.
Proof.
  revert F G. induction n as [|m IH]; intros F G H; cbn; auto.
  f_equal; apply IH; intros; apply H.
Qed.
Lemma rbsum_plus n F G : rbsum n (fun k => F k + G k) = rbsum n F + rbsum n G.
Proof.
  revert F G. induction n as [|m IH]; intros F G; cbn; auto. rewrite !IH. ring.
Qed.
Lemma rbsum_scal n a F : rbsum n (fun k => a * F k) = a * rbsum n F.
Proof. revert F. induction n as [|m IH]; intros F; cbn; auto. rewrite !IH. ring. Qed.
Lemma rbsum_nonneg n F : (forall k, 0 <= F k) -> 0 <= rbsum n F.
Proof.
  revert F. induction n as [|m IH]; intros F H; cbn; auto.
  pose proof (IH (fun k => F (ixset k m 0)) ltac:(intros; apply H)).
  pose proof (IH (fun k => F (ixset k m 1)) ltac:(intros; apply H)). lra.
Qed.
End Rsum.
