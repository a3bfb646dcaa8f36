(* EstVarS.v -- what a variance is. *)
From Coq Require Import Reals List Arith.
From Coquelicot Require Import Complex.
From Verif Require Import Spec Backend Estimator.
Import ListNotations.

(* mean and variance of the numbers g over a list of samples *)
Definition total_of {A} (g : A -> R) (l : list A) : R := fold_right (fun a acc => (g a + acc)%R) 0%R l.
Definition mean_of {A} (g : A -> R) (l : list A) : R := (total_of g l / INR (length l))%R.
Definition var_of {A} (g : A -> R) (l : list A) : R := mean_of (fun a => (g a - mean_of g l) ^ 2)%R l.
Definition cov_of {A} (g h : A -> R) (l : list A) : R := mean_of (fun a => (g a - mean_of g l) * (h a - mean_of h l))%R l.
(* what one shot with outcome s contributes to the estimate: the terms ts, with real
   coefficients, measured together in basis b *)
Definition contribution (b : pauli) (ts : list (pauli * R)) (s : list bool) : R :=
  total_of (fun t => (snd t * psign (fst t) (support b) (int2 s))%R) ts.
(* sum of the covariances of the different terms of a list *)
Fixpoint covariances {A} (gs : list (A -> R)) (l : list A) : R :=
  match gs with [] => 0%R | g :: r => (total_of (fun h => cov_of g h l) r + covariances r l)%R end.
