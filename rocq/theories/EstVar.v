(* EstVar.v -- the variance in the metadata of the Estimator's results,
   qdd/qdd_estimator.py:_PostProcessing.run, approximation=False.
   Simplifications: as in Estimator.v; np.real_if_close (564) is left out. *)
From Coq Require Import Reals ZArith Bool List Arith.
From Coquelicot Require Import Complex.
From Verif Require Import Spec Backend Estimator.
Import ListNotations.
Open Scope nat_scope.

(* _pauli_expval_with_variance, 600-601: 1 - expvals**2 *)
Definition variance_counts (p : pauli) (qs : list nat) (counts : list (list bool * nat)) : R := (1 - expval_counts p qs counts ^ 2)%R.
(* 543-561: np.dot(variances, coeffs**2) of one entry; an identity entry has variance 0 *)
Definition entry_variance (results : list (pauli * rdata)) (e : entry) : option C :=
  match fst e with
  | None => match snd e with [t] => Some (Cmult (RtoC 0) (Cmult (snd t) (snd t))) | _ => None end
  | Some i =>
      match nth_error results i with
      | Some (b, Counts l) => csumo (map (fun t => Some (Cmult (RtoC (variance_counts (fst t) (support b) (counter l))) (Cmult (snd t) (snd t)))) (snd e))
      | _ => None
      end
  end.
(* 561-564: metadata["variance"] *)
Definition post_variance (results : list (pauli * rdata)) (es : list entry) : option C := csumo (map (entry_variance results) es).
