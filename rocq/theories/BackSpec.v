(* BackSpec.v -- what a circuit means, independently of how qdd_backend.py runs it:
   gates act on the state, a measurement splits it into the two projections, a
   condition is read off the classical bits; the weight of a classical outcome is
   the total squared norm of the branches that end with it.  Also: the probability
   of an outcome of a computation with uniform draws. *)
From Coq Require Import Reals ZArith Bool List Arith.
From Coquelicot Require Import Complex.
From Verif Require Import Spec LargeP Backend.
Import ListNotations.
Open Scope nat_scope.

(* value of a register: bits.(0) is the least significant *)
Fixpoint reg_value (bits : list nat) (cl : list bool) : nat :=
  match bits with [] => 0 | b :: r => b2n (nth b cl false) + 2 * reg_value r cl end.
Definition cond_holds (cl : list bool) (c : option cond) : bool :=
  match c with
  | None => true
  | Some (CBit b v) => Bool.eqb (nth b cl false) v
  | Some (CReg bits v) => reg_value bits cl =? v
  end.

(* squared norm of the branches of [l], started in state v with classical bits cl,
   that end with classical bits s *)
Fixpoint weight (n : nat) (l : list inst) (v : vector) (cl s : list bool) : R :=
  match l with
  | [] => if list_eq_dec Bool.bool_dec cl s then norm2v n v else 0%R
  | x :: r =>
      if cond_holds cl (cnd x) then
        match op x with
        | BGate g => weight n r (mv n (gate_mat n (fun q => q) g) v) cl s
        | BMeasure q c => (weight n r (project q 0 v) (upd cl c false) s + weight n r (project q 1 v) (upd cl c true) s)%R
        | BReset q => (weight n r (project q 0 v) cl s + weight n r (mv n (gate1 n X q []) (project q 1 v)) cl s)%R
        | BBarrier _ => weight n r v cl s
        | BInit _ | BKraus _ | BOther _ => 0%R
        end
      else weight n r v cl s
  end.
(* the outcome distribution of a circuit *)
Definition dist (c : circ) (s : list bool) : R := weight (nq c) (data c) (basis 0) (repeat false (nc c)) s.

(* circuits the backend supports.  A gate's operator is unitary; instructions are
   supported; qubits and clbits exist *)
Definition supported (n ncl : nat) (x : inst) : Prop :=
  match op x with
  | BGate g => unitary n (gate_mat n (fun q => q) g)
  | BMeasure q c => q < n /\ c < ncl
  | BReset q => q < n
  | BBarrier _ => True
  | BInit _ | BKraus _ | BOther _ => False
  end.
(* conditions on one clbit, or on a register that starts at clbit 0, with a value
   that fits *)
Definition cond_ok (c : option cond) : Prop :=
  match c with None | Some (CBit _ _) => True | Some (CReg bits v) => exists k, bits = seq 0 k /\ v < 2 ^ k end.

(* expectation of f over the draws (0 for an exception) *)
Fixpoint Ex {A} (t : tree A) (f : A -> R) : R :=
  match t with
  | Leaf a => f a
  | Raise => 0%R
  | Flip p k => (p * Ex (k false) f + (1 - p) * Ex (k true) f)%R
  end.
Definition Prob {A} (eq_dec : forall a b : A, {a = b} + {a <> b}) (t : tree A) (a : A) : R :=
  Ex t (fun x => if eq_dec x a then 1%R else 0%R).
Definition str_dec := list_eq_dec Bool.bool_dec.

(* the sets of draws with their results: boxes, one interval [lo, hi) per draw *)
Fixpoint leaves {A} (t : tree A) : list (list (R * R) * option A) :=
  match t with
  | Leaf a => [([], Some a)]
  | Raise => [([], None)]
  | Flip p k => map (fun x => ((0%R, p) :: fst x, snd x)) (leaves (k false)) ++
                map (fun x => ((p, 1%R) :: fst x, snd x)) (leaves (k true))
  end.
Fixpoint volume (b : list (R * R)) : R := match b with [] => 1%R | (lo, hi) :: r => ((hi - lo) * volume r)%R end.
Fixpoint in_box (b : list (R * R)) (ths : list R) : Prop :=
  match b, ths with
  | [], _ => True
  | (lo, hi) :: r, th :: ts => (lo <= th < hi)%R /\ in_box r ts
  | _ :: _, [] => False
  end.
Definition total {A} (l : list (list (R * R) * option A)) (f : A -> R) : R :=
  fold_right (fun x acc => (match snd x with Some a => volume (fst x) * f a | None => 0 end + acc)%R) 0%R l.
