(* Spec.v -- the specification vocabulary, independent of the model: amplitudes
   and matrix entries by integer index, bits of an index (bit l = qubit l, bit 0
   least significant), sums, products, controlled operators, tensor products.
   Nothing here refers to decision diagrams. *)
From Coq Require Import Reals ZArith Bool List Arith.
From Coquelicot Require Import Complex.
Import ListNotations.

Section Spec.
Local Open Scope C_scope.

(* value of qubit l in basis state i *)
Definition bit (i l : nat) : nat := if Nat.testbit i l then 1%nat else 0%nat.

(* f 0 + ... + f (N-1) *)
Fixpoint csum (N : nat) (f : nat -> C) : C :=
  match N with O => RtoC 0 | S m => csum m f + f m end.
Fixpoint rsum (N : nat) (f : nat -> R) : R :=
  match N with O => 0%R | S m => (rsum m f + f m)%R end.

Definition vector := nat -> C.
Definition matrix := nat -> nat -> C.

Definition mv (n : nat) (A : matrix) (v : vector) : vector :=
  fun i => csum (2 ^ n) (fun j => A i j * v j).
Definition mm (n : nat) (A B : matrix) : matrix :=
  fun i j => csum (2 ^ n) (fun k => A i k * B k j).
Definition norm2v (n : nat) (v : vector) : R := rsum (2 ^ n) (fun i => (Cmod (v i) ^ 2)%R).
Definition ident : matrix := fun i j => if Nat.eqb i j then RtoC 1 else RtoC 0.
Definition basis (b : nat) : vector := fun i => if Nat.eqb i b then RtoC 1 else RtoC 0.
Definition adjoint (A : matrix) : matrix := fun i j => Cconj (A j i).

(* a control: qubit and required value *)
Definition ctls := list (Z * bool).
Definition ctl_ok (c : ctls) (i : nat) : bool :=
  forallb (fun x => Bool.eqb (Nat.testbit i (Z.to_nat (fst x))) (snd x)) c.
(* i and j agree on every qubit < n outside T *)
Definition agree_off (n : nat) (T : list nat) (i j : nat) : bool :=
  forallb (fun l => existsb (Nat.eqb l) T || Bool.eqb (Nat.testbit i l) (Nat.testbit j l)) (seq 0 n).

(* apply the 2x2 matrix g to qubit t when all controls hold, else do nothing *)
Definition gate1 (n : nat) (g : matrix) (t : nat) (c : ctls) : matrix :=
  fun i j =>
    if agree_off n [t] i j then
      if ctl_ok c i then g (bit i t) (bit j t)
      else if Nat.eqb (bit i t) (bit j t) then RtoC 1 else RtoC 0
    else RtoC 0.
(* apply the 4x4 matrix g to qubits (hi, lo): index 2 * bit hi + bit lo *)
Definition gate2 (n : nat) (g : matrix) (hi lo : nat) (c : ctls) : matrix :=
  fun i j =>
    if agree_off n [hi; lo] i j then
      if ctl_ok c i then g (2 * bit i hi + bit i lo)%nat (2 * bit j hi + bit j lo)%nat
      else if Nat.eqb (bit i hi) (bit j hi) && Nat.eqb (bit i lo) (bit j lo) then RtoC 1 else RtoC 0
    else RtoC 0.

(* tensor products: the right factor has nb qubits, the low-order ones *)
Definition kronv (nb : nat) (a b : vector) : vector :=
  fun i => a (i / 2 ^ nb)%nat * b (i mod 2 ^ nb)%nat.
Definition kronm (nb : nat) (a b : matrix) : matrix :=
  fun i j => a (i / 2 ^ nb)%nat (j / 2 ^ nb)%nat * b (i mod 2 ^ nb)%nat (j mod 2 ^ nb)%nat.

(* equality of vectors / matrices on the indices of n qubits *)
Definition veq (n : nat) (v w : vector) : Prop := forall i, (i < 2 ^ n)%nat -> v i = w i.
Definition meq (n : nat) (A B : matrix) : Prop :=
  forall i j, (i < 2 ^ n)%nat -> (j < 2 ^ n)%nat -> A i j = B i j.
(* entrywise distance at most err *)
Definition vclose (n : nat) (err : R) (v w : vector) : Prop :=
  forall i, (i < 2 ^ n)%nat -> (Cmod (Cminus (v i) (w i)) <= err)%R.
Definition mclose (n : nat) (err : R) (A B : matrix) : Prop :=
  forall i j, (i < 2 ^ n)%nat -> (j < 2 ^ n)%nat -> (Cmod (Cminus (A i j) (B i j)) <= err)%R.
Definition unitary (n : nat) (A : matrix) : Prop :=
  meq n (mm n (adjoint A) A) ident /\ meq n (mm n A (adjoint A)) ident.
(* the vector / matrix held by a list (of lists) of numbers, as returned by
   getVector / getMatrix *)
Definition vof (l : list (R * R)) : vector := fun i => nth i l (RtoC 0).
Definition mof (l : list (list (R * R))) : matrix := fun i j => nth j (nth i l []) (RtoC 0).

(* ---- measurement ---- *)
(* weight of the outcomes that agree with b on the qubits >= k *)
Definition marg (v : vector) (k b : nat) : R :=
  rsum (2 ^ k) (fun i => (Cmod (v (b / 2 ^ k * 2 ^ k + i)%nat) ^ 2)%R).
(* probability that qubit k reads 0, given that the qubits > k read as in b *)
Definition cond0 (v : vector) (k b : nat) : R := (marg v k (Nat.clearbit b k) / marg v (S k) b)%R.
(* sampling from the highest qubit down: one draw per qubit, compared with cond0 *)
Definition draws (n : nat) (v : vector) (ths : list R) (b : nat) : Prop :=
  forall k, (k < n)%nat -> (Nat.testbit b k = true <-> (cond0 v k b <= nth (n - 1 - k) ths 0)%R).
(* the same as an interval per draw *)
Definition lo_of (v : vector) (b k : nat) : R := if Nat.testbit b k then cond0 v k b else 0%R.
Definition hi_of (v : vector) (b k : nat) : R := if Nat.testbit b k then 1%R else cond0 v k b.
Fixpoint rprod (N : nat) (f : nat -> R) : R :=
  match N with O => 1%R | S m => (rprod m f * f m)%R end.
(* probability weight of qubit k reading b, and the corresponding projection *)
Definition probq (n : nat) (v : vector) (k b : nat) : R :=
  rsum (2 ^ n) (fun i => if Nat.eqb (bit i k) b then (Cmod (v i) ^ 2)%R else 0%R).
Definition project (k b : nat) (v : vector) : vector :=
  fun i => if Nat.eqb (bit i k) b then v i else RtoC 0.
(* the printed outcome: highest qubit first *)
Definition bitstring (n b : nat) : list bool := map (Nat.testbit b) (rev (seq 0 n)).
End Spec.
