(* Large.v -- makeLargeGate (src/dd.cpp:492-601): a gate given by a
   2^k x 2^k matrix on k listed qubits. *)
From Coq Require Import ZArith Bool List Arith.
From Verif Require Import Num State DD Gates Measure.
Import ListNotations.
Open Scope Z_scope.

(* std::sort of the indices 0..k-1 by targets[.] : src/dd.cpp:526-532.  For
   distinct targets the sorted order is unique, so insertion stands for it. *)
Fixpoint ins_by (f : nat -> nat) (x : nat) (l : list nat) : list nat :=
  match l with
  | [] => [x]
  | y :: r => if (f x <? f y)%nat then x :: y :: r else y :: ins_by f x r
  end.
Definition sort_by (f : nat -> nat) (l : list nat) : list nat := fold_right (ins_by f) [] l.
Definition tcomp (targets : list nat) : list nat :=
  sort_by (fun i => nth i targets 0%nat) (seq 0 (length targets)).

(* target_compresed[i] : src/dd.cpp:536.  Reading past the end of the vector is
   undefined; [mem i] is what is found there (None: the program faults). *)
Definition read_tc (mem : nat -> option nat) (tc : list nat) (i : nat) : option nat :=
  match nth_error tc i with Some e => Some e | None => mem i end.
(* conversionMap : src/dd.cpp:533-541.  The loop bound is rows, not the number of
   targets.  Sums are unbounded here (size_t there). *)
Fixpoint conv_loop (mem : nat -> option nat) (tc : list nat) (is : list nat) (cm : list nat) : option (list nat) :=
  match is with
  | [] => Some cm
  | i :: r => match read_tc mem tc i with
              | Some e => conv_loop mem tc r (cm ++ map (fun x => (x + 2 ^ e)%nat) cm)
              | None => None
              end
  end.
Definition conversion_map (mem : nat -> option nat) (tc : list nat) (rows : nat) : option (list nat) :=
  conv_loop mem tc (seq 0 rows) [0%nat].

Section Large.
Context {NO : NumOps} {CF : Cfg}.

(* the recursive overload : src/dd.cpp:561-601.  level = tmin + d; the braced
   initialiser evaluates the four quadrants left to right. *)
Fixpoint large_rec (g : gmat) (skip : nat -> bool) (tmin d r0 r1 k0 k1 : nat) : comp :=
  match d with
  | O => if Nat.eqb (r1 - r0) 2 && Nat.eqb (k1 - k0) 2
         then makeMEdge (Z.of_nat tmin) (termE (g r0 k0)) (termE (g r0 (k0 + 1)%nat))
                (termE (g (r0 + 1)%nat k0)) (termE (g (r0 + 1)%nat (k0 + 1)%nat))
         else CFail                                   (* assert *)
  | S d' =>
      let level := Z.of_nat (tmin + d) in
      if skip (tmin + d)%nat then
        bind (large_rec g skip tmin d' r0 r1 k0 k1) (fun e => makeMEdge level e zeroE zeroE e)
      else
        let rm := ((r0 + r1) / 2)%nat in let km := ((k0 + k1) / 2)%nat in
        bind (large_rec g skip tmin d' r0 rm k0 km) (fun e0 =>
        bind (large_rec g skip tmin d' r0 rm km k1) (fun e1 =>
        bind (large_rec g skip tmin d' rm r1 k0 km) (fun e2 =>
        bind (large_rec g skip tmin d' rm r1 km k1) (fun e3 =>
          makeMEdge level e0 e1 e2 e3))))
  end.

Definition min_list (l : list nat) : nat := fold_right Nat.min (nth 0 l 0%nat) l.

(* src/dd.cpp:500-560.  g is a rows x cols matrix (ragged ones are not
   modelled).  None: out-of-bounds access; Throw: std::invalid_argument; Ret (g', c):
   the caller's matrix is overwritten with g' and the gate is built by c. *)
Definition makeLargeGate (mem : nat -> option nat) (q : nat) (g : gmat) (rows cols : nat) (targets : list nat)
  : option (outcome (gmat * comp)) :=
  if Nat.eqb rows 0 then Some (Ret (g, CRet oneE))
  else if negb (Nat.eqb (Nat.land rows (rows - 1)) 0) then Some (Throw)
  else if negb (Nat.eqb rows cols) then Some (Throw)
  else if Nat.eqb rows 1 then Some (Ret (g, CRet (termE (g 0%nat 0%nat))))
  else if negb (Nat.eqb (Nat.log2 rows) (length targets)) then Some (Throw)
  else match conversion_map mem (tcomp targets) rows with
       | None => None
       | Some cm =>
           let g' := fun i j => if (i <? rows)%nat && (j <? rows)%nat
                                then g (nth i cm 0%nat) (nth j cm 0%nat) else g i j in
           let tmin := min_list targets in
           let skip := fun l => negb (existsb (Nat.eqb l) targets) in
           if forallb (fun t => t <? q)%nat targets        (* skip[target] in bounds *)
           then Some (Ret (g', large_rec g' skip tmin (q - 1 - tmin) 0 rows 0 rows))
           else None
       end.
(* the overload without targets : src/dd.cpp:492-498 *)
Definition makeLargeGate0 (mem : nat -> option nat) (q : nat) (g : gmat) (rows cols : nat) :=
  makeLargeGate mem q g rows cols (seq 0 (Nat.log2 rows)).
End Large.
