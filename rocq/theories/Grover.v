(* Grover.v -- model of the Grover search that the repository runs as its
   performance test, test/test_performance.cpp:5-140 (the same gate lists appear in
   src/algorithms/grover.cpp and, distributed, in test/mpi_test_grover.cpp): the
   calls it makes on the library, in order, as a program of Prog.v. *)
From Coq Require Import Reals ZArith Bool List Arith.
From Coquelicot Require Import Complex.
From Verif Require Import Num Gates RNum Spec Prog.
Import ListNotations.
Open Scope nat_scope.

(* test/test_performance.cpp:5-14 CalculateIterations.  Simplified: PI_4 and the
   long double arithmetic are the real numbers pi/4, 2^(n/2) and their product. *)
Definition CalculateIterations (n_qubits : nat) : nat :=
  if n_qubits <=? 3 then 1 else Z.to_nat (Int_part (PI / 4 * Rpower 2 (INR n_qubits / 2))).

(* test/test_performance.cpp:16-27 buildUnitary: the m gates of the vector are the m
   newest handles, the last one newest.  rhs = g[0]; then rhs = mm_multiply(g[i], rhs):
   before step i the gate g[i] has m-1-i later gates and i-1 products on top of it. *)
Definition buildUnitary (m : nat) : list instr :=
  match m with
  | 0 | 1 => []
  | S (S k) => P_mmmul k (S k) :: repeat (P_mmmul k 0) k
  end.
Definition built (g : list instr) : list instr := g ++ buildUnitary (length g).

(* one gate on each of the data qubits, in increasing order: the loops of lines
   53-55, 57-59, 75-77, 81-83 and 117-119 *)
Definition on_data (total_qubits n_qubits : nat) (g : nat -> nat -> C) : list instr :=
  map (fun i => P_gate total_qubits g (Z.of_nat i) []) (seq 0 n_qubits).

(* test/test_performance.cpp:29-84 groverIteration.  makeIdent ignores its argument
   (src/dd.cpp:280-282), so makeIdent(n_qubits) is the identity of any size. *)
Definition groverIteration (oracle : list bool) (n_qubits : nat) : list instr :=
  let total_qubits := n_qubits + 1 in
  let controls := map (fun i => (Z.of_nat i, nth i oracle false)) (seq 0 n_qubits) in
  let diff_controls := map (fun i => (Z.of_nat i, true)) (seq 0 (n_qubits - 1)) in
  let last := Z.of_nat (n_qubits - 1) in
  built ([P_gate total_qubits (@Zmat (RNum 0)) (Z.of_nat n_qubits) controls]
    ++ [P_ident total_qubits]
    ++ on_data total_qubits n_qubits (@Hmat (RNum 0))
    ++ on_data total_qubits n_qubits (@Xmat (RNum 0))
    ++ [P_gate total_qubits (@Hmat (RNum 0)) last []]
    ++ [P_gate total_qubits (@Xmat (RNum 0)) last diff_controls]
    ++ [P_gate total_qubits (@Hmat (RNum 0)) last []]
    ++ on_data total_qubits n_qubits (@Xmat (RNum 0))
    ++ on_data total_qubits n_qubits (@Hmat (RNum 0))).

(* test/test_performance.cpp:111-119 the setup gates *)
Definition groverSetup (n_qubits : nat) : list instr :=
  let total_qubits := n_qubits + 1 in
  built (P_gate total_qubits (@Xmat (RNum 0)) (Z.of_nat n_qubits) [] :: on_data total_qubits n_qubits (@Hmat (RNum 0))).

(* test/test_performance.cpp:126-131 while ((iterations - j_pre) % 8 != 0) ... j_pre++ *)
Fixpoint pre_loop (fuel iterations j_pre : nat) : option nat :=
  match fuel with
  | 0 => None
  | S f => if negb ((iterations - j_pre) mod 8 =? 0) then pre_loop f iterations (S j_pre) else Some j_pre
  end.
(* test/test_performance.cpp:133-142 for (j = j_pre; j < iterations; j += 8) eight
   multiplications; the result is the number of multiplications done *)
Fixpoint main_loop (fuel iterations j done : nat) : option nat :=
  match fuel with
  | 0 => None
  | S f => if j <? iterations then main_loop f iterations (j + 8) (8 + done) else Some done
  end.
Definition multiplications (iterations : nat) : option nat :=
  match pre_loop (S iterations) iterations 0 with
  | Some j_pre => main_loop (S iterations) iterations j_pre j_pre
  | None => None
  end.

(* test/test_performance.cpp:86-143 grover, for an oracle chosen in any way (the code
   draws it at random, 97-104).  The iteration and the setup matrix are built first;
   each product below finds its matrix under the handles made since. *)
Definition grover (oracle : list bool) (n_qubits : nat) : option (list instr) :=
  match multiplications (CalculateIterations n_qubits) with
  | Some k => Some (groverIteration oracle n_qubits ++ groverSetup n_qubits
      ++ [P_zero (n_qubits + 1); P_mul 1 0]
      ++ map (fun j => P_mul (2 * (n_qubits + 1) + 1 + j) 0) (seq 0 k))
  | None => None
  end.
