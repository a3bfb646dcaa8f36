(* Swap.v -- model of the automatic swap insertion of qdd/qdd_backend.py
   (use_mpi=True): get_initial_qmap 506-509, do_swap_v2 511-564, do_swap_v1
   566-625, restore_swap 627-651 and the loop of _evaluate_circuit 653-1043.
   Simplifications.  As in Backend.v the pyQDD calls (here mv_multiply_MPI,
   measureOneCollapsingMPI, measureOneMPI, measureAllMPI, probabilitiesMPI) are
   replaced by the ideal effect on the whole distributed vector, whatever the way
   it is split (MPIP/RingP/MPIMP say how far the library achieves that).  Sets of
   qubits are their increasing lists; set.pop() is any choice function [pick].  A
   failed assertion, KeyError or pop from an empty list is None / Raise. *)
From Coq Require Import Reals ZArith Bool List Arith.
From Coquelicot Require Import Complex.
From Verif Require Import Spec SpecP LargeP Backend.
Import ListNotations.
Open Scope nat_scope.

(* pyQDD.SWAP: exchange the bits a and b *)
Definition swapbits (a b i : nat) : nat := setb (setb i a (bit i b)) b (bit i a).
Definition swapm (a b : nat) : matrix := fun i j => if i =? swapbits a b j then RtoC 1 else RtoC 0.

(* sets of qubits below n *)
Definition mem (q : nat) (l : list nat) : bool := existsb (Nat.eqb q) l.
Definition union (n : nat) (a b : list nat) : list nat := filter (fun q => mem q a || mem q b) (seq 0 n).
Definition diff (n : nat) (a b : list nat) : list nat := filter (fun q => mem q a && negb (mem q b)) (seq 0 n).
(* position of q in l: the dictionaries {v: k} and next_map *)
Fixpoint index_of (q : nat) (l : list nat) : option nat :=
  match l with [] => None | x :: r => if q =? x then Some 0 else option_map S (index_of q r) end.

Section Swap.
Context (eps : R) (pick : list nat -> nat).

(* 523-532 and 577-588: take instructions while their qubits fit into k places *)
Fixpoint lookahead (n k : nat) (l : list inst) (acc : list nat) : list nat :=
  match l with
  | [] => acc
  | x :: r => let t := union n acc (qargs (op x)) in if length t <=? k then lookahead n k r t else acc
  end.
(* 533-535: add popped qubits *)
Fixpoint fill (n d : nat) (nl ng : list nat) : option (list nat * list nat) :=
  match d with
  | O => Some (nl, ng)
  | S d' => match ng with [] => None | _ :: _ => fill n d' (union n nl [pick ng]) (diff n ng [pick ng]) end
  end.
(* 541-551: the swaps are multiplied into one matrix, the map follows *)
Fixpoint fuse (n : nat) (ab : list (nat * nat)) (F : matrix) (m : list nat) : matrix * list nat :=
  match ab with
  | [] => (F, m)
  | (a, b) :: r =>
      let pa := nth a m 0 in let pb := nth b m 0 in
      fuse n r (mm n (swapm pa pb) F) (upd (upd m a pb) b pa)
  end.
(* 511-564; the result: vector, local_set, map *)
Definition do_swap_v2 (n : nat) (w : vector) (data : list inst) (count : nat) (lset m : list nat) : option (vector * list nat * list nat) :=
  let nl0 := lookahead n (length lset) (skipn count data) [] in
  match fill n (length lset - length nl0) nl0 (diff n (seq 0 n) nl0) with
  | None => None
  | Some (nl, ng) =>
      let from_local := diff n lset nl in
      let from_global := diff n (diff n (seq 0 n) lset) ng in
      if length from_global =? length from_local then
        let (F, m') := fuse n (combine from_local from_global) ident m in
        Some (mv n F w, nl, m')
      else None
  end.
(* 601-619 and 632-650: swap each qubit of [is] to the place next_map gives it *)
Fixpoint place (n : nat) (next_map : nat -> option nat) (is : list nat) (w : vector) (m : list nat) : option (vector * list nat) :=
  match is with
  | [] => Some (w, m)
  | ii :: r =>
      match next_map ii with
      | None => None
      | Some q1 =>
          let q2 := nth ii m 0 in
          if q1 =? q2 then place n next_map r w m
          else match index_of q1 m with
               | None => None
               | Some pos1 =>
                   let m' := upd (upd m pos1 q2) ii q1 in
                   if nth ii m' 0 =? q1 then place n next_map r (mv n (swapm q1 q2) w) m' else None
               end
      end
  end.
(* 566-625; [next_local.append(next_global.pop(0))] until it has len(local_list)
   elements, then sorted *)
Definition do_swap_v1 (n : nat) (w : vector) (data : list inst) (count : nat) (llist m : list nat) : option (vector * list nat * list nat) :=
  let nl0 := lookahead n (length llist) (skipn count data) [] in
  let ng0 := diff n (seq 0 n) nl0 in
  let d := length llist - length nl0 in
  if length ng0 <? d then None else
  let nl := union n nl0 (firstn d ng0) in
  let ng := skipn d ng0 in
  match place n (fun q => index_of q (nl ++ ng)) (seq 0 n) w m with
  | None => None
  | Some (w', m') => Some (w', nl, m')
  end.
(* 627-651 *)
Definition restore_swap (n : nat) (w : vector) (m : list nat) : option (vector * list nat) :=
  place n Some (seq 0 n) w m.

(* the state of the loop: the vector, map_after_swap, local_set, local_list, count,
   and (ghost) the simulator positions of the qubits of each gate applied so far *)
Record mst := MS { mvec : vector; mmap : list nat; mset : list nat; mlist : list nat; mcnt : nat; mphys : list (list nat) }.
Definition set_vec (s : mst) (w : vector) : mst := MS w (mmap s) (mset s) (mlist s) (mcnt s) (mphys s).
Definition bump (s : mst) : mst := MS (mvec s) (mmap s) (mset s) (mlist s) (S (mcnt s)) (mphys s).
Definition at_ (m : list nat) (q : nat) : nat := nth q m 0.
(* 739-760 *)
Definition pre_swap (auto v2 : bool) (n : nat) (data : list inst) (x : inst) (s : mst) : option mst :=
  let out l := negb (forallb (fun q => mem (at_ (mmap s) q) l) (qargs (op x))) in
  if auto && out (mset s) && v2 then
    match do_swap_v2 n (mvec s) data (mcnt s) (mset s) (mmap s) with
    | None => None
    | Some (w, ls, m) => Some (MS w m ls (mlist s) (mcnt s) (mphys s))
    end
  else if auto && out (mlist s) then
    match do_swap_v1 n (mvec s) data (mcnt s) (mlist s) (mmap s) with
    | None => None
    | Some (w, ll, m) => Some (MS w m (mset s) ll (mcnt s) (mphys s))
    end
  else Some s.
(* a gate: 762-892; QDDGate restores the order first (881-886) *)
Definition gate_step (auto : bool) (n : nat) (g : gop) (s : mst) : option mst :=
  let apply w m := Some (MS (mv n (gate_mat n (at_ m) g) w) m (mset s) (mlist s) (S (mcnt s)) (mphys s ++ [map (at_ m) (gqs g)])) in
  match g with
  | GQ _ _ => if auto then match restore_swap n (mvec s) (mmap s) with None => None | Some (w, m) => apply w m end
              else apply (mvec s) (mmap s)
  | _ => apply (mvec s) (mmap s)
  end.
Definition ores {A B} (o : option A) (k : A -> tree B) : tree B := match o with Some a => k a | None => Raise end.
(* 708-968: one shot; [shots] is false when shots=None *)
Fixpoint exec_mpi (auto v2 : bool) (n : nat) (stable shots : bool) (data l : list inst) (s : mst) (cl : list bool) (pc : list R)
  : tree (mst * list bool * list R) :=
  match l with
  | [] => Leaf (s, cl, pc)
  | x :: r =>
      if skip cl (cnd x) then exec_mpi auto v2 n stable shots data r s cl pc else
      match op x with
      | BBarrier _ => exec_mpi auto v2 n stable shots data r s cl pc
      | BMeasure q c =>
          if stable then exec_mpi auto v2 n stable shots data r s cl pc
          else ores (pre_swap auto v2 n data x s) (fun s =>
            if shots then meas1 eps n (at_ (mmap s) q) (mvec s) (fun b w => exec_mpi auto v2 n stable shots data r (bump (set_vec s w)) (upd cl c b) pc)
            else if Rlt_dec eps (Rabs (norm2v n (mvec s) - 1)) then Raise
            else exec_mpi auto v2 n stable shots data r (bump s) cl (upd pc c (probq n (mvec s) (at_ (mmap s) q) 0 / norm2v n (mvec s))%R))
      | BGate g =>
          ores (pre_swap auto v2 n data x s) (fun s =>
          ores (gate_step auto n g s) (fun s => exec_mpi auto v2 n stable shots data r s cl pc))
      | BReset q =>
          ores (pre_swap auto v2 n data x s) (fun s =>
          if stable then Raise
          else meas1 eps n (at_ (mmap s) q) (mvec s) (fun b w =>
            exec_mpi auto v2 n stable shots data r (bump (set_vec s (if b then mv n (gate1 n X (at_ (mmap s) q) []) w else w))) cl pc))
      | BInit _ | BKraus _ | BOther _ => Raise
      end
  end.
(* 699-707, 506-509: local_set, local_list and count are set again for each shot,
   map_after_swap is not *)
Definition start (n g : nat) (m : list nat) : mst := MS (basis 0) m (seq 0 (n - g)) (seq 0 (n - g)) 0 [].
(* 978-996 with map_after_swap *)
Definition assemble_m (m : list nat) (ncl : nat) (d : dict) (res : list bool) : list bool :=
  rev (fold_left (fun acc kv => upd acc (fst kv) (nth (length res - 1 - at_ m (snd kv)) res false)) d (repeat false ncl)).
(* the re-simulated shots: the strings, the last vector and the map *)
Fixpoint shots_mpi (auto v2 : bool) (g : nat) (c : circ) (k : nat) (m : list nat) : tree (list (list bool)) :=
  match k with
  | O => Leaf []
  | S k' =>
      bind (exec_mpi auto v2 (nq c) false true (data c) (data c) (start (nq c) g m) (repeat false (nc c)) []) (fun '(s, cl, _) =>
      bind (match k' with
            | O => (* after the last shot: 970-973 *)
                if auto then ores (restore_swap (nq c) (mvec s) (mmap s)) (fun _ => Leaf []) else Leaf []
            | S _ => shots_mpi auto v2 g c k' (mmap s)
            end) (fun l => Leaf (rev cl :: l)))
  end.
(* 653-1043, MPI; [size] is COMM_WORLD.Get_size() *)
Definition evaluate_mpi (auto v2 : bool) (size : nat) (c : circ) (p : cprop) (shots : option Z) : tree rdata :=
  let n := nq c in
  let g := Nat.log2 size in
  if 2 ^ n <=? size then Raise else
  let restored s k := if auto then ores (restore_swap n (mvec s) (mmap s)) (fun '(w, m) => k w m) else k (mvec s) (mmap s) in
  match shots with
  | None =>
      if existsb has_cond (data c) then Raise else
      bind (exec_mpi auto v2 n (stable_final_state p) false (data c) (data c) (start n g (seq 0 n)) (repeat false (nc c)) (repeat 0%R (nc c)))
        (fun '(s, _, pc) => restored s (fun w m =>
          Leaf (Probs (if stable_final_state p then probs n (phase (gphase c) w) else prob_product (nc c) pc))))
  | Some z =>
      if stable_final_state p then
        bind (exec_mpi auto v2 n true (negb (z =? 0)%Z) (data c) (data c) (start n g (seq 0 n)) (repeat false (nc c)) []) (fun '(s, _, _) =>
        restored s (fun w m =>
          let w := phase (gphase c) w in
          if (z =? 0)%Z then Leaf (Probs (probs n w))
          else bind (replicate (Z.to_nat z)
                 (bind (measall n w 0) (fun b => Leaf (assemble_m m (nc c) (clbit_final_values p) (bitstring n b)))))
               (fun l => Leaf (Counts l))))
      else if (z <=? 0)%Z then Raise
      else bind (shots_mpi auto v2 g c (Z.to_nat z) (seq 0 n)) (fun l => Leaf (Counts l))
  end.
End Swap.
