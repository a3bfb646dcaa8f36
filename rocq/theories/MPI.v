(* MPI.v -- the distributed build (-DisMPI).  Each rank is a process with its own
   tables and caches; ranks talk through boost::mpi point-to-point calls, whose
   machine is Async.v.  Rank r of W = 2^g holds amplitudes r*2^(n-g) .. of the
   n-qubit state as an edge with n-g levels (vEdge::zero for a zero slice).
   The broadcast variant _bcast3 is MPIB.v, measurement MPIM.v.  Not modelled:
   mv_multiply_MPI_org, _new, _bcast, _bcast2 (src/dd.cpp:643-677, 719-819), which
   nothing in the repository calls. *)
From Coq Require Import ZArith Bool List Lia Arith.
From Verif Require Import Num State DD Gates GC Async.
Import ListNotations.
Open Scope nat_scope.

Section MPI.
Context {NO : NumOps} {CF : Cfg}.

(* src/dd.cpp:604-630.  None: an assertion fails or a null node is followed.
   [fuel] bounds the recursion (W is halved each time; getMPIGate gives W). *)
Fixpoint mpi_gate (s : state) (fuel : nat) (root : edge) (row col W : nat) : option edge :=
  match en root with
  | Null => None
  | Term => Some root
  | Node _ =>
      if W <=? 1 then Some root else
      if negb (Nat.land W (W - 1) =? 0) then None else
      if negb ((row <? W) && (col <? W)) then None else
      match fuel with
      | O => None
      | S f =>
          match readn KM (en root) s with
          | None => None
          | Some nd =>
              let border := W / 2 in
              let index := (if border <=? row then 2 else 0) + (if border <=? col then 1 else 0) in
              match nth_error (nch nd) index with
              | None => None
              | Some ch => mpi_gate s f (E (cmul (ew ch) (ew root)) (en ch)) (row mod border) (col mod border) border
              end
          end
      end
  end.
Definition getMPIGate (s : state) (root : edge) (row col W : nat) : option edge := mpi_gate s W root row col W.

(* ---- the ring (src/dd.cpp:679-717) ---- *)
(* a rank's memory; None: this rank aborted or ran into undefined behaviour *)
Record rmem := Rm { rm_s : state; rm_lhs : edge; rm_rhs : edge; rm_res : edge; rm_buf : cx * list content }.
Definition mem := option rmem.
Definition payload := (cx * list content)%type.

(* a computation on a rank's own tables, under every schedule of its fibers *)
Definition runs (c : comp) (s : state) (k : edge -> state -> mem -> Prop) (m' : mem) : Prop :=
  (steps (Cfg_ok c s) Wrong /\ m' = None) \/
  exists e s', steps (Cfg_ok c s) (Cfg_ok (CRet e) s') /\ k e s' m'.

(* makeZeroStateMPI (src/dd.cpp:292-302), result in rm_rhs; W = 2^g *)
Definition zero_mpi (n g : nat) (r : nat) (m m' : mem) : Prop :=
  match m with
  | None => m' = None
  | Some x =>
      if r =? 0 then runs (makeZeroState (n - g)) (rm_s x) (fun e s' y => y = Some (Rm s' (rm_lhs x) e (rm_res x) (rm_buf x))) m'
      else m' = Some (Rm (rm_s x) (rm_lhs x) zeroE (rm_res x) (rm_buf x))
  end.
(* the gate is built by every rank for itself *)
Definition build (c : comp) (r : nat) (m m' : mem) : Prop :=
  match m with
  | None => m' = None
  | Some x => runs c (rm_s x) (fun e s' y => y = Some (Rm s' e (rm_rhs x) (rm_res x) (rm_buf x))) m'
  end.
(* lines 689-691: the diagonal block.  The vector is encoded (line 695) for the
   ring in the same block, since it does not change any table. *)
Definition start (W : nat) (r : nat) (m m' : mem) : Prop :=
  match m with
  | None => m' = None
  | Some x =>
      match getMPIGate (rm_s x) (rm_lhs x) r r W with
      | None => m' = None
      | Some gt => runs (mv_multiply gt (rm_rhs x)) (rm_s x) (fun e s' y =>
          match node_to_vec KV s' (en (rm_rhs x)) with
          | None => y = None
          | Some (_, cs) => y = Some (Rm s' (rm_lhs x) (rm_rhs x) e (ew (rm_rhs x), cs))
          end) m'
      end
  end.
(* line 692-694: a gate on local qubits only stops here *)
Definition is_local (n g largest : nat) : bool := largest <? n - g.
(* lines 696-700 *)
Definition small_world (n g largest : nat) : nat := 2 ^ (1 + largest + g - n).
Definition offset (W small row : nat) : nat := row - (row + W) mod small.
Definition left_nb (W small row : nat) : nat := (row + W - 1) mod small + offset W small row.
Definition right_nb (W small row : nat) : nat := (row + 1 + W) mod small + offset W small row.
Definition col_of (W small i row : nat) : nat := (row + W - i) mod small + offset W small row.
(* lines 706-715; [lim] is LIMIT of vv_add (src/dd.cpp:1188-1202), the node index
   of the process' main thread is 0 *)
Definition use (lim : Z) (W small i : nat) (r : nat) (x : payload) (m m' : mem) : Prop :=
  match m with
  | None => m' = None
  | Some y =>
      match getMPIGate (rm_s y) (rm_lhs y) r (col_of W small i r) W with
      | None => m' = None
      | Some gt =>
          match vec_to_node KV 0 false (snd x) (tb (rm_s y) KV) with
          | None => m' = None
          | Some (p, t) =>
              runs (bind (mv_multiply gt (E (fst x) p)) (fun e1 => vv_add lim (rm_res y) e1)) (set_tb (rm_s y) KV t)
                (fun e s' z => z = Some (Rm s' (rm_lhs y) (rm_rhs y) e x)) m'
          end
      end
  end.
Definition buf_of (m : mem) : payload := match m with None => (c0, []) | Some x => rm_buf x end.
(* lines 702-716, one iteration of the loop *)
Definition round (lim : Z) (W small i : nat) : @block mem payload :=
  BExch i (right_nb W small) (left_nb W small) buf_of (use lim W small i).
(* line 717 / 693: the result becomes the new state *)
Definition finish (r : nat) (m m' : mem) : Prop :=
  match m with
  | None => m' = None
  | Some x => m' = Some (Rm (rm_s x) (rm_lhs x) (rm_res x) (rm_res x) (rm_buf x))
  end.
Definition mv_multiply_MPI (lim : Z) (n g largest : nat) : list (@block mem payload) :=
  let W := 2 ^ g in
  if is_local n g largest then [BLocal (start W); BLocal finish]
  else let small := small_world n g largest in
       BLocal (start W) :: map (round lim W small) (seq 1 (small - 1)) ++ [BLocal finish].

(* an SPMD client (qdd/qdd_backend.py:705-880 with use_mpi): the zero state, then
   each gate built and applied *)
Definition mpi_client (lim : Z) (n g : nat) (gates : list (comp * nat)) : list (@block mem payload) :=
  BLocal (zero_mpi n g) :: flat_map (fun cl => BLocal (build (fst cl)) :: mv_multiply_MPI lim n g (snd cl)) gates.
End MPI.
