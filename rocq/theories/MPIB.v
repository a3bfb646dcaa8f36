(* MPIB.v -- mv_multiply_MPI_bcast3 (src/dd.cpp:821-856), which Python calls
   mv_multiply_MPI_bcast (qdd/bindings.cpp:120-125, 288): every rank broadcasts its
   slice in turn.  The broadcast machine is Coll.v.  The unused variables
   left_neighbor and right_neighbor are left out. *)
From Coq Require Import ZArith Bool List Lia Arith.
From Verif Require Import Num State DD Gates GC Async MPI Coll.
Import ListNotations.
Open Scope nat_scope.

Section MPIB.
Context {NO : NumOps} {CF : Cfg}.

(* lines 844-852: rank r <> col receives the slice of rank col; send_data is kept *)
Definition use_b (lim : Z) (W col : nat) (r : nat) (x : payload) (m m' : mem) : Prop :=
  match m with
  | None => m' = None
  | Some y =>
      match getMPIGate (rm_s y) (rm_lhs y) r col W with
      | None => m' = None
      | Some gt =>
          match vec_to_node KV 0 false (snd x) (tb (rm_s y) KV) with
          | None => m' = None
          | Some (p, t) =>
              runs (bind (mv_multiply gt (E (fst x) p)) (fun e1 => vv_add lim (rm_res y) e1)) (set_tb (rm_s y) KV t)
                (fun e s' z => z = Some (Rm s' (rm_lhs y) (rm_rhs y) e (rm_buf y))) m'
          end
      end
  end.
(* lines 841-853, one iteration *)
Definition bround (lim : Z) (W col : nat) : @cblock mem payload := CBcast col buf_of (use_b lim W col).
(* lines 829-831 and 837-839 are [start], 832-834 [is_local] (see MPI.v) *)
Definition mv_multiply_MPI_bcast (lim : Z) (n g largest : nat) : list (@cblock mem payload) :=
  let W := 2 ^ g in
  if is_local n g largest then [CLocal (start W); CLocal finish]
  else CLocal (start W) :: map (bround lim W) (seq 0 W) ++ [CLocal finish].
(* an SPMD client with use_bcast (qdd/qdd_backend.py:705-880) *)
Definition bcast_client (lim : Z) (n g : nat) (gates : list (comp * nat)) : list (@cblock mem payload) :=
  CLocal (zero_mpi n g) :: flat_map (fun cl => CLocal (build (fst cl)) :: mv_multiply_MPI_bcast lim n g (snd cl)) gates.
End MPIB.
