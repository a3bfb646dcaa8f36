(* Merge.v -- model of QddBackend.merge_circuit, qdd/qdd_backend.py:424-504, on the
   decision-diagram engine (Prog.exec1, GC.gc_mat).  A configuration is the state of
   the library and the handles held by the client, newest first; inside the loop the
   newest handle is the Python variable `current`, and when `current` is rebound the
   previous gate and the intermediate one are dropped.
   Simplifications: progress printing is left out; qubits are their positions
   (_create_qubitmap).  A QDDGate (GQ) refers to a handle of the client: [obj j] is
   the operator read from the client's handle j when merge_circuit is called. *)
From Coq Require Import Reals ZArith Bool List Arith.
From Coquelicot Require Import Complex.
From Verif Require Import Num State DD Gates GC Measure Api RNum Spec Obs Prog Backend BackLink GateMat.
Import ListNotations.
Open Scope nat_scope.

Section Merge.
Context (tau : R) {HTol : Tol tau}.
#[local] Hint Extern 0 NumOps => exact (RNum tau) : typeclass_instances.
Context {CF : Cfg}.
Notation state := (@state (RNum tau)).
Notation handle := (@handle (RNum tau)).
Notation config := (state * list handle)%type.
Notation exec1 := (exec1 tau).

Definition drop_older (c : config) (hs : list handle) : config :=
  (fst c, match snd c with h :: _ => h :: hs | [] => hs end).
Section Loop.
Context (i : tid) (freq n : nat) (obj : list ival).
(* 500-501: every [freq]-th counted instruction calls gc_mat(current, False).  The
   flag says whether the collection is carried out (dd.cpp:2411) *)
Inductive tick (count : nat) : bool -> config -> config -> Prop :=
| tk_no c : count mod freq <> 0 -> tick count false c c
| tk_below s m e hs : count mod freq = 0 -> gc_mat i [e] false s = Some ([e], s) -> below_thr i (tb s KM) (gc_m s) = true ->
    tick count false (s, H KM m e :: hs) (s, H KM m e :: hs)
| tk_gc s m e hs e' s' : count mod freq = 0 -> below_thr i (tb s KM) (gc_m s) = false ->
    gc_mat i [e] false s = Some ([e'], s') -> tick count true (s, H KM m e :: hs) (s', H KM m e' :: hs).
Definition ignored (o : bop) : Prop := match o with BReset _ | BInit _ | BKraus _ | BOther _ => True | _ => False end.
(* 432-502.  [col]: a collection was carried out; result None: an exception *)
Inductive merge_loop : list inst -> nat -> bool -> config -> option config -> Prop :=
| ml_nil k c : merge_loop [] k false c (Some c)
(* 434-438: continue, before the counter *)
| ml_continue x r k col c c' : (match op x with BBarrier _ | BMeasure _ _ => True | _ => False end) ->
    merge_loop r k col c c' -> merge_loop (x :: r) k col c c'
(* 441-481: the one- and two-qubit families; conditions are not read *)
| ml_gate x g it r k b col s h hs c1 c2 c3 c' : op x = BGate g -> ginstr n g = Some it ->
    exec1 it (s, h :: hs) c1 [] -> exec1 (P_mmmul 0 1) c1 c2 [] -> tick (S k) b (drop_older c2 hs) c3 ->
    merge_loop r (S k) col c3 c' -> merge_loop (x :: r) k (b || col) (s, h :: hs) c'
(* 482-486: `targets = qargs` are Qubit objects, pyQDD.unitary expects integers
   (bindings.cpp:264-266): TypeError *)
| ml_unitary x g qs r k c : op x = BGate (GU g qs) -> merge_loop (x :: r) k false c None
(* 487-489 *)
| ml_qdd x A qs j r k b col s h hs c2 c3 c' : op x = BGate (GQ A qs) -> nth_error obj j = Some (IM n A) ->
    exec1 (P_mmmul (S j) 0) (s, h :: hs) c2 [] -> tick (S k) b (drop_older c2 hs) c3 ->
    merge_loop r (S k) col c3 c' -> merge_loop (x :: r) k (b || col) (s, h :: hs) c'
(* any other class is not in _supported_qiskit_gates: it is skipped, and counted
   (the raise at 490-495 is inside the branch for supported classes) *)
| ml_ignored x r k b col c c3 c' : ignored (op x) -> tick (S k) b c c3 -> merge_loop r (S k) col c3 c' ->
    merge_loop (x :: r) k (b || col) c c'.
End Loop.
(* 424-431 and 503-504 *)
Inductive merge (i : tid) (freq : nat) (circ_ : circ) (obj : list ival) : bool -> config -> option config -> Prop :=
| mg_done col s hs c1 c2 c3 : exec1 (P_gate (nq circ_) ident 0 []) (s, hs) c1 [] ->
    merge_loop i freq (nq circ_) obj (data circ_) 0 col c1 (Some c2) -> exec1 (P_global 0 (gphase circ_)) c2 c3 [] ->
    merge i freq circ_ obj col (s, hs) (Some (drop_older c3 hs))
| mg_raise col s hs c1 : exec1 (P_gate (nq circ_) ident 0 []) (s, hs) c1 [] ->
    merge_loop i freq (nq circ_) obj (data circ_) 0 col c1 None -> merge i freq circ_ obj col (s, hs) None.
End Merge.
