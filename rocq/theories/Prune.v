(* Prune.v -- save_binary / load_binary and prune (src/dd.cpp:2168-2187,
   2466-2496). *)
From Coq Require Import ZArith Bool List.
From Verif Require Import Num State GC.
Import ListNotations.
Open Scope Z_scope.

Section Prune.
Context {NO : NumOps} {CF : Cfg}.

(* save_binary : src/dd.cpp:2168-2178.  The file contents are the serialised
   nodes; the weight of the root edge is not written.  SIMPLIFICATION: the boost
   archive and the file system are the identity (reading the file back gives the
   vector written).  [None] = undefined behaviour while serialising. *)
Definition save_binary (s : state) (e : edge) : option (list content) :=
  match node_to_vec KV s (en e) with
  | Some (_, cs) => Some cs
  | None => None
  end.
(* load_binary : src/dd.cpp:2180-2187 *)
Definition load_binary (i : tid) (cs : list content) (s : state) : option (edge * state) :=
  match vec_to_node KV i false cs (tb s KV) with
  | Some (p, t) => Some (E c1 p, set_tb s KV t)
  | None => None
  end.

(* The memory prune works on: the caller's edge (passed by reference), the nodes
   of the unique table, and the children of the static terminalNode, which are
   {w = 0, n = nullptr} at start up (src/dd.cpp:42-43, include/dd.h:180-181). *)
Record pmem := PM { pm_root : edge; pm_tab : table; pm_term : list edge }.
Definition term_init (k : kind) : list edge := repeat nullE (karity k).
(* an edge&: the caller's variable, or a child slot of a node *)
Inductive loc := LRoot | LCh (p : ptr) (i : nat).
Fixpoint upd_nth (i : nat) (x : edge) (l : list edge) : list edge :=
  match l, i with
  | [], _ => []
  | _ :: r, O => x :: r
  | y :: r, S j => y :: upd_nth j x r
  end.
(* reading / writing through the reference; [None] = nullptr or dangling *)
Definition getl (st : pmem) (l : loc) : option edge :=
  match l with
  | LRoot => Some (pm_root st)
  | LCh Null _ => None
  | LCh Term i => nth_error (pm_term st) i
  | LCh (Node a) i => match heap (pm_tab st) a with Some nd => nth_error (nch nd) i | None => None end
  end.
Definition setl (st : pmem) (l : loc) (e : edge) : option pmem :=
  match l with
  | LRoot => Some (PM e (pm_tab st) (pm_term st))
  | LCh Null _ => None
  | LCh Term i => Some (PM (pm_root st) (pm_tab st) (upd_nth i e (pm_term st)))
  | LCh (Node a) i =>
      match heap (pm_tab st) a with
      | Some nd => Some (PM (pm_root st) (writeNode a (Nd (nv nd) (upd_nth i e (nch nd))) (pm_tab st)) (pm_term st))
      | None => None
      end
  end.

(* std::sqrt(current.mag2()) < thr : src/dd.cpp:2468-2470 *)
Definition small (thr : num) (w : cx) : bool := nltb (nsqrt (norm2 w)) thr.

(* prune(vEdge&) : src/dd.cpp:2466-2480, prune(mEdge&) : 2482-2496.  [fuel]
   bounds the recursion depth; exhaustion is [None].  The pointer v.n is read
   again through the reference before each recursive call. *)
Fixpoint prune_kids (go : loc -> pmem -> option (Z * pmem)) (l : loc) (is : list nat) (st : pmem)
  : option (Z * pmem) :=
  match is with
  | [] => Some (0, st)
  | i :: r =>
      match getl st l with
      | None => None
      | Some e =>
          match go (LCh (en e) i) st with
          | None => None
          | Some (x, st1) =>
              match prune_kids go l r st1 with
              | None => None
              | Some (y, st2) => Some (x + y, st2)
              end
          end
      end
  end.
Fixpoint prune_go (k : kind) (fuel : nat) (thr : num) (num : cx) (l : loc) (st : pmem)
  : option (Z * pmem) :=
  match fuel with
  | O => None
  | S f =>
      match getl st l with
      | None => None
      | Some e =>
          let cur := cmul num (ew e) in
          if small thr cur then
            match setl st l zeroE with
            | None => None
            | Some st' => Some (1, st')
            end
          else prune_kids (prune_go k f thr cur) l (seq 0 (karity k)) st
      end
  end.
(* prune(v, thr): the default of num is 1 (include/dd.h:554-555).  Depth: root,
   at most NQUBITS levels, the terminal's children.  Result: the count returned,
   the caller's edge, the table, the terminal's children. *)
Definition prune (k : kind) (e : edge) (thr : num) (t : table) (tm : list edge)
  : option (Z * pmem) :=
  prune_go k 103 thr c1 LRoot (PM e t tm).

End Prune.
