(* GC.v -- serialisation of diagrams (vNode_to_vec / vec_to_vNode and the
   matrix versions), garbage collection, node counting, save / load. *)
From Coq Require Import ZArith Bool List.
From Verif Require Import Num State.
Import ListNotations.
Open Scope Z_scope.

Section GC.
Context {NO : NumOps} {CF : Cfg}.

(* struct vContent / mContent : include/dd.h (v, w[], index[]).
   SIMPLIFICATION: the int indices are unbounded [nat]. *)
Record content := Ct { c_v : Z; c_w : list cx; c_ix : list nat }.
Definition karity (k : kind) : nat := match k with KV => 2 | KM => 4 end.
(* src/dd.cpp:2202, 2222 *)
Definition term_content (k : kind) : content :=
  Ct (-1) (repeat c0 (karity k)) (repeat 0%nat (karity k)).

(* std::unordered_map<vNode*, int> *)
Definition pmap := ptr -> option nat.
Definition pmap0 : pmap := fun _ => None.
Definition pset (m : pmap) (p : ptr) (i : nat) : pmap := fun q => if ptr_eqb p q then Some i else m q.
Definition enc := (list content * pmap)%type.

(* the recursive calls on the children, left to right *)
Fixpoint kids (go : ptr -> enc -> option (nat * enc)) (l : list edge) (st : enc)
  : option (list nat * enc) :=
  match l with
  | [] => Some ([], st)
  | e :: r =>
      match go (en e) st with
      | None => None
      | Some (i, st1) =>
          match kids go r st1 with
          | None => None
          | Some (is, st2) => Some (i :: is, st2)
          end
      end
  end.

(* vNode_to_vec : src/dd.cpp:2190-2217, mNode_to_vec : 2219-2241.  [fuel]
   bounds the recursion depth; exhaustion is [None]. *)
Fixpoint to_vec (k : kind) (s : state) (fuel : nat) (p : ptr) (st : enc) : option (nat * enc) :=
  let '(cs, m) := match fst st with
                  | [] => ([term_content k], pset (snd st) Term 0)
                  | _ => st
                  end in
  match m p with
  | Some i => Some (i, (cs, m))
  | None =>
      match fuel with
      | O => None
      | S f =>
          match readn k p s with
          | None => None
          | Some nd =>
              match kids (to_vec k s f) (nch nd) (cs, m) with
              | None => None
              | Some (is, (cs', m')) =>
                  let i := length cs' in
                  Some (i, (cs' ++ [Ct (nv nd) (map ew (nch nd)) is], pset m' p i))
              end
          end
      end
  end.
Definition enc0 : enc := ([], pmap0).
Definition FUEL : nat := 101.
Definition node_to_vec (k : kind) (s : state) (p : ptr) : option (nat * list content) :=
  match to_vec k s FUEL p enc0 with
  | Some (i, (cs, _)) => Some (i, cs)
  | None => None
  end.

(* vec_to_vNode : src/dd.cpp:2243-2267, vec_to_mNode : 2269-2292.  [ptrs] is the
   map from index to node; a missing index reads as nullptr.  [i] = calling
   thread. *)
Definition mk_edges (ptrs : list ptr) (c : content) : list edge :=
  map (fun wi => E (fst wi) (nth (snd wi) ptrs Null)) (combine (c_w c) (c_ix c)).
Fixpoint from_loop (k : kind) (i : tid) (no_lookup : bool) (cs : list content) (ptrs : list ptr)
  (t : table) : option (list ptr * table) :=
  match cs with
  | [] => Some (ptrs, t)
  | c :: r =>
      let '(a, t1) := getNode i t in
      let nd := Nd (c_v c) (mk_edges ptrs c) in
      let t2 := writeNode a nd t1 in
      match (if no_lookup then register_wo_lookup k a nd t2 else lookup k i a nd t2) with
      | None => None
      | Some (p, t3) => from_loop k i no_lookup r (ptrs ++ [p]) t3
      end
  end.
Definition vec_to_node (k : kind) (i : tid) (no_lookup : bool) (cs : list content) (t : table)
  : option (ptr * table) :=
  match cs with
  | [] => Some (Null, t)                         (* map[-1] *)
  | _ :: r =>
      match from_loop k i no_lookup r [Term] t with
      | None => None
      | Some (ptrs, t') => Some (nth (length cs - 1) ptrs Null, t')
      end
  end.

(* get_nNodes : src/dd.cpp:2354-2359 *)
Definition get_nNodes (s : state) (e : edge) : option nat :=
  match node_to_vec KV s (en e) with Some (i, _) => Some i | None => None end.

(* the serialisation loop of gc / gc_mat : src/dd.cpp:2367-2374, 2415-2422 *)
Fixpoint encode_all (k : kind) (s : state) (es : list edge) : option (Z * list (list content)) :=
  match es with
  | [] => Some (0, [])
  | e :: r =>
      match node_to_vec k s (en e) with
      | None => None
      | Some (i, cs) =>
          match encode_all k s r with
          | None => None
          | Some (n, css) => Some (Z.of_nat i + n, cs :: css)
          end
      end
  end.
(* the rebuilding loop : src/dd.cpp:2382-2384, 2430-2432 *)
Fixpoint decode_all (k : kind) (i : tid) (first : bool) (es : list edge) (css : list (list content))
  (t : table) : option (list edge * table) :=
  match es, css with
  | e :: r, cs :: css' =>
      match vec_to_node k i first cs t with
      | None => None
      | Some (p, t1) =>
          match decode_all k i false r css' t1 with
          | None => None
          | Some (es', t2) => Some (E (ew e) p :: es', t2)
          end
      end
  | _, _ => Some ([], t)
  end.

(* get_allocations() < GC_SIZE compares a size_t with an int: the int is
   converted to 64 bits unsigned : src/dd.cpp:2363, 2411 *)
Definition u64 (z : Z) : Z := z mod 2 ^ 64.
Definition below_thr (i : tid) (t : table) (thr : Z) : bool := p_allocs (pools t i) <? u64 thr.

Definition set_gc (s : state) (v m : Z) : state :=
  {| tb := tb s; ac := ac s; mc := mc s; probs := probs s; gc_v := v; gc_m := m |}.

(* gc : src/dd.cpp:2361-2402.  [i] = calling thread (get_allocations and getNode
   use its pool).  SIMPLIFICATION: int arithmetic on GC_SIZE is unbounded;
   output to std::cout is not represented. *)
Definition gc (i : tid) (es : list edge) (force : bool) (s : state) : option (list edge * state) :=
  if below_thr i (tb s KV) (gc_v s) && negb force then Some (es, s)
  else
    match encode_all KV s es with
    | None => None
    | Some (nNodes, css) =>
        let thr := if gc_v s <? nNodes then gc_v s * 2 else gc_v s in
        match decode_all KV i true es css table_init with
        | None => None
        | Some (es', t') =>
            Some (es', set_gc (clear_caches (set_tb (set_probs s (fun _ => None)) KV t')) thr (gc_m s))
        end
    end.
(* gc_mat : src/dd.cpp:2409-2452; identityTable (src/dd.cpp:40), which it also
   resets at 2434-2436, is read nowhere and is not represented. *)
Definition gc_mat (i : tid) (es : list edge) (force : bool) (s : state) : option (list edge * state) :=
  if below_thr i (tb s KM) (gc_m s) && negb force then Some (es, s)
  else
    match encode_all KM s es with
    | None => None
    | Some (nNodes, css) =>
        let thr := if gc_m s <? nNodes then gc_m s + nNodes else gc_m s in
        match decode_all KM i true es css table_init with
        | None => None
        | Some (es', t') =>
            Some (es', set_gc (clear_caches (set_tb s KM t')) (gc_v s) thr)
        end
    end.
(* set_gc_thr : src/dd.cpp:2460-2464 *)
Definition set_gc_thr (v m : Z) (s : state) : state := set_gc s v m.

(* save_binary : src/dd.cpp:2168-2178 (the archive holds only the node table);
   load_binary : src/dd.cpp:2180-2188 (weight 1) *)
Definition save_binary (s : state) (e : edge) : option (list content) :=
  match node_to_vec KV s (en e) with Some (_, cs) => Some cs | None => None end.
Definition load_binary (i : tid) (cs : list content) (s : state) : option (edge * state) :=
  match vec_to_node KV i false cs (tb s KV) with
  | Some (p, t') => Some (E c1 p, set_tb s KV t')
  | None => None
  end.

End GC.
