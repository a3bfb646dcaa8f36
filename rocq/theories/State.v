(* State.v -- memory, unique tables, operation caches (include/table.hpp,
   include/cache.hpp, include/dd.h). *)
From Coq Require Import ZArith Bool List.
From Verif Require Import Num.
Import ListNotations.
Open Scope Z_scope.

(* common.h:28 and 29 *)
Definition NQUBITS : Z := 100.
Definition NBUCKETS : Z := 524288.
(* common.h:30-32 *)
Definition INITIAL_ALLOCATION_SIZE : Z := 2048.
Definition GROWTH_FACTOR : Z := 2.

(* vNode/vEdge and mNode/mEdge are the same shape with 2 or 4 children
   (include/dd.h:149-182, 184-222, 224-254, 304-337); CHashTable is a template
   over both (include/table.hpp:29-31).  [kind] is the template parameter. *)
Inductive kind := KV | KM.
Definition kind_eqb (a b : kind) : bool :=
  match a, b with KV, KV | KM, KM => true | _, _ => false end.

(* A node pointer: nullptr, &terminalNode, or the address of a slot. *)
Inductive ptr := Null | Term | Node (a : positive).
Definition ptr_eqb (p q : ptr) : bool :=
  match p, q with
  | Null, Null | Term, Term => true
  | Node a, Node b => Pos.eqb a b
  | _, _ => false
  end.
Definition is_null (p : ptr) : bool := match p with Null => true | _ => false end.
Definition is_term (p : ptr) : bool := match p with Term => true | _ => false end.

Definition tid := nat.

Section State.
Context {NO : NumOps}.

Record edge := E { ew : cx; en : ptr }.
Record node := Nd { nv : Z; nch : list edge }.

(* vEdge::zero / one, mEdge::zero / one : src/dd.cpp:44-47 *)
Definition zeroE : edge := E c0 Term.
Definition oneE : edge := E c1 Term.
(* default-constructed edge {w = 0, n = nullptr} : include/dd.h:180-181, 252-254 *)
Definition nullE : edge := E c0 Null.

(* vEdge/mEdge operator== : include/dd.h:174-176, 246-250 *)
Definition edge_eqb (a b : edge) : bool := isequal (ew a) (ew b) && ptr_eqb (en a) (en b).
Fixpoint edges_eqb (a b : list edge) : bool :=
  match a, b with
  | [], [] => true
  | x :: a', y :: b' => edge_eqb x y && edges_eqb a' b'
  | _, _ => false
  end.
(* vNode/mNode operator== : include/dd.h:206-208, 328-330 *)
Definition node_eqb (a b : node) : bool := (nv a =? nv b) && edges_eqb (nch a) (nch b).

(* std::hash<vNode>, <mNode>, <vEdge>, <mEdge>, murmur_hash: arbitrary
   functions; the theorems hold for every hash function, hence for the code's
   (include/dd.h:262-302, 339-361, include/common.h:57-69).
   [mt_on] = the isMT build (fibers are forked). *)
Class Cfg := {
  hnode : kind -> node -> Z;
  hpair : kind -> edge -> edge -> Z;
  hptr  : ptr -> Z;
  mt_on : bool
}.
Context {CF : Cfg}.

(* CHashTable::Cache, one per thread : include/table.hpp:164-173.
   [p_left] = chunkEndIt - chunkIt. *)
Record pool := { p_avail : list positive; p_left : Z; p_asize : Z; p_allocs : Z }.
Definition pool_init : pool :=
  {| p_avail := []; p_left := INITIAL_ALLOCATION_SIZE;
     p_asize := INITIAL_ALLOCATION_SIZE * GROWTH_FACTOR;
     p_allocs := INITIAL_ALLOCATION_SIZE |}.

(* CHashTable : include/table.hpp:151-190.  [chain v key] lists the bucket,
   newest node first, i.e. following the [previous] pointers from
   _tables[v]._table[key].node.  SIMPLIFICATION: a fresh slot of a chunk is a
   fresh address [nexta]; [heap a = None] means never handed out. *)
Record table := {
  heap  : positive -> option node;
  chain : Z -> Z -> list positive;
  nexta : positive;
  pools : tid -> pool
}.
Definition table_init : table :=
  {| heap := fun _ => None; chain := fun _ _ => []; nexta := 1%positive;
     pools := fun _ => pool_init |}.

Definition hupd (h : positive -> option node) (a : positive) (nd : node) :=
  fun b => if Pos.eqb a b then Some nd else h b.
Definition pupd (p : tid -> pool) (t : tid) (x : pool) :=
  fun u => if Nat.eqb t u then x else p u.
Definition cupd (c : Z -> Z -> list positive) (v k : Z) (l : list positive) :=
  fun v' k' => if (v =? v') && (k =? k') then l else c v' k'.

(* getNode : include/table.hpp:37-61 *)
Definition getNode (i : tid) (t : table) : positive * table :=
  let p := pools t i in
  match p_avail p with
  | a :: rest =>
      (a, {| heap := heap t; chain := chain t; nexta := nexta t;
             pools := pupd (pools t) i
                        {| p_avail := rest; p_left := p_left p;
                           p_asize := p_asize p; p_allocs := p_allocs p |} |})
  | [] =>
      let p' := if p_left p =? 0
                then {| p_avail := []; p_left := p_asize p - 1;
                        p_asize := p_asize p * GROWTH_FACTOR;
                        p_allocs := p_allocs p + p_asize p |}
                else {| p_avail := []; p_left := p_left p - 1;
                        p_asize := p_asize p; p_allocs := p_allocs p |} in
      (nexta t, {| heap := heap t; chain := chain t; nexta := Pos.succ (nexta t);
                   pools := pupd (pools t) i p' |})
  end.

(* node->v = q; node->children = c; *)
Definition writeNode (a : positive) (nd : node) (t : table) : table :=
  {| heap := hupd (heap t) a nd; chain := chain t; nexta := nexta t; pools := pools t |}.

(* returnNode : include/table.hpp:63-77 *)
Definition returnNode (i : tid) (a : positive) (nd : node) (t : table) : table :=
  let p := pools t i in
  {| heap := hupd (heap t) a (Nd (-2) (nch nd)); chain := chain t; nexta := nexta t;
     pools := pupd (pools t) i
                {| p_avail := a :: p_avail p; p_left := p_left p;
                   p_asize := p_asize p; p_allocs := p_allocs p |} |}.

Definition nkey (k : kind) (nd : node) : Z := hnode k nd mod NBUCKETS.
Definition level_ok (v : Z) : bool := (0 <=? v) && (v <? NQUBITS).

(* the bucket walk of lookup : include/table.hpp:115-127.  [None] = a pointer
   that is not a live slot was dereferenced. *)
Fixpoint scan (h : positive -> option node) (l : list positive) (nd : node)
  : option (option positive) :=
  match l with
  | [] => Some None
  | a :: rest =>
      match h a with
      | None => None
      | Some nd' => if node_eqb nd nd' then Some (Some a) else scan h rest nd
      end
  end.

(* lookup : include/table.hpp:98-135 (the caller's node is [a], content [nd]).
   _tables[v] is out of bounds unless 0 <= v < NQUBITS: [None]. *)
Definition lookup (k : kind) (i : tid) (a : positive) (nd : node) (t : table)
  : option (ptr * table) :=
  if level_ok (nv nd) then
    let key := nkey k nd in
    match scan (heap t) (chain t (nv nd) key) nd with
    | None => None
    | Some (Some b) => Some (Node b, returnNode i a nd t)
    | Some None =>
        Some (Node a, {| heap := heap t;
                         chain := cupd (chain t) (nv nd) key (a :: chain t (nv nd) key);
                         nexta := nexta t; pools := pools t |})
    end
  else None.

(* register_wo_lookup : include/table.hpp:79-96 *)
Definition register_wo_lookup (k : kind) (a : positive) (nd : node) (t : table)
  : option (ptr * table) :=
  if level_ok (nv nd) then
    let key := nkey k nd in
    Some (Node a, {| heap := heap t;
                     chain := cupd (chain t) (nv nd) key (a :: chain t (nv nd) key);
                     nexta := nexta t; pools := pools t |})
  else None.

(* ---- operation caches ------------------------------------------------------ *)
(* AddCache::Entry (valid entries; an invalid one is [None]) : cache.hpp:131-141 *)
Record aent := { a_l : edge; a_r : edge; a_res : edge }.
(* MulCache::Entry : cache.hpp:396-408 *)
Record ment := { m_valid : bool; m_l : ptr; m_r : ptr; m_res : edge; m_picked : Z }.
Definition ment_init : ment :=
  {| m_valid := false; m_l := Null; m_r := Null; m_res := nullE; m_picked := 0 |}.
(* Bucket { Entry es[4]; } : cache.hpp:411-414 *)
Definition bucket_init : list ment := [ment_init; ment_init; ment_init; ment_init].

(* the two AddCache tables (mm, vv) and the MulCache tables (mm, mv) per
   thread (src/dd.cpp:49-55); KM = mm, KV = vv / mv. *)
Record state := {
  tb  : kind -> table;
  ac  : tid -> kind -> Z -> Z -> option aent;
  mc  : tid -> kind -> Z -> Z -> list ment;
  probs : ptr -> option num;               (* src/dd.cpp:38 *)
  gc_v : Z; gc_m : Z                       (* GC_SIZE, GC_SIZE_M : src/dd.cpp:2361, 2409 *)
}.
Definition state_init : state :=
  {| tb := fun _ => table_init; ac := fun _ _ _ _ => None; mc := fun _ _ _ _ => bucket_init;
     probs := fun _ => None; gc_v := 65536; gc_m := 65536 |}.

Definition set_tb (s : state) (k : kind) (t : table) : state :=
  {| tb := fun k' => if kind_eqb k k' then t else tb s k'; ac := ac s; mc := mc s;
     probs := probs s; gc_v := gc_v s; gc_m := gc_m s |}.
Definition set_ac (s : state) (i : tid) (k : kind) (lv key : Z) (x : option aent) : state :=
  {| tb := tb s;
     ac := fun i' k' lv' key' =>
             if Nat.eqb i i' && kind_eqb k k' && (lv =? lv') && (key =? key')
             then x else ac s i' k' lv' key';
     mc := mc s; probs := probs s; gc_v := gc_v s; gc_m := gc_m s |}.
Definition set_mc (s : state) (i : tid) (k : kind) (lv key : Z) (x : list ment) : state :=
  {| tb := tb s; ac := ac s;
     mc := fun i' k' lv' key' =>
             if Nat.eqb i i' && kind_eqb k k' && (lv =? lv') && (key =? key')
             then x else mc s i' k' lv' key';
     probs := probs s; gc_v := gc_v s; gc_m := gc_m s |}.
Definition set_probs (s : state) (f : ptr -> option num) : state :=
  {| tb := tb s; ac := ac s; mc := mc s; probs := f; gc_v := gc_v s; gc_m := gc_m s |}.

(* n->v, n->children.  terminalNode = mNode(-1, {}, nullptr, nullptr)
   (src/dd.cpp:41-42): variable -1, default children.  [None] = null or
   dangling dereference. *)
Definition readn (k : kind) (p : ptr) (s : state) : option node :=
  match p with
  | Null => None
  | Term => Some (Nd (-1) (match k with KV => [nullE; nullE]
                                     | KM => [nullE; nullE; nullE; nullE] end))
  | Node a => heap (tb s k) a
  end.
Definition getVar (k : kind) (p : ptr) (s : state) : option Z :=
  match readn k p s with Some nd => Some (nv nd) | None => None end.

(* node = getNode(); node->v = ..; node->children = ..; lookup(node) *)
Definition intern (k : kind) (i : tid) (nd : node) (s : state) : option (ptr * state) :=
  let '(a, t1) := getNode i (tb s k) in
  match lookup k i a nd (writeNode a nd t1) with
  | Some (p, t2) => Some (p, set_tb s k t2)
  | None => None
  end.
(* node = getNode(); fill; returnNode(node) *)
Definition scratch (k : kind) (i : tid) (nd : node) (s : state) : state :=
  let '(a, t1) := getNode i (tb s k) in
  set_tb s k (returnNode i a nd (writeNode a nd t1)).

(* AddCache::find / set pick the operand with the larger variable first :
   cache.hpp:41-43, 67-69 *)
Definition aorder (k : kind) (l r : edge) (s : state) : option (Z * edge * edge) :=
  match getVar k (en l) s, getVar k (en r) s with
  | Some lv, Some rv => if lv <? rv then Some (rv, r, l) else Some (lv, l, r)
  | _, _ => None
  end.
(* AddCache::find, find_in_bucket : cache.hpp:38-63, 212-256.  Returns the null
   edge on a miss.  SIMPLIFICATION: hits/lookups counters and the lazily
   allocated bucket (getBucket) are not represented. *)
Definition afind (k : kind) (i : tid) (l r : edge) (s : state) : option edge :=
  match aorder k l r s with
  | None => None
  | Some (lv, a, b) =>
      if level_ok lv then
        match ac s i k lv (hpair k a b mod NBUCKETS) with
        | None => Some nullE
        | Some e =>
            if edge_eqb (a_l e) a && edge_eqb (a_r e) b then
              match getVar k (en (a_res e)) s with
              | None => None
              | Some v => if v =? -2 then Some nullE else Some (a_res e)
              end
            else Some nullE
        end
      else None
  end.
(* AddCache::set, set_in_bucket : cache.hpp:65-89, 258-289 *)
Definition aset (k : kind) (i : tid) (l r res : edge) (s : state) : option state :=
  match aorder k l r s with
  | None => None
  | Some (lv, a, b) =>
      if level_ok lv
      then Some (set_ac s i k lv (hpair k a b mod NBUCKETS)
                   (Some {| a_l := a; a_r := b; a_res := res |}))
      else None
  end.

(* MulCache::find_in_bucket : cache.hpp:471-533.  [bump] returns the bucket with
   the hit entry's [picked] updated. *)
Fixpoint mbucket_find (es : list ment) (l r : ptr) : option nat :=
  match es with
  | [] => None
  | e :: rest =>
      if m_valid e && ptr_eqb (m_l e) l && ptr_eqb (m_r e) r then Some 0%nat
      else match mbucket_find rest l r with Some j => Some (S j) | None => None end
  end.
Fixpoint upd_nth {A} (i : nat) (f : A -> A) (l : list A) : list A :=
  match l, i with
  | [], _ => []
  | x :: r, O => f x :: r
  | x :: r, S j => x :: upd_nth j f r
  end.
Definition set_picked (z : Z) (e : ment) : ment :=
  {| m_valid := m_valid e; m_l := m_l e; m_r := m_r e; m_res := m_res e; m_picked := z |}.
(* MulCache::find : cache.hpp:302-326.  The level is lhs->v and lhs is always a
   matrix node; [k] is the kind of the result (KM = mm, KV = mv). *)
Definition mfind (k : kind) (i : tid) (l r : ptr) (s : state) : option (edge * state) :=
  match getVar KM l s with
  | None => None
  | Some lv =>
      if level_ok lv then
        let key := hptr l mod NBUCKETS in
        let es := mc s i k lv key in
        match mbucket_find es l r with
        | None => Some (nullE, s)
        | Some j =>
            let e := nth j es ment_init in
            match getVar k (en (m_res e)) s with
            | None => None
            | Some v =>
                if v =? -2
                then Some (nullE, set_mc s i k lv key (upd_nth j (set_picked 0) es))
                else Some (m_res e, set_mc s i k lv key (upd_nth j (set_picked (m_picked e + 1)) es))
            end
        end
      else None
  end.
(* MulCache::set_in_bucket : cache.hpp:559-605 *)
Fixpoint first_empty (es : list ment) : option nat :=
  match es with
  | [] => None
  | e :: rest => if is_null (en (m_res e)) then Some 0%nat
                 else match first_empty rest with Some j => Some (S j) | None => None end
  end.
Fixpoint min_picked_from (es : list ment) (i best : nat) (bp : Z) : nat :=
  match es with
  | [] => best
  | e :: rest => if m_picked e <? bp then min_picked_from rest (S i) i (m_picked e)
                 else min_picked_from rest (S i) best bp
  end.
Definition victim (es : list ment) : nat :=
  match first_empty es with
  | Some j => j
  | None => match es with
            | [] => 0%nat
            | e :: rest => min_picked_from rest 1 0 (m_picked e)
            end
  end.
(* MulCache::set : cache.hpp:329-352, 536-556 *)
Definition mset (k : kind) (i : tid) (l r : ptr) (res : edge) (s : state) : option state :=
  match getVar KM l s with
  | None => None
  | Some lv =>
      if level_ok lv then
        let key := hptr l mod NBUCKETS in
        let es := mc s i k lv key in
        Some (set_mc s i k lv key
                (upd_nth (victim es)
                   (fun _ => {| m_valid := true; m_l := l; m_r := r; m_res := res; m_picked := 1 |})
                   es))
      else None
  end.

(* clearAll on both caches / clear of the per-thread caches : cache.hpp:91-112,
   354-375, src/dd.cpp:2386-2397, 2437-2448 *)
Definition clear_caches (s : state) : state :=
  {| tb := tb s; ac := fun _ _ _ _ => None; mc := fun _ _ _ _ => bucket_init;
     probs := probs s; gc_v := gc_v s; gc_m := gc_m s |}.

End State.
