(* DD.v -- the decision-diagram operations of src/dd.cpp as programs over the
   atomic memory actions of State.v, with their sequential execution [run] and
   their concurrent small-step execution [step]. *)
From Coq Require Import ZArith Bool List.
From Verif Require Import Num State.
Import ListNotations.
Open Scope Z_scope.

Section DD.
Context {NO : NumOps} {CF : Cfg}.

(* A program that returns an edge.  Each constructor below [CRet]/[CFail] is one
   atomic access to shared memory; [CPar] forks two fibers and joins them
   (boost::fibers::packaged_task / future::get, src/dd.cpp:1139-1176,
   1418-1447).  [CFail] = assertion failure.  Reading an invalid pointer or
   an out-of-range level makes the action itself fail. *)
Inductive comp : Type :=
| CRet (e : edge)
| CFail
| CRead (k : kind) (p : ptr) (f : node -> comp)
| CIntern (k : kind) (nd : node) (f : ptr -> comp)
| CScratch (k : kind) (nd : node) (c : comp)
| CAFind (k : kind) (l r : edge) (f : edge -> comp)
| CASet (k : kind) (l r res : edge) (c : comp)
| CMFind (k : kind) (l r : ptr) (f : edge -> comp)
| CMSet (k : kind) (l r : ptr) (res : edge) (c : comp)
| CPar (c1 c2 : comp) (f : edge -> edge -> comp).

Fixpoint bind (c : comp) (g : edge -> comp) : comp :=
  match c with
  | CRet e => g e
  | CFail => CFail
  | CRead k p f => CRead k p (fun x => bind (f x) g)
  | CIntern k nd f => CIntern k nd (fun x => bind (f x) g)
  | CScratch k nd c' => CScratch k nd (bind c' g)
  | CAFind k l r f => CAFind k l r (fun x => bind (f x) g)
  | CASet k l r e c' => CASet k l r e (bind c' g)
  | CMFind k l r f => CMFind k l r (fun x => bind (f x) g)
  | CMSet k l r e c' => CMSet k l r e (bind c' g)
  | CPar c1 c2 f => CPar c1 c2 (fun x y => bind (f x y) g)
  end.

(* Sequential execution on thread 0 (the non-MT build: one allocator pool, one
   pair of caches).  [None] = undefined behaviour or failed assertion. *)
Fixpoint run (c : comp) (s : state) : option (edge * state) :=
  match c with
  | CRet e => Some (e, s)
  | CFail => None
  | CRead k p f => match readn k p s with Some nd => run (f nd) s | None => None end
  | CIntern k nd f =>
      match intern k 0%nat nd s with Some (p, s') => run (f p) s' | None => None end
  | CScratch k nd c' => run c' (scratch k 0%nat nd s)
  | CAFind k l r f => match afind k 0%nat l r s with Some e => run (f e) s | None => None end
  | CASet k l r e c' => match aset k 0%nat l r e s with Some s' => run c' s' | None => None end
  | CMFind k l r f => match mfind k 0%nat l r s with Some (e, s') => run (f e) s' | None => None end
  | CMSet k l r e c' => match mset k 0%nat l r e s with Some s' => run c' s' | None => None end
  | CPar c1 c2 f =>
      match run c1 s with
      | Some (e1, s1) => match run c2 s1 with
                         | Some (e2, s2) => run (f e1 e2) s2
                         | None => None
                         end
      | None => None
      end
  end.

(* The same on thread [i], with its own allocator pool and caches (isMT without
   CACHE_GLOBAL: src/dd.cpp:51-57, include/table.hpp).  mm_add2 and mm_multiply2
   create no fiber (src/dd.cpp:869-1053), so a call of mm_add, mm_multiply or
   makeSwap runs like this on the thread that makes it. *)
Fixpoint run_on (i : tid) (c : comp) (s : state) : option (edge * state) :=
  match c with
  | CRet e => Some (e, s)
  | CFail => None
  | CRead k p f => match readn k p s with Some nd => run_on i (f nd) s | None => None end
  | CIntern k nd f =>
      match intern k i nd s with Some (p, s') => run_on i (f p) s' | None => None end
  | CScratch k nd c' => run_on i c' (scratch k i nd s)
  | CAFind k l r f => match afind k i l r s with Some e => run_on i (f e) s | None => None end
  | CASet k l r e c' => match aset k i l r e s with Some s' => run_on i c' s' | None => None end
  | CMFind k l r f => match mfind k i l r s with Some (e, s') => run_on i (f e) s' | None => None end
  | CMSet k l r e c' => match mset k i l r e s with Some s' => run_on i c' s' | None => None end
  | CPar c1 c2 f =>
      match run_on i c1 s with
      | Some (e1, s1) => match run_on i c2 s1 with
                         | Some (e2, s2) => run_on i (f e1 e2) s2
                         | None => None
                         end
      | None => None
      end
  end.

(* Concurrent execution.  Any fiber of the tree may take the next step, on any
   thread [i] (hence with any allocator pool and any cache instance); a join
   waits for both fibers.  [Wrong] is undefined behaviour or a failed
   assertion in some fiber. *)
Inductive config := Cfg_ok (c : comp) (s : state) | Wrong.

Definition act1 (i : tid) (c : comp) (s : state) : option config :=
  match c with
  | CRet _ => None
  | CFail => Some Wrong
  | CRead k p f => Some (match readn k p s with Some nd => Cfg_ok (f nd) s | None => Wrong end)
  | CIntern k nd f =>
      Some (match intern k i nd s with Some (p, s') => Cfg_ok (f p) s' | None => Wrong end)
  | CScratch k nd c' => Some (Cfg_ok c' (scratch k i nd s))
  | CAFind k l r f => Some (match afind k i l r s with Some e => Cfg_ok (f e) s | None => Wrong end)
  | CASet k l r e c' => Some (match aset k i l r e s with Some s' => Cfg_ok c' s' | None => Wrong end)
  | CMFind k l r f =>
      Some (match mfind k i l r s with Some (e, s') => Cfg_ok (f e) s' | None => Wrong end)
  | CMSet k l r e c' => Some (match mset k i l r e s with Some s' => Cfg_ok c' s' | None => Wrong end)
  | CPar _ _ _ => None
  end.

Inductive step : config -> config -> Prop :=
| step_act i c s g : act1 i c s = Some g -> step (Cfg_ok c s) g
| step_l c1 c1' c2 f s s' :
    step (Cfg_ok c1 s) (Cfg_ok c1' s') ->
    step (Cfg_ok (CPar c1 c2 f) s) (Cfg_ok (CPar c1' c2 f) s')
| step_r c1 c2 c2' f s s' :
    step (Cfg_ok c2 s) (Cfg_ok c2' s') ->
    step (Cfg_ok (CPar c1 c2 f) s) (Cfg_ok (CPar c1 c2' f) s')
| step_l_wrong c1 c2 f s :
    step (Cfg_ok c1 s) Wrong -> step (Cfg_ok (CPar c1 c2 f) s) Wrong
| step_r_wrong c1 c2 f s :
    step (Cfg_ok c2 s) Wrong -> step (Cfg_ok (CPar c1 c2 f) s) Wrong
| step_join e1 e2 f s :
    step (Cfg_ok (CPar (CRet e1) (CRet e2) f) s) (Cfg_ok (f e1 e2) s).

Inductive steps : config -> config -> Prop :=
| steps_refl g : steps g g
| steps_cons g g' g'' : step g g' -> steps g' g'' -> steps g g''.

(* ---- normalisation and node construction ----------------------------------- *)

(* normalizeV applied by makeVEdge to {1, node}; makeVEdge : src/dd.cpp:104-143,
   160-175.  std::max_element returns the first maximum, so it is children[1]
   only if norm2(children[0]) < norm2(children[1]). *)
Definition makeVEdge (q : Z) (e0 e1 : edge) : comp :=
  if iszero (ew e0) && iszero (ew e1) then CScratch KV (Nd q [e0; e1]) (CRet zeroE)
  else
    let mx1 := nltb (norm2 (ew e0)) (norm2 (ew e1)) in
    let emax := if mx1 then e1 else e0 in
    let emin := if mx1 then e0 else e1 in
    let nw := cmul (ew emax) c1 in
    if iszero nw then CScratch KV (Nd q [e0; e1]) (CRet zeroE)
    else
      let nw' := if isone nw then c1 else nw in
      let sw := cdiv (ew emin) (ew emax) in
      let emax' := E c1 (en emax) in
      let emin' := if isone sw then E c1 (en emin)
                   else if iszero sw then zeroE
                   else E sw (en emin) in
      let ch := if mx1 then [emin'; emax'] else [emax'; emin'] in
      CIntern KV (Nd q ch) (fun p =>
        CRead KV p (fun nd => if nv nd =? q then CRet (E nw' p) else CFail)).

(* std::max_element over the children by norm2 : src/dd.cpp:69-74 *)
Definition max_elt (e : edge) (l : list edge) : edge :=
  fold_left (fun m x => if nltb (norm2 (ew m)) (norm2 (ew x)) then x else m) l e.
(* the loop at src/dd.cpp:86-96 *)
Definition norm_child (mw : cx) (e : edge) : edge :=
  let r := cdiv (ew e) mw in
  if iszero r then zeroE else E (if isone r then c1 else r) (en e).

(* normalizeM (src/dd.cpp:61-102) applied to {1, node} *)
Definition normalizeM (q : Z) (a b c d : edge) : comp :=
  let ch := [a; b; c; d] in
  if forallb (fun e => isnull (ew e)) ch then CScratch KM (Nd q ch) (CRet zeroE)
  else
    let mw := ew (max_elt a [b; c; d]) in
    let nw := cmul mw c1 in
    if iszero nw then CScratch KM (Nd q ch) (CRet zeroE)
    else
      let nw' := if isone nw then c1 else nw in
      CIntern KM (Nd q (map (norm_child mw) ch)) (fun p =>
        CRead KM p (fun nd => if -1 <=? nv nd then CRet (E nw' p) else CFail)).

(* makeMEdge, with identity stripping : src/dd.cpp:145-158 *)
Definition makeMEdge (q : Z) (a b c d : edge) : comp :=
  if ptr_eqb (en a) (en d) && iszero (ew b) && iszero (ew c) && isequal (ew a) (ew d)
  then CRet a
  else normalizeM q a b c d.

(* makeZeroState : src/dd.cpp:284-290.  Loop [for i = 1; i < q]. *)
Fixpoint zero_loop (cnt : nat) (i : Z) (e : edge) : comp :=
  match cnt with
  | O => CRet e
  | S c => bind (makeVEdge i e zeroE) (fun e' => zero_loop c (i + 1) e')
  end.
Definition makeZeroState (q : nat) : comp :=
  bind (makeVEdge 0 oneE zeroE) (fun e => zero_loop (q - 1) 1 e).
(* makeOneState : src/dd.cpp:304-310 *)
Fixpoint one_loop (cnt : nat) (i : Z) (e : edge) : comp :=
  match cnt with
  | O => CRet e
  | S c => bind (makeVEdge i zeroE e) (fun e' => one_loop c (i + 1) e')
  end.
Definition makeOneState (q : nat) : comp :=
  bind (makeVEdge 0 zeroE oneE) (fun e => one_loop (q - 1) 1 e).

(* ---- addition --------------------------------------------------------------- *)

(* operand [e] (node content [nd]) restricted to child [i] when its root is at
   level [cv], itself otherwise : src/dd.cpp:1142-1153 *)
Definition vchild (cv : Z) (e : edge) (nd : node) (i : nat) : edge :=
  if (nv nd =? cv) && negb (is_term (en e))
  then let x := nth i (nch nd) nullE in E (cmul (ew e) (ew x)) (en x)
  else e.

(* the two recursive calls are forked when the build is MT and
   current_var > LIMIT : src/dd.cpp:1154-1165, 1168-1174, 1415-1425, 1429-1435 *)
Definition fork2 (lim cv : Z) (c1 c2 : comp) (f : edge -> edge -> comp) : comp :=
  if mt_on && (lim <? cv) then CPar c1 c2 f
  else bind c1 (fun e1 => bind c2 (fun e2 => f e1 e2)).

(* vv_add2 with current_var = n - 1 : src/dd.cpp:1105-1186 *)
Fixpoint vv_add2 (lim : Z) (n : nat) (l r : edge) : comp :=
  if iszero (ew l) then (if iszero (ew r) then CRet zeroE else CRet r)
  else if iszero (ew r) then CRet l
  else
    match n with
    | O => if is_term (en l) && is_term (en r)
           then CRet (E (cadd (ew l) (ew r)) Term) else CFail
    | S m =>
        let cv := Z.of_nat m in
        if ptr_eqb (en l) (en r) then CRet (E (cadd (ew l) (ew r)) (en l))
        else
          CAFind KV l r (fun res =>
            if negb (is_null (en res))
            then CRet (if iszero (ew res) then zeroE else res)
            else
              CRead KV (en l) (fun ln =>
              CRead KV (en r) (fun rn =>
                fork2 lim cv
                  (vv_add2 lim m (vchild cv l ln 0) (vchild cv r rn 0))
                  (vv_add2 lim m (vchild cv l ln 1) (vchild cv r rn 1))
                  (fun e0 e1 =>
                     bind (makeVEdge cv e0 e1) (fun res =>
                       CASet KV l r res (CRet res))))))
    end.

(* vv_add : src/dd.cpp:1188-1194 *)
Definition vv_add (lim : Z) (l r : edge) : comp :=
  if is_term (en l) && is_term (en r) then CRet (E (cadd (ew l) (ew r)) Term)
  else CRead KV (en r) (fun rn => vv_add2 lim (Z.to_nat (nv rn + 1)) l r).

(* restriction of a matrix operand: child [i] (weight multiplied) at level
   [cv], else identity block : src/dd.cpp:911-931 *)
Definition mchild (cv : Z) (e : edge) (nd : node) (i : nat) : edge :=
  if (nv nd =? cv) && negb (is_term (en e))
  then let x := nth i (nch nd) nullE in E (cmul (ew e) (ew x)) (en x)
  else match i with 1%nat | 2%nat => zeroE | _ => e end.

(* mm_add2 with current_var = n - 1 : src/dd.cpp:869-940 *)
Fixpoint mm_add2 (n : nat) (l r : edge) : comp :=
  if edge_eqb l zeroE || edge_eqb r zeroE
  then CRet (if edge_eqb l zeroE then r else l)
  else if iszero (ew l) then CRet r
  else if iszero (ew r) then CRet l
  else
    match n with
    | O => if is_term (en l) && is_term (en r)
           then CRet (E (cadd (ew l) (ew r)) Term) else CFail
    | S m =>
        let cv := Z.of_nat m in
        if ptr_eqb (en l) (en r) then CRet (E (cadd (ew l) (ew r)) (en l))
        else
          CAFind KM l r (fun res =>
            if negb (is_null (en res))
            then CRet (if iszero (ew res) then zeroE else res)
            else
              CRead KM (en l) (fun ln =>
              CRead KM (en r) (fun rn =>
                bind (mm_add2 m (mchild cv l ln 0) (mchild cv r rn 0)) (fun e0 =>
                bind (mm_add2 m (mchild cv l ln 1) (mchild cv r rn 1)) (fun e1 =>
                bind (mm_add2 m (mchild cv l ln 2) (mchild cv r rn 2)) (fun e2 =>
                bind (mm_add2 m (mchild cv l ln 3) (mchild cv r rn 3)) (fun e3 =>
                bind (makeMEdge cv e0 e1 e2 e3) (fun res =>
                  CASet KM l r res (CRet res)))))))))
    end.

(* rootVar : src/dd.cpp:860-867 *)
Definition rootVar (l r : edge) (f : Z -> comp) : comp :=
  CRead KM (en l) (fun ln => CRead KM (en r) (fun rn =>
    if is_term (en l) || (negb (is_term (en r)) && (nv ln <? nv rn))
    then f (nv rn) else f (nv ln))).

(* mm_add : src/dd.cpp:942-949 *)
Definition mm_add (l r : edge) : comp :=
  if is_term (en l) && is_term (en r) then CRet (E (cadd (ew l) (ew r)) Term)
  else rootVar l r (fun root => mm_add2 (Z.to_nat (root + 1)) l r).

(* ---- multiplication --------------------------------------------------------- *)

(* unit-weight restriction of an operand (lcopy / rcopy have weight 1) :
   src/dd.cpp:999-1027, 1385-1413 *)
Definition mchild1 (cv : Z) (e : edge) (nd : node) (i : nat) : edge :=
  if (nv nd =? cv) && negb (is_term (en e)) then nth i (nch nd) nullE
  else match i with 1%nat | 2%nat => zeroE | _ => E c1 (en e) end.
Definition vchild1 (cv : Z) (e : edge) (nd : node) (i : nat) : edge :=
  if (nv nd =? cv) && negb (is_term (en e)) then nth i (nch nd) nullE
  else E c1 (en e).

(* the cached / computed unit-weight product rescaled : src/dd.cpp:1381-1390 *)
Definition rescale_hit (res l r : edge) : edge :=
  if iszero (ew res) then zeroE
  else let w := cmul (cmul (ew res) (ew l)) (ew r) in
       if iszero w then zeroE else E w (en res).
(* src/dd.cpp:1441-1449 *)
Definition rescale_new (res l r : edge) : edge :=
  let w := cmul (cmul (ew res) (ew l)) (ew r) in
  if iszero w then zeroE else E (if isone w then c1 else w) (en res).

(* mv_multiply2 with current_var = n - 1 : src/dd.cpp:1366-1468 *)
Fixpoint mv_multiply2 (lim : Z) (n : nat) (l r : edge) : comp :=
  if edge_eqb l zeroE then CRet zeroE
  else if is_term (en l) then CRet (E (cmul (ew r) (ew l)) (en r))
  else if iszero (ew l) || iszero (ew r) then CRet zeroE
  else
    match n with
    | O => if is_term (en l) && is_term (en r)
           then CRet (E (cmul (ew l) (ew r)) Term) else CFail
    | S m =>
        let cv := Z.of_nat m in
        CMFind KV (en l) (en r) (fun res =>
          if negb (is_null (en res)) then CRet (rescale_hit res l r)
          else
            CRead KM (en l) (fun ln =>
            CRead KV (en r) (fun rn =>
              let half (i : nat) (f : edge -> comp) :=
                fork2 lim cv
                  (mv_multiply2 lim m (mchild1 cv l ln (2 * i)) (vchild1 cv r rn 0))
                  (mv_multiply2 lim m (mchild1 cv l ln (2 * i + 1)) (vchild1 cv r rn 1))
                  (fun p0 p1 => bind (vv_add2 lim m p0 p1) f) in
              half 0%nat (fun e0 => half 1%nat (fun e1 =>
                bind (makeVEdge cv e0 e1) (fun res =>
                  CMSet KV (en l) (en r) res (CRet (rescale_new res l r))))))))
    end.

(* mv_multiply : src/dd.cpp:1470-1482; LIMIT = rhs.getVar() - MINUS, MINUS = 6
   (src/dd.cpp:58-59) *)
Definition MINUS : Z := 6.
Definition mv_multiply (l r : edge) : comp :=
  if is_term (en l) && is_term (en r) then CRet (E (cmul (ew l) (ew r)) Term)
  else CRead KV (en r) (fun rn =>
         mv_multiply2 (nv rn - MINUS) (Z.to_nat (nv rn + 1)) l r).

(* mm_multiply2 with current_var = n - 1 : src/dd.cpp:951-1043 *)
Fixpoint mm_multiply2 (n : nat) (l r : edge) : comp :=
  if edge_eqb l zeroE || edge_eqb r zeroE then CRet zeroE
  else if is_term (en l) then CRet (E (cmul (ew r) (ew l)) (en r))
  else if is_term (en r) then CRet (E (cmul (ew l) (ew r)) (en l))
  else if iszero (ew l) || iszero (ew r) then CRet zeroE
  else
    match n with
    | O => if is_term (en l) && is_term (en r)
           then CRet (E (cmul (ew l) (ew r)) Term) else CFail
    | S m =>
        let cv := Z.of_nat m in
        CMFind KM (en l) (en r) (fun res =>
          if negb (is_null (en res)) then CRet (rescale_hit res l r)
          else
            CRead KM (en l) (fun ln =>
            CRead KM (en r) (fun rn =>
              if (nv ln <=? cv) && (nv rn <=? cv) then
                let entry (i : nat) (f : edge -> comp) :=
                  let row := Nat.div i 2 in
                  let col := Nat.modulo i 2 in
                  bind (mm_multiply2 m (mchild1 cv l ln (2 * row)) (mchild1 cv r rn col)) (fun p0 =>
                  bind (mm_multiply2 m (mchild1 cv l ln (2 * row + 1)) (mchild1 cv r rn (2 + col))) (fun p1 =>
                  bind (mm_add2 m p0 p1) f)) in
                entry 0%nat (fun e0 => entry 1%nat (fun e1 =>
                entry 2%nat (fun e2 => entry 3%nat (fun e3 =>
                  bind (makeMEdge cv e0 e1 e2 e3) (fun res =>
                    CMSet KM (en l) (en r) res (CRet (rescale_new res l r)))))))
              else CFail)))
    end.

(* mm_multiply : src/dd.cpp:1045-1053 *)
Definition mm_multiply (l r : edge) : comp :=
  if is_term (en l) && is_term (en r) then CRet (E (cmul (ew l) (ew r)) Term)
  else rootVar l r (fun root => mm_multiply2 (Z.to_nat (root + 1)) l r).

(* ---- Kronecker products ------------------------------------------------------ *)
(* The recursion follows lhs to its terminals; [n] bounds its height
   (exhaustion is [CFail]).
   vv_kronecker2 : src/dd.cpp:1196-1218 *)
Fixpoint vv_kronecker2 (n : nat) (l r : edge) : comp :=
  if is_term (en l) then CRet (E (cmul (ew l) (ew r)) (en r))
  else if is_term (en r) then CRet (E (cmul (ew l) (ew r)) (en l))
  else
    match n with
    | O => CFail
    | S m =>
        CRead KV (en l) (fun ln =>
        CRead KV (en r) (fun rn =>
          let sub i := let x := nth i (nch ln) nullE in E (cmul (ew l) (ew x)) (en x) in
          bind (vv_kronecker2 m (sub 0%nat) r) (fun e0 =>
          bind (vv_kronecker2 m (sub 1%nat) r) (fun e1 =>
            makeVEdge (nv ln + nv rn + 1) e0 e1))))
    end.
(* vv_kronecker : src/dd.cpp:1220-1226 *)
Definition vv_kronecker (l r : edge) : comp :=
  if is_term (en l) && is_term (en r) then CRet (E (cmul (ew l) (ew r)) Term)
  else CRead KV (en l) (fun ln => vv_kronecker2 (Z.to_nat (nv ln + 1)) l r).

(* mm_kronecker2 : src/dd.cpp:1076-1095 *)
Fixpoint mm_kronecker2 (n : nat) (l r : edge) : comp :=
  if is_term (en l) then CRet (E (cmul (ew l) (ew r)) (en r))
  else
    match n with
    | O => CFail
    | S m =>
        CRead KM (en l) (fun ln =>
        CRead KM (en r) (fun rn =>
          let sub i := let x := nth i (nch ln) nullE in E (cmul (ew l) (ew x)) (en x) in
          bind (mm_kronecker2 m (sub 0%nat) r) (fun e0 =>
          bind (mm_kronecker2 m (sub 1%nat) r) (fun e1 =>
          bind (mm_kronecker2 m (sub 2%nat) r) (fun e2 =>
          bind (mm_kronecker2 m (sub 3%nat) r) (fun e3 =>
            makeMEdge (nv ln + nv rn + 1) e0 e1 e2 e3))))))
    end.
(* mm_kronecker : src/dd.cpp:1097-1103 *)
Definition mm_kronecker (l r : edge) : comp :=
  if is_term (en l) && is_term (en r) then CRet (E (cmul (ew l) (ew r)) Term)
  else CRead KM (en l) (fun ln => mm_kronecker2 (Z.to_nat (nv ln + 1)) l r).

(* ---- reading results out ----------------------------------------------------- *)
(* The arrays written by fillVector / fillMatrix are maps from indices. *)
Definition vec := N -> cx.
Definition vupd (m : vec) (i : N) (x : cx) : vec := fun j => if N.eqb i j then x else m j.
Fixpoint vfill (m : vec) (row : BinNums.N) (cnt : nat) (x : cx) : vec :=
  match cnt with O => m | S c => vupd (vfill m row c x) (row + N.of_nat c) x end.

(* fillVector : src/dd.cpp:1322-1341; [left] = levels left *)
Fixpoint fillVector (s : state) (left : nat) (e : edge) (row : N) (w : cx) (m : vec) : option vec :=
  let wp := cmul (ew e) w in
  if is_term (en e) then
    match left with
    | O => Some (vupd m row wp)
    | _ => Some (vfill m (N.shiftl row (N.of_nat left)) (Nat.pow 2 left) wp)
    end
  else
    match left with
    | O => None                      (* left - 1 wraps: out of range writes *)
    | S l =>
        match readn KV (en e) s with
        | None => None
        | Some nd =>
            match fillVector s l (nth 0 (nch nd) nullE) (N.shiftl row 1) wp m with
            | None => None
            | Some m1 => fillVector s l (nth 1 (nch nd) nullE) (N.shiftl row 1 + 1) wp m1
            end
        end
    end.
(* 1 << k on a 32-bit int is undefined for k >= 31 *)
Definition shift_ok (k : Z) : bool := (0 <=? k) && (k <? 31).
(* getVector : src/dd.cpp:1343-1353.  assert(!isTerminal()). *)
Definition getVector (s : state) (e : edge) : option (list cx) :=
  if is_term (en e) then None
  else match getVar KV (en e) s with
       | None => None
       | Some q =>
           if shift_ok (q + 1) then
             let d := Nat.pow 2 (Z.to_nat (q + 1)) in
             match fillVector s (Z.to_nat (q + 1)) e 0 c1 (fun _ => c0) with
             | None => None
             | Some m => Some (map (fun i => m (N.of_nat i)) (seq 0 d))
             end
           else None
       end.

Definition mat := N -> N -> cx.
Definition mupd (m : mat) (i j : N) (x : cx) : mat :=
  fun i' j' => if N.eqb i i' && N.eqb j j' then x else m i' j'.
(* fillMatrix : src/dd.cpp:185-212; dim = 2^d *)
Fixpoint fillMatrix (s : state) (d : nat) (e : edge) (row col : N) (w : cx) (m : mat) : option mat :=
  match getVar KM (en e) s with
  | None => None
  | Some v =>
      if v + 1 =? Z.of_nat d then
        let wp := cmul (ew e) w in
        if is_term (en e) then Some (mupd m row col wp)    (* here dim = 1 *)
        else
          match d, readn KM (en e) s with
          | S d', Some nd =>
              let h := N.shiftl 1 (N.of_nat d') in
              match fillMatrix s d' (nth 0 (nch nd) nullE) row col wp m with
              | None => None
              | Some m0 =>
              match fillMatrix s d' (nth 1 (nch nd) nullE) row (col + h) wp m0 with
              | None => None
              | Some m1 =>
              match fillMatrix s d' (nth 2 (nch nd) nullE) (row + h) col wp m1 with
              | None => None
              | Some m2 => fillMatrix s d' (nth 3 (nch nd) nullE) (row + h) (col + h) wp m2
              end end end
          | _, _ => None
          end
      else
        match d with
        | O => None                                       (* dim / 2 reaches 0: no return *)
        | S d' =>
            let h := N.shiftl 1 (N.of_nat d') in
            match fillMatrix s d' e row col w m with
            | None => None
            | Some m0 =>
            match fillMatrix s d' e row (col + h) c0 m0 with
            | None => None
            | Some m1 =>
            match fillMatrix s d' e (row + h) col c0 m1 with
            | None => None
            | Some m2 => fillMatrix s d' e (row + h) (col + h) w m2
            end end end
        end
  end.
(* getMatrix(&dim, nQubits) : src/dd.cpp:239-251 (nQubits = -1 means "up to the
   root's own variable") *)
Definition getMatrix (s : state) (e : edge) (nq : Z) : option (list (list cx)) :=
  match getVar KM (en e) s with
  | None => None
  | Some v =>
      let nq' := if nq =? -1 then v + 1 else nq in
      if shift_ok nq' then
        let d := Z.to_nat nq' in
        match fillMatrix s d e 0 0 c1 (fun _ _ => c0) with
        | None => None
        | Some m => Some (map (fun i => map (fun j => m (N.of_nat i) (N.of_nat j))
                                            (seq 0 (Nat.pow 2 d))) (seq 0 (Nat.pow 2 d)))
        end
      else None
  end.

End DD.
