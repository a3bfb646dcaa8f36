(* Print.v -- printed and drawn diagrams: printVector, printVectorMPI,
   printVector_sparse (src/dd.cpp:1055-1074, 1228-1318), printMatrix (214-239),
   getEigenVector / getEigenMatrix (266-278, 1355-1364) and genDot (2080-2166).
   Simplified: an output is the list of its lines; numbers are printed exactly and
   addresses by distinct numbers (iostreams round to 6 digits). *)
From Coq Require Import ZArith NArith Bool List.
From Verif Require Import Num State DD Measure MPI MPIM.
Import ListNotations.
Open Scope Z_scope.

Section Print.
Context {NO : NumOps} {CF : Cfg}.

(* printVector2 : src/dd.cpp:1055-1074; [left] = levels left *)
Fixpoint printVector2 (s : state) (left : nat) (e : edge) (row : N) (w : cx) (m : vec) : option vec :=
  let wp := cmul (ew e) w in
  if is_term (en e) then
    match left with
    | O => Some (vupd m row wp)
    | _ => Some (vfill m (N.shiftl row (N.of_nat left)) (Nat.pow 2 left) wp)
    end
  else
    match left with
    | O => None
    | S l =>
        match readn KV (en e) s with
        | None => None
        | Some nd =>
            match printVector2 s l (nth 0 (nch nd) nullE) (N.shiftl row 1) wp m with
            | None => None
            | Some m1 => printVector2 s l (nth 1 (nch nd) nullE) (N.shiftl row 1 + 1) wp m1
            end
        end
    end.
(* the array of printVector for an inner node : src/dd.cpp:1233-1238 *)
Definition print_array (s : state) (e : edge) : option (list cx) :=
  match getVar KV (en e) s with
  | None => None
  | Some q =>
      if shift_ok (q + 1) then
        match printVector2 s (Z.to_nat (q + 1)) e 0 c1 (fun _ => c0) with
        | None => None
        | Some m => Some (map (fun i => m (N.of_nat i)) (seq 0 (Nat.pow 2 (Z.to_nat (q + 1)))))
        end
      else None
  end.
(* vEdge::printVector : src/dd.cpp:1228-1247 *)
Definition printVector (s : state) (e : edge) : option (list cx) :=
  if is_term (en e) then Some [ew e] else print_array s e.

(* vEdge::printVectorMPI : src/dd.cpp:1250-1276.  What rank 0 prints, rank after
   rank; None is the line "(all 0)". *)
Definition printVectorMPI (w : world) : option (list (option cx)) :=
  match each (fun _ e s => if is_term (en e) then Some ([None], s)
                           else match print_array s e with None => None | Some l => Some (map Some l, s) end) 0 w with
  | None => None
  | Some (ls, _) => Some (concat ls)
  end.

(* printVector_sparse2 : src/dd.cpp:1279-1302; thr is the constant 0.001 of line
   1284; [m] is the std::map, as a partial function *)
Definition cnorm (x : cx) : num := nsqrt (norm2 x).
Definition smap := N -> option cx.
Definition supd (m : smap) (i : N) (x : cx) : smap := fun j => if N.eqb i j then Some x else m j.
Fixpoint sfill (m : smap) (row : N) (cnt : nat) (x : cx) : smap :=
  match cnt with O => m | S c => supd (sfill m row c x) (row + N.of_nat c) x end.
Fixpoint sparse2 (thr : num) (s : state) (left : nat) (e : edge) (row : N) (w : cx) (m : smap) : option smap :=
  let wp := cmul (ew e) w in
  if is_term (en e) then
    match left with
    | O => Some (if nltb thr (cnorm wp) then supd m row wp else m)
    | _ => Some (if nltb thr (cnorm wp) then sfill m (N.shiftl row (N.of_nat left)) (Nat.pow 2 left) wp else m)
    end
  else
    match left with
    | O => None
    | S l =>
        match readn KV (en e) s with
        | None => None
        | Some nd =>
            match sparse2 thr s l (nth 0 (nch nd) nullE) (N.shiftl row 1) wp m with
            | None => None
            | Some m1 => sparse2 thr s l (nth 1 (nch nd) nullE) (N.shiftl row 1 + 1) wp m1
            end
        end
    end.
(* vEdge::printVector_sparse : src/dd.cpp:1304-1318.  The lines in the order of the
   map; a terminal prints its weight only. *)
Inductive sline := SWeight (w : cx) | SLine (i : N) (x : cx).
Definition printVector_sparse (thr : num) (s : state) (e : edge) : option (list sline) :=
  if is_term (en e) then Some [SWeight (ew e)]
  else match getVar KV (en e) s with
       | None => None
       | Some q =>
           if shift_ok (q + 1) then
             match sparse2 thr s (Z.to_nat (q + 1)) e 0 c1 (fun _ => None) with
             | None => None
             | Some m => Some (flat_map (fun i => match m (N.of_nat i) with None => [] | Some x => [SLine (N.of_nat i) x] end)
                                        (seq 0 (Nat.pow 2 (Z.to_nat (q + 1)))))
             end
           else None
       end.

(* mEdge::printMatrix : src/dd.cpp:214-239, the same array as getMatrix *)
Definition printMatrix (s : state) (e : edge) (n : Z) : option (list (list cx)) := getMatrix s e n.
(* vEdge::getEigenVector : src/dd.cpp:1355-1364, mEdge::getEigenMatrix : 266-278:
   copies of the arrays of getVector and getMatrix *)
Definition getEigenVector (s : state) (e : edge) : option (list cx) := getVector s e.
Definition getEigenMatrix (s : state) (e : edge) (n : Z) : option (list (list cx)) := getMatrix s e n.

(* genDot : one line of the drawing is a node with its label, an edge from a node to
   a node with its number and weight, or the terminal with the weight of the root
   edge *)
Inductive dline := DNode (p : ptr) (label : Z) | DEdge (p q : ptr) (i : nat) (w : cx) | DTerm (w : cx).
(* the loop over the children, lines 2088-2096 and 2131-2142; matrices skip children
   that are approximately zero *)
Fixpoint dot_kids (k : kind) (rec : ptr -> list dline * list ptr -> option (list dline * list ptr))
  (p : ptr) (i : nat) (cs : list edge) (st : list dline * list ptr) : option (list dline * list ptr) :=
  match cs with
  | [] => Some st
  | c :: r =>
      if (match k with KM => iszero (ew c) | KV => false end) then dot_kids k rec p (S i) r st
      else
        let st1 := (fst st ++ [DEdge p (en c) i (ew c)], snd st) in
        match (if is_term (en c) then Some st1 else rec (en c) st1) with
        | None => None
        | Some st2 => dot_kids k rec p (S i) r st2
        end
  end.
(* genDot2 : src/dd.cpp:2080-2097 (vectors, label = depth), 2123-2143 (matrices, label
   = level).  snd st = done.  [fuel] bounds the recursion depth. *)
Fixpoint genDot2 (k : kind) (s : state) (fuel : nat) (p : ptr) (depth : Z) (st : list dline * list ptr)
  : option (list dline * list ptr) :=
  if existsb (ptr_eqb p) (snd st) then Some st
  else
    match fuel with
    | O => None
    | S f =>
        match readn k p s with
        | None => None
        | Some nd =>
            dot_kids k (fun q st => genDot2 k s f q (depth + 1) st) p 0 (nch nd)
              (fst st ++ [DNode p (match k with KV => depth | KM => nv nd end)], p :: snd st)
        end
    end.
(* genDot : src/dd.cpp:2099-2121, 2145-2166: the lines and the number of nodes written
   to std::cout.  A terminal vector gives the empty string, a terminal matrix fails an
   assertion. *)
Definition genDot (k : kind) (s : state) (e : edge) : option (list dline * nat) :=
  if is_term (en e) then match k with KV => Some ([], O) | KM => None end
  else match genDot2 k s 101 (en e) 0 ([], []) with
       | None => None
       | Some (ls, d) => Some (ls ++ [DTerm (ew e)], length d)
       end.
End Print.
