(* Measure.v -- probabilities and measurement (src/dd.cpp:1484-1527, 1611-1725,
   1838-1900). *)
From Coq Require Import ZArith Bool List.
From Verif Require Import Num State DD Gates.
Import ListNotations.
Open Scope Z_scope.

Section Measure.
Context {NO : NumOps} {CF : Cfg}.

Definition prset (s : state) (p : ptr) (x : num) : state :=
  set_probs s (fun q => if ptr_eqb p q then Some x else probs s q).

(* assignProbabilities : src/dd.cpp:1484-1498.  [fuel] bounds the recursion
   depth (exhaustion is [None]). *)
Fixpoint assignP (fuel : nat) (e : edge) (s : state) : option (num * state) :=
  match probs s (en e) with
  | Some x => Some (nmul (norm2 (ew e)) x, s)
  | None =>
      if is_term (en e) then Some (nmul (norm2 (ew e)) n1, prset s (en e) n1)
      else
        match fuel with
        | O => None
        | S f =>
            match readn KV (en e) s with
            | None => None
            | Some nd =>
                match assignP f (nth 0 (nch nd) nullE) s with
                | None => None
                | Some (x0, s1) =>
                    match assignP f (nth 1 (nch nd) nullE) s1 with
                    | None => None
                    | Some (x1, s2) =>
                        let sum := nadd x0 x1 in
                        Some (nmul (norm2 (ew e)) sum, prset s2 (en e) sum)
                    end
                end
            end
        end
  end.
Definition PFUEL : nat := 101.
Definition assignProbabilities (e : edge) (s : state) := assignP PFUEL e s.

(* probs[child 0] * |w0|^2 and probs[child 1] * |w1|^2 of the node of [cur] :
   src/dd.cpp:1508-1509, 1624-1625.  A child that is missing from the memo is
   reported as [None] (the code would silently insert 0). *)
Definition cprobs (s : state) (cur : edge) : option (num * num * node) :=
  match readn KV (en cur) s with
  | None => None
  | Some nd =>
      let e0 := nth 0 (nch nd) nullE in let e1 := nth 1 (nch nd) nullE in
      match probs s (en e0), probs s (en e1) with
      | Some x0, Some x1 => Some (nmul x0 (norm2 (ew e0)), nmul x1 (norm2 (ew e1)), nd)
      | _, _ => None
      end
  end.

(* the inner loop of probabilities, for j = l-1 .. 0 : src/dd.cpp:1507-1523 *)
Fixpoint prob_path (s : state) (l i : nat) (cur : edge) (prob : num) : option num :=
  match l with
  | O => Some prob
  | S j =>
      match cprobs s cur with
      | None => None
      | Some (p0, p1, nd) =>
          let tmp := nadd p0 p1 in
          let p0' := if nltb n0 tmp then ndiv p0 tmp else p0 in
          let b := Nat.testbit i j in
          let prob' := if b then nmul prob (nsub n1 p0') else nmul prob p0' in
          if neqb prob' n0 then prob_path s j i cur prob'
          else prob_path s j i (nth (if b then 1%nat else 0%nat) (nch nd) nullE) prob'
      end
  end.
Fixpoint all_some {A} (l : list (option A)) : option (list A) :=
  match l with
  | [] => Some []
  | Some x :: r => match all_some r with Some y => Some (x :: y) | None => None end
  | None :: _ => None
  end.
(* probabilities : src/dd.cpp:1500-1527; the int loop counter limits the
   number of qubits to 30. *)
Definition probabilities (e : edge) (s : state) : option (list num * state) :=
  match getVar KV (en e) s with
  | None => None
  | Some q =>
      if shift_ok (q + 1) then
        match assignProbabilities e s with
        | None => None
        | Some (_, s1) =>
            let n := Z.to_nat (q + 1) in
            match all_some (map (fun i => prob_path s1 n i e n1) (seq 0 (Nat.pow 2 n))) with
            | None => None
            | Some l => Some (l, s1)
            end
        end
      else None
  end.

(* the sampling loop of measureAll : src/dd.cpp:1623-1645.  [ths] = the numbers
   drawn from dist(mt); [res] = the string, indexed by qubit. *)
Fixpoint sample (s : state) (l : nat) (ths : list num) (cur : edge) (res : list bool) : option (list bool) :=
  match l with
  | O => Some res
  | S j =>
      match cprobs s cur, ths with
      | Some (p0, p1, nd), th :: r =>
          let tmp := nadd p0 p1 in
          let p0' := if negb (neqb tmp n0) then ndiv p0 tmp else ndiv n1 (nadd n1 n1) in
          if nltb th p0' then sample s j r (nth 0 (nch nd) nullE) res
          else sample s j r (nth 1 (nch nd) nullE) (upd_nth (Z.to_nat (nv nd)) (fun _ => true) res)
      | _, _ => None
      end
  end.
(* the collapse loop : src/dd.cpp:1647-1657 *)
Fixpoint rebuild (bits : list bool) (p : Z) (e : edge) : comp :=
  match bits with
  | [] => CRet e
  | b :: r => bind (if b then makeVEdge p zeroE e else makeVEdge p e zeroE) (fun e' => rebuild r (p + 1) e')
  end.
(* measureAll : src/dd.cpp:1611-1659.  The result string is listed from the
   highest qubit down, as returned. *)
Definition measureAll (e : edge) (collapse : bool) (ths : list num) (s : state)
  : option (list bool * edge * state) :=
  match getVar KV (en e) s with
  | None => None
  | Some q =>
      let n := Z.to_nat (q + 1) in
      match (match probs s (en e) with
             | Some _ => Some s
             | None => match assignProbabilities e s with Some (_, s1) => Some s1 | None => None end
             end) with
      | None => None
      | Some s1 =>
          match sample s1 n ths e (repeat false n) with
          | None => None
          | Some res =>
              if collapse then
                match run (rebuild res 0 oneE) s1 with
                | None => None
                | Some (e', s2) => Some (rev res, e', s2)
                end
              else Some (rev res, e, s1)
          end
      end
  end.

(* ---- one-qubit measurement ------------------------------------------------- *)
(* the breadth-first loop of determineMeasurementProbabilities :
   src/dd.cpp:1661-1702.  [pm] = probsMone, [vis] = visited, [q] = queue. *)
Definition pmget (pm : ptr -> option num) (p : ptr) : num :=
  match pm p with Some x => x | None => n0 end.
Definition pmset (pm : ptr -> option num) (p : ptr) (x : num) : ptr -> option num :=
  fun r => if ptr_eqb p r then Some x else pm r.
Definition visit (prob : num) (c : edge) (st : (ptr -> option num) * list ptr * list ptr)
  : (ptr -> option num) * list ptr * list ptr :=
  let '(pm, vis, q) := st in
  if iszero (ew c) then st
  else
    let tmp1 := nmul prob (norm2 (ew c)) in
    if existsb (ptr_eqb (en c)) vis
    then (pmset pm (en c) (nadd (pmget pm (en c)) tmp1), vis, q)
    else (pmset pm (en c) tmp1, en c :: vis, q ++ [en c]).
Fixpoint bfs (s : state) (fuel : nat) (index : Z) (st : (ptr -> option num) * list ptr * list ptr)
  : option ((ptr -> option num) * list ptr) :=
  let '(pm, vis, q) := st in
  match q with
  | [] => None                                   (* q.front() on an empty queue *)
  | p :: rest =>
      match readn KV p s with
      | None => None
      | Some nd =>
          if nv nd =? index then Some (pm, q)
          else
            match fuel with
            | O => None
            | S f =>
                let prob := pmget pm p in
                bfs s f index
                  (visit prob (nth 1 (nch nd) nullE)
                     (visit prob (nth 0 (nch nd) nullE) (pm, vis, rest)))
            end
      end
  end.
(* the summation loop : src/dd.cpp:1704-1724 *)
Definition side (s : state) (w : num) (c : edge) : option num :=
  if iszero (ew c) then Some n0
  else match probs s (en c) with
       | Some x => Some (nmul (nmul w x) (norm2 (ew c)))
       | None => None
       end.
Fixpoint sumq (s : state) (pm : ptr -> option num) (q : list ptr) (z o : num) : option (num * num) :=
  match q with
  | [] => Some (z, o)
  | p :: r =>
      match readn KV p s with
      | None => None
      | Some nd =>
          match side s (pmget pm p) (nth 0 (nch nd) nullE), side s (pmget pm p) (nth 1 (nch nd) nullE) with
          | Some a, Some b => sumq s pm r (nadd z a) (nadd o b)
          | _, _ => None
          end
      end
  end.
(* determineMeasurementProbabilities : src/dd.cpp:1661-1725.  Every node enters
   the queue at most once, so the number of addresses handed out bounds the
   number of iterations. *)
Definition detProbs (e : edge) (index : Z) (s : state) : option (num * num * state) :=
  let pm := pmset (fun _ => None) (en e) (norm2 (ew e)) in
  match bfs s (Pos.to_nat (nexta (tb s KV))) index (pm, [en e], [en e]) with
  | None => None
  | Some (pm, q) =>
      match (match probs s (en e) with
             | Some _ => Some s
             | None => match assignProbabilities e s with Some (_, s1) => Some s1 | None => None end
             end) with
      | None => None
      | Some s1 =>
          match sumq s1 pm q n0 n0 with
          | Some (z, o) => Some (z, o, s1)
          | None => None
          end
      end
  end.

(* an API call either returns or throws std::runtime_error *)
Inductive outcome (A : Type) := Ret (x : A) | Throw.
Arguments Ret {A}. Arguments Throw {A}.

(* measureOneCollapsing : src/dd.cpp:1840-1884.  [th] = the number drawn.
   Returns (outcome bit, new root edge). *)
Definition proj0 : gmat := mk2 cf_one cf_zero cf_zero cf_zero.
Definition proj1 : gmat := mk2 cf_zero cf_zero cf_zero cf_one.
Definition measureOneCollapsing (e : edge) (index : Z) (epsilon th : num) (s : state)
  : option (outcome (bool * edge) * state) :=
  match detProbs e index s with
  | None => None
  | Some (pz, po, s1) =>
      let sum := nadd pz po in
      if nltb epsilon (nabs (nsub sum n1)) then Some (Throw, s1)
      else
        let zero := nltb th (ndiv pz sum) in
        let f := if zero then pz else po in
        match getVar KV (en e) s1 with
        | None => None
        | Some v =>
            match run (makeGate (v + 1) (if zero then proj0 else proj1) index []) s1 with
            | None => None
            | Some (g, s2) =>
                match run (mv_multiply g e) s2 with
                | None => None
                | Some (e', s3) =>
                    Some (Ret (negb zero, E (cmul (ew e') (nsqrt (ndiv n1 f), n0)) (en e')), s3)
                end
            end
        end
  end.
(* measureOne : src/dd.cpp:1886-1900 *)
Definition measureOne (e : edge) (index : Z) (epsilon : num) (s : state) : option (outcome num * state) :=
  match detProbs e index s with
  | None => None
  | Some (pz, po, s1) =>
      let sum := nadd pz po in
      if nltb epsilon (nabs (nsub sum n1)) then Some (Throw, s1)
      else Some (Ret (ndiv pz sum), s1)
  end.

End Measure.
Arguments Ret {A}. Arguments Throw {A}.
