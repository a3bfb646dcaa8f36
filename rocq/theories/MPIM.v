(* MPIM.v -- measurement and readout in the distributed build.  A world is the
   list of the ranks' handles and tables, in rank order.  Collectives (all_reduce,
   all_gather, gather, broadcast) are modelled as functions of the contributions of
   all ranks in rank order; the MPI library is trusted to implement them, and the
   order in which all_reduce adds is irrelevant in exact arithmetic. *)
From Coq Require Import ZArith Bool List Lia Arith.
From Verif Require Import Num State DD Gates GC Measure Async MPI.
Import ListNotations.
Open Scope nat_scope.

Section MPIM.
Context {NO : NumOps} {CF : Cfg}.

Definition world := list (edge * state).
(* every rank runs f, in rank order from [r]; None if one of them fails *)
Fixpoint each {A} (f : nat -> edge -> state -> option (A * state)) (r : nat) (w : world) : option (list A * list state) :=
  match w with
  | [] => Some ([], [])
  | (e, s) :: t =>
      match f r e s with
      | None => None
      | Some (a, s') =>
          match each f (S r) t with
          | None => None
          | Some (l, ss) => Some (a :: l, s' :: ss)
          end
      end
  end.
Definition nsum (l : list num) : num := fold_right nadd n0 l.

(* probabilitiesMPI : src/dd.cpp:1539-1555, flatten 1529-1536 *)
Definition probs_rank (_ : nat) (e : edge) (s : state) : option (num * list num * state) :=
  match assignProbabilities e s with
  | None => None
  | Some (p, s1) => match probabilities e s1 with None => None | Some (l, s2) => Some ((p, l), s2) end
  end.
Definition probabilitiesMPI (w : world) : option (list num * list state) :=
  match each probs_rank 0 w with
  | None => None
  | Some (pls, ss) =>
      let all := nsum (map fst pls) in
      Some (concat (map (fun pl => map (fun x => ndiv (nmul x (fst pl)) all) (snd pl)) pls), ss)
  end.
(* _getVectorMPI : qdd/bindings.cpp:150-169 *)
Definition getVectorMPI (w : world) : option (list cx) :=
  match each (fun _ e s => match getVector s e with None => None | Some l => Some (l, s) end) 0 w with
  | None => None
  | Some (ls, _) => Some (concat ls)
  end.

(* measureOneMPI, measureOneCollapsingMPI : src/dd.cpp:1728-1759, 1800-1831.
   [local] = local_size.  (rank << index) & (1 << index), undefined from 31 on. *)
Definition id_bit (index : Z) (rank : nat) : option bool :=
  if shift_ok index then Some (negb (Z.land (Z.shiftl (Z.of_nat rank) index) (Z.shiftl 1 index) =? 0)%Z) else None.
Definition one_rank (local index : Z) (r : nat) (e : edge) (s : state) : option (num * num * state) :=
  match assignProbabilities e s with
  | None => None
  | Some (p, s1) =>
      if (local <=? index)%Z then
        match id_bit index r with
        | None => None
        | Some b => Some (if b then (n0, p) else (p, n0), s1)
        end
      else if nltb n0 p then
        match detProbs e index s1 with None => None | Some (z, o, s2) => Some ((z, o), s2) end
      else Some ((n0, n0), s1)
  end.
Definition one_all (n g : nat) (index : Z) (w : world) : option (num * num * list state) :=
  match each (one_rank (Z.of_nat (n - g)) index) 0 w with
  | None => None
  | Some (zos, ss) =>
      let z := nsum (map fst zos) in let o := nsum (map snd zos) in
      if neqb z n0 && neqb o n0 then None else Some (z, o, ss)     (* assert *)
  end.
Definition measureOneMPI (n g : nat) (index : Z) (w : world) : option (num * list state) :=
  match one_all n g index w with
  | None => None
  | Some (z, o, ss) => Some (ndiv z (nadd z o), ss)
  end.
(* measureOneCollapsingMPI up to the projection, lines 1728-1784: rank 0 draws
   [th] from [0, z+o) and broadcasts; the outcome (true = '1') and the factor *)
Definition outcomeMPI (n g : nat) (index : Z) (th : num) (w : world) : option (bool * num * list state) :=
  match one_all n g index w with
  | None => None
  | Some (z, o, ss) =>
      let zero := nltb th z in
      let f := if zero then z else o in
      if nltb n0 f then Some (negb zero, nsqrt (ndiv (nadd z o) f), ss) else None
  end.
(* lines 1785-1795: the projector is built and applied with the ring *)
Definition scale (c : num) (r : nat) (m m' : mem) : Prop :=
  match m with
  | None => m' = None
  | Some x => m' = Some (Rm (rm_s x) (rm_lhs x) (E (cmul (ew (rm_rhs x)) (c, n0)) (en (rm_rhs x))) (rm_res x) (rm_buf x))
  end.
Definition collapse_MPI (lim : Z) (n g : nat) (index : Z) (out : bool) (c : num) : list (@block mem payload) :=
  BLocal (build (makeGate (Z.of_nat n) (if out then proj1 else proj0) index []))
  :: mv_multiply_MPI lim n g (Z.to_nat index) ++ [BLocal (scale c)].

(* measureAllMPI : src/dd.cpp:1557-1608.  [tss] = the draws of each rank's own
   measureAll; [th] = rank 0's draw from [0, sum). *)
Definition all_rank (tss : list (list num)) (r : nat) (e : edge) (s : state) : option (num * list bool * state) :=
  match (match probs s (en e) with
         | Some _ => Some s
         | None => match assignProbabilities e s with Some (_, s1) => Some s1 | None => None end
         end) with
  | None => None
  | Some s1 =>
      match probs s1 (en e), measureAll e false (nth r tss []) s1 with
      | Some x, Some (b, _, s2) => Some ((nmul x (norm2 (ew e)), b), s2)
      | _, _ => None
      end
  end.
(* lines 1577-1585 *)
Fixpoint pick (th cur : num) (l : list num) (i : nat) : nat :=
  match l with
  | [] => 0
  | p :: r =>
      let cur' := nadd cur p in
      if nleb th cur' then i else match r with [] => i | _ => pick th cur' r (S i) end
  end.
(* lines 1589-1597 *)
Fixpoint rank_bits (g tmp : nat) : list bool :=
  match g with
  | O => []
  | S i => if 1 <=? tmp / 2 ^ i then true :: rank_bits i (tmp - 2 ^ i) else false :: rank_bits i tmp
  end.
Definition measureAllMPI (g : nat) (tss : list (list num)) (th : num) (w : world) : option (list bool * list state) :=
  match each (all_rank tss) 0 w with
  | None => None
  | Some (pbs, ss) =>
      let t := pick th n0 (map fst pbs) 0 in
      match nth_error (map snd pbs) t with
      | None => None
      | Some str => Some (rank_bits g t ++ str, ss)
      end
  end.
End MPIM.
