(* Sampler.v -- model of qdd/qdd_sampler.py.
   Qiskit's own functions are parameters: the key under which a circuit is
   remembered (_circuit_key), its parameters, assign_parameters (None: it raises) and
   transpile (which may answer differently at different times; with
   skip_transpilation it is the identity).  A set is a list without repetitions.
   The metadata and the header of the results, the formatting of count keys by
   Result.get_counts (blanks between registers, removed again at 135) and the
   seed (Seeds.v) are left out. *)
From Coq Require Import Reals ZArith Bool List Arith.
From Verif Require Import Spec Backend.
Import ListNotations.
Open Scope nat_scope.

Section Sampler.
Context {Q K N V : Type} (K_dec : forall x y : K, {x = y} + {x <> y}).
Context (key : Q -> K) (params : Q -> list N) (assign : Q -> option (list (N * V)) -> option circ) (transp : nat -> Q -> Q).
Context (eps : R) (default_shots : option Z).

(* 73-83: the object.  [clock] only indexes the calls of transpile. *)
Record sampler := Smp { circuits : list Q; parameters : list (list N); circuit_ids : list (K * nat);
  transpiled : list (nat * Q); clock : nat }.
Definition sampler_init : sampler := Smp [] [] [] [] 0.
Fixpoint get_id (d : list (K * nat)) (k : K) : option nat :=
  match d with [] => None | (k', i) :: r => if K_dec k k' then Some i else get_id r k end.
(* 155-166: the loop over the submitted circuits *)
Definition register (s : sampler) (q : Q) : nat * sampler :=
  match get_id (circuit_ids s) (key q) with
  | Some i => (i, s)
  | None => (length (circuits s), Smp (circuits s ++ [q]) (parameters s ++ [params q])
                                      ((key q, length (circuits s)) :: circuit_ids s) (transpiled s) (clock s))
  end.
Fixpoint register_all (s : sampler) (qs : list Q) : list nat * sampler :=
  match qs with
  | [] => ([], s)
  | q :: r => let '(i, s1) := register s q in let '(is_, s2) := register_all s1 r in (i :: is_, s2)
  end.
(* 170-183 *)
Fixpoint get_tr (d : list (nat * Q)) (i : nat) : option Q :=
  match d with [] => None | (j, q) :: r => if i =? j then Some q else get_tr r i end.
Definition transpile1 (s : sampler) (i : nat) : sampler :=
  match get_tr (transpiled s) i, nth_error (circuits s) i with
  | None, Some q => Smp (circuits s) (parameters s) (circuit_ids s) ((i, transp (clock s) q) :: transpiled s) (S (clock s))
  | _, _ => s
  end.
Definition transpile_all (s : sampler) (is_ : list nat) : sampler := fold_left transpile1 is_ s.

(* ---- _ExperimentManager (186-220) ---- *)
Record manager := Mgr { keys : list nat; experiment_circuits : list Q; parameter_binds : list (list (N * V));
  input_indices : list (list nat); num_experiment : nat }.
Definition manager_init : manager := Mgr [] [] [] [] 0.
Fixpoint index_of (x : nat) (l : list nat) : option nat :=
  match l with [] => None | y :: r => if x =? y then Some 0 else option_map S (index_of x r) end.
(* 202-220.  [vs.append] at 212 is called on a float: it raises unless the
   dictionary iterated over is empty. *)
Definition append (m : manager) (k : nat) (b : list (N * V)) (q : Q) : option manager :=
  let fresh := Some (Mgr (keys m ++ [k]) (experiment_circuits m ++ [q]) (parameter_binds m ++ [b])
                         (input_indices m ++ [[num_experiment m]]) (S (num_experiment m))) in
  match b, index_of k (keys m) with
  | _ :: _, Some ki =>
      match nth ki (parameter_binds m) [] with
      | [] => Some (Mgr (keys m) (experiment_circuits m) (parameter_binds m)
                        (upd (input_indices m) ki (nth ki (input_indices m) [] ++ [num_experiment m])) (S (num_experiment m)))
      | _ :: _ => None
      end
  | _, _ => fresh
  end.
(* np.argsort (197-200) on distinct values *)
Fixpoint insert (x : nat * nat) (l : list (nat * nat)) : list (nat * nat) :=
  match l with [] => [x] | y :: r => if fst x <=? fst y then x :: l else y :: insert x r end.
Definition argsort (l : list nat) : list nat := map snd (fold_right insert [] (combine l (seq 0 (length l)))).
Definition experiment_indices (m : manager) : list nat := argsort (concat (input_indices m)).

(* ---- _call (85-143) ---- *)
(* 98-109 *)
Fixpoint collect (s : sampler) (m : manager) (l : list (nat * list V)) : option manager :=
  match l with
  | [] => Some m
  | (i, value) :: r =>
      let ps := nth i (parameters s) [] in
      if negb (length value =? length ps) then None else
      match get_tr (transpiled s) i with
      | None => None
      | Some q => match append m i (combine ps value) q with None => None | Some m' => collect s m' r end
      end
  end.
(* a returned quasi-distribution: by outcome, or by number *)
Inductive quasi := QCounts (d : list (list bool * R)) (shots : nat) | QProbs (d : list R).
(* 117-141: None when the data asked for is absent *)
Definition post (shots_none : bool) (d : rdata) : option quasi :=
  match shots_none, d with
  | true, Probs l => Some (QProbs l)
  | false, Counts l =>
      let c := counter l in let shots := fold_right (fun x acc => snd x + acc) 0 c in
      Some (QCounts (map (fun x => (fst x, (INR (snd x) / INR shots)%R)) c) shots)
  | _, _ => None
  end.
Definition is_none (o : option (option Z)) : bool := match o with Some None => true | _ => false end.
Definition post_all (sn : bool) (results : list rdata) (is_ : list nat) : option (list quasi) :=
  all_some (map (fun i => match nth_error results i with Some d => post sn d | None => None end) is_).
Definition call (s : sampler) (is_ : list nat) (vals : list (list V)) (shots : option (option Z)) : tree (list quasi) :=
  match collect s manager_init (combine is_ vals) with
  | None => Raise
  | Some m =>
      bind (run_backend eps false default_shots (Some (map assign (experiment_circuits m))) (Ropts shots (Some (parameter_binds m))))
        (fun j => match post_all (is_none shots) (match j with Done l => l | Failed => [] end) (experiment_indices m) with
                  | Some l => Leaf l
                  | None => Raise
                  end)
  end.
(* _run (145-168): the state of the object afterwards, and the result *)
Definition sampler_run (s : sampler) (sub : list (Q * list V)) (shots : option (option Z)) : sampler * tree (list quasi) :=
  let '(is_, s1) := register_all s (map fst sub) in
  let s2 := transpile_all s1 is_ in
  (s2, call s2 is_ (map snd sub) shots).
(* the states of the object after any submissions *)
Inductive sreach : sampler -> Prop :=
| sr_init : sreach sampler_init
| sr_run s sub shots : sreach s -> sreach (fst (sampler_run s sub shots)).
End Sampler.
