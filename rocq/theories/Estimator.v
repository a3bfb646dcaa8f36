(* Estimator.v -- model of qdd/qdd_estimator.py with skip_transpilation=True (the
   layout is then the identity).
   Parameters: as in Sampler.v, Qiskit's functions: the keys under which circuits and
   observables are remembered (_circuit_key, _observable_key), circuit.parameters,
   assign_parameters (None: it raises), PauliList.unique followed by
   group_commuting(qubit_wise=True) as one function [group].
   Left out: metadata, variances (EstVar.v), warnings, the seed (Seeds.v), the normal-distribution noise
   of approximation=True with a number of shots (526-534), np.real_if_close on the
   returned values (which only drops imaginary parts that are nearly 0). *)
From Coq Require Import Reals ZArith Bool List Arith.
From Coquelicot Require Import Complex.
From Verif Require Import Num Gates RNum Spec Backend.
Import ListNotations.
Open Scope nat_scope.

(* Pauli, PauliList without phases: (x, z) of each qubit *)
Definition pauli := list (bool * bool).
Definition px (p : pauli) (q : nat) : bool := fst (nth q p (false, false)).
Definition pz (p : pauli) (q : nat) : bool := snd (nth q p (false, false)).
Definition pnon (p : pauli) (q : nat) : bool := pz p q || px p q.
Definition is_id (p : pauli) : bool := forallb (fun xz => negb (fst xz || snd xz)) p.
Definition pair_dec (x y : bool * bool) : {x = y} + {x <> y}.
Proof. decide equality; apply Bool.bool_dec. Defined.
Definition pauli_dec : forall x y : pauli, {x = y} + {x <> y} := list_eq_dec pair_dec.
Definition mem_p (p : pauli) (l : list pauli) : bool := existsb (fun x => if pauli_dec p x then true else false) l.
(* SparsePauliOp: terms with coefficients *)
Definition obs := list (pauli * C).
(* _paulis2basis, 638-644 *)
Definition paulis2basis (ps : list pauli) : pauli :=
  map (fun q => (existsb (fun p => px p q) ps, existsb (fun p => pz p q) ps)) (seq 0 (length (nth 0 ps []))).
(* np.arange(num_qubits)[basis.z | basis.x], 337; np.where(basis.z | basis.x)[0], 516, 555 *)
Definition support (b : pauli) : list nat := filter (pnon b) (seq 0 (length b)).
Definition gH : matrix := @Hmat (RNum 0).
Definition gSdg : matrix := @Sdagmat (RNum 0).
(* _create_meas_circuit, 336-348: the instructions; j is the clbit *)
Fixpoint meas_data (b : pauli) (j : nat) (qs : list nat) : list inst :=
  match qs with
  | [] => []
  | q :: r =>
      (if px b q then (if pz b q then [I (BGate (G1 gSdg [q])) None] else []) ++ [I (BGate (G1 gH [q])) None] else [])
      ++ I (BMeasure q j) None :: meas_data b (S j) r
  end.
(* _combine_circs, 363-373: the register is added; compose without clbits uses the
   first clbits of the circuit *)
Definition add_meas (b : pauli) (c : circ) : circ :=
  Circ (nq c) (nc c + length (support b)) (data c ++ meas_data b 0 (support b)) (gphase c).

(* ---- dictionaries in insertion order, keyed by indices ---- *)
Fixpoint aget {A} (d : list (nat * A)) (k : nat) : option A :=
  match d with [] => None | (k', x) :: r => if k =? k' then Some x else aget r k end.
Fixpoint aset {A} (d : list (nat * A)) (k : nat) (x : A) : list (nat * A) :=
  match d with [] => [(k, x)] | (k', y) :: r => if k =? k' then (k, x) :: r else (k', y) :: aset r k x end.
Definition agetl {A} (d : list (nat * list A)) (k : nat) : list A := match aget d k with Some l => l | None => [] end.
(* sorted *)
Fixpoint ins (x : nat) (l : list nat) : list nat :=
  match l with [] => [x] | y :: r => if x <=? y then x :: l else y :: ins x r end.
Definition sorted (l : list nat) : list nat := fold_right ins [] l.

(* ---- expectation values from outcomes ---- *)
(* int(bin_outcome, 2) *)
Definition int2 (s : list bool) : nat := fold_left (fun acc (b : bool) => 2 * acc + (if b then 1 else 0)) s 0.
(* _parity, 633-635: the number of ones in bin(x), modulo 2 *)
Definition parity (x : nat) : nat := length (filter (Nat.testbit x) (seq 0 (S (Nat.log2 x)))) mod 2.
(* _paulis2inds, 621-630, of the Pauli restricted to [qs] (from_symplectic, 517-519, 556-558) *)
Fixpoint diag_ind (p : pauli) (qs : list nat) : nat :=
  match qs with [] => 0 | q :: r => (if pnon p q then 1 else 0) + 2 * diag_ind p r end.
Definition psign (p : pauli) (qs : list nat) (outcome : nat) : R := if parity (Nat.land (diag_ind p qs) outcome) =? 1 then (-1)%R else 1%R.
(* _pauli_expval_with_variance, 581-598 *)
Definition expval_counts (p : pauli) (qs : list nat) (counts : list (list bool * nat)) : R :=
  (fold_right (fun (x : list bool * nat) acc => (INR (snd x) * psign p qs (int2 (fst x)) + acc)%R) 0%R counts
   / INR (fold_right (fun (x : list bool * nat) acc => (snd x + acc)%nat) 0%nat counts))%R.
(* _pauli_expval_with_variance_from_dist, 604-615 *)
Definition expval_probs (p : pauli) (qs : list nat) (l : list R) : R :=
  fold_right (fun (x : nat * R) acc => (snd x * psign p qs (fst x) + acc)%R) 0%R (combine (seq 0 (length l)) l).

Section Estimator.
Context {Q K KO N V : Type} (K_dec : forall x y : K, {x = y} + {x <> y}) (KO_dec : forall x y : KO, {x = y} + {x <> y}).
Context (V_dec : forall x y : V, {x = y} + {x <> y}).
Context (key : Q -> K) (okey : obs -> KO) (params : Q -> list N) (assign : Q -> option (list (N * V)) -> option circ).
Context (group : list pauli -> list (list pauli)) (abelian approx : bool) (eps : R) (default_shots : option Z).

(* a circuit with the measurement of a basis, whose basis is in its metadata *)
Definition mcirc := (Q * pauli)%type.
(* circ_ind => basis_ind => circuit; circ_ind => obs_ind => term => basis_ind;
   circ_ind => basis_ind => parameter values *)
Definition expdict := list (nat * list mcirc).
Definition obsmaps := list (nat * list (nat * list nat)).
Definition expmap := list (nat * list (nat * list (list V))).

(* 102-126: the object *)
Record estimator := Est { ecircs : list Q; eparams : list (list N); ecids : list (K * nat);
  eobs : list obs; eoids : list (KO * nat); ecache : list ((list nat * list nat) * (expdict * obsmaps)) }.
Definition estimator_init : estimator := Est [] [] [] [] [] [].
Fixpoint kget {A} (dec : forall x y : A, {x = y} + {x <> y}) (d : list (A * nat)) (k : A) : option nat :=
  match d with [] => None | (k', i) :: r => if dec k k' then Some i else kget dec r k end.
(* 148-157 *)
Definition reg_circ (s : estimator) (q : Q) : nat * estimator :=
  match kget K_dec (ecids s) (key q) with
  | Some i => (i, s)
  | None => (length (ecircs s), Est (ecircs s ++ [q]) (eparams s ++ [params q]) ((key q, length (ecircs s)) :: ecids s) (eobs s) (eoids s) (ecache s))
  end.
(* 158-169 *)
Definition reg_obs (s : estimator) (o : obs) : nat * estimator :=
  match kget KO_dec (eoids s) (okey o) with
  | Some i => (i, s)
  | None => (length (eobs s), Est (ecircs s) (eparams s) (ecids s) (eobs s ++ [o]) ((okey o, length (eobs s)) :: eoids s) (ecache s))
  end.
Fixpoint reg_all {A} (f : estimator -> A -> nat * estimator) (s : estimator) (l : list A) : list nat * estimator :=
  match l with
  | [] => ([], s)
  | a :: r => let '(i, s1) := f s a in let '(is_, s2) := reg_all f s1 r in (i :: is_, s2)
  end.

(* 203-243: group and create measurement circuits *)
(* PauliList.unique: first occurrences, in order *)
Fixpoint uniq (l : list pauli) : list pauli :=
  match l with [] => [] | p :: r => p :: filter (fun x => if pauli_dec p x then false else true) (uniq r) end.
(* 217-220 *)
Definition groups (l : list pauli) : list (list pauli) := if abelian then group l else map (fun p => [p]) (uniq l).
(* 224-227: the first group that contains p *)
Fixpoint basis_ind (gs : list (list pauli)) (p : pauli) : option nat :=
  match gs with [] => None | g :: r => if mem_p p g then Some 0 else option_map S (basis_ind r p) end.
(* 204-207 *)
Definition circ_obs_map (cos : list (nat * nat)) : list (nat * list nat) :=
  fold_left (fun d co => aset d (fst co) (agetl d (fst co) ++ [snd co])) cos [].
Definition paulis_of (s : estimator) (o : nat) : list pauli := map fst (nth o (eobs s) []).
(* 221-228 *)
Definition obs_map (s : estimator) (gs : list (list pauli)) (ois : list nat) : list (nat * list nat) :=
  fold_left (fun d o => aset d o (agetl d o ++ flat_map (fun p => match basis_ind gs p with Some b => [b] | None => [] end) (paulis_of s o))) ois [].
(* 213-242; a circuit with only identity terms ends the loop (230-233) *)
Fixpoint build (s : estimator) (l : list (nat * list nat)) (ed : expdict) (oms : obsmaps) : expdict * obsmaps :=
  match l with
  | [] => (ed, oms)
  | (ci, ois) :: r =>
      let gs := groups (flat_map (paulis_of s) ois) in
      let oms' := oms ++ [(ci, obs_map s gs ois)] in
      let bases := map paulis2basis gs in
      if (length bases =? 1) && is_id (nth 0 bases []) then (ed, oms')
      else match nth_error (ecircs s) ci with
           | None => (ed, oms')
           | Some q => build s r (ed ++ [(ci, map (fun b => (q, b)) bases)]) oms'
           end
  end.

(* _pre_process_params, 294-315, and _validate_parameter_length, 441-446; None: an exception *)
Definition vals_dec : forall x y : list V, {x = y} + {x <> y} := list_eq_dec V_dec.
Definition mem_v (v : list V) (l : list (list V)) : bool := existsb (fun x => if vals_dec v x then true else false) l.
Definition add_val (has_params : bool) (ci : nat) (v : list V) (em : expmap) (b : nat) : expmap :=
  let bm := agetl em ci in
  match aget bm b with
  | Some vals => if has_params then (if mem_v v vals then em else aset em ci (aset bm b (vals ++ [v]))) else aset em ci (aset bm b [v])
  | None => aset em ci (aset bm b [v])
  end.
Fixpoint pre_process (s : estimator) (oms : obsmaps) (l : list (nat * nat * list V)) (em : expmap) : option expmap :=
  match l with
  | [] => Some em
  | (ci, oi, v) :: r =>
      let ps := nth ci (eparams s) [] in
      if negb (length v =? length ps) then None else
      match aget oms ci with
      | None => None                                   (* KeyError *)
      | Some om => pre_process s oms r (fold_left (add_val (negb (length ps =? 0)) ci v) (agetl om oi) em)
      end
  end.

(* _flatten, 317-334: the experiments in the order of their basis, the bindings in
   insertion order *)
Definition flat_circ (ps : list N) (combos : list mcirc) (bm : list (nat * list (list V))) : list mcirc * list (list (N * V)) :=
  (flat_map (fun i => match nth_error combos i with Some m => [m] | None => [] end)
            (sorted (flat_map (fun bv => repeat (fst bv) (length (snd bv))) bm)),
   flat_map (fun bv => map (fun v => combine ps v) (snd bv)) bm).
Definition flatten (s : estimator) (ed : expdict) (em : expmap) : list mcirc * list (list (N * V)) :=
  let per := map (fun x => flat_circ (nth (fst x) (eparams s) []) (snd x) (agetl em (fst x))) ed in
  (concat (map fst per), concat (map snd per)).

(* _calculate_result_index, 375-387: the basis number is compared with the position *)
Inductive found := Found (i : nat) | Missing | Passed (acc : nat).
Fixpoint index_v (v : list V) (l : list (list V)) : option nat :=
  match l with [] => None | x :: r => if vals_dec v x then Some 0 else option_map S (index_v v r) end.
Fixpoint scan_bases (bm : list (nat * list (list V))) (pos b : nat) (v : list V) (acc : nat) : found :=
  match bm with
  | [] => Passed acc
  | (_, vals) :: r =>
      if pos =? b then match index_v v vals with Some i => Found (acc + i) | None => Missing (* ValueError *) end
      else scan_bases r (S pos) b v (acc + length vals)
  end.
Definition total_vals (bm : list (nat * list (list V))) : nat := fold_right (fun bv acc => length (snd bv) + acc) 0 bm.
Fixpoint scan_circs (em : expmap) (ci b : nat) (v : list V) (acc : nat) : found :=
  match em with
  | [] => Passed acc
  | (c, bm) :: r =>
      if c =? ci then match scan_bases bm 0 b v acc with Passed a => scan_circs r ci b v a | f => f end
      else scan_circs r ci b v (acc + total_vals bm)
  end.
(* None: an exception; Some None: Python's None *)
Definition result_index (oms : obsmaps) (em : expmap) (ci oi term : nat) (v : list V) : option (option nat) :=
  match aget oms ci with
  | None => None
  | Some om =>
      match nth_error (agetl om oi) term with
      | None => None
      | Some b => match scan_circs em ci b v 0 with Found i => Some (Some i) | Missing => None | Passed _ => Some None end
      end
  end.
(* _create_post_processing, 389-439: (result index, terms) *)
Definition entry := (option nat * obs)%type.
Definition oeq (a b : option nat) : bool := match a, b with Some x, Some y => x =? y | None, None => true | _, _ => false end.
Fixpoint add_entry (l : list entry) (ri : option nat) (t : pauli * C) : list entry :=
  match l with
  | [] => [(ri, [t])]
  | (r, ts) :: rest => if oeq ri r then (r, ts ++ [t]) :: rest else (r, ts) :: add_entry rest ri t
  end.
Fixpoint entries (oms : obsmaps) (em : expmap) (ci oi term : nat) (v : list V) (o : obs) (acc : list entry) : option (list entry) :=
  match o with
  | [] => Some acc
  | t :: r =>
      if is_id (fst t) then entries oms em ci oi (S term) v r (acc ++ [(None, [t])])
      else match result_index oms em ci oi term v with
           | None => None
           | Some ri => entries oms em ci oi (S term) v r (add_entry acc ri t)
           end
  end.
Definition post_processing (s : estimator) (oms : obsmaps) (em : expmap) (x : nat * nat * list V) : option (list entry) :=
  let '(ci, oi, v) := x in entries oms em ci oi 0 v (nth oi (eobs s) []) [].

(* _PostProcessing.run, 489-570: [results] with the basis of each circuit; None: an exception *)
Definition expval (b : pauli) (d : rdata) (p : pauli) : option R :=
  match approx, d with
  | false, Counts l => Some (expval_counts p (support b) (counter l))
  | true, Probs l => Some (expval_probs p (support b) l)
  | _, _ => None
  end.
Definition csumo (l : list (option C)) : option C :=
  fold_right (fun x acc => match x, acc with Some a, Some b => Some (Cplus a b) | _, _ => None end) (Some (RtoC 0)) l.
Definition entry_value (results : list (pauli * rdata)) (e : entry) : option C :=
  match fst e with
  | None => match snd e with [t] => Some (snd t) | _ => None end
  | Some i =>
      match nth_error results i with
      | None => None
      | Some (b, d) => csumo (map (fun t => option_map (fun x => Cmult (RtoC x) (snd t)) (expval b d (fst t))) (snd e))
      end
  end.
Definition post_value (results : list (pauli * rdata)) (es : list entry) : option C := csumo (map (entry_value results) es).

(* 264-292; 273: _DEFAULT_SHOTS, qdd_backend.py, is 1024 *)
Definition eff_shots (shots : option (option Z)) : option (option Z) :=
  if approx then Some None else match shots with Some (Some z) => Some (Some z) | _ => Some (Some 1024%Z) end.
Definition assign_meas (m : mcirc) : @pcirc (list (N * V)) := fun b => option_map (add_meas (snd m)) (assign (fst m) b).
Definition nonempty {A} (l : list A) : bool := match l with [] => false | _ => true end.
Definition compute (s : estimator) (ed : expdict) (oms : obsmaps) (l : list (nat * nat * list V)) (shots : option (option Z)) : tree (list C) :=
  match pre_process s oms l [] with
  | None => Raise
  | Some em =>
      let '(experiments, binds) := flatten s ed em in
      match all_some (map (post_processing s oms em) l) with
      | None => Raise
      | Some pps =>
          bind (match experiments with
                | [] => Leaf (Done [])
                | _ => run_backend eps false default_shots (Some (map assign_meas experiments))
                         (Ropts (eff_shots shots) (if existsb nonempty binds then Some binds else None))
                end)
            (fun j => match all_some (map (post_value (combine (map snd experiments) (match j with Done ds => ds | Failed => [] end))) pps) with
                      | Some (x :: vs) => Leaf (x :: vs)
                      | _ => Raise
                      end)
      end
  end.
Definition pair_list_dec : forall x y : list nat * list nat, {x = y} + {x <> y}.
Proof. decide equality; apply (list_eq_dec Nat.eq_dec). Defined.
Fixpoint cache_get (d : list ((list nat * list nat) * (expdict * obsmaps))) (k : list nat * list nat) : option (expdict * obsmaps) :=
  match d with [] => None | (k', x) :: r => if pair_list_dec k k' then Some x else cache_get r k end.
(* _run and _call, 128-178; _compute, 180-262: the object afterwards and the values *)
Definition est_run (s : estimator) (sub : list (Q * obs * list V)) (shots : option (option Z)) : estimator * tree (list C) :=
  let '(cis, s1) := reg_all reg_circ s (map (fun x => fst (fst x)) sub) in
  let '(ois, s2) := reg_all reg_obs s1 (map (fun x => snd (fst x)) sub) in
  let l := combine (combine cis ois) (map snd sub) in
  match cache_get (ecache s2) (cis, ois) with
  | Some (ed, oms) => (s2, compute s2 ed oms l shots)
  | None =>
      let '(ed, oms) := build s2 (circ_obs_map (combine cis ois)) [] [] in
      let s3 := Est (ecircs s2) (eparams s2) (ecids s2) (eobs s2) (eoids s2) (((cis, ois), (ed, oms)) :: ecache s2) in
      (s3, compute s3 ed oms l shots)
  end.
(* the states of the object after any submissions *)
Inductive ereach : estimator -> Prop :=
| er_init : ereach estimator_init
| er_run s sub shots : ereach s -> ereach (fst (est_run s sub shots)).
End Estimator.
