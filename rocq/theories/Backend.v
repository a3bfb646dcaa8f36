(* Backend.v -- model of the Qiskit backend, qdd/qdd_backend.py, single process
   (use_mpi=False).
   Simplifications.  Qubit and Clbit objects are their positions in circ.qubits /
   circ.clbits (the maps of 406-428).  The pyQDD calls are replaced by their
   ideal effect on the state vector, proved for the library in Props1/Props2/Prog
   (makeZeroState C01, makeGate C03, makeTwoQubitGate C04, mv_multiply C05, unitary
   C25, applyGlobal C26, probabilities C18, measureAll C19, measureOneCollapsing
   C21, measureOne C22, gc C13); every random draw of the library is a node [Flip p]
   of a tree: the draw th (uniform in [0,1)) selects 0 when th < p and 1 otherwise.
   A Python exception is the leaf [Raise].  Progress printing, timing, headers and
   threads are left out. *)
From Coq Require Import Reals ZArith Bool List Arith.
From Coquelicot Require Import Complex.
From Verif Require Import Spec LargeP.
Import ListNotations.
Open Scope nat_scope.

(* ---- computations with draws and exceptions ---- *)
Inductive tree (A : Type) : Type := Leaf (a : A) | Raise | Flip (p : R) (k : bool -> tree A).
Arguments Leaf {A} a. Arguments Raise {A}. Arguments Flip {A} p k.
Fixpoint bind {A B} (t : tree A) (f : A -> tree B) : tree B :=
  match t with Leaf a => f a | Raise => Raise | Flip p k => Flip p (fun b => bind (k b) f) end.
(* try: ... except Exception: return h *)
Fixpoint catch {A} (t : tree A) (h : A) : tree A :=
  match t with Leaf a => Leaf a | Raise => Leaf h | Flip p k => Flip p (fun b => catch (k b) h) end.
(* execution with given draws: None when the list is too short; [Some (None, _)]
   is an exception that escapes *)
Fixpoint run {A} (t : tree A) (ths : list R) : option (option A * list R) :=
  match t with
  | Leaf a => Some (Some a, ths)
  | Raise => Some (None, ths)
  | Flip p k => match ths with [] => None | th :: r => run (k (if Rlt_dec th p then false else true)) r end
  end.
(* [x for _ in range(m)] with x recomputed each time *)
Fixpoint replicate {A} (m : nat) (t : tree A) : tree (list A) :=
  match m with O => Leaf [] | S k => bind t (fun a => bind (replicate k t) (fun l => Leaf (a :: l))) end.
Fixpoint traverse {A B} (f : A -> tree B) (l : list A) : tree (list B) :=
  match l with [] => Leaf [] | a :: r => bind (f a) (fun b => bind (traverse f r) (fun bs => Leaf (b :: bs))) end.

(* ---- circuits ---- *)
(* inst.condition: a clbit and its required value, or the clbits of a register,
   least significant first, and the required value *)
Inductive cond := CBit (c : nat) (v : bool) | CReg (bits : list nat) (v : nat).
(* supported gates, by the tables at 30-117: the one-qubit family (matrix on the
   last qubit, the others are controls), the two-qubit family (matrix on the last
   two), UnitaryGate, QDDGate (a ready-made diagram A, its qubits are only used
   for classification) *)
Inductive gop := G1 (g : matrix) (qs : list nat) | G2 (g : matrix) (qs : list nat)
  | GU (g : matrix) (qs : list nat) | GQ (A : matrix) (qs : list nat).
Definition gqs (g : gop) : list nat := match g with G1 _ qs | G2 _ qs | GU _ qs | GQ _ qs => qs end.
(* instructions; BKraus is any instruction named kraus or superop, BOther any
   other class that is not in the tables *)
Inductive bop := BGate (g : gop) | BMeasure (q c : nat) | BReset (q : nat) | BBarrier (qs : list nat)
  | BInit (qs : list nat) | BKraus (qs : list nat) | BOther (qs : list nat).
Definition qargs (o : bop) : list nat :=
  match o with BGate g => gqs g | BMeasure q _ => [q] | BReset q => [q] | BBarrier qs | BInit qs | BKraus qs | BOther qs => qs end.
Record inst := I { op : bop; cnd : option cond }.
Record circ := Circ { nq : nat; nc : nat; data : list inst; gphase : R }.
Definition has_cond (i : inst) : bool := match cnd i with Some _ => true | None => false end.

(* ---- classification ---- *)
(* a Python dict from clbits to qubits, in insertion order *)
Definition dict := list (nat * nat).
Fixpoint dset (d : dict) (k v : nat) : dict :=
  match d with [] => [(k, v)] | (k', v') :: r => if k =? k' then (k, v) :: r else (k', v') :: dset r k v end.
Definition is_reset (o : bop) : bool := match o with BReset _ => true | _ => false end.
Definition is_kraus (o : bop) : bool := match o with BKraus _ => true | _ => false end.
(* qdd/qdd_backend.py:1093-1121: the loop body; (stable, measured qubits, dict) *)
Definition classify_step (n i : nat) (x : inst) (stable : bool) (measured : list nat) (m : dict) : bool * list nat * dict :=
  match op x with
  | BMeasure q c => (stable, q :: measured, dset m c q)
  | o =>
      if has_cond x || existsb (fun q => existsb (Nat.eqb q) measured) (qargs o) || is_reset o || is_kraus o
      then (false, measured, m)
      else match o with
           | BInit qs => ((if negb (i =? 0) && (length qs <? n) then false else stable), measured, m)
           | _ => (stable, measured, m)
           end
  end.
(* the loop, with its early exit at 1123-1126 *)
Fixpoint classify (n i : nat) (l : list inst) (stable : bool) (measured : list nat) (m : dict) : bool * list nat * dict :=
  match l with
  | [] => (stable, measured, m)
  | x :: r =>
      let '(stable', measured', m') := classify_step n i x stable measured m in
      if negb stable' && (0 <? length measured') then (stable', measured', m')
      else classify n (S i) r stable' measured' m'
  end.
Record cprop := Prop_ { stable_final_state : bool; clbit_final_values : dict }.
(* 1056-1135; 131-140: n_qubits 100.  None: RuntimeError *)
Definition max_qubits : nat := 100.
Definition validate_circuit (require_measurement : bool) (c : circ) : option cprop :=
  if max_qubits <? nq c then None else
  let '(st, measured, m) := classify (nq c) 0 (data c) true [] [] in
  if (length measured =? 0) && require_measurement then None else Some (Prop_ st m).

(* ---- gates: the operator applied to the state ---- *)
(* [mp] is map_after_swap (the identity without MPI): 770-795, 819-835, 858-860, 882-890 *)
Definition ctl_of (mp : nat -> nat) (qs : list nat) : ctls := map (fun q => (Z.of_nat (mp q), true)) qs.
Definition gate_mat (n : nat) (mp : nat -> nat) (g : gop) : matrix :=
  match g with
  | G1 g qs => gate1 n g (mp (last qs 0)) (ctl_of mp (removelast qs))
  | G2 g qs => gate2 n g (mp (nth (length qs - 1) qs 0)) (mp (nth (length qs - 2) qs 0)) (ctl_of mp (firstn (length qs - 2) qs))
  | GU g qs => gate_on n g (map mp qs)
  | GQ A qs => A
  end.

(* ---- measurement ---- *)
Section Eval.
Context (eps : R).      (* the library's tolerance on the norm, include/dd.h:493-495 *)
Definition scaled (c : C) (v : vector) : vector := fun i => Cmult c (v i).
Definition b2n (b : bool) : nat := if b then 1 else 0.
(* pyQDD.measureOneCollapsing *)
Definition meas1 {A} (n q : nat) (v : vector) (k : bool -> vector -> tree A) : tree A :=
  if Rlt_dec eps (Rabs (norm2v n v - 1)) then Raise else
  Flip (probq n v q 0 / norm2v n v)
    (fun b => k b (fun i => Cdiv (project q (b2n b) v i) (RtoC (sqrt (probq n v q (b2n b)))))).
(* pyQDD.measureAll(current, False): one draw per qubit, from the highest down *)
Fixpoint measall (k : nat) (v : vector) (b : nat) : tree nat :=
  match k with
  | O => Leaf b
  | S k' => Flip (cond0 v k' b) (fun r => measall k' v (if r then Nat.setbit b k' else b))
  end.

(* ---- evaluation of one shot ---- *)
Fixpoint upd {A} (l : list A) (k : nat) (x : A) : list A :=
  match l, k with
  | [], _ => []
  | _ :: r, O => x :: r
  | y :: r, S k' => y :: upd r k' x
  end.
(* 713-727: val_cbit[idx] != str((val >> idx) & 1) *)
Definition skip (cl : list bool) (c : option cond) : bool :=
  match c with
  | None => false
  | Some (CBit b v) => negb (Bool.eqb (nth b cl false) v)
  | Some (CReg bits v) => existsb (fun idx => negb (Bool.eqb (nth idx cl false) (Nat.testbit v idx))) bits
  end.
(* 712-965.  The state, val_cbit, and (ghost) the measurements made so far, as
   (clbit, outcome), oldest first.  The X after a reset: 939-955. *)
Definition X : matrix := fun i j => if i + j =? 1 then RtoC 1 else RtoC 0.
Fixpoint exec (n : nat) (stable : bool) (l : list inst) (v : vector) (cl : list bool) (log : list (nat * bool))
  : tree (vector * list bool * list (nat * bool)) :=
  match l with
  | [] => Leaf (v, cl, log)
  | x :: r =>
      if skip cl (cnd x) then exec n stable r v cl log else
      match op x with
      | BBarrier _ => exec n stable r v cl log
      | BMeasure q c =>
          if stable then exec n stable r v cl log
          else meas1 n q v (fun b v' => exec n stable r v' (upd cl c b) (log ++ [(c, b)]))
      | BGate g => exec n stable r (mv n (gate_mat n (fun q => q) g) v) cl log
      | BReset q =>
          if stable then Raise
          else meas1 n q v (fun b v' => exec n stable r (if b then mv n (gate1 n X q []) v' else v') cl log)
      | BInit _ | BKraus _ | BOther _ => Raise
      end
  end.
(* the same loop when shots is None (one pass, 920-933): an unstable circuit's
   measurements record the probability of 0 and leave the state *)
Fixpoint exec_none (n : nat) (stable : bool) (l : list inst) (v : vector) (pc : list R) : tree (vector * list R) :=
  match l with
  | [] => Leaf (v, pc)
  | x :: r =>
      match op x with
      | BBarrier _ => exec_none n stable r v pc
      | BMeasure q c =>
          if stable then exec_none n stable r v pc
          else if Rlt_dec eps (Rabs (norm2v n v - 1)) then Raise
          else exec_none n stable r v (upd pc c (probq n v q 0 / norm2v n v)%R)
      | BGate g => exec_none n stable r (mv n (gate_mat n (fun q => q) g) v) pc
      | BReset q =>
          if stable then Raise
          else meas1 n q v (fun b v' => exec_none n stable r (if b then mv n (gate1 n X q []) v' else v') pc)
      | BInit _ | BKraus _ | BOther _ => Raise
      end
  end.
Definition phase (a : R) (v : vector) : vector := scaled (cos a, sin a) v.

(* 978-996: the sampled basis state b, as the string printed by measureAll, is
   distributed over the clbits; the clbit string is printed highest first *)
Definition assemble (ncl : nat) (m : dict) (res : list bool) : list bool :=
  rev (fold_left (fun acc kv => upd acc (fst kv) (nth (length res - 1 - snd kv) res false)) m (repeat false ncl)).
Definition probs (n : nat) (v : vector) : list R := map (fun i => (Cmod (v i) ^ 2 / norm2v n v)%R) (seq 0 (2 ^ n)).
(* 1014-1020 *)
Definition prob_product (ncl : nat) (pc : list R) : list R :=
  map (fun i => fold_left (fun acc j => if Nat.testbit i j then (acc * (1 - nth j pc 0))%R else (acc * nth j pc 0)%R) (seq 0 ncl) 1%R)
      (seq 0 (2 ^ ncl)).

(* one re-simulated shot (708-968) and one sampled shot (976-996) *)
Definition shot_unstable (c : circ) : tree (list bool) :=
  bind (exec (nq c) false (data c) (basis 0) (repeat false (nc c)) []) (fun '(_, cl, _) => Leaf (rev cl)).
Definition shot_stable (c : circ) (p : cprop) (w : vector) : tree (list bool) :=
  bind (measall (nq c) w 0) (fun b => Leaf (assemble (nc c) (clbit_final_values p) (bitstring (nq c) b))).

(* 653-1043.  Counts: sampled_values, of which "counts" is the Counter (999) and
   "memory" the list itself; Probs: "probabilities".  shots=0 is falsy; range(shots)
   is empty for shots <= 0, which leaves [current] unbound when reps = shots. *)
Inductive rdata := Counts (l : list (list bool)) | Probs (l : list R).
Definition evaluate (c : circ) (p : cprop) (shots : option Z) : tree rdata :=
  match shots with
  | None =>
      if existsb has_cond (data c) then Raise else
      bind (exec_none (nq c) (stable_final_state p) (data c) (basis 0) (repeat 0%R (nc c))) (fun '(v, pc) =>
      Leaf (Probs (if stable_final_state p then probs (nq c) (phase (gphase c) v) else prob_product (nc c) pc)))
  | Some z =>
      if stable_final_state p then
        bind (exec (nq c) true (data c) (basis 0) (repeat false (nc c)) []) (fun '(v, _, _) =>
        let w := phase (gphase c) v in
        if (z =? 0)%Z then Leaf (Probs (probs (nq c) w))
        else bind (replicate (Z.to_nat z) (shot_stable c p w)) (fun l => Leaf (Counts l)))
      else if (z <=? 0)%Z then Raise
      else bind (replicate (Z.to_nat z) (shot_unstable c)) (fun l => Leaf (Counts l))
  end.
(* collections.Counter *)
Fixpoint counter_add (d : list (list bool * nat)) (s : list bool) : list (list bool * nat) :=
  match d with
  | [] => [(s, 1)]
  | (s', k) :: r => if list_eq_dec Bool.bool_dec s s' then (s', S k) :: r else (s', k) :: counter_add r s
  end.
Definition counter (l : list (list bool)) : list (list bool * nat) := fold_left counter_add l [].

(* ---- run (268-376), _run_experiment (378-404), option validation (1137-1149) ---- *)
Definition max_shots : Z := 1000000.
Section Run.
Context {P : Type}.     (* parameter bindings *)
(* a circuit, given the bindings if any; None: assign_parameters or a use of an
   unbound parameter raises *)
Definition pcirc := option P -> option circ.
(* backend.options.shots; and the keyword arguments of run(): absent, or a value *)
Record ropts := Ropts { r_shots : option (option Z); r_binds : option (list P) }.
Inductive job := Done (results : list rdata) | Failed.
(* [zip] stops at the shorter list (346) *)
Definition bound (circs : list pcirc) (b : option (list P)) : list (option circ) :=
  match b with
  | Some bs => map (fun cb => fst cb (Some (snd cb))) (combine circs bs)
  | None => map (fun c => c None) circs
  end.
Fixpoint all_some {A} (l : list (option A)) : option (list A) :=
  match l with
  | [] => Some []
  | Some a :: r => match all_some r with Some t => Some (a :: t) | None => None end
  | None :: _ => None
  end.
Definition shots_ok (s : option (option Z)) : bool :=
  match s with Some (Some z) => (0 <? z)%Z && (z <=? max_shots)%Z | _ => true end.
Definition run_internal (save_SV : bool) (default_shots : option Z) (circs : list pcirc) (o : ropts) : tree (list rdata) :=
  if negb (shots_ok (r_shots o)) then Raise else
  let shots := match r_shots o with Some s => s | None => default_shots end in
  match all_some (bound circs (r_binds o)) with
  | None => Raise
  | Some cs =>
      match all_some (map (validate_circuit (negb save_SV)) cs) with
      | None => Raise
      | Some ps => traverse (fun cp => evaluate (fst cp) (snd cp) shots) (combine cs ps)
      end
  end.
(* [circs] is None when the argument is not a circuit or a list of circuits *)
Definition run_backend (save_SV : bool) (default_shots : option Z) (circs : option (list pcirc)) (o : ropts) : tree job :=
  catch (match circs with
         | None => Raise
         | Some cs => bind (run_internal save_SV default_shots cs o) (fun l => Leaf (Done l))
         end) Failed.
End Run.
End Eval.
