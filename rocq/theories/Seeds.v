(* Seeds.v -- the seed options and the random generator of a Python process.
   Simplifications: as in Backend.v.  The generator of qdd/bindings.cpp:29-30, one
   per process and seeded from std::random_device, is the list of the numbers in
   [0,1) that it will produce; jobs are not run concurrently. *)
From Coq Require Import Reals ZArith Bool List.
From Verif Require Import Spec Backend.
Import ListNotations.

Section Seeds.
Context (eps : R) {P : Type}.
(* keyword arguments of the sampler and of the estimator: [None] is absent *)
Record seed_args := Seed_args { a_simulator : option (option Z); a_seed : option Z }.
(* qdd/qdd_sampler.py:91-93, qdd/qdd_estimator.py:135-137: pop "seed" and, if it is
   not None, setdefault "seed_simulator" *)
Definition seed_keyword (a : seed_args) : option (option Z) :=
  match a_simulator a with
  | Some s => Some s
  | None => match a_seed a with Some z => Some (Some z) | None => None end
  end.
(* qdd/qdd_backend.py:328-330: run_options.get("seed_simulator", self.options.seed_simulator) *)
Definition seed_option (backend_seed : option Z) (kw : option (option Z)) : option Z :=
  match kw with Some s => s | None => backend_seed end.
(* the entries of actual_options (325-340) that matter here *)
Record actual := Actual { ac_shots : option Z; ac_seed : option Z }.
Definition actual_options (default_shots backend_seed : option Z) (o : @ropts P) (kw : option (option Z)) : actual :=
  Actual (match r_shots o with Some s => s | None => default_shots end) (seed_option backend_seed kw).
(* 268-404: run() with a seed.  The options travel with the experiments (355-359)
   to _evaluate_circuit (378-382), which reads "shots" (682-699, 900, 966-997) and
   never "seed_simulator"; pyQDD has no function that sets the generator *)
Definition evaluate_with (c : circ) (p : cprop) (a : actual) : tree rdata := evaluate eps c p (ac_shots a).
Definition run_seeded (save_SV : bool) (default_shots backend_seed : option Z) (circs : option (list (@pcirc P)))
  (o : @ropts P) (kw : option (option Z)) : tree job :=
  catch (match circs with
         | None => Raise
         | Some cs =>
             bind (if negb (shots_ok (r_shots o)) then Raise else
                   let a := actual_options default_shots backend_seed o kw in
                   match all_some (bound cs (r_binds o)) with
                   | None => Raise
                   | Some cs =>
                       match all_some (map (validate_circuit (negb save_SV)) cs) with
                       | None => Raise
                       | Some ps => traverse (fun cp => evaluate_with (fst cp) (snd cp) a) (combine cs ps)
                       end
                   end) (fun l => Leaf (Done l))
         end) Failed.
(* a process: every job continues with the generator where the previous one left it *)
Fixpoint session {A} (jobs : list (tree A)) (draws : list R) : option (list (option A)) :=
  match jobs with
  | [] => Some []
  | t :: r =>
      match run t draws with
      | None => None
      | Some (o, rest) => match session r rest with Some l => Some (o :: l) | None => None end
      end
  end.
End Seeds.
