(* Sched.v -- the life of the fiber scheduler of the multi-threaded build:
   initMT / terminateMT (qdd/bindings.cpp:17-21, 172-194, 297), Scheduler
   (src/task.cpp:114-162) and the constructor of my_ws (src/task.cpp:23-41), as an
   interleaving of the main thread and the worker threads.
   counter_, schedulers_, the barrier and the once_flag are static: they outlive
   every Scheduler.
   Simplified: the two static initialisations (thread-safe and idempotent) are one
   step with the registration that follows them; locking mtx_stop and entering the
   wait is one step (the mutex is only held on the way into or out of the wait);
   setting the affinity (lines 128-140, exit(1) on failure) is left out; the fibers
   a worker runs while it waits are the arbitrary schedules of DD.v; cond_stop.wait
   has no spurious wake-ups. *)
From Coq Require Import Arith ZArith Bool List Lia.
Import ListNotations.

(* where a thread is: before its my_ws, id taken, registered, in the barrier, past
   it, in cond_stop.wait, notified, ended *)
Inductive tph := PNew | PId | PReg | PBar | PGo | PWait | PWoken | PDone.
Record th := Th { tp : tph; tid : nat }.
Inductive call := Init (n : Z) | Term.
(* the main thread; k: the init_mt that called terminate_mt, if any *)
Inductive mpc := MIdle | MNotify (k : option Z) | MJoin (k : option Z) | MSpawn | MCtor.
Record st := St {
  cnt : nat;                    (* counter_, src/task.cpp:23 *)
  bar : option (nat * nat);     (* the static barrier: size, still missing *)
  arr : option (list bool);     (* schedulers_: which entries are not nullptr *)
  ws : list th;                 (* the workers of the current Scheduler *)
  mth : th;                     (* the main thread's own my_ws *)
  tc : nat;                     (* _nworkers + 1 *)
  pc : mpc; flag : bool; nthr : Z;   (* mt_initialized, n_threads *)
  script : list call; rets : list (option Z) }.
Inductive outcome := Ok (s : st) | UB.

Definition upd_pc s p := St (cnt s) (bar s) (arr s) (ws s) (mth s) (tc s) p (flag s) (nthr s) (script s) (rets s).
Definition upd_ws s w := St (cnt s) (bar s) (arr s) w (mth s) (tc s) (pc s) (flag s) (nthr s) (script s) (rets s).
Definition upd_cnt s c := St c (bar s) (arr s) (ws s) (mth s) (tc s) (pc s) (flag s) (nthr s) (script s) (rets s).
Definition pop s := St (cnt s) (bar s) (arr s) (ws s) (mth s) (tc s) (pc s) (flag s) (nthr s) (tl (script s)) (rets s).
Definition ret s v := St (cnt s) (bar s) (arr s) (ws s) (mth s) (tc s) MIdle (flag s) (nthr s) (script s) (rets s ++ [v]).
(* threads: None is the main thread *)
Definition getth (who : option nat) (s : st) : option th :=
  match who with
  | None => match pc s with MCtor => Some (mth s) | _ => None end
  | Some i => nth_error (ws s) i
  end.
Fixpoint setnth {A} (i : nat) (x : A) (l : list A) : list A :=
  match l, i with
  | [], _ => []
  | _ :: r, O => x :: r
  | y :: r, S j => y :: setnth j x r
  end.
Definition setth (who : option nat) (t : th) (s : st) : st :=
  match who with
  | None => St (cnt s) (bar s) (arr s) (ws s) t (tc s) (pc s) (flag s) (nthr s) (script s) (rets s)
  | Some i => upd_ws s (setnth i t (ws s))
  end.
(* thread_barrier: the last arrival lets everybody go and rearms the barrier *)
Definition go (t : th) : th := match tp t with PBar => Th PGo (tid t) | _ => t end.
Definition release (s : st) : st :=
  St (cnt s) (bar s) (arr s) (map go (ws s)) (go (mth s)) (tc s) (pc s) (flag s) (nthr s) (script s) (rets s).
Definition set_static s b a := St (cnt s) b a (ws s) (mth s) (tc s) (pc s) (flag s) (nthr s) (script s) (rets s).
Definition wake (t : th) : th := match tp t with PWait => Th PWoken (tid t) | _ => t end.

(* lines 187-190 of bindings.cpp: new Scheduler(n - 1) *)
Definition create (n : Z) (s : st) : st :=
  if (1 <? n)%Z then St (cnt s) (bar s) (arr s) [] (Th PNew 0) (Z.to_nat n) MSpawn true n (script s) (rets s)
  else ret s (Some (nthr s)).
(* terminate_mt, lines 174-178, up to the delete *)
Definition drop s := St (cnt s) (bar s) (arr s) (ws s) (mth s) (tc s) (pc s) false 1%Z (script s) (rets s).

(* registration: src/task.cpp:33-38, schedulers_[id_] = this *)
Definition register (who : option nat) (t : th) (s : st) : outcome :=
  let a := match arr s with None => repeat false (tc s) | Some a => a end in
  let b := match bar s with None => (tc s, tc s) | Some b => b end in
  if tid t <? length a then Ok (setth who (Th PReg (tid t)) (set_static s (Some b) (Some (setnth (tid t) true a)))) else UB.
(* b.wait(), src/task.cpp:39; the counter of the barrier is unsigned *)
Definition arrive (who : option nat) (t : th) (size miss : nat) (s : st) : st :=
  if miss =? 1 then release (setth who (Th PGo (tid t)) (set_static s (Some (size, size)) (arr s)))
  else setth who (Th PBar (tid t)) (set_static s (Some (size, miss - 1)) (arr s)).

Inductive step : st -> outcome -> Prop :=
(* the caller *)
| m_same s n r : pc s = MIdle -> script s = Init n :: r -> n = nthr s -> step s (Ok (ret (pop s) (Some (nthr s))))
| m_again s n r : pc s = MIdle -> script s = Init n :: r -> n <> nthr s -> flag s = true -> step s (Ok (upd_pc (drop (pop s)) (MNotify (Some n))))
| m_first s n r : pc s = MIdle -> script s = Init n :: r -> n <> nthr s -> flag s = false -> step s (Ok (create n (pop s)))
| m_term s r : pc s = MIdle -> script s = Term :: r -> flag s = true -> step s (Ok (upd_pc (drop (pop s)) (MNotify None)))
| m_noterm s r : pc s = MIdle -> script s = Term :: r -> flag s = false -> step s (Ok (ret (pop s) None))
(* ~Scheduler: src/task.cpp:156-162 *)
| m_notify s k : pc s = MNotify k -> step s (Ok (upd_pc (upd_ws s (map wake (ws s))) (MJoin k)))
| m_join s k : pc s = MJoin k -> (forall t, In t (ws s) -> tp t = PDone) ->
    step s (Ok (match k with None => ret s None | Some n => create n s end))
(* Scheduler::spawn: src/task.cpp:114-143 *)
| m_spawn s : pc s = MSpawn -> S (length (ws s)) < tc s -> step s (Ok (upd_ws s (ws s ++ [Th PNew 0])))
| m_spawned s : pc s = MSpawn -> S (length (ws s)) = tc s -> step s (Ok (upd_pc s MCtor))
| m_up s : pc s = MCtor -> tp (mth s) = PGo -> step s (Ok (ret s (Some (nthr s))))
(* the constructor of my_ws, in any thread: src/task.cpp:32-41 *)
| t_id s who t : getth who s = Some t -> tp t = PNew -> step s (Ok (setth who (Th PId (cnt s)) (upd_cnt s (S (cnt s)))))
| t_reg s who t : getth who s = Some t -> tp t = PId -> step s (register who t s)
| t_arr s who t size miss : getth who s = Some t -> tp t = PReg -> bar s = Some (size, miss) -> step s (Ok (arrive who t size miss s))
(* the workers: src/task.cpp:120-126 *)
| w_wait s i t : nth_error (ws s) i = Some t -> tp t = PGo -> step s (Ok (setth (Some i) (Th PWait (tid t)) s))
| w_end s i t : nth_error (ws s) i = Some t -> tp t = PWoken -> step s (Ok (setth (Some i) (Th PDone (tid t)) s)).

Definition boot (l : list call) : st := St 0 None None [] (Th PNew 0) 0 MIdle false 1%Z l [].
Inductive runs_to : st -> outcome -> Prop :=
| r_refl s : runs_to s (Ok s)
| r_step s s' o : runs_to s (Ok s') -> step s' o -> runs_to s o.
