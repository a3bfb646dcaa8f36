(* Steal.v -- which fiber a thread runs: my_ws::awakened, pick_next and steal
   (src/task.cpp:43-84, include/task.h:56-69) on the threads of one Scheduler
   (src/task.cpp:114-162), under every interleaving.
   The queues are Boost's context_spinlock_queue (include/task.h:33): push at the
   back, pop and steal at the front, steal refuses a pinned context; each operation
   is atomic (a spinlock).  Around my_ws stands Boost's scheduler: its calls (a new
   fiber, a wake-up, yield, block, end, and the dispatcher's loop) are the events
   below; a fiber is attached to the scheduler it runs or blocks on and detached
   while it is ready.
   Simplified: schedulers_.size() = thread_count_ = number of threads, all of them
   registered (one Scheduler: C65); a remote wake-up is one step; suspend_ is false
   (src/task.cpp:122, 144), so suspend_until and notify (86-107) do nothing; the
   prefetches are left out; the random draws are arbitrary numbers below
   thread_count_. *)
From Coq Require Import Arith Bool List Lia.
Import ListNotations.

(* every thread has its main context and its dispatcher, both pinned *)
Inductive fiber := Main (t : nat) | Disp (t : nat) | Fib (n : nat).
Definition pinned (f : fiber) : bool := match f with Fib _ => false | _ => true end.
Definition fiber_dec (a b : fiber) : {a = b} + {a <> b}.
Proof. decide equality; apply Nat.eq_dec. Defined.

(* a thread runs a fiber, or is in the loop of pick_next (lines 65-77) with count
   = k; who: the fiber that called pick_next and is not put away yet (a dispatcher
   or a yielding fiber: it is made ready again once another one runs) *)
Inductive tst := Runs (f : fiber) | Probes (who : option fiber) (k : nat).
Record st := St {
  qs : list (list fiber);      (* rqueue_ of schedulers_[0], [1], ... *)
  ru : list tst;
  blocked : list fiber;
  ended : list fiber;
  home : fiber -> option nat   (* the scheduler a context is attached to *)
}.
Inductive outcome := Ok (s : st) | Bad.   (* out of bounds, null, failed BOOST_ASSERT *)

Fixpoint setnth {A} (i : nat) (x : A) (l : list A) : list A :=
  match l, i with
  | [], _ => []
  | _ :: r, O => x :: r
  | y :: r, S j => y :: setnth j x r
  end.
Definition set_q t q s := St (setnth t q (qs s)) (ru s) (blocked s) (ended s) (home s).
Definition set_r t r s := St (qs s) (setnth t r (ru s)) (blocked s) (ended s) (home s).
Definition set_home f h s :=
  St (qs s) (ru s) (blocked s) (ended s) (fun g => if fiber_dec g f then h else home s g).

(* awakened: src/task.cpp:43-48; context::detach asserts an attached context *)
Definition awakened (t : nat) (f : fiber) (s : st) : outcome :=
  match nth_error (qs s) t with
  | None => Bad
  | Some q =>
      if pinned f then Ok (set_q t (q ++ [f]) s)
      else match home s f with
           | None => Bad
           | Some _ => Ok (set_q t (q ++ [f]) (set_home f None s))
           end
  end.

(* what follows a successful pop or steal: attach (lines 57-60, 78-82), and Boost's
   resume, which makes the caller ready on this thread; attach asserts a context
   that is not attached *)
Definition take (t : nat) (who : option fiber) (v : fiber) (s : st) : outcome :=
  match (if pinned v then Some s
         else match home s v with None => Some (set_home v (Some t) s) | Some _ => None end) with
  | None => Bad
  | Some s' =>
      match who with
      | None => Ok (set_r t (Runs v) s')
      | Some f => awakened t f (set_r t (Runs v) s')
      end
  end.

(* pick_next up to the loop: lines 50-66 *)
Definition start (t : nat) (who : option fiber) (s : st) : outcome :=
  match nth_error (qs s) t with
  | None => Bad
  | Some (v :: q) => take t who v (set_q t q s)
  | Some [] => Ok (set_r t (Probes who 0) s)
  end.

(* context_spinlock_queue::steal, include/task.h:56-69 *)
Definition steal (q : list fiber) : option (fiber * list fiber) :=
  match q with
  | v :: r => if pinned v then None else Some (v, r)
  | [] => None
  end.

(* pick_next returned nullptr: the dispatcher looks again, anybody else calls
   pick_next()->resume() *)
Definition nothing (t : nat) (who : option fiber) (s : st) : outcome :=
  match who with
  | Some (Disp i) => Ok (set_r t (Runs (Disp i)) s)
  | _ => Bad
  end.

(* one draw, lines 65-77: do { do { ++count; id = draw } while (id == id_);
   victim = schedulers_[id]->steal(); } while (!victim && count < size) *)
Definition draw (t d : nat) (who : option fiber) (k : nat) (s : st) : outcome :=
  if d =? t then Ok (set_r t (Probes who (S k)) s)
  else match nth_error (qs s) d with
       | None => Bad
       | Some q =>
           match steal q with
           | Some (v, r) => take t who v (set_q d r s)
           | None => if S k <? length (qs s) then Ok (set_r t (Probes who (S k)) s) else nothing t who s
           end
       end.

Definition everyone (s : st) : list fiber :=
  concat (qs s) ++
  flat_map (fun r => match r with Runs f => [f] | Probes (Some f) _ => [f] | Probes None _ => [] end) (ru s) ++
  blocked s ++ ended s.

Inductive ev := Spawn (t n : nat) | Wake (t : nat) (f : fiber) | Yield (t : nat) | Block (t : nat) | End (t : nat)
  | Poll (t : nat) | Draw (t d : nat).

Definition is_disp (f : fiber) : bool := match f with Disp _ => true | _ => false end.
Inductive step : st -> ev -> outcome -> Prop :=
(* a new fiber, attached to the scheduler of the thread that creates it *)
| e_spawn s t n f : nth_error (ru s) t = Some (Runs f) -> ~ In (Fib n) (everyone s) ->
    step s (Spawn t n) (awakened t (Fib n) (set_home (Fib n) (Some t) s))
(* what a blocked fiber waits for has happened: its own scheduler makes it ready *)
| e_wake s t f a b : blocked s = a ++ f :: b -> home s f = Some t ->
    step s (Wake t f) (awakened t f (St (qs s) (ru s) (a ++ b) (ended s) (home s)))
(* boost::this_fiber::yield *)
| e_yield s t f : nth_error (ru s) t = Some (Runs f) -> is_disp f = false -> step s (Yield t) (start t (Some f) s)
(* waiting for a mutex, a future or another fiber *)
| e_block s t f : nth_error (ru s) t = Some (Runs f) -> is_disp f = false ->
    step s (Block t) (start t None (St (qs s) (ru s) (f :: blocked s) (ended s) (home s)))
| e_end s t n : nth_error (ru s) t = Some (Runs (Fib n)) ->
    step s (End t) (start t None (St (qs s) (ru s) (blocked s) (Fib n :: ended s) (home s)))
(* the loop of the dispatcher *)
| e_poll s t i : nth_error (ru s) t = Some (Runs (Disp i)) -> step s (Poll t) (start t (Some (Disp i)) s)
| e_draw s t d who k : nth_error (ru s) t = Some (Probes who k) -> d < length (qs s) -> step s (Draw t d) (draw t d who k s).

(* all threads past the constructor: each runs its main context, its dispatcher is
   ready *)
Definition boot (n : nat) : st :=
  St (map (fun t => [Disp t]) (seq 0 n)) (map (fun t => Runs (Main t)) (seq 0 n)) [] []
     (fun f => match f with Main t | Disp t => if t <? n then Some t else None | Fib _ => None end).
Inductive exec (n : nat) : list ev -> outcome -> Prop :=
| x_nil : exec n [] (Ok (boot n))
| x_step l e s o : exec n l (Ok s) -> step s e o -> exec n (l ++ [e]) o.
