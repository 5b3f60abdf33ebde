(** Model of koios::thread_pool / task_scheduler: worker loop, enqueue, stop, quick_stop.

    /repo/include/koios/thread_pool.h 31-273, src/thread_pool.cc 18-133, include/koios/task_scheduler.h 24-63,
    with the work-stealing queue of work_stealing_queue.h (one queue per worker, C14) inlined, because done() reads the
    queues' sizes one after the other while other threads enqueue and dequeue.

    The model starts after start() returned (start() waits on a latch until every worker has registered its
    queue): [n] workers 0..n-1, each with its own queue; agents n, n+1, ... are other threads.
    Each step is one atomic access (flag read/write, one queue operation, one size read).
    User code run by a worker may enqueue any number of tasks and may throw (thread_pool.cc 101-117 catches
    everything), so "the task's body" is: any number of enqueue steps of that worker, then EFinish.
    Simplifications: dequeue takes any element of a queue (moodycamel); a sleeping worker may always wake (wait_for
    has a time limit of at most 500 ms); the health-check logging (thread_pool.cc 84-97) has no effect on the state;
    number of tasks below 2^64. *)
From Coq Require Import List Arith Bool.
From Verif.Common Require Import TS.
Import ListNotations.

Inductive wpc :=
| WDone1 (second : bool)              (* done(): about to read stop_requested; second = the call at line 69 *)
| WDone2 (second : bool)              (* stop was requested; about to read m_stop_now *)
| WScan (second : bool) (rest : list nat)   (* m_tasks.empty(): sizes of [rest] still to be read, all zero so far *)
| WBody                               (* before_each_task(), then dequeue of the own queue *)
| WSteal (rest : list nat)            (* dequeue: queues still to try *)
| WSleep                              (* m_cond.wait_for *)
| WExec (x : nat)                     (* executing a task *)
| WExit.                              (* left consumer() *)

(* where a thread is in stop(), thread_pool.cc 36-48 *)
Inductive spc := SOut | SActive (* inside call_once, joining *) | SBlocked (* waiting for the active call *) | SReturned.

(* what the state keeps of thread_pool.h 31-273, thread_pool.cc 18-133, work_stealing_queue.h 22-128 *)
Record state := St {
  queues : nat -> list nat;
  stop_req : bool;                    (* m_stop_source *)
  stop_now : bool;                    (* m_stop_now *)
  wpcs : nat -> wpc;
  enq_passed : nat -> bool;           (* agent passed the need_stop_now() test of enqueue *)
  spcs : nat -> spc;                  (* agent's call of stop()/quick_stop() *)
  once : nat;                         (* how often the body of call_once ran *)
  once_done : bool;
  terminated : bool                   (* std::terminate *)
}.
(* before anything has happened; thread_pool.h 31-273, thread_pool.cc 18-133, work_stealing_queue.h 22-128 *)
Definition init : state :=
  {| queues := fun _ => []; stop_req := false; stop_now := false; wpcs := fun _ => WDone1 false;
     enq_passed := fun _ => false; spcs := fun _ => SOut; once := 0; once_done := false; terminated := false |}.

(* bookkeeping of the model, no counterpart in /repo *)
Definition set_w s w p := St (queues s) (stop_req s) (stop_now s) (upd (wpcs s) w p) (enq_passed s) (spcs s) (once s) (once_done s) (terminated s).
(* bookkeeping of the model, no counterpart in /repo *)
Definition set_q s i l := St (upd (queues s) i l) (stop_req s) (stop_now s) (wpcs s) (enq_passed s) (spcs s) (once s) (once_done s) (terminated s).
(* bookkeeping of the model, no counterpart in /repo *)
Definition set_enq s a b := St (queues s) (stop_req s) (stop_now s) (wpcs s) (upd (enq_passed s) a b) (spcs s) (once s) (once_done s) (terminated s).
(* bookkeeping of the model, no counterpart in /repo *)
Definition set_s s a p := St (queues s) (stop_req s) (stop_now s) (wpcs s) (enq_passed s) (upd (spcs s) a p) (once s) (once_done s) (terminated s).
(* m_stop_source.request_stop(), thread_pool.cc 36-48 *)
Definition request_stop s := St (queues s) true (stop_now s) (wpcs s) (enq_passed s) (spcs s) (S (once s)) (once_done s) (terminated s).
(* bookkeeping of the model, no counterpart in /repo *)
Definition set_now s := St (queues s) (stop_req s) true (wpcs s) (enq_passed s) (spcs s) (once s) (once_done s) (terminated s).
(* the end of the call_once, thread_pool.cc 36-48 *)
Definition finish_once s := St (queues s) (stop_req s) (stop_now s) (wpcs s) (enq_passed s) (spcs s) (once s) true (terminated s).
(* an exception leaves a noexcept function, thread_pool.cc 36-48 *)
Definition terminate s := St (queues s) (stop_req s) (stop_now s) (wpcs s) (enq_passed s) (spcs s) (once s) (once_done s) true.

Inductive event :=
| EWorker (w : nat) (k : nat)           (* next step of worker w; k = which element a dequeue takes *)
| EEnqCheck (a : nat)                   (* enqueue: need_stop_now() test, thread_pool.h 83-130 *)
| EEnqPut (a : nat) (i : nat) (x : nat) (* enqueue: put x in queue i and notify, thread_pool.h 173-235 *)
| EFinish (w : nat)                     (* the running task returns, throws or suspends *)
| EQuick (a : nat)                      (* quick_stop(): m_stop_now.store, thread_pool.cc 52 *)
| EStop (a : nat)                       (* stop(): enter call_once, thread_pool.cc 38-39 *)
| EStopDone (a : nat).                  (* stop() returns: all threads joined / the active call finished *)

(* specification, no counterpart in /repo (what a user can observe) *)
Inductive obs :=
| Accepted (a x : nat)   (* the enqueue call succeeded *)
| Refused (a : nat)      (* the enqueue call threw thread_pool_stopped_exception *)
| Begin (w x : nat)      (* worker w starts executing task x *)
| StopReturned (a : nat).

(** [ord]: iteration order of the map of queues; [n]: number of workers; [may_enq]: is the agent able to call enqueue now:
    another thread always (unless inside stop()), a worker while executing a task or polling (before_each_task) *)
Section Pool.
Variable n : nat.
Variable ord : list nat.

(* a worker calls functions of the pool only inside a task: thread_pool.cc 101-105 *)
Definition may_call (s : state) (a : nat) : bool :=
  match spcs s a with
  | SActive | SBlocked => false
  | _ => if Nat.ltb a n then match wpcs s a with WBody | WExec _ => true | _ => false end else true
  end.

(* left consumer(), thread_pool.cc 119 *)
Definition exited (p : wpc) : bool := match p with WExit => true | _ => false end.
(* all threads can be joined, thread_pool.cc 36-48 *)
Fixpoint all_exited (m : nat) (s : state) : bool :=
  match m with O => true | S m' => exited (wpcs s m') && all_exited m' s end.

(** done() returned [b] to worker w: thread_pool.cc 72 and 77 *)
Definition after_done (second : bool) (b : bool) : wpc :=
  if b then WExit else if second then WSleep else WBody.

(* consumer() and done(), thread_pool.cc 72-128, with dequeue() and empty() of work_stealing_queue.h 37-87 *)
Definition worker_step (s : state) (w k : nat) : option (state * list obs) :=
  match wpcs s w with
  | WDone1 sec => Some (set_w s w (if stop_req s then WDone2 sec else after_done sec false), [])
  | WDone2 sec => Some (set_w s w (if stop_now s then after_done sec true else WScan sec ord), [])
  | WScan sec [] => Some (set_w s w (after_done sec true), [])
  | WScan sec (i :: rest) =>
      Some (set_w s w (match queues s i with [] => WScan sec rest | _ => after_done sec false end), [])
  | WBody =>       (* dequeue: own queue first *)
      if enq_passed s w then None else
      match queues s w with
      | [] => Some (set_w s w (WSteal ord), [])
      | _ => match take_nth k (queues s w) with
             | Some (x, r) => Some (set_w (set_q s w r) w (WExec x), [Begin w x])
             | None => None
             end
      end
  | WSteal [] => Some (set_w s w (WDone1 true), [])
  | WSteal (i :: rest) =>
      match queues s i with
      | [] => Some (set_w s w (WSteal rest), [])
      | _ => match take_nth k (queues s i) with
             | Some (x, r) => Some (set_w (set_q s i r) w (WExec x), [Begin w x])
             | None => None
             end
      end
  | WSleep => Some (set_w s w (WDone1 false), [])
  | WExec _ | WExit => None
  end.

(* what each step does: thread_pool.h 31-273, thread_pool.cc 18-133, work_stealing_queue.h 22-128 *)
Definition step (s : state) (e : event) : option (state * list obs) :=
  if terminated s then None else
  match e with
  | EWorker w k => if Nat.ltb w n then worker_step s w k else None
  | EEnqCheck a =>
      if may_call s a && negb (enq_passed s a) then
        if stop_now s then Some (s, [Refused a]) else Some (set_enq s a true, [])
      else None
  | EEnqPut a i x =>
      if may_call s a && enq_passed s a && Nat.ltb i n then
        Some (set_q (set_enq s a false) i (queues s i ++ [x]), [Accepted a x])
      else None
  | EFinish w =>
      if Nat.ltb w n then
        match wpcs s w with
        | WExec _ => if enq_passed s w then None
                     else match spcs s w with SActive | SBlocked => None | _ => Some (set_w s w (WDone1 false), []) end
        | _ => None
        end
      else None
  | EQuick a => if may_call s a && negb (enq_passed s a) then Some (set_now s, []) else None
  | EStop a =>
      if may_call s a && negb (enq_passed s a) then
        match once s with
        | O => if Nat.ltb a n
               then Some (terminate (request_stop s), [])   (* a worker joins itself: join() throws inside noexcept stop() *)
               else Some (set_s (request_stop s) a SActive, [])
        | _ => Some (set_s s a SBlocked, [])
        end
      else None
  | EStopDone a =>
      match spcs s a with
      | SActive => if all_exited n s then Some (set_s (finish_once s) a SReturned, [StopReturned a]) else None
      | SBlocked => if once_done s then Some (set_s s a SReturned, [StopReturned a]) else None
      | _ => None
      end
  end.

(* bookkeeping of the model, no counterpart in /repo *)
Definition next (s : state) (e : event) : option state := option_map fst (step s e).
(* specification, no counterpart in /repo (what a user can observe) *)
Definition observe (s : state) (e : event) (_ : state) : list obs :=
  match step s e with Some (_, o) => o | None => [] end.
End Pool.
