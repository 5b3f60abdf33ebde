(** Model of the ownership of coroutine frames: task_on_the_fly (include/koios/task_on_the_fly.h), task
    (include/koios/task.h), waiting_handle (src/waiting_handle.cc), the scheduler's enqueue
    (include/koios/task_scheduler.h 43-61) and task_release_once (include/koios/task_release_once.h).

    A program is a finite sequence of operations on handle objects, performed in any order by any threads (objects are not
    shared without synchronisation, so operations on one object are atomic here). Frames are numbered; object
    identities are numbers too; creation events take fresh ones.
    Simplifications: a frame is abstracted to its life cycle; m_future.ready() is "the coroutine has set its
    result" (C09/C10 model the future itself); task_on_the_fly::give_up_ownership(), public but only used by
    the eager task's constructor, is not a program event. *)
From Coq Require Import List Arith Bool.
From Verif.Common Require Import TS.
Import ListNotations.

(** task_on_the_fly.h 108-112: m_h (None = null) and m_holds_ownership *)
Record handle := H { m_h : option nat; holds : bool }.
(* a moved-from task_on_the_fly, task_on_the_fly.h 31 *)
Definition empty_handle : handle := H None false.                       (* 31 *)
Definition fresh_handle (f : nat) : handle := H (Some f) true.          (* 33-42 *)
Definition moved_from (h : handle) : handle := H (m_h h) false.         (* exchange_ownership, 44-47, 104 *)

(** The objects of a program: a task_on_the_fly held by user code, an event loop or a waiting queue; a closure
    [h = move(h)]{ h(); } in the scheduler's queue (task_scheduler.h 50); a task (task.h 281-282: m_coro_handle,
    m_future; eager or lazy is part of its type). *)
Inductive obj :=
| OTof (h : handle)
| OQueued (h : handle)
| OTask (eager : bool) (h : handle) (fut : option nat).

(* bookkeeping of the model, no counterpart in /repo *)
Definition handle_of (o : obj) : handle := match o with OTof h => h | OQueued h => h | OTask _ h _ => h end.

(** life cycle of a frame *)
(* the life of a frame: task.h 71-89, promise_base.h 36-54 *)
Inductive fstate := FNew (* created, suspended at the initial suspend point *) | FRun | FSusp | FGone.

(* what the state keeps of task_on_the_fly.h 14-117, task.h 63-326, waiting_handle.cc 12-23, task_scheduler.h 43-61 *)
Record state := St {
  objs : nat -> option obj;
  frames : nat -> option fstate;
  starts : nat -> nat;             (* ghost: how often the body was entered *)
  resumes : nat -> nat;            (* ghost *)
  destroys : nat -> nat;           (* ghost: how often the frame was destroyed (incl. by running to the end) *)
  result_set : nat -> bool;        (* promise fulfilled *)
  stop_now : bool;                 (* quick_stop() was called *)
  ub : bool;                       (* undefined behaviour happened *)
  terminated : bool                (* std::terminate *)
}.
(* before anything has happened; task_on_the_fly.h 14-117, task.h 63-326, waiting_handle.cc 12-23, task_scheduler.h 43-61 *)
Definition init : state :=
  {| objs := fun _ => None; frames := fun _ => None; starts := fun _ => 0; resumes := fun _ => 0; destroys := fun _ => 0;
     result_set := fun _ => false; stop_now := false; ub := false; terminated := false |}.

(* bookkeeping of the model, no counterpart in /repo *)
Definition set_obj s i o := St (upd (objs s) i o) (frames s) (starts s) (resumes s) (destroys s) (result_set s) (stop_now s) (ub s) (terminated s).
(* bookkeeping of the model, no counterpart in /repo *)
Definition set_frame s f x := St (objs s) (upd (frames s) f (Some x)) (starts s) (resumes s) (destroys s) (result_set s) (stop_now s) (ub s) (terminated s).
(* bookkeeping of the model, no counterpart in /repo *)
Definition inc_start s f := St (objs s) (frames s) (upd (starts s) f (S (starts s f))) (resumes s) (destroys s) (result_set s) (stop_now s) (ub s) (terminated s).
(* bookkeeping of the model, no counterpart in /repo *)
Definition inc_resume s f := St (objs s) (frames s) (starts s) (upd (resumes s) f (S (resumes s f))) (destroys s) (result_set s) (stop_now s) (ub s) (terminated s).
(* bookkeeping of the model, no counterpart in /repo *)
Definition inc_destroy s f := St (objs s) (frames s) (starts s) (resumes s) (upd (destroys s) f (S (destroys s f))) (result_set s) (stop_now s) (ub s) (terminated s).
(* bookkeeping of the model, no counterpart in /repo *)
Definition set_result s f := St (objs s) (frames s) (starts s) (resumes s) (destroys s) (upd (result_set s) f true) (stop_now s) (ub s) (terminated s).
(* bookkeeping of the model, no counterpart in /repo *)
Definition set_stop s := St (objs s) (frames s) (starts s) (resumes s) (destroys s) (result_set s) true (ub s) (terminated s).
(* bookkeeping of the model, no counterpart in /repo *)
Definition set_ub s := St (objs s) (frames s) (starts s) (resumes s) (destroys s) (result_set s) (stop_now s) true (terminated s).
(* bookkeeping of the model, no counterpart in /repo *)
Definition set_term s := St (objs s) (frames s) (starts s) (resumes s) (destroys s) (result_set s) (stop_now s) (ub s) true.

(** std::coroutine_handle<>::resume(): needs a suspended coroutine *)
(* coroutine_handle::resume, on a null or finished frame undefined: task_on_the_fly.h 66-79 *)
Definition coro_resume (s : state) (h : option nat) : state :=
  match h with
  | None => set_ub s
  | Some f => match frames s f with
              | Some FNew => inc_start (inc_resume (set_frame s f FRun) f) f
              | Some FSusp => inc_resume (set_frame s f FRun) f
              | _ => set_ub s
              end
  end.
(** std::coroutine_handle<>::destroy(): needs a suspended coroutine *)
(* coroutine_handle::destroy: task_on_the_fly.h 79-106 *)
Definition coro_destroy (s : state) (h : option nat) : state :=
  match h with
  | None => set_ub s
  | Some f => match frames s f with
              | Some FNew | Some FSusp => inc_destroy (set_frame s f FGone) f
              | _ => set_ub s
              end
  end.

(** task_on_the_fly::operator()() on a handle value, task_on_the_fly.h 66-70: the handle no longer owns, then resume *)
Definition call (s : state) (h : handle) : state := coro_resume s (m_h h).
(** task_on_the_fly::destroy(), 96-102 *)
Definition hdestroy (s : state) (h : handle) : state := if holds h then coro_destroy s (m_h h) else s.
(** operator bool, 72 *)
(* operator bool / done(): task_on_the_fly.h 66-79 *)
Definition hbool (h : handle) : bool := holds h && match m_h h with Some _ => true | None => false end.

(** task_scheduler::enqueue(task_on_the_fly) noexcept, task_scheduler.h 48-51, 58-61; [q] is the identity of the closure.
    enqueue_no_future throws when quick_stop() was called (thread_pool.h 98-104): std::terminate *)
Definition enqueue (s : state) (h : handle) (q : nat) : state :=
  if hbool h then
    if stop_now s then set_term s else set_obj s q (Some (OQueued h))
  else hdestroy s h.     (* the parameter is destroyed *)

Inductive event :=
| ENewLazy (i f : nat)        (* calling a lazy coroutine: task object i, frame f; task.h 83-89 *)
| ENewEager (i f : nat)       (* calling an eager coroutine: the task object gives up ownership, the body runs at once *)
| EMove (i j : nat)           (* move construction of object i from object j: task_on_the_fly.h 44-47, task.h 93-97 *)
| EAssign (i j : nat)         (* move assignment i = std::move(j) of task_on_the_fly, 49-56; i = j allowed *)
| EKill (i : nat)             (* destruction of object i *)
| ETake (i j : nat)           (* task j converted to task_on_the_fly i: operator task_on_the_fly(), task.h 99, 278 *)
| ERun (j q : nat)            (* task j .run(), task.h 122-164 *)
| ERunFuture (j q : nat)      (* task j .run_and_get_future(), task.h 174-213 *)
| EAwait (j q : nat)          (* operator co_await on task j, task.h 215-223 *)
| ECall (i : nat)             (* user code calls task_on_the_fly i *)
| EWakeUp (i q : nat)         (* wake_up(std::move(i)) / scheduler.enqueue(std::move(i)), waiting_handle.cc 19-24 *)
| EWakeUpWh (i q : nat)       (* wake_up(waiting_handle&), waiting_handle.cc 12-17 *)
| EWork (q : nat)             (* a worker executes closure q, then destroys it *)
| ESuspend (f i : nat)        (* running coroutine f suspends; await_suspend(task_on_the_fly i) *)
| ESuspendThrow (f : nat)     (* as ESuspend, but await_suspend throws (event_loop.h 73-79) *)
| EFinish (f : nat)           (* coroutine f sets its result and runs off its end: final_suspend = suspend_never *)
| EQuickStop.

(* bookkeeping of the model, no counterpart in /repo *)
Definition is_none {A} (o : option A) : bool := match o with None => true | _ => false end.

(** Events reported to the user *)
(* specification, no counterpart in /repo (what a user can observe) *)
Inductive obs := LogicError (j : nat).

Definition step (s : state) (e : event) : option (state * list obs) :=
  if ub s || terminated s then None else
  match e with
  | ENewLazy i f =>
      if is_none (objs s i) && is_none (frames s f)
      then Some (set_obj (set_frame s f FNew) i (Some (OTask false (fresh_handle f) (Some f))), []) else None
  | ENewEager i f =>
      if is_none (objs s i) && is_none (frames s f)
      then Some (set_obj (inc_start (set_frame s f FRun) f) i (Some (OTask true (H (Some f) false) (Some f))), []) else None
  | EMove i j =>
      if is_none (objs s i) then
        match objs s j with
        | Some (OTof h) => Some (set_obj (set_obj s j (Some (OTof (moved_from h)))) i (Some (OTof h)), [])
        | Some (OTask eg h fut) => Some (set_obj (set_obj s j (Some (OTask eg (moved_from h) None))) i (Some (OTask eg h fut)), [])
        | Some (OQueued h) => Some (set_obj (set_obj s j None) i (Some (OQueued h)), [])   (* inside the queue: the moved-from
                                   closure is destroyed without being called (std_queue_wrapper.h, thread_pool.cc) *)
        | None => None
        end
      else None
  | EAssign i j =>
      match objs s i, objs s j with
      | Some (OTof hi), Some (OTof _) =>
          let s1 := set_obj (hdestroy s hi) i (Some (OTof (moved_from hi))) in     (* this->destroy() *)
          match objs s1 j with
          | Some (OTof hj) =>                                                      (* read other after that: i may be j *)
              Some (set_obj (set_obj s1 j (Some (OTof (moved_from hj)))) i (Some (OTof (if Nat.eqb i j then moved_from hj else hj))), [])
          | _ => None
          end
      | _, _ => None
      end
  | EKill i =>
      match objs s i with
      | Some o => Some (set_obj (hdestroy s (handle_of o)) i None, [])
      | None => None
      end
  | ETake i j =>
      if is_none (objs s i) then
        match objs s j with
        | Some (OTask eg h fut) => Some (set_obj (set_obj s j (Some (OTask eg empty_handle fut))) i (Some (OTof h)), [])
        | _ => None
        end
      else None
  | ERun j q =>
      if is_none (objs s q) then
        match objs s j with
        | Some (OTask true _ _) => Some (s, [])                                    (* eager: nothing to do *)
        | Some (OTask false h fut) =>
            match fut with
            | None => Some (set_ub s, [])                                          (* ready() of a moved-from future *)
            | Some f =>
                if result_set s f then Some (s, [])
                else if hbool h then Some (enqueue (set_obj s j (Some (OTask false empty_handle fut))) h q, [])
                else Some (set_ub s, [])                                           (* [[assume(bool(h))]] *)
            end
        | _ => None
        end
      else None
  | ERunFuture j q =>
      if is_none (objs s q) then
        match objs s j with
        | Some (OTask true h _) => Some (set_obj s j (Some (OTask true h None)), [])
        | Some (OTask false h fut) =>
            if hbool h then
              match fut with
              | None => Some (set_ub s, [])
              | Some f =>
                  let s1 := set_obj s j (Some (OTask false h None)) in
                  if result_set s f then Some (s1, [])
                  else Some (enqueue (set_obj s j (Some (OTask false empty_handle None))) h q, [])
              end
            else Some (s, [LogicError j])
        | _ => None
        end
      else None
  | EAwait j q =>
      if is_none (objs s q) then
        match objs s j with
        | Some (OTask eg h fut) =>
            match fut with
            | None => Some (s, [LogicError j])
            | Some f => Some (enqueue (set_obj s j (Some (OTask eg empty_handle fut))) h q, [])
            end
        | _ => None
        end
      else None
  | ECall i =>
      match objs s i with
      | Some (OTof h) => Some (call (set_obj s i (Some (OTof (moved_from h)))) h, [])
      | _ => None
      end
  | EWakeUp i q =>
      if is_none (objs s q) then
        match objs s i with
        | Some (OTof h) => Some (enqueue (set_obj s i (Some (OTof (moved_from h)))) h q, [])
        | _ => None
        end
      else None
  | EWakeUpWh i q =>
      if is_none (objs s q) then
        match objs s i with
        | Some (OTof h) => if hbool h then Some (enqueue (set_obj s i (Some (OTof (moved_from h)))) h q, [])
                           else Some (set_ub s, [])
        | _ => None
        end
      else None
  | EWork q =>
      match objs s q with
      | Some (OQueued h) => if stop_now s then None else Some (call (set_obj s q None) h, [])
      | _ => None
      end
  | ESuspend f i =>
      if is_none (objs s i) then
        match frames s f with
        | Some FRun => Some (set_obj (set_frame s f FSusp) i (Some (OTof (fresh_handle f))), [])
        | _ => None
        end
      else None
  | ESuspendThrow f =>
      (* the by-value handle is destroyed while the exception leaves await_suspend: the frame is destroyed; then
         the exception is rethrown in the coroutine, i.e. in the destroyed frame *)
      match frames s f with
      | Some FRun => Some (set_ub (inc_destroy (set_frame s f FGone) f), [])
      | _ => None
      end
  | EFinish f =>
      match frames s f with
      | Some FRun => Some (set_result (inc_destroy (set_frame s f FGone) f) f, [])
      | _ => None
      end
  | EQuickStop => Some (set_stop s, [])
  end.

(* bookkeeping of the model, no counterpart in /repo *)
Definition next (s : state) (e : event) : option state := option_map fst (step s e).
(* specification, no counterpart in /repo (what a user can observe) *)
Definition observe (s : state) (e : event) (_ : state) : list obs := match step s e with Some (_, o) => o | None => [] end.

(** task_release_once (C18). Each caller: the compare_exchange (task_release_once.h 28), then moving the task out (30). *)
Inductive rpc := RIdle | RWon | RDone (got : option nat).
(* m_valid and m_t of task_release_once, task_release_once.h 17-38 *)
Record rstate := RSt { valid : bool; slot : handle; pcs : nat -> rpc }.
(* task_release_once.h 17-38 *)
Definition rinit (f : nat) : rstate := RSt true (fresh_handle f) (fun _ => RIdle).
(* release(): the exchange, the move; task_release_once.h 17-38 *)
Inductive revent := RCas (c : nat) | RMove (c : nat).
(* release(), task_release_once.h 17-38 *)
Definition rstep (s : rstate) (e : revent) : option rstate :=
  match e with
  | RCas c => match pcs s c with
              | RIdle => if valid s then Some (RSt false (slot s) (upd (pcs s) c RWon))
                         else Some (RSt (valid s) (slot s) (upd (pcs s) c (RDone None)))
              | _ => None
              end
  | RMove c => match pcs s c with
               | RWon => Some (RSt (valid s) (moved_from (slot s))
                                   (upd (pcs s) c (RDone (if holds (slot s) then m_h (slot s) else None))))
               | _ => None
               end
  end.
