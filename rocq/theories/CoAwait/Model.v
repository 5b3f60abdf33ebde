(** Model of [co_await callee()] for koios tasks, with threads: what the caller gets, when, where, and what is left of the callee.

    include/koios/task.h 71-89 (promise_type, constructor), 215-223 (operator co_await); promise_base.h 44-54 (final_suspend =
    suspend_never); return_value_or_void.h 28-77 (return_value / return_void / unhandled_exception fulfil the promise);
    future.h 42-64, future_aw.h 31-44; task_scheduler.h 48-51; src/this_task.cc 13-21 (turn_into_scheduler).

    One caller coroutine and the coroutine it calls and awaits. The callee's body may suspend and be rescheduled any number of
    times before it ends with [out]. Threads are numbers; [worker t] says which ones belong to the scheduler.
    Each step is one critical section of the shared state, one scheduler action, or one stretch of a body.
    Ownership of the frames is the subject of Verif.Task, the details of futures of Verif.Future; here the focus is on order. *)
From Coq Require Import List Arith Bool.
From Verif.Common Require Import TS.
Import ListNotations.

(* what a body ends with: return_value_or_void.h 28-77 *)
Inductive result := Value (v : nat) | Exn (x : nat).

(* where the caller is: task.h 215-223, future_aw.h 31-44 *)
Inductive cpc :=
| CStart                    (* about to call the coroutine *)
| CCalled                   (* has the task object; about to evaluate operator co_await *)
| CReady                    (* operator co_await evaluated, await_ready() is next *)
| CSuspending               (* await_ready() said false, await_suspend is next *)
| CWaiting                  (* registered as m_waiting *)
| CWoken                    (* in the scheduler's queue *)
| CDone (r : result).       (* the co_await expression has completed *)

(* where the callee is: task.h 71-89, return_value_or_void.h 28-77, promise_base.h 44-54 *)
Inductive epc :=
| ENone                     (* not called yet *)
| ENew                      (* lazy: suspended at its initial suspend point, owned by the task object *)
| EQueued                   (* in the scheduler's queue *)
| ERun (t : nat)            (* its body is running on thread t *)
| ESusp                     (* suspended in the middle of its body *)
| EReturned (t : nat)       (* co_return evaluated: return_value() done, local variables still exist *)
| EThrown (t : nat)         (* an exception left the body: local variables destroyed, unhandled_exception() is next *)
| EEnded (t : nat)          (* result set and locals destroyed; final_suspend does not suspend: the frame goes next *)
| EGone.

(* what the state keeps of task.h 71-89, 215-223, promise_base.h 44-54, return_value_or_void.h 28-77, future.h 42-64, future_aw.h 31-44 *)
Record state := St {
  caller : cpc;
  cthread : nat;            (* the thread the caller runs on, or ran on last *)
  callee : epc;
  nested : bool;            (* the callee runs inside the caller's call of it (eager start) *)
  ss_ff : option result;    (* shared_state::m_ff *)
  waiting : bool            (* shared_state::m_waiting *)
}.

Section CoAwait.
  Variable eager : bool.           (* task<> or lazy_task<> *)
  Variable worker : nat -> bool.
  Variable out : result.           (* how the callee's body ends *)

  (* before anything has happened; task.h 71-89, 215-223, promise_base.h 44-54, return_value_or_void.h 28-77, future.h 42-64, future_aw.h 31-44 *)
  Definition init (t0 : nat) : state := St CStart t0 ENone false None false.

  Inductive event :=
  | ECall                    (* calling the coroutine: task.h 71-89 *)
  | EAwait                   (* operator co_await, task.h 215-223 *)
  | EAwaitReady              (* future_aw.h 31-34 *)
  | EAwaitSuspend            (* future_aw.h 36-39, future.h 51-58 *)
  | EResume (t : nat)        (* worker t resumes the caller: future_aw.h 41-44 *)
  | EPick (t : nat)          (* worker t takes the callee from the queue *)
  | EBodySuspend             (* the callee suspends on something *)
  | EBodyWake                (* ... which wakes it up later *)
  | EBodyEnd                 (* co_return: return_value(); or the exception leaves the body *)
  | EUnhandled               (* unhandled_exception() *)
  | ELocals                  (* the callee's local variables are destroyed after co_return *)
  | EFinal.                  (* final_suspend = suspend_never: the frame is destroyed *)

  (* bookkeeping of the model, no counterpart in /repo *)
  Definition set_caller s c := St c (cthread s) (callee s) (nested s) (ss_ff s) (waiting s).
  (* bookkeeping of the model, no counterpart in /repo *)
  Definition set_callee s e := St (caller s) (cthread s) e (nested s) (ss_ff s) (waiting s).

  (** shared_state::set_value, future.h 42-49: store, wake the registered coroutine *)
  Definition set_value (s : state) (r : result) : state :=
    if waiting s then St CWoken (cthread s) (callee s) (nested s) (Some r) false
    else St (caller s) (cthread s) (callee s) (nested s) (Some r) false.

  (* what each step does: task.h 71-89, 215-223, promise_base.h 44-54, return_value_or_void.h 28-77, future.h 42-64, future_aw.h 31-44 *)
  Definition step (s : state) (e : event) : option state :=
    match e with
    | ECall =>
        match caller s with
        | CStart => if eager then Some (St CCalled (cthread s) (ERun (cthread s)) true (ss_ff s) (waiting s))
                    else Some (St CCalled (cthread s) ENew false (ss_ff s) (waiting s))
        | _ => None
        end
    | EAwait =>
        (* the caller goes on only when the eager callee has returned to it, i.e. has suspended or is gone *)
        match caller s, nested s with
        | CCalled, false => Some (set_caller (match callee s with ENew => set_callee s EQueued | _ => s end) CReady)
        | _, _ => None
        end
    | EAwaitReady =>
        match caller s with
        | CReady => match ss_ff s with
                    | Some r => Some (St (CDone r) (cthread s) (callee s) (nested s) None (waiting s))
                    | None => Some (set_caller s CSuspending)
                    end
        | _ => None
        end
    | EAwaitSuspend =>
        match caller s with
        | CSuspending => match ss_ff s with
                         | Some _ => Some (set_caller s CWoken)
                         | None => Some (St CWaiting (cthread s) (callee s) (nested s) None true)
                         end
        | _ => None
        end
    | EResume t =>
        match caller s, ss_ff s with
        | CWoken, Some r => if worker t then Some (St (CDone r) t (callee s) (nested s) None (waiting s)) else None
        | _, _ => None
        end
    | EPick t => match callee s with EQueued => if worker t then Some (set_callee s (ERun t)) else None | _ => None end
    | EBodySuspend => match callee s with ERun _ => Some (St (caller s) (cthread s) ESusp false (ss_ff s) (waiting s)) | _ => None end
    | EBodyWake => match callee s with ESusp => Some (set_callee s EQueued) | _ => None end
    | EBodyEnd =>
        match callee s with
        | ERun t => match out with
                    | Value _ => Some (set_callee (set_value s out) (EReturned t))
                    | Exn _ => Some (set_callee s (EThrown t))
                    end
        | _ => None
        end
    | EUnhandled => match callee s with EThrown t => Some (set_callee (set_value s out) (EEnded t)) | _ => None end
    | ELocals => match callee s with EReturned t => Some (set_callee s (EEnded t)) | _ => None end
    | EFinal => match callee s with EEnded _ => Some (St (caller s) (cthread s) EGone false (ss_ff s) (waiting s)) | _ => None end
    end.

  (** Specification vocabulary. *)

  (** the callee's local variables exist *)
  (* local variables are destroyed after return_value(): promise_base.h 44-54 *)
  Definition locals_alive (s : state) : bool :=
    match callee s with ERun _ | ESusp | EQueued | EReturned _ => true | _ => false end.
  (** the body has ended (its result is determined) *)
  (* return_value() or unhandled_exception() has been called: return_value_or_void.h 28-77 *)
  Definition body_ended (s : state) : bool :=
    match callee s with EReturned _ | EThrown _ | EEnded _ | EGone => true | _ => false end.
End CoAwait.
