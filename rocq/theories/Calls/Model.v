(** C146: a program of coroutines that await their calls, on a pool of [n] workers, started by [result()] from a thread outside it.

    include/koios/task.h 71-90 (calling), 215-247 (operator co_await, result); include/koios/promise_base.h 36-54; include/koios/return_value_or_void.h 28-78;
    include/koios/future.h 42-58, include/koios/future_aw.h 31-44; include/koios/task_scheduler.h 48-51; src/thread_pool.cc 72-118; src/runtime.cc 105-109 (runtime_exit).

    Verif.CoAwait has one caller and one callee in more detail. Here: the whole tree of calls, every body doing effects and suspending, and the threads, each with its C++ stack.
    Coroutine frames are numbered by their depth in the tree of calls that have not ended. Simplifications: the scheduler's queue hands out its tasks in any order; result() is not
    woken spuriously (C69); the frame of a coroutine is freed in one step after its last destructor. *)
From Coq Require Import List Arith Bool.
From Verif.Common Require Import TS.
From Verif.Calls Require Import Spec.
Import ListNotations.

Inductive status :=
| Active (c : code)                 (* running on some thread *)
| Queued (c : code)                 (* in the scheduler's queue *)
| Asleep (c : code)                 (* suspended on something *)
| Inside (k : result -> code)       (* has called an eager coroutine that has not returned control yet *)
| Ready (k : result -> code)        (* operator co_await evaluated, await_ready() is next: future_aw.h 31-34 *)
| Suspending (k : result -> code)   (* await_suspend() is next: future_aw.h 36-39, future.h 51-58 *)
| Waiting (k : result -> code)      (* registered as m_waiting *)
| Woken (k : result -> code).       (* in the scheduler's queue *)
(* a coroutine frame: task.h 71-90, promise_base.h 36-54 *)
Record frame := Fr { st : status; locals : list nat; slot : option result (* the result of the coroutine it awaits: shared_state::m_ff *) }.
(** what a thread is executing: a coroutine; or what is left of one after co_return (promise_base.h 44-54, the locals go after return_value()) *)
Inductive act := Run (i : nat) | Dying (ds : list nat).
(* what the state keeps of task.h 71-90, 215-247, promise_base.h 36-54, return_value_or_void.h 28-78, future_aw.h 31-44, thread_pool.cc 72-118 *)
Record state := St {
  frames : nat -> frame; depth : nat;
  thr : nat -> list act;            (* the stack of a thread, innermost first; workers are the numbers below n, n is the thread that called result() *)
  got : option result;              (* the result of the first coroutine *)
  ret : option result;              (* what result() returned *)
  exited : bool;                    (* runtime_exit() has returned *)
  out : list obs }.
(* the steps of task.h 71-90, 215-247, promise_base.h 36-54, return_value_or_void.h 28-78, future_aw.h 31-44, thread_pool.cc 72-118 *)
Inductive event := Go (t : nat) | Take (t i : nat) | Wake (i : nat) | Get | Exit.

Section M.
  Variable n : nat.
  (* before anything has happened; task.h 71-90, 215-247, promise_base.h 36-54, return_value_or_void.h 28-78, future_aw.h 31-44, thread_pool.cc 72-118 *)
  Definition init (eager : bool) (c : code) (ds : list nat) : state :=
    St (fun _ => Fr (if eager then Active c else Queued c) ds None) 1 (fun t => if eager && (t =? n) then [Run 0] else []) None None false [].
  (* bookkeeping of the model, no counterpart in /repo *)
  Definition set (s : state) (i : nat) (f : frame) : nat -> frame := upd (frames s) i f.
  (** a thread returns from [resume()] or from the call of an eager coroutine: what it finds below goes on *)
  (* what a suspending coroutine leaves to its caller: the handle of a coroutine that runs below it on the stack, task.h 71-90 *)
  Definition back (fs : nat -> frame) (l : list act) : nat -> frame :=
    match l with
    | Run j :: _ => match st (fs j) with Inside k => upd fs j (Fr (Ready k) (locals (fs j)) (slot (fs j))) | _ => fs end
    | _ => fs
    end.
  (** shared_state::set_value(), for the frame that awaits: future.h 42-49 *)
  Definition deliver (f : frame) (r : result) : frame := Fr (match st f with Waiting k => Woken k | x => x end) (locals f) (Some r).
  (* the end of a body: return_value_or_void.h 28-78, promise_base.h 36-54, future.h 42-58 *)
  Definition finish (s : state) (t i : nat) (l : list act) (ds : list nat) (r : result) : state :=
    match i with
    | O => St (frames s) 0 (upd (thr s) t (Dying ds :: l)) (Some r) (ret s) (exited s) (out s)
    | S j => St (set s j (deliver (frames s j) r)) i (upd (thr s) t (Dying ds :: l)) (got s) (ret s) (exited s) (out s)
    end.
  (* what each step does: task.h 71-90, 215-247, promise_base.h 36-54, return_value_or_void.h 28-78, future_aw.h 31-44, thread_pool.cc 72-118 *)
  Definition step (s : state) (e : event) : option state :=
    match e with
    | Go t =>
      match thr s t with
      | [] => None
      | Dying (d :: ds) :: l => Some (St (frames s) (depth s) (upd (thr s) t (Dying ds :: l)) (got s) (ret s) (exited s) (out s ++ [Dtor d]))
      | Dying [] :: l => Some (St (back (frames s) l) (depth s) (upd (thr s) t l) (got s) (ret s) (exited s) (out s))
      | Run i :: l =>
        let f := frames s i in
        let to x := St (set s i (Fr x (locals f) (slot f))) (depth s) (thr s) (got s) (ret s) (exited s) in
        match st f with
        | Active (Emit o c) => Some (to (Active c) (out s ++ [Eff o]))
        | Active (Suspend c) => Some (St (back (set s i (Fr (Asleep c) (locals f) (slot f))) l) (depth s) (upd (thr s) t l) (got s) (ret s) (exited s) (out s))
        | Active (Call true c ds k) => Some (St (upd (set s i (Fr (Inside k) (locals f) (slot f))) (S i) (Fr (Active c) ds None)) (S (S i)) (upd (thr s) t (Run (S i) :: Run i :: l)) (got s) (ret s) (exited s) (out s))
        | Active (Call false c ds k) => Some (St (upd (set s i (Fr (Ready k) (locals f) (slot f))) (S i) (Fr (Queued c) ds None)) (S (S i)) (thr s) (got s) (ret s) (exited s) (out s))
        | Active (Ret v) => Some (finish s t i l (locals f) (Val v))          (* return_value(), then the locals *)
        | Active (Throw x) =>                                                 (* the locals, then unhandled_exception() *)
            match locals f with
            | [] => Some (finish s t i l [] (Exn x))
            | d :: ds => Some (St (set s i (Fr (st f) ds (slot f))) (depth s) (thr s) (got s) (ret s) (exited s) (out s ++ [Dtor d]))
            end
        | Ready k =>
            match slot f with
            | Some r => Some (St (set s i (Fr (Active (k r)) (locals f) None)) (depth s) (thr s) (got s) (ret s) (exited s) (out s))
            | None => Some (to (Suspending k) (out s))
            end
        | Suspending k => Some (St (back (set s i (Fr (match slot f with Some _ => Woken k | None => Waiting k end) (locals f) (slot f))) l) (depth s) (upd (thr s) t l) (got s) (ret s) (exited s) (out s))
        | _ => None
        end
      end
    | Take t i =>
      if (t <? n) && (i <? depth s) then
        match thr s t, st (frames s i), slot (frames s i) with
        | [], Queued c, x => Some (St (set s i (Fr (Active c) (locals (frames s i)) x)) (depth s) (upd (thr s) t [Run i]) (got s) (ret s) (exited s) (out s))
        | [], Woken k, Some r => Some (St (set s i (Fr (Active (k r)) (locals (frames s i)) None)) (depth s) (upd (thr s) t [Run i]) (got s) (ret s) (exited s) (out s))
        | _, _, _ => None
        end else None
    | Wake i => if i <? depth s then match st (frames s i) with
                | Asleep c => Some (St (set s i (Fr (Queued c) (locals (frames s i)) (slot (frames s i)))) (depth s) (thr s) (got s) (ret s) (exited s) (out s))
                | _ => None end else None
    | Get => match thr s n, got s, ret s with [], Some r, None => Some (St (frames s) (depth s) (thr s) (got s) (Some r) (exited s) (out s)) | _, _, _ => None end
    | Exit => if forallb (fun t => match thr s t with [] => true | _ => false end) (seq 0 n) && negb (exited s) then   (* quick_stop(): every worker is joined *)
                match ret s with Some _ => Some (St (frames s) (depth s) (thr s) (got s) (ret s) true (out s)) | None => None end else None
    end.
End M.
