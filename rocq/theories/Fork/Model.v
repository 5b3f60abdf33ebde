(** C148: such a program on a pool of [n] workers, started by [result()] from a thread outside.

    include/koios/task.h 71-90, 174-197 (calling, run_and_get_future), 225-240 (result); include/koios/return_value_or_void.h 28-78; include/koios/future.h 42-58, include/koios/future_aw.h 31-44 (awaiting a future:
    await_ready(), await_suspend(), await_resume() are separate steps of the thread); include/koios/task_scheduler.h 48-51; src/thread_pool.cc 72-118.

    Threads have stacks: an eager coroutine runs on top of its caller until it suspends or ends. Simplifications: the queue hands out its tasks in any order; nobody stops the pool; result() is not woken spuriously (C69);
    local variables and frames are left out (C17, C146). *)
From Coq Require Import List Arith Bool.
From Verif.Common Require Import TS.
From Verif.Fork Require Import Spec.
Import ListNotations.

(* where a coroutine is: task.h 71-90, future_aw.h 31-44 *)
Inductive status :=
| Active (c : code)                        (* on the stack of some thread *)
| Queued (c : code) | Asleep (c : code)
| Suspending (k : result -> code) (j : nat)   (* await_ready() of the future of [j] said no; await_suspend() is next *)
| Waiting (k : result -> code) (j : nat)      (* registered with the future of [j] *)
| Woken (k : result -> code) (j : nat)        (* in the queue *)
| Done.
(* what the state keeps of task.h 71-90, 174-197, 225-240, return_value_or_void.h 28-78, future.h 42-58, future_aw.h 31-44, thread_pool.cc 72-118 *)
Record state := St {
  st : nat -> status;
  env : nat -> list nat;         (* whose futures a coroutine holds *)
  res : nat -> option result;    (* shared_state::m_ff *)
  waiter : nat -> option nat;    (* shared_state::m_waiting *)
  next : nat;                    (* how many coroutines have been started *)
  thr : nat -> list nat;         (* the stack of a thread, innermost first; workers are the numbers below n, n called result() *)
  ret : option result;
  out : list nat }.
(* the steps of task.h 71-90, 174-197, 225-240, return_value_or_void.h 28-78, future.h 42-58, future_aw.h 31-44, thread_pool.cc 72-118 *)
Inductive event := Go (t : nat) | Take (t i : nat) | Wake (i : nat) | Get.

Section M.
  Variable n : nat.
  (* before anything has happened; task.h 71-90, 174-197, 225-240, return_value_or_void.h 28-78, future.h 42-58, future_aw.h 31-44, thread_pool.cc 72-118 *)
  Definition init (eager : bool) (c : code) : state :=
    St (fun _ => if eager then Active c else Queued c) (fun _ => []) (fun _ => None) (fun _ => None) 1 (fun t => if eager && (t =? n) then [0] else []) None [].
  (** return_value() or unhandled_exception(), set_value(): future.h 42-49 *)
  Definition finish (s : state) (t i : nat) (l : list nat) (r : result) : state :=
    let st1 := upd (st s) i Done in
    let st2 := match waiter s i with Some w => match st1 w with Waiting k j => upd st1 w (Woken k j) | _ => st1 end | None => st1 end in
    St st2 (env s) (upd (res s) i (Some r)) (upd (waiter s) i None) (next s) (upd (thr s) t l) (ret s) (out s).
  (* what each step does: task.h 71-90, 174-197, 225-240, return_value_or_void.h 28-78, future.h 42-58, future_aw.h 31-44, thread_pool.cc 72-118 *)
  Definition step (s : state) (e : event) : option state :=
    match e with
    | Go t =>
      match thr s t with
      | [] => None
      | i :: l =>
        match st s i with
        | Active (Ret v) => Some (finish s t i l (Val v))
        | Active (Throw x) => Some (finish s t i l (Exn x))
        | Active (Emit o c) => Some (St (upd (st s) i (Active c)) (env s) (res s) (waiter s) (next s) (thr s) (ret s) (out s ++ [o]))
        | Active (Suspend c) => Some (St (upd (st s) i (Asleep c)) (env s) (res s) (waiter s) (next s) (upd (thr s) t l) (ret s) (out s))
        | Active (Fork e mask c k) =>
            Some (St (upd (upd (st s) i (Active k)) (next s) (if e then Active c else Queued c))
                     (upd (upd (env s) i (kept mask (env s i) ++ [next s])) (next s) (moved mask (env s i)))
                     (res s) (waiter s) (S (next s)) (upd (thr s) t (if e then next s :: i :: l else i :: l)) (ret s) (out s))
        | Active (Await a k) =>
            match nth_error (env s i) a with
            | None => None
            | Some j => Some (St (upd (st s) i (match res s j with Some r => Active (k r) | None => Suspending k j end)) (upd (env s) i (without a (env s i))) (res s) (waiter s) (next s) (thr s) (ret s) (out s))
            end
        | Suspending k j =>
            match res s j with
            | Some _ => Some (St (upd (st s) i (Woken k j)) (env s) (res s) (waiter s) (next s) (upd (thr s) t l) (ret s) (out s))
            | None => Some (St (upd (st s) i (Waiting k j)) (env s) (res s) (upd (waiter s) j (Some i)) (next s) (upd (thr s) t l) (ret s) (out s))
            end
        | _ => None
        end
      end
    | Take t i =>
      if (t <? n) && (i <? next s) then
        match thr s t, st s i with
        | [], Queued c => Some (St (upd (st s) i (Active c)) (env s) (res s) (waiter s) (next s) (upd (thr s) t [i]) (ret s) (out s))
        | [], Woken k j => match res s j with Some r => Some (St (upd (st s) i (Active (k r))) (env s) (res s) (waiter s) (next s) (upd (thr s) t [i]) (ret s) (out s)) | None => None end
        | _, _ => None
        end else None
    | Wake i => if i <? next s then match st s i with
                | Asleep c => Some (St (upd (st s) i (Queued c)) (env s) (res s) (waiter s) (next s) (thr s) (ret s) (out s)) | _ => None end else None
    | Get => match thr s n, res s 0, ret s with [], Some r, None => Some (St (st s) (env s) (res s) (waiter s) (next s) (thr s) (Some r) (out s)) | _, _, _ => None end
    end.
End M.
