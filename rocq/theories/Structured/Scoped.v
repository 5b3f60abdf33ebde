(** C145: programs with exceptions, written the way koios is meant to be used: locks and group entries are objects that live in a scope, tasks throw, co_await rethrows.

    The operations on mutexes, groups and tasks are those of Model.v (one worker). New here is the control flow of a coroutine: scopes, and what an exception leaves them by.
      locked:     auto lk = co_await m.acquire(); at the end of the scope, however it is left, ~unique_lock() releases: include/koios/lock_base.h 42-54
      start:      wg.add() for every group the task reports to, then run_and_get_future() or run(): include/koios/wait_group.h 15-24, include/koios/task.h 122-197
                  the started task has a wait_group_guard for each: done() when it ends, however it ends: wait_group.h 70-112
      with:       auto f = start(t); body; co_await f;   left by an exception the future is just dropped: include/koios/future.h 84-104
      co_await f: rethrows what the task threw: include/koios/future.h 124-133, include/koios/promise_base.h, include/koios/task.h 78 (unhandled_exception)
      try:        try { c } catch (...) { h }; the handler of a coroutine may suspend since it is written after the catch clause *)
From Coq Require Import List Arith Bool.
From Verif.Common Require Import TS.
From Verif.Structured Require Import Model.
Import ListNotations.

(* the body of a coroutine: lock_base.h 42-54 (locked), wait_group.h 70-112, task.h 122-197 (start), future.h 84-133 (with, co_await) *)
Inductive code :=
| Skip | Seq (a b : code) | Suspend (* any co_await that comes back by itself *) | Throw (x : nat)
| Locked (m : nat) (c : code) | WaitFor (g : nat)
| Start (t : nat)                  (* nobody awaits it *)
| With (t : nat) (c : code)
| Try (c h : code).
(** ** the control state of a coroutine *)
(* what is still to be done, the scopes to be left included: lock_base.h 42-54, wait_group.h 70-112 *)
Inductive item :=
| Code (c : code)
| EndLock (m : nat)                (* ~unique_lock *)
| EndDone (g : nat)                (* ~wait_group_guard *)
| EndWith (t : nat)                (* co_await of the future *)
| Fetch (t : nat)                  (* await_resume: the result *)
| EndTry (h : code).
(* what the state keeps of lock_base.h 42-54, wait_group.h 15-112, task.h 78, 122-197, future.h 84-133 *)
Record state := SSt {
  base : Model.state;              (* its programs are not used *)
  ctl : nat -> list item; exc : nat -> option nat;     (* the exception on its way *)
  result : nat -> option (option nat) }.               (* what a task ended with: None, a value; Some x, exception x *)

Section M.
  Variable n : nat.
  Variable given : nat -> list nat.                    (* the groups a task reports to *)
  Variable roots : nat -> bool.
  Variable bodies : nat -> code.
  (* bookkeeping of the model, no counterpart in /repo *)
  Definition set_prog (s : Model.state) (t : nat) (p : list action) : Model.state := St (upd (prog s) t p) (stat s) (cur s) (own s) (queue s) (cnt s) (gqueue s) (joiner s).
  (** one operation of task [t], as in Model.v *)
  (* one operation on a mutex, a group or a future, as in Model.v (acq_lk_aw.h, wait_group.h, future.h cited there) *)
  Definition act (s : Model.state) (t : nat) (a : action) : option Model.state := Model.step n (set_prog s t [a]) Go.
  (* several of them: wait_group.h 15-18, task.h 122-197 *)
  Fixpoint acts (s : Model.state) (t : nat) (l : list action) : option Model.state := match l with [] => Some s | a :: l' => match act s t a with Some s1 => acts s1 t l' | None => None end end.
  (* wg.add() for each group, then run(): wait_group.h 15-18, task.h 122-197 *)
  Definition start_ops (t : nat) : list action := map (fun g => Add g 1) (given t) ++ [Spawn t].
  (* before anything has happened; lock_base.h 42-54, wait_group.h 15-112, task.h 78, 122-197, future.h 84-133 *)
  Definition init : state := SSt (Model.init roots (fun _ => [])) (fun i => Code (bodies i) :: map EndDone (given i)) (fun _ => None) (fun _ => None).
  (* bookkeeping of the model, no counterpart in /repo *)
  Definition with_base (s : state) (b : option Model.state) (t : nat) (k : list item) : option state :=
    match b with Some b => Some (SSt b (upd (ctl s) t k) (exc s) (result s)) | None => None end.
  (* bookkeeping of the model, no counterpart in /repo *)
  Definition control (s : state) (t : nat) (k : list item) (x : option nat) : option state := Some (SSt (base s) (upd (ctl s) t k) (upd (exc s) t x) (result s)).
  (* what each step does: lock_base.h 42-54, wait_group.h 15-112, task.h 78, 122-197, future.h 84-133 *)
  Definition step (s : state) (e : event) : option state :=
    match e with
    | Pick t => match Model.step n (base s) (Pick t) with Some b => Some (SSt b (ctl s) (exc s) (result s)) | None => None end
    | Go =>
      match cur (base s) with
      | None => None
      | Some t =>
        match ctl s t, exc s t with
        | [], x => match Model.step n (set_prog (base s) t []) Go with Some b => Some (SSt b (ctl s) (exc s) (upd (result s) t (Some x))) | None => None end
        | EndLock m :: k, _ => with_base s (act (base s) t (Unlock m)) t k
        | EndDone g :: k, _ => with_base s (act (base s) t (Done g)) t k
        | Code _ :: k, Some x => control s t k (Some x)
        | EndWith _ :: k, Some x => control s t k (Some x)
        | EndTry h :: k, Some x => control s t (Code h :: k) None
        | Fetch _ :: _, Some x => None
        | EndTry h :: k, None => control s t k None
        | EndWith d :: k, None => with_base s (act (base s) t (Join d)) t (Fetch d :: k)
        | Fetch d :: k, None => match result s d with Some o => control s t k o | None => None end
        | Code c :: k, None =>
            match c with
            | Skip => control s t k None
            | Seq a b => control s t (Code a :: Code b :: k) None
            | Suspend => with_base s (act (base s) t Pause) t k
            | Throw x => control s t k (Some x)
            | Locked m c => with_base s (act (base s) t (Lock m)) t (Code c :: EndLock m :: k)
            | WaitFor g => with_base s (act (base s) t (Wait g)) t k
            | Start d => with_base s (acts (base s) t (start_ops d)) t k
            | With d c => with_base s (acts (base s) t (start_ops d)) t (Code c :: EndWith d :: k)
            | Try c h => control s t (Code c :: EndTry h :: k) None
            end
        end
      end
    end.
End M.
