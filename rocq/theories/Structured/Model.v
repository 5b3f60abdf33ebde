(** C139: programs of coroutines that use koios::mutexes, wait_groups and the results of other tasks, on one worker.

    Any number of tasks, each with a program: lock and unlock mutexes, add() and done() of and wait() for wait_groups, start other tasks (run_and_get_future()), await the
    future of a task it started, and other suspension points. One worker executes one task until it suspends (src/thread_pool.cc 72-118), picking any ready one next (the
    order of the scheduler's queue is left open). On one worker the operations of a mutex, a group or a future are not interrupted, so each is one step here; that these
    steps are runs of the models of the three classes is Refine.v.
      lock:   include/koios/acq_lk_aw.h 27-41, include/koios/coroutine_mutex.h 69-77;   unlock: coroutine_mutex.h 86-90, src/coroutine_mutex.cc 39-52, src/waiting_handle.cc 12-17
      add, done, wait: include/koios/wait_group.h 15-63
      start:  include/koios/task.h 174-197, include/koios/task_scheduler.h 43-61
      await:  include/koios/future_aw.h, include/koios/future.h 51-58, 84-104;   end of a task: include/koios/future.h 42-49
    Simplifications: every started task is a new number; a counter of a group does not reach 2^64 (see Refine.v); no task throws (C96 has exceptions). *)
From Coq Require Import List Arith Bool.
From Verif.Common Require Import TS.
Import ListNotations.

(* what a task does: acq_lk_aw.h 27-41, coroutine_mutex.h 86-90, wait_group.h 15-63, task.h 174-197, future_aw.h 18-48 *)
Inductive action := Lock (m : nat) | Unlock (m : nat) | Add (g k : nat) | Done (g : nat) | Wait (g : nat) | Spawn (t : nat) | Join (t : nat)
| Pause.   (* any co_await that comes back by itself *)
(** what a task can wait for: a mutex, a group reaching zero, the result of a task *)
(* what a task can wait for: a mutex, a group, a future (acq_lk_aw.h 27-30, wait_group.h 44-47, future_aw.h 31-39) *)
Inductive res := M (m : nat) | G (g : nat) | F (t : nat).
(* where a task is: acq_lk_aw.h 27-41, wait_group.h 39-52, future_aw.h 31-44, thread_pool.cc 72-118 *)
Inductive status := Dormant (* not started *) | Ready | Woken (r : res) (* ready, because of r *) | Running | Waits (r : res) | Finished.
(* what the state keeps of acq_lk_aw.h 27-41, coroutine_mutex.cc 39-52, wait_group.h 15-63, task.h 174-197, future.h 42-58, thread_pool.cc 72-118 *)
Record state := St {
  prog : nat -> list action; stat : nat -> status; cur : option nat;
  own : nat -> option nat; queue : nat -> list nat;      (* mutexes *)
  cnt : nat -> nat; gqueue : nat -> list nat;            (* groups *)
  joiner : nat -> option nat }.                          (* who awaits the future of a task *)

(* wake_up_all, wait_group.h 56-63 *)
Definition wake_all (l : list nat) (r : res) (f : nat -> status) : nat -> status := fun i => if existsb (Nat.eqb i) l then Woken r else f i.
(* before anything has happened; acq_lk_aw.h 27-41, coroutine_mutex.cc 39-52, wait_group.h 15-63, task.h 174-197, future.h 42-58, thread_pool.cc 72-118 *)
Definition init (roots : nat -> bool) (progs : nat -> list action) : state :=
  {| prog := progs; stat := fun i => if roots i then Ready else Dormant; cur := None; own := fun _ => None; queue := fun _ => []; cnt := fun _ => 0; gqueue := fun _ => []; joiner := fun _ => None |}.

(* the steps of acq_lk_aw.h 27-41, coroutine_mutex.cc 39-52, wait_group.h 15-63, task.h 174-197, future.h 42-58, thread_pool.cc 72-118 *)
Inductive event := Pick (t : nat) | Go.
Definition step (n : nat) (s : state) (e : event) : option state :=
  match e with
  | Pick t => if t <? n then match cur s, stat s t with
              | None, (Ready | Woken _) => Some (St (prog s) (upd (stat s) t Running) (Some t) (own s) (queue s) (cnt s) (gqueue s) (joiner s))
              | _, _ => None end else None
  | Go =>
    match cur s with
    | None => None
    | Some t =>
      match prog s t with
      | [] => match joiner s t with
              | None => Some (St (prog s) (upd (stat s) t Finished) None (own s) (queue s) (cnt s) (gqueue s) (joiner s))
              | Some j => Some (St (prog s) (upd (upd (stat s) t Finished) j (Woken (F t))) None (own s) (queue s) (cnt s) (gqueue s) (upd (joiner s) t None))
              end
      | Lock m :: p =>
          match own s m with
          | None => Some (St (upd (prog s) t p) (stat s) (cur s) (upd (own s) m (Some t)) (queue s) (cnt s) (gqueue s) (joiner s))
          | Some _ => Some (St (upd (prog s) t p) (upd (stat s) t (Waits (M m))) None (own s) (upd (queue s) m (queue s m ++ [t])) (cnt s) (gqueue s) (joiner s))
          end
      | Unlock m :: p =>
          match queue s m with
          | w :: r => Some (St (upd (prog s) t p) (upd (stat s) w (Woken (M m))) (cur s) (upd (own s) m (Some w)) (upd (queue s) m r) (cnt s) (gqueue s) (joiner s))
          | [] => Some (St (upd (prog s) t p) (stat s) (cur s) (upd (own s) m None) (queue s) (cnt s) (gqueue s) (joiner s))
          end
      | Add g k :: p => Some (St (upd (prog s) t p) (stat s) (cur s) (own s) (queue s) (upd (cnt s) g (cnt s g + k)) (gqueue s) (joiner s))
      | Done g :: p =>
          match cnt s g with
          | O => None                                              (* more done() than add(): not covered *)
          | S O => Some (St (upd (prog s) t p) (wake_all (gqueue s g) (G g) (stat s)) (cur s) (own s) (queue s) (upd (cnt s) g 0) (upd (gqueue s) g []) (joiner s))
          | S c => Some (St (upd (prog s) t p) (stat s) (cur s) (own s) (queue s) (upd (cnt s) g c) (gqueue s) (joiner s))
          end
      | Wait g :: p =>
          match cnt s g with
          | O => Some (St (upd (prog s) t p) (stat s) (cur s) (own s) (queue s) (cnt s) (gqueue s) (joiner s))
          | _ => Some (St (upd (prog s) t p) (upd (stat s) t (Waits (G g))) None (own s) (queue s) (cnt s) (upd (gqueue s) g (gqueue s g ++ [t])) (joiner s))
          end
      | Spawn c :: p =>
          match stat s c with
          | Dormant => Some (St (upd (prog s) t p) (upd (stat s) c Ready) (cur s) (own s) (queue s) (cnt s) (gqueue s) (joiner s))
          | _ => None
          end
      | Join c :: p =>
          match stat s c, joiner s c with
          | Finished, _ => Some (St (upd (prog s) t p) (stat s) (cur s) (own s) (queue s) (cnt s) (gqueue s) (joiner s))
          | Dormant, _ => None                                     (* there is no future yet *)
          | _, Some _ => None                                      (* a second waiter: the assertion of future.h 54 *)
          | _, None => Some (St (upd (prog s) t p) (upd (stat s) t (Waits (F c))) None (own s) (queue s) (cnt s) (gqueue s) (upd (joiner s) c (Some t)))
          end
      | Pause :: p => Some (St (upd (prog s) t p) (upd (stat s) t Ready) None (own s) (queue s) (cnt s) (gqueue s) (joiner s))
      end
    end
  end.
