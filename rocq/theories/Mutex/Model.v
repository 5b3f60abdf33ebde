(** Model of koios::mutex at the granularity of its atomic operations.

    /repo/include/koios/coroutine_mutex.h 32-97, /repo/src/coroutine_mutex.cc 13-53,
    /repo/include/koios/acq_lk_aw.h 18-72, /repo/include/koios/lock_base.h 46-53 (unlock).

    Simplifications: memory orders are modelled as sequentially consistent; the moodycamel queue
    is a bag (a dequeue may take any element: moodycamel promises FIFO per producer only);
    [wake_up] (waiting_handle.h) hands the coroutine to the scheduler, which resumes it later
    (event [EResume]); registration with the mutex monitor (call_once in acquire) has no effect
    on locking and is left out. *)
From Coq Require Import List Arith Bool.
From Verif.Common Require Import TS.
Import ListNotations.

(** Where coroutine [i] is with respect to this mutex. *)
(* where a coroutine or thread is in coroutine_mutex.h 69-97, coroutine_mutex.cc 38-53, acq_lk_aw.h 18-72 *)
Inductive pc :=
| Idle        (* not using the mutex *)
| Enqueuing   (* await_ready() returned false; add_waiting not executed yet *)
| Waiting     (* suspended, its handle is in m_waitings *)
| Woken       (* its handle was dequeued and passed to wake_up, not resumed yet *)
| Owner       (* co_await finished, it has the unique_lock *)
| RelCleared  (* release(): m_flag.clear() done, try_wake_up_next() not started *)
| RelHeld     (* try_wake_up_next(): test_and_set succeeded, about to try_dequeue *)
| RelEmpty.   (* try_dequeue found nothing, about to m_flag.clear() *)

(* m_flag and m_waitings, coroutine_mutex.h 94-95; at_: where each coroutine is *)
Record state := St { flag : bool; waitings : list nat; at_ : nat -> pc }.

(** coroutine_mutex.h 94-95: empty queue, ATOMIC_FLAG_INIT. *)
Definition init : state := {| flag := false; waitings := []; at_ := fun _ => Idle |}.

(* the steps of coroutine_mutex.h 69-97, coroutine_mutex.cc 38-53, acq_lk_aw.h 18-72 *)
Inductive event :=
| EAcquire (i : nat)            (* co_await m.acquire(): await_ready() *)
| EEnqueue (i : nat)            (* await_suspend() -> add_waiting *)
| ETry (i : nat)                (* co_await m.try_acquire() *)
| EClear (i : nat)              (* unlock() -> release(): m_flag.clear() *)
| ERelTAS (i : nat)             (* try_wake_up_next(): hold_this_immediately() *)
| ERelDeq (i : nat) (k : nat)   (* try_dequeue succeeds with the k-th handle, wake_up *)
| ERelNone (i : nat)            (* try_dequeue returns false *)
| ERelClear (i : nat)           (* m_flag.clear(release) *)
| EResume (i : nat).            (* the scheduler resumes a woken coroutine: await_resume() *)

(* bookkeeping of the model, no counterpart in /repo *)
Definition goto (s : state) (i : nat) (p : pc) : state :=
  {| flag := flag s; waitings := waitings s; at_ := upd (at_ s) i p |}.
(* bookkeeping of the model, no counterpart in /repo *)
Definition set_flag (s : state) (b : bool) : state :=
  {| flag := b; waitings := waitings s; at_ := at_ s |}.

(** hold_this_immediately, coroutine_mutex.h 69-72: !m_flag.test_and_set(). *)
Definition hold_this_immediately (s : state) : bool * state := (negb (flag s), set_flag s true).

(** add_waiting, coroutine_mutex.h 74-77. *)
Definition add_waiting (s : state) (i : nat) : state :=
  {| flag := flag s; waitings := waitings s ++ [i]; at_ := at_ s |}.

(** [spurious]: whether try_dequeue may return false although the bag is not empty
    (moodycamel only promises "appeared empty while it was scanned"). *)
Definition step (spurious : bool) (s : state) (e : event) : option state :=
  match e with
  | EAcquire i =>                                   (* acq_lk_aw.h 33-36 *)
      match at_ s i with
      | Idle => let '(ok, s1) := hold_this_immediately s in
                Some (goto s1 i (if ok then Owner else Enqueuing))
      | _ => None
      end
  | EEnqueue i =>                                   (* acq_lk_aw.h 27-30 *)
      match at_ s i with
      | Enqueuing => Some (goto (add_waiting s i) i Waiting)
      | _ => None
      end
  | ETry i =>                                       (* acq_lk_aw.h 58-68 *)
      match at_ s i with
      | Idle => let '(ok, s1) := hold_this_immediately s in
                Some (goto s1 i (if ok then Owner else Idle))
      | _ => None
      end
  | EClear i =>                                     (* coroutine_mutex.h 86-88 *)
      match at_ s i with
      | Owner => Some (goto (set_flag s false) i RelCleared)
      | _ => None
      end
  | ERelTAS i =>                                    (* coroutine_mutex.cc 41-42 *)
      match at_ s i with
      | RelCleared => let '(ok, s1) := hold_this_immediately s in
                      Some (goto s1 i (if ok then RelHeld else Idle))
      | _ => None
      end
  | ERelDeq i k =>                                  (* coroutine_mutex.cc 44-48 *)
      match at_ s i with
      | RelHeld => match take_nth k (waitings s) with
                   | Some (w, rest) =>
                       Some (goto (goto {| flag := flag s; waitings := rest; at_ := at_ s |}
                                        w Woken) i Idle)
                   | None => None
                   end
      | _ => None
      end
  | ERelNone i =>                                   (* coroutine_mutex.cc 45, 49 *)
      match at_ s i with
      | RelHeld => if spurious || match waitings s with [] => true | _ => false end
                   then Some (goto s i RelEmpty) else None
      | _ => None
      end
  | ERelClear i =>                                  (* coroutine_mutex.cc 51 *)
      match at_ s i with
      | RelEmpty => Some (goto (set_flag s false) i Idle)
      | _ => None
      end
  | EResume i =>                                    (* acq_lk_aw.h 38-41 *)
      match at_ s i with
      | Woken => Some (goto s i Owner)
      | _ => None
      end
  end.
