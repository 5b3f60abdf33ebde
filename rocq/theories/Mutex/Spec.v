(** What a user of koios::mutex observes, independent of how the mutex works. *)
From Coq Require Import List Arith.
From Verif.Common Require Import TS.
From Verif.Mutex Require Import Model.
Import ListNotations.

Inductive obs :=
| Obtained (i : nat)   (* coroutine i's acquire()/try_acquire() completed with the lock *)
| Suspends (i : nat)   (* coroutine i's acquire() did not complete at once *)
| Refused (i : nat)    (* coroutine i's try_acquire() completed without the lock *)
| Unlocks (i : nat).   (* coroutine i called unlock() *)

(** The observation an event makes, read off the coroutine's own point of view. *)
Definition observe (s : state) (e : event) (s' : state) : list obs :=
  match e with
  | EAcquire i => match at_ s' i with Owner => [Obtained i] | _ => [Suspends i] end
  | ETry i => match at_ s' i with Owner => [Obtained i] | _ => [Refused i] end
  | EResume i => [Obtained i]
  | EClear i => [Unlocks i]
  | _ => []
  end.

(** Mutual exclusion of a log: an [Obtained] is legal only while nobody is the owner, and only the
    owner unlocks. [owner] is the current owner. *)
Fixpoint exclusive (owner : option nat) (log : list obs) : Prop :=
  match log with
  | [] => True
  | Obtained i :: log' => owner = None /\ exclusive (Some i) log'
  | Unlocks i :: log' => owner = Some i /\ exclusive None log'
  | Suspends _ :: log' => exclusive owner log'
  | Refused _ :: log' => exclusive owner log'
  end.

(** Nobody owns the mutex and nobody is inside one of its operations: every coroutine is either
    not using the mutex or suspended on it. *)
Definition quiescent (s : state) : Prop := forall i, at_ s i = Idle \/ at_ s i = Waiting.

(** Somebody is still going to look at the waiting queue: the lock is owned, is being handed over,
    or is held by a release about to dequeue; or it is free and a release is about to try to take
    it for that purpose. *)
Definition will_look (s : state) : Prop :=
  (exists i, at_ s i = Owner \/ at_ s i = Woken \/ at_ s i = RelHeld) \/
  (flag s = false /\ exists i, at_ s i = RelCleared).

(** The schedules in which the window between a failed test-and-set and the enqueue is never hit:
    whenever a waiter enqueues, someone is still going to look at the queue. *)
Definition enqueue_in_time (s : state) (e : event) : Prop :=
  match e with EEnqueue _ => will_look s | _ => True end.
