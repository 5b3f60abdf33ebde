(** What users of a reader-writer lock observe. *)
From Coq Require Import List Arith.
From Verif.Common Require Import TS.
From Verif.SharedMutex Require Import Model.
Import ListNotations.

Inductive obs :=
| GotShared (i : nat)    (* i's acquire_shared() completed *)
| GotUnique (i : nat)    (* i's acquire() / try_acquire() completed with the lock *)
| Unlocks (i : nat)      (* i releases the lock it holds *)
| Refused (i : nat).     (* i's try_acquire() completed without the lock *)

Definition observe (s : state) (e : event) (s' : state) : list obs :=
  match e with
  | EAcqShr i => match at_ s' i with Reading | Both => [GotShared i] | _ => [] end
  | EAcqUni i => match at_ s' i with Writing => [GotUnique i] | _ => [] end
  | ETryUni i => match at_ s' i with Writing => [GotUnique i] | _ => [Refused i] end
  | EResume i => match at_ s' i with
                 | Reading | Both => [GotShared i]
                 | Writing => [GotUnique i]
                 | _ => []
                 end
  | ERelease i _ _ => [Unlocks i]
  | _ => []
  end.

(** Reader-writer exclusion of a log. *)
Fixpoint rw_exclusive (readers : list nat) (writer : option nat) (log : list obs) : Prop :=
  match log with
  | [] => True
  | GotShared i :: log' => writer = None /\ rw_exclusive (i :: readers) writer log'
  | GotUnique i :: log' => writer = None /\ readers = [] /\ rw_exclusive readers (Some i) log'
  | Unlocks i :: log' =>
      (writer = Some i /\ rw_exclusive readers None log') \/
      (In i readers /\ rw_exclusive (remove Nat.eq_dec i readers) writer log')
  | Refused _ :: log' => rw_exclusive readers writer log'
  end.

(** Every coroutine is idle or suspended on the mutex: nobody holds it, nothing is in progress. *)
Definition quiescent (s : state) : Prop :=
  forall i, kick s i = false /\ (at_ s i = Idle \/ at_ s i = ShrWaiting \/ at_ s i = UniWaiting).

(** Histories in which no acquire_shared() has to wait. *)
Definition no_reader_waits (s : state) (e : event) : Prop :=
  match e with EShrEnq _ => False | _ => True end.

(** Events of coroutines that only want to write. *)
Definition writer_event (e : event) : Prop :=
  match e with EAcqUni _ | EUniEnq _ | ETryUni _ | EResume _ => True | _ => False end.
