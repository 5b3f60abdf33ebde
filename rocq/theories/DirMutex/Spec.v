(** Specification vocabulary for C30, C31. *)
From Coq Require Import List Arith Bool.
From Verif.Common Require Import TS.
From Verif.DirMutex Require Import Model.
Import ListNotations.

(** coroutine [c] has obtained the lock (through object [m]) and has not finished releasing it *)
Definition holds (s : state) (c m : nat) : Prop := pc s c = Holding m \/ pc s c = Deleting m.
Definition is_waiting (s : state) (c m : nat) : Prop := pc s c = Between m \/ pc s c = Queued m.

Definition is_destroy (ev : event) : bool := match ev with EDestroy _ _ => true | _ => false end.
(** no dir_mutex object is destroyed *)
Definition nobody_destroys (l : list event) : Prop := forall ev, In ev l -> is_destroy ev = false.

(** a lock file that exists on nobody's behalf: no coroutine holds the lock, and no poller is about to hand it over *)
Definition orphaned (s : state) : Prop :=
  file s = true /\ (forall c m, ~ holds s c m) /\ (forall p m, nth_error (pollers s) p <> Some (m, PCreated)).

(** the well-behaved schedules of the partial result: nothing is cancelled or destroyed, and a poller that obtained the lock
    file finds a waiter to give it to *)
Definition pollers_find_a_waiter (s : state) (ev : event) : Prop :=
  match ev with ECancel _ | EDestroy _ _ | EPollHand _ None => False | _ => True end.
