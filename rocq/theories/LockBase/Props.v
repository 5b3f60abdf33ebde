(** Property C03 (unique_lock / shared_lock handles). *)
From Coq Require Import List Arith Bool Lia.
From Verif.Common Require Import TS ListX.
From Verif.LockBase Require Import Model Spec Proofs.
Import ListNotations.

(** For every program over handles: when no handle object is left, each mutex has seen exactly as
    many release() calls as acquisitions. *)
Theorem C03_locks_released_exactly_once :
  forall l s m, run step init l = Some s -> all_gone s ->
    acquired m (log s) = released m (log s).
Proof. exact balanced_at_end. Qed.
Print Assumptions C03_locks_released_exactly_once.

(** ... and at no point has a mutex seen more releases than acquisitions (no double release). *)
Theorem C03_locks_never_double_released :
  forall l s m p q, run step init l = Some s -> log s = p ++ q -> released m p <= acquired m p.
Proof. exact release_never_exceeds. Qed.
Print Assumptions C03_locks_never_double_released.

(** At every moment the outstanding acquisitions of [m] are exactly the live handles that point
    to [m] and own it. *)
Theorem C03_locks_outstanding_exact :
  forall l s m, run step init l = Some s ->
    acquired m (log s) = released m (log s) + holders m s.
Proof. exact (fun l s m => bal_run l s m). Qed.
Print Assumptions C03_locks_outstanding_exact.

(** release() is called by unlock() only for a handle that owns, which stops owning. *)
Theorem C03_unlock_only_if_owned :
  forall s h s' m, step s (OUnlock h) = Some s' -> log s' = log s ++ [Rel m] ->
    get s h = Some {| m_mutex := Some m; m_owns := true |} /\
    get s' h = Some {| m_mutex := Some m; m_owns := false |}.
Proof. exact unlock_only_if_owned. Qed.
Print Assumptions C03_unlock_only_if_owned.

Theorem C03_unlock_idempotent :
  forall s h s1 s2, step s (OUnlock h) = Some s1 -> step s1 (OUnlock h) = Some s2 ->
    log s2 = log s1 /\ get s2 h = get s1 h.
Proof. exact unlock_idempotent. Qed.
Print Assumptions C03_unlock_idempotent.

(** Moves transfer, they neither acquire nor release the moved lock; a move assignment releases
    what the target owned before. *)
Theorem C03_move_ctor_transfers :
  forall s src s', step s (OMoveCtor src) = Some s' ->
    get s' src = Some {| m_mutex := None; m_owns := false |} /\
    get s' (length (handles s)) = get s src /\ log s' = log s.
Proof. exact move_ctor_source. Qed.
Print Assumptions C03_move_ctor_transfers.

Theorem C03_move_assign_transfers :
  forall s dst src s' xd xs,
    step s (OMoveAssign dst src) = Some s' -> get s dst = Some xd -> get s src = Some xs ->
    dst <> src ->
    get s' dst = Some xs /\ get s' src = Some {| m_mutex := None; m_owns := false |} /\
    log s' = log s ++ match xd with {| m_mutex := Some m; m_owns := true |} => [Rel m] | _ => [] end.
Proof. exact move_assign_effect. Qed.
Print Assumptions C03_move_assign_transfers.

(** lock() and try_lock() on a handle of mutex [m]: a handle that owns is not acquired a second time - the program ends (the assertion of unique_lock.h 46 and 59)
    with the lock still held; one that does not own acquires [m] exactly once (try_lock: if granted, else nothing happens), and a handle without a mutex changes nothing. *)
Theorem C03_lock_through_handle : forall s h x s' o granted, aborted s = false -> get s h = Some x -> (o = OLock h /\ granted = true) \/ o = OTryLock h granted -> step s o = Some s' ->
  match m_mutex x with
  | None => s' = s
  | Some m => if m_owns x then log s' = log s /\ handles s' = handles s /\ (forall o', step s' o' = None)
              else if granted then log s' = log s ++ [Acq m] /\ get s' h = Some {| m_mutex := Some m; m_owns := true |} /\ aborted s' = false
              else s' = s
  end.
Proof.
  intros s h x s' o granted Ha Hg Ho Hs. assert (L : h < length (handles s)). { unfold get in Hg. destruct (nth_error (handles s) h) eqn:E; [|discriminate]. eapply nth_error_lt; eauto. }
  destruct Ho as [[-> ->]| ->]; unfold step in Hs; rewrite Ha, Hg in Hs; destruct (m_mutex x) as [m|]; try (injection Hs as <-; reflexivity);
    (destruct (m_owns x); [injection Hs as <-; repeat split|]).
  - injection Hs as <-. split; [reflexivity|]. split; [|exact Ha]. unfold get, put, emit. cbn [handles]. now rewrite nth_error_set_same.
  - destruct granted; injection Hs as <-; [|reflexivity]. split; [reflexivity|]. split; [|exact Ha]. unfold get, put, emit. cbn [handles]. now rewrite nth_error_set_same.
Qed.
Print Assumptions C03_lock_through_handle.

(** owns_lock() is truthful for a handle with a mutex ... *)
Theorem C91_owns_lock_truthful_partial :
  forall l s h x m, run step init l = Some s -> get s h = Some x ->
    m_mutex x = Some m -> m_owns x = true -> released m (log s) < acquired m (log s).
Proof. exact owns_lock_truthful. Qed.
Print Assumptions C91_owns_lock_truthful_partial.

(** ... but a default-constructed handle says it owns a lock although nothing was ever acquired. *)
Theorem C91_owns_lock_default_refuted :
  exists l s x, run step init l = Some s /\ get s 0 = Some x /\ m_owns x = true /\
                m_mutex x = None /\ log s = [].
Proof. exact owns_lock_lies. Qed.
Print Assumptions C91_owns_lock_default_refuted.

(** Non-vacuity: two locks on two mutexes, moved over each other, self-assigned, unlocked, locked
    again and destroyed. *)
Definition prog : list op :=
  [ONew 7; ONew 8; OMoveAssign 0 1; OMoveCtor 0; OMoveAssign 2 2; OLock 2; OUnlock 2; OUnlock 2;
   OTryLock 2 true; ODefault; OMoveAssign 3 2; ODestroy 0; ODestroy 1; ODestroy 2; ODestroy 3].
Example C03_prog_runs :
  exists s, run step init prog = Some s /\ all_gone s /\
    log s = [Acq 7; Acq 8; Rel 7; Rel 8; Acq 8; Rel 8; Acq 8; Rel 8].
Proof.
  eexists. split; [vm_compute; reflexivity|]. split; [|reflexivity].
  intros h. do 4 (destruct h as [|h]; [reflexivity|]). destruct h; reflexivity.
Qed.
