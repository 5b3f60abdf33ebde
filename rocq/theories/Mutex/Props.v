(** Properties C01 and C02 (koios::mutex). *)
From Coq Require Import List Arith Bool Lia.
From Verif.Common Require Import TS.
From Verif.Mutex Require Import Model Spec Proofs.
Import ListNotations.

(** C01. For every schedule [l] of any number of coroutines, whether or not the queue may report
    "empty" spuriously, the log of obtained/unlocked locks is exclusive. *)
Theorem C01_mutex_mutual_exclusion :
  forall (spurious : bool) (l : list event),
    exclusive None (trace (step spurious) observe init l).
Proof. exact mutual_exclusion. Qed.
Print Assumptions C01_mutex_mutual_exclusion.

(** A contended schedule: 1 waits for 0, 2's try_acquire is refused, 0 hands over to 1, 2 then waits
    for 1. The log it produces is the expected one. *)
Definition contended : list event :=
  [EAcquire 0; EAcquire 1; EEnqueue 1; ETry 2; EClear 0; ERelTAS 0; ERelDeq 0 0;
   EAcquire 2; EEnqueue 2; EResume 1; EClear 1; ERelTAS 1; ERelDeq 1 0; EResume 2].
Example C01_contended_log :
  trace (step false) observe init contended =
  [Obtained 0; Suspends 1; Refused 2; Unlocks 0; Suspends 2; Obtained 1; Unlocks 1; Obtained 2].
Proof. vm_compute. reflexivity. Qed.
(** The specification does reject a log without mutual exclusion. *)
Example C01_spec_rejects : ~ exclusive None [Obtained 0; Suspends 1; Obtained 1].
Proof. cbn. intros [_ [H _]]. discriminate. Qed.

(** The queue holds exactly the suspended coroutines, once each: nobody is woken twice. *)
Theorem C01_mutex_waiters_exact :
  forall spurious l s, run (step spurious) init l = Some s ->
    NoDup (waitings s) /\ (forall i, In i (waitings s) <-> at_ s i = Waiting).
Proof. exact waiting_queue_exact. Qed.
Print Assumptions C01_mutex_waiters_exact.

(** The flag is clear exactly when nobody owns the lock, is being handed it, or is inside the
    wake-up part of a release. *)
Theorem C01_mutex_flag_exact :
  forall spurious l s, run (step spurious) init l = Some s ->
    (flag s = false <->
     forall i, at_ s i <> Owner /\ at_ s i <> Woken /\ at_ s i <> RelHeld /\ at_ s i <> RelEmpty).
Proof. exact flag_exact. Qed.
Print Assumptions C01_mutex_flag_exact.

(** C02, full statement: no reachable quiescent state has a suspended coroutine. It is false of the
    code: a waiter pre-empted between its failed test_and_set and its enqueue is stranded. *)
Theorem C02_mutex_no_lost_wakeup_refuted :
  exists l s, run (step false) init l = Some s /\ quiescent s /\ at_ s 1 = Waiting /\ flag s = false.
Proof. exact lost_wakeup. Qed.
Print Assumptions C02_mutex_no_lost_wakeup_refuted.

(** What holds: in every schedule in which each waiter enqueues while somebody is still going to
    look at the queue, no quiescent state has a suspended coroutine. Missing from the full
    statement: the schedules that hit the window. *)
Theorem C02_mutex_no_lost_wakeup_partial :
  forall l s,
    run_all (step false) enqueue_in_time init l ->
    run (step false) init l = Some s ->
    quiescent s -> forall i, at_ s i = Idle.
Proof. exact no_lost_wakeup_when_in_time. Qed.
Print Assumptions C02_mutex_no_lost_wakeup_partial.

Definition in_time_schedule : list event :=
  contended ++ [EClear 2; ERelTAS 2; ERelNone 2; ERelClear 2].
Example C02_partial_nonvacuous :
  run_all (step false) enqueue_in_time init in_time_schedule /\
  (exists s, run (step false) init in_time_schedule = Some s /\ quiescent s) /\
  In (Suspends 1) (trace (step false) observe init in_time_schedule).
Proof.
  split; [|split].
  - unfold in_time_schedule, contended; cbn [app run_all].
    repeat (split; [|let E := fresh in intros ? E; vm_compute in E; inversion E; subst; clear E]);
      try exact I; left; (exists 0; cbn; auto; fail) || (exists 1; cbn; auto).
  - eexists. split; [vm_compute; reflexivity|].
    intros i. cbn. destruct i as [|[|[|i]]]; cbn; auto.
  - vm_compute. auto.
Qed.

(** A stranded waiter is recovered by the next lock/unlock of anybody: [j] locks and unlocks
    without interference and some suspended coroutine is woken. *)
Theorem C02_mutex_next_release_recovers :
  forall l s j,
    run (step false) init l = Some s -> flag s = false -> waitings s <> [] -> at_ s j = Idle ->
    exists s' w, run (step false) s [EAcquire j; EClear j; ERelTAS j; ERelDeq j 0] = Some s' /\
       at_ s w = Waiting /\ at_ s' w = Woken /\ at_ s' j = Idle.
Proof. exact next_release_recovers. Qed.
Print Assumptions C02_mutex_next_release_recovers.
Example C02_recover_nonvacuous :
  exists l s, run (step false) init l = Some s /\ flag s = false /\ waitings s <> [] /\ at_ s 5 = Idle.
Proof.
  exists lost_wakeup_schedule. eexists. split; [vm_compute; reflexivity|].
  cbn. repeat split; try discriminate.
Qed.

(** C66. try_acquire() never waits: it completes at once, obtaining the lock exactly when nobody owns
    it, is being handed it, or is inside the wake-up part of a release; it changes nobody else's
    position and does not touch the queue of waiters. *)
Theorem C66_mutex_try_acquire_decides_at_once :
  forall spurious l s i s',
    run (step spurious) init l = Some s -> step spurious s (ETry i) = Some s' ->
    (at_ s' i = Owner \/ at_ s' i = Idle) /\
    (at_ s' i = Owner <->
       forall j, at_ s j <> Owner /\ at_ s j <> Woken /\ at_ s j <> RelHeld /\ at_ s j <> RelEmpty) /\
    (forall j, j <> i -> at_ s' j = at_ s j) /\ waitings s' = waitings s.
Proof.
  intros sp l s i s' Hr H.
  pose proof (C01_mutex_flag_exact sp l s Hr) as Hf.
  cbn in H. destruct (at_ s i) eqn:E; try discriminate.
  injection H as <-. cbn. rewrite upd_same.
  destruct (flag s); cbn; (split; [tauto|]).
  - split; [|split; [intros; apply upd_other; congruence|reflexivity]].
    split; [discriminate|]. intros Hn. apply Hf in Hn. discriminate.
  - split; [|split; [intros; apply upd_other; congruence|reflexivity]].
    split; [|reflexivity]. intros _. apply Hf. reflexivity.
Qed.
Print Assumptions C66_mutex_try_acquire_decides_at_once.

(** An acquire() that cannot complete at once always becomes a suspended waiter, never a failure. *)
Theorem C66_mutex_acquire_owns_or_waits :
  forall spurious s i s',
    step spurious s (EAcquire i) = Some s' ->
    at_ s' i = Owner \/
    (at_ s' i = Enqueuing /\ flag s = true /\
     exists s'', step spurious s' (EEnqueue i) = Some s'' /\ at_ s'' i = Waiting /\ In i (waitings s'')).
Proof.
  intros sp s i s' H. cbn in H. destruct (at_ s i) eqn:E; try discriminate.
  injection H as <-. cbn. rewrite upd_same. destruct (flag s); cbn; auto.
  right. split; [reflexivity|split; [reflexivity|]]. eexists. split; [reflexivity|].
  cbn. rewrite upd_same. split; [reflexivity|]. apply in_or_app. right. left. reflexivity.
Qed.
Print Assumptions C66_mutex_acquire_owns_or_waits.

(** Both outcomes occur; the refusal in the last one happens while nobody owns the mutex, because a
    release is in its wake-up part. *)
Example C66_nonvacuous :
  (exists s s', run (step false) init [] = Some s /\ step false s (ETry 0) = Some s' /\ at_ s' 0 = Owner) /\
  (exists s s', run (step false) init [EAcquire 0] = Some s /\ step false s (ETry 1) = Some s' /\ at_ s' 1 = Idle) /\
  (exists s s', run (step false) init [EAcquire 0; EClear 0; ERelTAS 0] = Some s /\
                step false s (ETry 1) = Some s' /\ at_ s' 1 = Idle /\ forall j, at_ s j <> Owner).
Proof.
  split; [|split]; (eexists; eexists; split; [vm_compute; reflexivity|]; split; [reflexivity|]).
  - reflexivity.
  - reflexivity.
  - split; [reflexivity|]. intros [|j]; cbn; discriminate.
Qed.

(** unlock() never waits either: once begun (the flag is cleared by its first step) it takes at most three more steps of its own, one of them is always
    possible, whatever the others did, and no step of anybody else sets it back; then the coroutine is out of the mutex. *)
Definition unlock_left (p : pc) : nat := match p with RelCleared => 3 | RelHeld => 2 | RelEmpty => 1 | _ => 0 end.
Definition unlock_step (i : nat) (e : event) : bool := match e with ERelTAS j | ERelDeq j _ | ERelNone j | ERelClear j => Nat.eqb j i | _ => false end.
Theorem C66_mutex_unlock_never_waits : forall spurious l s i, run (step spurious) init l = Some s -> 0 < unlock_left (at_ s i) ->
  (exists e s', unlock_step i e = true /\ step spurious s e = Some s') /\
  (forall e s', step spurious s e = Some s' ->
     if unlock_step i e then unlock_left (at_ s' i) < unlock_left (at_ s i) /\ (unlock_left (at_ s' i) = 0 -> at_ s' i = Idle) else at_ s' i = at_ s i).
Proof.
  intros sp l s i Hr Hl. split.
  - destruct (at_ s i) eqn:E; cbn in Hl; try lia.
    + exists (ERelTAS i). cbn. rewrite E, Nat.eqb_refl. eauto.
    + destruct (waitings s) as [|w q] eqn:Ew.
      * exists (ERelNone i). cbn. rewrite E, Nat.eqb_refl, Ew, orb_true_r. eauto.
      * exists (ERelDeq i 0). cbn. rewrite E, Nat.eqb_refl, Ew. cbn. eauto.
    + exists (ERelClear i). cbn. rewrite E, Nat.eqb_refl. eauto.
  - intros e s' Hs. assert (Hw : forall w, In w (waitings s) -> w <> i).
    { intros w Hin ->. apply (proj2 (C01_mutex_waiters_exact sp l s Hr)) in Hin. rewrite Hin in Hl. cbn in Hl. lia. }
    destruct e as [j|j|j|j|j|j k|j|j|j]; cbn [step unlock_step] in *; destruct (at_ s j) eqn:E; try discriminate.
    all: try (injection Hs as <-; cbn [goto set_flag add_waiting hold_this_immediately at_]; rewrite upd_other; [reflexivity|intros ->; rewrite E in Hl; cbn in Hl; lia]).
    + injection Hs as <-. cbn [goto set_flag at_]. destruct (Nat.eqb_spec j i) as [->|N]; [|now rewrite upd_other by congruence]. rewrite upd_same, E. destruct (flag s); cbn; (split; [lia|congruence || lia]).
    + destruct (take_nth k (waitings s)) as [[w r]|] eqn:Et; [|discriminate]. injection Hs as <-. cbn [goto at_]. apply take_nth_spec in Et. destruct Et as (l1 & l2 & Eq & _).
      assert (Nw : w <> i) by (apply Hw; rewrite Eq; apply in_app_iff; right; now left).
      destruct (Nat.eqb_spec j i) as [->|N]; [rewrite upd_same, E; cbn; split; [lia|reflexivity]|]. rewrite !upd_other by congruence. reflexivity.
    + destruct (sp || _); [|discriminate]. injection Hs as <-. cbn [goto at_]. destruct (Nat.eqb_spec j i) as [->|N]; [|now rewrite upd_other by congruence]. rewrite upd_same, E. cbn. split; [lia|lia].
    + injection Hs as <-. cbn [goto set_flag at_]. destruct (Nat.eqb_spec j i) as [->|N]; [|now rewrite upd_other by congruence]. rewrite upd_same, E. cbn. split; [lia|reflexivity].
Qed.
Print Assumptions C66_mutex_unlock_never_waits.
Example C66_unlock_case : exists s, run (step false) init [EAcquire 0; EAcquire 1; EEnqueue 1; EClear 0] = Some s /\ unlock_left (at_ s 0) = 3.
Proof. eexists. split; vm_compute; reflexivity. Qed.
