(** Properties C30 and C31 (koios::dir_mutex). *)
From Coq Require Import List Arith Bool Lia.
From Verif.Common Require Import TS ListX.
From Verif.DirMutex Require Import Model Spec Proofs.
Import ListNotations.

(** C30. With any number of dir_mutex objects on one directory, any number of coroutines and any schedule in which no
    object is destroyed, two coroutines never hold the lock together, and while one does the lock file exists. *)
Theorem C30_dir_mutex_exclusive :
  forall l s, nobody_destroys l -> run next init l = Some s ->
    (forall c m c' m', holds s c m -> holds s c' m' -> c = c' /\ m = m') /\
    (forall c m, holds s c m -> file s = true).
Proof.
  intros l s Hd HR. pose proof (inv_run l init s inv_init Hd HR) as [If Ic _ _ _ _ _]. split.
  - intros c m c' m' H H'. assert (E : owner s = Some (OwnC c)) by (apply Ic; eauto). assert (E' : owner s = Some (OwnC c')) by (apply Ic; eauto).
    assert (c = c') by congruence. subst c'. split; [easy|]. unfold holds in *. destruct H as [H|H], H' as [H'|H']; congruence.
  - intros c m H. apply If. assert (E : owner s = Some (OwnC c)) by (apply Ic; eauto). congruence.
Qed.
Print Assumptions C30_dir_mutex_exclusive.

(** coroutine 0 holds through object 0; coroutine 1 waits on object 1, whose poller gets the file after 0 unlocks *)
Definition contended : list event :=
  [EAcquire 0 0; ECreate 0; EAcquire 1 1; ECreate 1; EEnqueue 1; EPollWake 0; EPollCreate 0; EUnlock 0 None; EDelete 0;
   EPollWake 0; EPollCreate 0; EPollHand 0 (Some 0)].
Example C30_contended : nobody_destroys contended /\ exists s, run next init contended = Some s /\ holds s 1 1 /\ file s = true.
Proof.
  split; [intros ev H; cbn in H; intuition; subst; reflexivity|].
  destruct (run_proj_ok next (fun s => (pc s 1, file s)) init contended (Holding 1, true)) as (s & Hr & Hp); [vm_compute; reflexivity|].
  inversion Hp. exists s. unfold holds. auto.
Qed.

(** The hypothesis matters: ~dir_mutex() calls unlock() whether or not it is the holder, so destroying another object on
    the same directory deletes the lock file under the holder's feet. *)
Theorem C95_dir_mutex_destructor_breaks_exclusion_refuted :
  exists l s, run next init l = Some s /\ holds s 0 0 /\ holds s 1 2.
Proof.
  set (l := [EAcquire 0 0; ECreate 0; ECancel 1; EDestroy 1 None; EAcquire 1 2; ECreate 1]).
  destruct (run_proj_ok next (fun s => (pc s 0, pc s 1)) init l (Holding 0, Holding 2)) as (s & Hr & Hp); [vm_compute; reflexivity|].
  inversion Hp. exists l, s. unfold holds. auto.
Qed.
Print Assumptions C95_dir_mutex_destructor_breaks_exclusion_refuted.

(** In fact whenever an object without pollers and waiters is destroyed while a coroutine holds the lock through another
    object, a third object's first acquire succeeds at once. *)
Theorem C95_dir_mutex_destructor_always_breaks_exclusion_refuted :
  forall l s c m m' c' m'', run next init l = Some s -> pc s c = Holding m -> m' <> m -> c' <> c -> pc s c' = Idle ->
    (forall p x, nth_error (pollers s) p = Some (m', x) -> x = PDone) ->
    exists s', run next s [ECancel m'; EDestroy m' None; EAcquire c' m''; ECreate c'] = Some s' /\ holds s' c m /\ holds s' c' m''.
Proof.
  intros l s c m m' c' m'' _ Hc Hm Hcc Hi Hp. cbn [run next stopped pollers pc]. rewrite upd_same, andb_true_r.
  assert (Hf : forallb (fun q => negb (fst q =? m') || match snd q with PDone => true | _ => false end) (pollers s) = true).
  { apply forallb_forall. intros [q x] Hin. destruct (In_nth_error _ _ Hin) as (p & Hn). cbn. destruct (Nat.eqb_spec q m') as [->|]; [|easy]. rewrite (Hp p x Hn). easy. }
  rewrite Hf. cbn [set_file set_pc pc file stopped pollers]. rewrite Hi. cbn [set_file set_pc pc file]. rewrite upd_same.
  eexists. split; [reflexivity|]. unfold holds. cbn [set_file set_pc pc]. split; left; [rewrite !upd_other by congruence; exact Hc|apply upd_same].
Qed.
Print Assumptions C95_dir_mutex_destructor_always_breaks_exclusion_refuted.

(** C31, full statement: no reachable state has a lock file without an owner. It is false of the code, for two coroutines
    on one object: the poller started for the second coroutine outlives its wait (the first holder's unlock() served it),
    later creates the file, finds no waiter, and leaves. From then on nobody ever holds the lock again, whatever
    happens short of destroying an object. *)
Theorem C31_dir_mutex_progress_refuted :
  exists l s, nobody_destroys l /\ run next init l = Some s /\ (forall c, pc s c = Idle) /\ orphaned s /\
    forall l' s', nobody_destroys l' -> run next s l' = Some s' -> orphaned s'.
Proof.
  set (l := [EAcquire 0 0; ECreate 0; EAcquire 1 0; ECreate 1; EEnqueue 1; EUnlock 0 (Some 0); EUnlock 1 None; EDelete 1;
             EPollWake 0; EPollCreate 0; EPollHand 0 None]).
  assert (Hd : nobody_destroys l) by (intros ev H; cbn in H; intuition; subst; reflexivity).
  assert (HE : exists s, run next init l = Some s /\ owner s = Some Orphan /\ forall c, pc s c = Idle).
  { destruct (run_proj_ok next (fun s => (pc s, owner s)) init l (upd (upd (upd (upd (upd (upd (upd (upd (upd (fun _ => Idle) 0 (Trying 0)) 0 (Holding 0)) 1 (Trying 0)) 1 (Between 0)) 1 (Queued 0)) 0 Idle) 1 (Holding 0)) 1 (Deleting 0)) 1 Idle, Some Orphan)) as (s & Hr & Hp);
      [vm_compute; reflexivity|].
    inversion Hp as [[H1 H2]]. exists s. rewrite H1. repeat split; try assumption. intros c. unfold upd. destruct c as [|[|c]]; reflexivity. }
  destruct HE as (s & HR & Ho & Hc). pose proof (inv_run l init s inv_init Hd HR) as HI.
  exists l, s. repeat (split; [assumption|]). split; [now apply orphan_iff|].
  intros l' s' Hd' HR'. destruct (orphan_run l' s s' HI Ho Hd' HR') as [HI' Ho']. now apply orphan_iff.
Qed.
Print Assumptions C31_dir_mutex_progress_refuted.

(** An orphaned lock file is permanent from every reachable state, not just in that run. *)
Theorem C31_dir_mutex_orphan_is_permanent_refuted :
  forall l s, nobody_destroys l -> run next init l = Some s -> orphaned s ->
    forall l' s', nobody_destroys l' -> run next s l' = Some s' -> forall c m, ~ holds s' c m.
Proof.
  intros l s Hd HR Ho l' s' Hd' HR'. pose proof (inv_run l init s inv_init Hd HR) as HI.
  destruct (orphan_run l' s s' HI (proj1 (orphan_iff s HI) Ho) Hd' HR') as [HI' Ho']. apply (orphan_iff s' HI'). exact Ho'.
Qed.
Print Assumptions C31_dir_mutex_orphan_is_permanent_refuted.

(** C31, what holds: in the schedules where no object is cancelled or destroyed and every poller that gets the file finds
    a waiter, the file always has an owner; and whenever the file is absent and coroutines are queued on object [m], some
    poller of [m] is alive and its next steps give the lock to one of them. Missing: the schedules that hit the window
    above, and fairness (that the poller's steps are taken is the scheduler's and the timer's doing). *)
Theorem C31_dir_mutex_progress_partial :
  forall l s, run_all next pollers_find_a_waiter init l -> run next init l = Some s ->
    ~ orphaned s /\
    (forall m c w, waitq s m = c :: w -> file s = false ->
       exists p l' s', (l' = [EPollCreate p; EPollHand p (Some 0)] \/ l' = [EPollWake p; EPollCreate p; EPollHand p (Some 0)]) /\
         run next s l' = Some s' /\ holds s' c m).
Proof.
  intros l s HP HR. pose proof (inv2_run l s HP HR) as [HI Ho Hst Hl]. split.
  { intros H. apply Ho. now apply orphan_iff. }
  intros m c w Hw Hf. assert (Hlv : 0 < live s m) by (specialize (Hl m); unfold waiters in Hl; rewrite Hw in Hl; cbn in Hl; lia).
  destruct (live_exists s m Hlv) as (p & x & Hp & Hx).
  assert (Hlt : p < length (pollers s)) by (eapply nth_error_lt; exact Hp).
  assert (Hset : forall y z (q : list (nat * ppc)), length q = length (pollers s) -> nth_error (set_nth p (y, z) q) p = Some (y, z)).
  { intros y z q Hq. apply nth_error_set_same. lia. }
  exists p. destruct x; [| | |congruence].
  - exists [EPollWake p; EPollCreate p; EPollHand p (Some 0)]. cbn [run next]. rewrite Hp, Hst. cbn [set_poller pollers file].
    rewrite Hset by easy. rewrite Hf. cbn [set_file set_poller pollers]. rewrite Hset by now rewrite set_nth_length.
    unfold wake. cbn [set_file set_poller waitq]. rewrite Hw. cbn [take_nth].
    eexists. split; [now right|]. split; [reflexivity|]. left. cbn [set_file set_poller pc]. apply upd_same.
  - exists [EPollCreate p; EPollHand p (Some 0)]. cbn [run next]. rewrite Hp, Hf. cbn [set_file set_poller pollers].
    rewrite Hset by easy. unfold wake. cbn [set_file set_poller waitq]. rewrite Hw. cbn [take_nth].
    eexists. split; [now left|]. split; [reflexivity|]. left. cbn [set_file set_poller pc]. apply upd_same.
  - exfalso. assert (owner s = Some (OwnP p)) by (apply (i_p s HI); eauto). assert (file s = true) by (apply (i_file s HI); congruence). congruence.
Qed.
Print Assumptions C31_dir_mutex_progress_partial.

(** its hypotheses are met with a waiter queued and the file absent *)
Definition one_waits : list event :=
  [EAcquire 0 0; ECreate 0; EAcquire 1 1; ECreate 1; EEnqueue 1; EUnlock 0 None; EDelete 0].
Example C31_one_waits : run_all next pollers_find_a_waiter init one_waits /\
  exists s, run next init one_waits = Some s /\ waitq s 1 = [1] /\ file s = false.
Proof.
  split; [vm_compute; tauto|].
  destruct (run_proj_ok next (fun s => (waitq s 1, file s)) init one_waits ([1], false)) as (s & Hr & Hp); [vm_compute; reflexivity|].
  inversion Hp. exists s. auto.
Qed.
