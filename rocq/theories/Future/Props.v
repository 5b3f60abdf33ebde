From Coq Require Import List Arith Bool Lia.
From Verif.Common Require Import TS.
From Verif.Future Require Import Model Spec Proofs.
Import ListNotations.

(** C09 (safety): any number of futures of one promise, any schedule, spurious wake-ups allowed: whatever a
    get/get_nonblk/co_await delivers was stored before, is exactly what was stored, and is delivered at most once. *)
Theorem C09_delivered_faithfully_at_most_once : forall n sp l,
  faithful None false (trace (step n sp) observe init l).
Proof. exact faithful_delivery. Qed.
Print Assumptions C09_delivered_faithfully_at_most_once.

(** C09 (no lost wake-up): one future. Once the promise is fulfilled, a coroutine that is inside co_await needs
    only its own remaining steps (at most: finish suspending, be resumed by the scheduler), all of which are enabled, to
    get exactly the stored result. *)
Theorem C09_no_lost_wakeup : forall sp l s r,
  run (step 1 sp) init l = Some s -> awaiting s 0 -> fulfilled s = Some r ->
  exists l' s', (l' = [EResume 0] \/ l' = [ESuspend 0; EResume 0]) /\
    run (step 1 sp) s l' = Some s' /\
    trace (step 1 sp) observe s l' = [Got 0 (as_outcome r)] /\ at_ (futs s' 0) = Idle.
Proof. exact await_gets. Qed.
Print Assumptions C09_no_lost_wakeup.

Theorem C09_not_resumed_before_fulfilment : forall sp l s,
  run (step 1 sp) init l = Some s ->
  asserted s = false /\ (at_ (futs s 0) = Woken -> fulfilled s <> None) /\
  (ss_waiting s = Some 0 <-> at_ (futs s 0) = Waiting).
Proof. exact woken_fulfilled. Qed.
Print Assumptions C09_not_resumed_before_fulfilment.

(** the race: suspend before / after / in between *)
Example C09_case_suspend_then_set :
  trace (step 1 false) observe init [EAwait 0; ESuspend 0; ESet (Value 7) 0; EResume 0]
  = [Fulfilled (Value 7); Got 0 (Returns 7)].
Proof. reflexivity. Qed.
Example C09_case_set_in_between :
  trace (step 1 false) observe init [EAwait 0; ESet (Exception 3) 0; ESuspend 0; EResume 0; EGetNonblk 0]
  = [Fulfilled (Exception 3); Got 0 (Rethrows 3); Got 0 AlreadyGot].
Proof. reflexivity. Qed.
Example C09_hyps_met :
  exists s, run (step 1 false) init [EAwait 0; ESet (Value 7) 0] = Some s /\ awaiting s 0 /\ fulfilled s = Some (Value 7).
Proof. eexists. split; [reflexivity|]. split; [left; reflexivity|reflexivity]. Qed.

(** With two futures of the same promise (promise::get_future() may be called twice) the second one never gets
    the result, and awaiting both aborts the program. *)
Theorem C93_two_futures_refuted :
  (exists l, trace (step 2 false) observe init l = [Fulfilled (Value 7); Got 0 (Returns 7); Got 1 NotReady]) /\
  (exists l s, run (step 2 false) init l = Some s /\ asserted s = true).
Proof.
  split.
  - exists [ESet (Value 7) 0; EGetNonblk 0; EGetNonblk 1]. reflexivity.
  - exists [EAwait 0; ESuspend 0; EAwait 1; ESuspend 1]. eexists. split; reflexivity.
Qed.
Print Assumptions C93_two_futures_refuted.

(** C10: get_nonblk() answers exactly by the history; ready() too; ready() does not change get_nonblk()'s answer. *)
Theorem C10_get_nonblk_exact : forall sp l s,
  run (step 1 sp) init l = Some s ->
  snd (get_nonblk s 0) = answer (trace (step 1 sp) observe init l).
Proof. exact nonblk_exact. Qed.
Print Assumptions C10_get_nonblk_exact.

Theorem C10_ready_exact : forall sp l s s',
  run (step 1 sp) init l = Some s -> step 1 sp s (EReady 0) = Some s' ->
  observe s (EReady 0) s' =
    [SaysReady 0 (match stored (trace (step 1 sp) observe init l) with Some _ => true | None => false end)].
Proof. exact ready_exact. Qed.
Print Assumptions C10_ready_exact.

Example C10_ready_case :
  trace (step 1 false) observe init [EReady 0; EGetNonblk 0; ESet (Value 7) 0; EReady 0; EGetNonblk 0; EGetNonblk 0]
  = [SaysReady 0 false; Got 0 NotReady; Fulfilled (Value 7); SaysReady 0 true; Got 0 (Returns 7); Got 0 AlreadyGot].
Proof. reflexivity. Qed.

(** But get() after a successful ready() blocks for good: no continuation ever ends it (future.h 136-155: ready()
    moved the frame out of the shared state that wait_util_has_value() looks at). *)
Theorem C69_ready_then_get_blocks_refuted : forall r, exists s,
  run (step 1 false) init [ESet r 0; EReady 0; EGet 0] = Some s /\
  trace (step 1 false) observe init [ESet r 0; EReady 0; EGet 0] = [Fulfilled r; SaysReady 0 true] /\
  forall l s', run (step 1 false) s l = Some s' ->
    at_ (futs s' 0) = Blocked /\ trace (step 1 false) observe s l = [].
Proof.
  intros r. eexists. split; [reflexivity|]. split; [reflexivity|].
  intros l s' Hr. eapply blocked_forever; [..|exact Hr]; cbn; try reflexivity; try discriminate.
  intros [|i] H; [congruence|reflexivity].
Qed.
Print Assumptions C69_ready_then_get_blocks_refuted.

(** And a spurious wake-up of the condition variable makes get() throw although nothing was stored
    (future.h 66-71: wait without a loop). *)
Theorem C69_spurious_wakeup_refuted :
  trace (step 1 true) observe init [EGet 0; ESpurious 0; EGetRest 0] = [Got 0 NotReady].
Proof. reflexivity. Qed.
Print Assumptions C69_spurious_wakeup_refuted.

(** Partial: without spurious wake-ups and without polling (ready/get_nonblk/co_await) after fulfilment, a
    get() that has started returns exactly the stored result once it is stored. *)
Theorem C69_blocking_get_partial : forall l s r,
  run_all (step 1 false) no_poll_after init l -> run (step 1 false) init l = Some s ->
  at_ (futs s 0) = Blocked \/ at_ (futs s 0) = Notified -> fulfilled s = Some r ->
  exists s', run (step 1 false) s [EGetRest 0] = Some s' /\
             trace (step 1 false) observe s [EGetRest 0] = [Got 0 (as_outcome r)].
Proof. exact blocking_get. Qed.
Print Assumptions C69_blocking_get_partial.

Example C10_blocking_get_case : exists s,
  run_all (step 1 false) no_poll_after init [EReady 0; EGet 0; ESet (Value 7) 0] /\
  run (step 1 false) init [EReady 0; EGet 0; ESet (Value 7) 0] = Some s /\
  (at_ (futs s 0) = Blocked \/ at_ (futs s 0) = Notified) /\ fulfilled s = Some (Value 7).
Proof.
  eexists. split; [|split; [reflexivity|split; [right; reflexivity|reflexivity]]].
  cbn. repeat (split; [try exact I; cbv; intuition discriminate | let E := fresh in intros ? E; vm_compute in E; inversion E; subst; clear E]); exact I.
Qed.

(** C09: set_value()/set_exception() never waits for anybody: whoever is blocked, waiting or polling, it stores the result, and a consumer blocked in get() is notified if there is one. *)
Theorem C09_set_never_waits : forall n sp s r, asserted s = false -> fulfilled s = None ->
  exists w s', step n sp s (ESet r w) = Some s' /\ fulfilled s' = Some r /\
    ((exists i, i < n /\ at_ (futs s i) = Blocked) -> w < n /\ at_ (futs s w) = Blocked /\ (ss_waiting s <> Some w -> at_ (futs s' w) = Notified)).
Proof.
  intros n sp s r Ha Hf. assert (D : (exists i, i < n /\ at_ (futs s i) = Blocked) \/ (none_blocked n s = true /\ forall i, i < n -> at_ (futs s i) <> Blocked)).
  { induction n as [|n IH]; [right; split; [reflexivity|intros i H; inversion H]|]. cbn [none_blocked]. destruct IH as [(i & Hi & Hb)|[Hn Hb]]; [left; exists i; auto|].
    assert (X : at_ (futs s n) = Blocked \/ at_ (futs s n) <> Blocked) by (destruct (at_ (futs s n)); auto; right; discriminate). destruct X as [X|X]; [left; exists n; auto|].
    right. split; [destruct (at_ (futs s n)); first [exact Hn|exfalso; apply X; reflexivity]|]. intros i Hi F. destruct (Nat.eq_dec i n) as [->|Ne]; [exact (X F)|exact (Hb i ltac:(lia) F)]. }
  assert (F : forall w, fulfilled (set_value s r w) = Some r).
  { intros w. unfold set_value. cbv zeta. destruct (ss_waiting s) as [i|]; match goal with |- context [match ?x with _ => _ end] => destruct x end; reflexivity. }
  unfold step. rewrite Ha, Hf. destruct D as [(w & Hw & Hb)|[Hn Hb]].
  - exists w, (set_value s r w). rewrite Hb, orb_true_r. split; [reflexivity|]. split; [apply F|]. intros _. split; [exact Hw|]. split; [reflexivity|]. intros Ns. unfold set_value. cbv zeta.
    assert (E : at_ (futs (match ss_waiting s with Some i => wake (St (Some r) None (futs s) (Some r) (asserted s)) i | None => St (Some r) None (futs s) (Some r) (asserted s) end) w) = Blocked).
    { destruct (ss_waiting s) as [i|]; [|exact Hb]. unfold wake, goto, set_fut. cbn. rewrite upd_other by congruence. exact Hb. }
    rewrite E. unfold goto, set_fut. cbn. rewrite upd_same. reflexivity.
  - exists 0, (set_value s r 0). rewrite Hn. split; [reflexivity|]. split; [apply F|]. intros (i & Hi & Hx). destruct (Hb i Hi Hx).
Qed.
Print Assumptions C09_set_never_waits.
