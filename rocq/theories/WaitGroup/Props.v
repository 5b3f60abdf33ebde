(** Properties C06, C07, C08, C45 (wait_group and wait_group_guard). *)
From Coq Require Import List Arith NArith Bool Lia.
From Verif.Common Require Import TS ListX.
From Verif.WaitGroup Require Import Model Spec Proofs.
From Verif.WaitGroup Require Guard GuardProofs.
Import ListNotations.
Local Open Scope N_scope.

(** C06. Under documented use, every log is accepted by the automaton of Spec.v: wait() passes
    iff the counter is zero, a suspended waiter is resumed only inside a done() call that brought
    the counter to zero, and at most once. *)
Theorem C06_wait_group_refines_spec :
  forall l, run_all step legal init l -> accepts spec_init (trace step observe init l).
Proof. exact refines_spec. Qed.
Print Assumptions C06_wait_group_refines_spec.

Definition usage : list event :=
  [EAdd 0 2; EWait 1; EEnqueue 1; EDone 2 1; EWait 3; EEnqueue 3; EDone 4 1; EDrain 4 1; EDrain 4 0;
   EDrainEnd 4; EResume 1; EWait 0; EResume 3].
Example C06_usage_legal : run_all step legal init usage.
Proof.
  cbn. repeat (split; [try exact I; cbv; intuition discriminate
    |let E := fresh in intros ? E; vm_compute in E; inversion E; subst; clear E]); exact I.
Qed.
Example C06_usage_log : trace step observe init usage =
  [OAdd 0 2; OSuspends 1; ODone 2 1; ODoneRet 2; OSuspends 3; ODone 4 1; OWakes 4 3; OWakes 4 1;
   ODoneRet 4; OResumed 1; OPasses 0; OResumed 3].
Proof. vm_compute. reflexivity. Qed.
(** The automaton rejects an early wake-up. *)
Example C06_spec_rejects :
  ~ accepts spec_init [OAdd 0 2; OSuspends 1; ODone 2 1; OWakes 2 1].
Proof.
  intros H. inversion H as [|? ? ? ? H1 H2]; subst; clear H. inversion H1; subst; clear H1.
  inversion H2 as [|? ? ? ? H1 H3]; subst; clear H2. inversion H1; subst; clear H1.
  inversion H3 as [|? ? ? ? H1 H2]; subst; clear H3. inversion H1; subst; clear H1.
  inversion H2 as [|? ? ? ? H1 H3]; subst; clear H2. inversion H1; subst; clear H1.
  match goal with Hz : upd _ _ _ _ = true |- _ => vm_compute in Hz; discriminate end.
Qed.

(** Outside documented use: done(0) (e.g. through a wait_group_guard with amount 0) resumes the
    waiters although the counter is still positive and nothing was ever completed. *)
Theorem C92_done_zero_wakes_refuted :
  exists l s, run step init l = Some s /\ count s = 1 /\
    In (OSuspends 1) (trace step observe init l) /\ In (OResumed 1) (trace step observe init l) /\
    (forall i n, In (ODone i n) (trace step observe init l) -> n = 0).
Proof. exact done0_wakes. Qed.
Print Assumptions C92_done_zero_wakes_refuted.

(** C07 is false in two ways. (1) done(n) with n > 1 that brings the counter to zero wakes nobody,
    even if the waiter was registered long before. *)
Theorem C07_done_many_strands_refuted :
  exists l s,
    run_all step (fun s e => legal s e /\ match e with EEnqueue _ => count s <> 0 | _ => True end) init l /\
    run step init l = Some s /\ count s = 0 /\ quiescent s /\ at_ s 1%nat = Waiting.
Proof. exact stranded_by_jump. Qed.
Print Assumptions C07_done_many_strands_refuted.

(** (2) a waiter that saw a positive counter but enqueues after the last done() drained the queue. *)
Theorem C07_wait_race_strands_refuted :
  exists l s, run_all step legal init l /\ run step init l = Some s /\
    (forall i n, In (EDone i n) l -> n = 1) /\
    count s = 0 /\ quiescent s /\ at_ s 1%nat = Waiting.
Proof. exact stranded_by_race. Qed.
Print Assumptions C07_wait_race_strands_refuted.

(** What holds: if no done() jumps over 1 to zero and every waiter enqueues while the counter is
    positive or a done() is still draining, nobody is left suspended at counter zero. *)
Theorem C07_waiters_released_partial :
  forall l s, run_all step in_time init l -> run step init l = Some s ->
    count s = 0 -> quiescent s -> forall i, at_ s i = Idle.
Proof. exact no_stranded_in_time. Qed.
Print Assumptions C07_waiters_released_partial.
Example C07_partial_nonvacuous :
  run_all step in_time init usage /\
  exists s, run step init usage = Some s /\ count s = 0 /\ quiescent s.
Proof.
  split.
  - unfold in_time. cbn. repeat (split; [split; try exact I; cbv; (intuition discriminate) || (left; discriminate)
      |let E := fresh in intros ? E; vm_compute in E; inversion E; subst; clear E]); exact I.
  - eexists. split; [vm_compute; reflexivity|]. split; [reflexivity|].
    intros i; cbn. do 5 (destruct i as [|i]; [cbn; auto|]). cbn; auto.
Qed.

(** C45, full statement: between the wait() call and the resumption the counter was zero at some
    moment. False when the group is reused while a done() still drains: *)
Theorem C45_resumed_without_zero_refuted :
  exists pre l s, run_all step legal init (pre ++ EWait 1 :: l) /\
    run step init (pre ++ EWait 1 :: l) = Some s /\
    In (EResume 1) l /\
    (forall l1 l2 s1, l = l1 ++ l2 -> run step init (pre ++ EWait 1 :: l1) = Some s1 -> count s1 <> 0).
Proof. exact woken_without_zero. Qed.
Print Assumptions C45_resumed_without_zero_refuted.

(** What holds: if nobody calls add(n > 0) while a done() is draining, every waiter is woken at a
    moment when the counter is zero. *)
Theorem C45_woken_at_zero_partial :
  forall l s i k s', run_all step no_reuse_while_draining init l -> run step init l = Some s ->
    step s (EDrain i k) = Some s' -> count s = 0.
Proof. exact woken_at_zero. Qed.
Print Assumptions C45_woken_at_zero_partial.
Example C45_partial_nonvacuous :
  run_all step no_reuse_while_draining init (firstn 7 usage) /\
  exists s s', run step init (firstn 7 usage) = Some s /\ step s (EDrain 4 1) = Some s'.
Proof.
  split.
  - unfold no_reuse_while_draining. cbn. repeat (split; [split; try exact I; cbv; (intuition discriminate) || (right; discriminate)
      |let E := fresh in intros ? E; vm_compute in E; inversion E; subst; clear E]); exact I.
  - eexists. eexists. split; vm_compute; reflexivity.
Qed.

Local Close Scope N_scope.
Import Guard GuardProofs.

(** C08. Guards that are constructed, move-constructed, move-assigned into empty guards and
    destroyed are balanced: each registration is undone exactly once. *)
Theorem C08_guard_balanced :
  forall g l s, run_all step no_overwrite init l -> run step init l = Some s -> all_gone s ->
    added g (log s) = undone g (log s).
Proof. exact guard_balanced. Qed.
Print Assumptions C08_guard_balanced.

(** No program whatsoever undoes more than was registered, at any moment: of no prefix of the calls the group receives. *)
Lemma log_grows s o s' : step s o = Some s' -> exists x, log s' = log s ++ x /\ (length x <= 1)%nat.
Proof.
  assert (C : forall s h, log (clear s h) = log s) by (intros s0 h; unfold clear; destruct (get s0 h); reflexivity).
  destruct o; cbn [step]; intros H.
  - injection H as <-. exists []. cbn. rewrite app_nil_r. auto.
  - injection H as <-. exists [Add g n]. cbn. auto.
  - destruct (get s src); [|discriminate]. injection H as <-. exists []. cbn. rewrite C, app_nil_r. auto.
  - destruct (get s dst); [|discriminate]. destruct (get s src); [|discriminate]. injection H as <-. exists []. rewrite app_nil_r. split; [|cbn; auto]. unfold move_assign. cbv zeta.
    set (s2 := clear (clear s dst) src). assert (E2 : log s2 = log s) by (unfold s2; now rewrite !C).
    destruct (get s2 dst); [|destruct (get s2 dst); exact E2]. destruct (get (put s2 dst _) dst); exact E2.
  - destruct (get s h); [|discriminate]. injection H as <-. exists []. rewrite C, app_nil_r. auto.
  - destruct (get s h) as [x|]; [|discriminate]. destruct (m_parent x) as [g|]; injection H as <-; [exists [Done g (m_count x)]; cbn; auto|exists []; cbn; rewrite app_nil_r; auto].
Qed.
Lemma log_prefix : forall l s k, run step init l = Some s -> exists l' s', run step init l' = Some s' /\ log s' = firstn k (log s).
Proof.
  induction l as [|o l IH] using rev_ind; intros s k Hr; [injection Hr as <-; exists [], init; rewrite firstn_nil; auto|].
  destruct (run_app_inv _ _ _ _ _ Hr) as (s1 & R1 & R2). cbn [run] in R2. destruct (step s1 o) as [s2|] eqn:E; [|discriminate]. injection R2 as <-.
  destruct (log_grows _ _ _ E) as (x & Ex & Lx). destruct (Nat.le_gt_cases k (length (log s1))) as [L|L].
  - rewrite Ex, firstn_app. replace (k - length (log s1))%nat with 0%nat by lia. cbn. rewrite app_nil_r. now apply IH.
  - exists (l ++ [o]), s2. split; [exact Hr|]. rewrite firstn_all2; [reflexivity|]. rewrite Ex, app_length. lia.
Qed.
Theorem C08_guard_never_over_undone :
  forall g l s k, run step init l = Some s -> undone g (firstn k (log s)) <= added g (firstn k (log s)).
Proof. intros g l s k Hr. destruct (log_prefix l s k Hr) as (l' & s' & R' & <-). exact (never_over_undone g l' s' R'). Qed.
Print Assumptions C08_guard_never_over_undone.

(** The missing part is false: move assignment over a live guard forgets its registration. *)
Theorem C80_guard_move_assign_leaks_refuted :
  exists l s, run step init l = Some s /\ all_gone s /\ added 0 (log s) = 2 /\ undone 0 (log s) = 1.
Proof. exact move_assign_leaks. Qed.
Print Assumptions C80_guard_move_assign_leaks_refuted.

Theorem C80_guard_self_assign_leaks_refuted :
  exists l s, run step init l = Some s /\ all_gone s /\ added 0 (log s) = 1 /\ undone 0 (log s) = 0.
Proof. exact self_assign_leaks. Qed.
Print Assumptions C80_guard_self_assign_leaks_refuted.

Definition guard_prog : list op :=
  [ONew 3 2; ODefault; OMoveCtor 0; OMoveAssign 1 2; ODestroy 0; ODestroy 2; ODestroy 1].
Example C08_nonvacuous :
  run_all step no_overwrite init guard_prog /\
  exists s, run step init guard_prog = Some s /\ all_gone s /\ log s = [Add 3 2; Done 3 2].
Proof.
  split.
  - cbn. repeat (split; [try exact I; try (intros ? HH; vm_compute in HH; inversion HH; reflexivity)
      |let E := fresh in intros ? E; vm_compute in E; inversion E; subst; clear E]); exact I.
  - eexists. split; [vm_compute; reflexivity|]. split; [|reflexivity].
    intros h. do 3 (destruct h as [|h]; [reflexivity|]). destruct h; reflexivity.
Qed.
