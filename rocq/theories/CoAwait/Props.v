(** C96, C97, C98 *)
From Coq Require Import List Arith Bool Lia.
From Verif.Common Require Import TS.
From Verif.CoAwait Require Import Model.
Import ListNotations.

Section P.
  Variable eager : bool.
  Variable worker : nat -> bool.
  Variable out : result.
  Notation step := (step eager worker out).

  Definition stored (s : state) : bool := match ss_ff s with Some _ => true | None => false end.
  (** the promise has been fulfilled *)
  Definition result_set (s : state) : bool := match callee s with EReturned _ | EEnded _ | EGone => true | _ => false end.

  Record Inv (s : state) : Prop := {
    i_ff : forall r, ss_ff s = Some r -> r = out;
    i_done : forall r, caller s = CDone r -> r = out /\ ss_ff s = None /\ result_set s = true;
    i_set : result_set s = true -> (forall r, caller s <> CDone r) -> ss_ff s = Some out;
    i_unset : result_set s = false -> ss_ff s = None;
    i_wait : waiting s = true <-> caller s = CWaiting;
    i_wait2 : caller s = CWaiting -> result_set s = false;
    i_woken : caller s = CWoken -> result_set s = true;
    i_start : caller s = CStart <-> callee s = ENone;
    i_new : callee s = ENew -> caller s = CCalled /\ eager = false;
    i_nest : nested s = true -> eager = true /\ caller s = CCalled /\
             (exists t, t = cthread s /\ (callee s = ERun t \/ callee s = EReturned t \/ callee s = EThrown t \/ callee s = EEnded t));
    i_run : forall t, callee s = ERun t \/ callee s = EReturned t \/ callee s = EThrown t \/ callee s = EEnded t ->
            nested s = true \/ worker t = true;
    i_val : forall t, callee s = EReturned t -> exists v, out = Value v;
    i_exn : forall t, callee s = EThrown t -> exists x, out = Exn x
  }.

  Lemma Inv_init t0 : Inv (init t0).
  Proof. split; cbn; try discriminate; try tauto; intros; try discriminate; intuition discriminate. Qed.

  Ltac fin := repeat match goal with
    | H : _ /\ _ |- _ => destruct H
    | H : _ \/ _ |- _ => destruct H
    | H : exists _, _ |- _ => destruct H
    | H : Some _ = Some _ |- _ => inversion H; clear H; subst
    | H : CDone _ = CDone _ |- _ => inversion H; clear H; subst
    | H : ERun _ = ERun _ |- _ => inversion H; clear H; subst
    | H : EReturned _ = EReturned _ |- _ => inversion H; clear H; subst
    | H : EThrown _ = EThrown _ |- _ => inversion H; clear H; subst
    | H : EEnded _ = EEnded _ |- _ => inversion H; clear H; subst
    | H : ?a = ?a -> _ |- _ => specialize (H eq_refl)
    end; subst; try discriminate; try congruence; eauto.

  Lemma Inv_step s e s' : Inv s -> step s e = Some s' -> Inv s'.
  Proof.
    intros I E. destruct s as [c ct ee n ff w]. destruct I as [H1 H2 H3 H4 H5 H6 H7 H8 H9 H10 H11 H12 H13]; cbn in *.
    destruct e; cbn in E;
      repeat match type of E with
        | context [match ?x with _ => _ end] => destruct x eqn:?; cbn in E; try discriminate
        end;
      inversion E; subst; clear E; unfold set_value, set_caller, set_callee, result_set in *; cbn in *;
      try (destruct w eqn:?; cbn in * );
      split; cbn; unfold result_set in *; cbn in *; intros; subst; cbn in *;
      try solve [fin | intuition (first [congruence | discriminate | eauto 4]) | split; intros; fin].
    all: try solve [destruct H5 as [H5 H5']; fin].
    all: try solve [fin; intuition (first [congruence | discriminate | eauto 6])].
    all: try match goal with H : CDone _ = CDone _ |- _ => inversion H; clear H; subst end.
    all: try (destruct (H2 _ eq_refl) as (? & ? & ?); discriminate).
    all: try destruct ee; cbn in *; try discriminate;
      try (assert (X3 := H3 eq_refl ltac:(intros ? ?; discriminate))); try (assert (X8 := proj1 H8 eq_refl));
      try solve [fin]; try solve [intuition (first [congruence | discriminate | eauto 4])].
    all: match goal with H : forall r, CDone _ <> CDone r |- _ => destruct (H _ eq_refl) end.
  Qed.

  Lemma Inv_run t0 l s : run step (init t0) l = Some s -> Inv s.
  Proof. intros R. refine (run_inv step Inv _ _ _ _ (Inv_init t0) R). intros; eapply Inv_step; eauto. Qed.

  (** * C96 *)

  (** What the co_await expression delivers is exactly what the callee's body ended with, and never before it ended. *)
  Theorem C96_result_exact : forall t0 l s r,
    run step (init t0) l = Some s -> caller s = CDone r -> r = out /\ body_ended s = true.
  Proof.
    intros t0 l s r R C. apply Inv_run in R. destruct (i_done _ R _ C) as (-> & _ & H). split; [reflexivity|].
    unfold result_set, body_ended in *. destruct (callee s); congruence.
  Qed.

  (** It completes once: nothing that happens later makes it complete again. *)
  Theorem C96_completes_once : forall s l s' r,
    caller s = CDone r -> waiting s = false -> run step s l = Some s' -> caller s' = CDone r.
  Proof.
    intros s l. revert s. induction l as [|e l IH]; intros s s' r C W R; cbn in R; [now inversion R; subst|].
    destruct (step s e) as [s1|] eqn:E; [|discriminate]. apply (IH s1 s' r); [| |exact R].
    - destruct s as [c ct ee n ff w]; cbn in *; subst. destruct e; cbn in E; try discriminate;
        destruct ee; try discriminate; unfold set_value in E; cbn in E;
        repeat match type of E with context [match ?x with _ => _ end] => destruct x; try discriminate end;
        inversion E; reflexivity.
    - destruct s as [c ct ee n ff w]; cbn in *; subst. destruct e; cbn in E; try discriminate;
        destruct ee; try discriminate; unfold set_value in E; cbn in E;
        repeat match type of E with context [match ?x with _ => _ end] => destruct x; try discriminate end;
        inversion E; reflexivity.
  Qed.

  (** No lost wake-up: once the body has ended, the caller's co_await completes with the result after at most four further steps
      of the scheduler and the two coroutines, all enabled, whatever the moment. *)
  Theorem C96_no_lost_wakeup : forall t0 l s w,
    run step (init t0) l = Some s -> worker w = true -> body_ended s = true ->
    exists l' s', length l' <= 4 /\ run step s l' = Some s' /\ caller s' = CDone out.
  Proof.
    intros t0 l s w R W B. apply Inv_run in R.
    assert (ST : forall l', (exists s1, run step s l' = Some s1 /\ caller s1 = CDone out) -> length l' <= 4 ->
       exists l' s', length l' <= 4 /\ run step s l' = Some s' /\ caller s' = CDone out).
    { intros l' (s1 & A & C) L. exists l', s1. auto. }
    destruct (caller s) eqn:C.
    7: { destruct (i_done _ R _ C) as (-> & _ & _). exists [], s. split; [cbn; lia|auto]. }
    1: { assert (X := proj1 (i_start _ R) C). unfold body_ended in B. rewrite X in B. discriminate. }
    all: destruct s as [c ct ee n ff wt]; cbn in *; subst; unfold body_ended in B; cbn in B.
    all: destruct ee; try discriminate.
    all: destruct n; [destruct (i_nest _ R eq_refl) as (Q1 & Q2 & _); cbn in Q2; try discriminate Q2|].
    all: destruct wt; [pose proof (proj1 (i_wait _ R) eq_refl) as Q3; cbn in Q3; try discriminate Q3|].
    all: try (pose proof (i_set _ R eq_refl ltac:(cbn; intros ? ?; discriminate)) as Q4; cbn in Q4; subst ff).
    all: try (pose proof (i_unset _ R eq_refl) as Q4; cbn in Q4; subst ff).
    all: try (pose proof (i_wait2 _ R eq_refl) as Q5; cbn in Q5; discriminate Q5).
    all: try (pose proof (i_woken _ R eq_refl) as Q5; cbn in Q5; discriminate Q5).
    all: try (pose proof (proj2 (i_wait _ R) eq_refl) as Q5; cbn in Q5; discriminate Q5).
    all: try (apply (ST [ELocals; EFinal; EAwait; EAwaitReady]); [eexists; split; [cbn; reflexivity|reflexivity]|cbn; lia]).
    all: try (apply (ST [EUnhandled; EFinal; EAwait; EAwaitReady]); [eexists; split; [cbn; reflexivity|reflexivity]|cbn; lia]).
    all: try (apply (ST [EFinal; EAwait; EAwaitReady]); [eexists; split; [cbn; reflexivity|reflexivity]|cbn; lia]).
    all: try (apply (ST [EAwait; EAwaitReady]); [eexists; split; [cbn; reflexivity|reflexivity]|cbn; lia]).
    all: try (apply (ST [EAwaitReady]); [eexists; split; [cbn; reflexivity|reflexivity]|cbn; lia]).
    all: try (apply (ST [EUnhandled; EAwait; EAwaitReady]); [eexists; split; [cbn; reflexivity|reflexivity]|cbn; lia]).
    all: try (apply (ST [EUnhandled; EAwaitReady]); [eexists; split; [cbn; reflexivity|reflexivity]|cbn; lia]).
    all: try (apply (ST [EAwaitSuspend; EResume w]); [eexists; split; [cbn; rewrite W; reflexivity|reflexivity]|cbn; lia]).
    all: try (apply (ST [EUnhandled; EAwaitSuspend; EResume w]); [eexists; split; [cbn; rewrite W; reflexivity|reflexivity]|cbn; lia]).
    all: try (apply (ST [EUnhandled; EResume w]); [eexists; split; [cbn; rewrite W; reflexivity|reflexivity]|cbn; lia]).
    all: try (apply (ST [EResume w]); [eexists; split; [cbn; rewrite W; reflexivity|reflexivity]|cbn; lia]).
    destruct (i_nest _ R eq_refl) as (_ & _ & t & _ & [D|[D|[D|D]]]); cbn in D; discriminate D.
  Qed.

  (** And it cannot get stuck before: while the co_await is not complete, some step is enabled. *)
  Theorem C96_never_stuck : forall t0 l s w,
    run step (init t0) l = Some s -> worker w = true -> (forall r, caller s <> CDone r) ->
    exists e s', step s e = Some s'.
  Proof.
    intros t0 l s w R W N. destruct (body_ended s) eqn:B.
    - destruct (C96_no_lost_wakeup t0 l s w R W B) as (l' & s' & _ & R' & C). destruct l' as [|e l']; cbn in R'.
      + inversion R'; subst. destruct (N _ C).
      + destruct (step s e) as [s1|] eqn:E; [eauto|discriminate].
    - pose proof (Inv_run _ _ _ R) as I. destruct s as [c ct ee n ff wt]. unfold body_ended in B. cbn in *.
      destruct ee; try discriminate.
      + pose proof (proj2 (i_start _ I) eq_refl) as Q; cbn in Q; subst. exists ECall. cbn. destruct eager; eauto.
      + destruct (i_new _ I eq_refl) as (Q & Q'); cbn in Q; subst c. exists EAwait.
        destruct n; [destruct (i_nest _ I eq_refl) as (X & _); congruence|]. cbn. eauto.
      + exists (EPick w). cbn. rewrite W. eauto.
      + exists EBodySuspend. cbn. eauto.
      + exists EBodyWake. cbn. eauto.
  Qed.

  (** And however the threads are scheduled: an execution in which the callee suspends [k] times has at most 11 + 3k steps, and when nothing can happen any more the co_await has completed with the result and the callee is gone. *)
  Definition caller_left (c : cpc) : nat := match c with CStart => 6 | CCalled => 5 | CReady => 4 | CSuspending => 3 | CWaiting => 2 | CWoken => 1 | CDone _ => 0 end.
  Definition callee_left (e : epc) : nat := match e with ENone | ENew | ESusp => 5 | EQueued => 4 | ERun _ => 3 | EReturned _ | EThrown _ => 2 | EEnded _ => 1 | EGone => 0 end.
  Fixpoint suspensions (l : list event) : nat := match l with EBodySuspend :: l => S (suspensions l) | _ :: l => suspensions l | [] => 0 end.
  Lemma left_step s e s' : Inv s -> step s e = Some s' -> 1 + caller_left (caller s') + callee_left (callee s') <= caller_left (caller s) + callee_left (callee s) + match e with EBodySuspend => 3 | _ => 0 end.
  Proof.
    intros I E. destruct s as [c ct ee n ff w]. pose proof (i_start _ I) as H8. pose proof (i_new _ I) as H9. pose proof (i_wait _ I) as H5. cbn in *.
    destruct e; cbn in E; repeat match type of E with context [match ?x with _ => _ end] => destruct x eqn:?; cbn in E; try discriminate end;
      inversion E; subst; clear E; unfold set_value, set_caller, set_callee in *; cbn in *; try lia; try (destruct w; cbn; [destruct H5 as [H5 _]; rewrite (H5 eq_refl); cbn; lia|lia]).
    all: destruct H8 as [H8 _]; rewrite (H8 eq_refl); cbn; lia.
  Qed.
  Theorem C96_every_schedule : forall t0 l s w, run step (init t0) l = Some s -> worker w = true ->
    length l <= 11 + 3 * suspensions l /\ ((forall e, step s e = None) -> caller s = CDone out /\ callee s = EGone).
  Proof.
    intros t0 l s w R W. split.
    - assert (G : forall l s0 s, Inv s0 -> run step s0 l = Some s -> length l + caller_left (caller s) + callee_left (callee s) <= caller_left (caller s0) + callee_left (callee s0) + 3 * suspensions l).
      { clear l s R. induction l as [|e l IH]; cbn [run length suspensions]; intros s0 s I R; [injection R as <-; lia|]. destruct (step s0 e) as [s1|] eqn:E; [|discriminate]. pose proof (left_step s0 e s1 I E) as L. pose proof (IH s1 s (Inv_step _ _ _ I E) R) as L'. destruct e; lia. }
      pose proof (G l _ s (Inv_init t0) R) as X. cbn in X. lia.
    - intros St. assert (C : exists r, caller s = CDone r). { destruct (caller s) eqn:C; eauto; exfalso; (destruct (C96_never_stuck t0 l s w R W ltac:(rewrite C; discriminate)) as (e & s' & E); rewrite St in E; discriminate). }
      destruct C as [r C]. destruct (C96_result_exact t0 l s r R C) as [-> B]. split; [exact C|]. unfold body_ended in B. destruct (callee s) eqn:Ce; try discriminate; [specialize (St ELocals)|specialize (St EUnhandled)|specialize (St EFinal)|reflexivity]; cbn in St; rewrite Ce in St; discriminate.
  Qed.

  (** * C97: the callee's local variables when co_await completes *)

  (** Full statement: false if the body ends with co_return. For every value, there is a schedule in which the caller has its
      result and goes on while the callee's local variables still exist. *)
  Theorem C97_locals_alive_refuted : forall w v t0, worker w = true -> out = Value v ->
    exists l s, run step (init t0) l = Some s /\ caller s = CDone (Value v) /\ locals_alive s = true.
  Proof.
    intros w v t0 W O. destruct eager eqn:Eg.
    - exists [ECall; EBodySuspend; EAwait; EAwaitReady; EAwaitSuspend; EBodyWake; EPick w; EBodyEnd; EResume w]. eexists. cbn. rewrite Eg. cbn.
      rewrite W. cbn. rewrite O. cbn. rewrite ?W. cbn. repeat split; assumption || reflexivity.
    - exists [ECall; EAwait; EPick w; EBodyEnd; EAwaitReady]. eexists. cbn. rewrite Eg. cbn. rewrite W. cbn. rewrite O. cbn. repeat split.
  Qed.

  (** What holds: if the body ends with an exception, the locals are gone before the caller sees it ... *)
  Theorem C97_exception_partial : forall x t0 l s r, out = Exn x ->
    run step (init t0) l = Some s -> caller s = CDone r -> locals_alive s = false.
  Proof.
    intros x t0 l s r O R C. apply Inv_run in R. destruct (i_done _ R _ C) as (_ & _ & H).
    unfold result_set, locals_alive in *. destruct (callee s) eqn:E; try congruence.
    destruct (i_val _ R _ E). congruence.
  Qed.

  (** ... and if an eager callee never suspends, it is completely gone (frame included) before the caller goes on. *)
  Theorem C97_never_suspending_partial : forall t0 l s r,
    eager = true -> run step (init t0) l = Some s -> ~ In EBodySuspend l -> caller s = CDone r -> callee s = EGone.
  Proof.
    intros t0 l s r Eg R N C.
    enough (J : caller s = CStart /\ callee s = ENone \/ nested s = true \/ callee s = EGone).
    { destruct J as [(J & _)|[J|J]]; [congruence| |exact J]. apply Inv_run in R. destruct (i_nest _ R J) as (_ & Q & _). congruence. }
    clear C.
    refine (run_inv_cond step (fun _ e => e <> EBodySuspend)
             (fun s => caller s = CStart /\ callee s = ENone \/ nested s = true \/ callee s = EGone) _ l (init t0) s _ _ R).
    - clear - Eg. intros s e s' J Ne E. destruct s as [c ct ee n ff wt]; cbn in *.
      destruct e; cbn in E; try congruence; destruct c, ee; cbn in E; try discriminate;
        destruct J as [(J1 & J2)|[J|J]]; cbn in *; try discriminate; subst; try discriminate;
        repeat match type of E with context [match ?x with _ => _ end] => destruct x eqn:?; cbn in E; try discriminate end;
        inversion E; subst; unfold set_value; cbn; try (destruct wt); cbn; auto.
    - left. split; reflexivity.
    - clear R. revert N. generalize (init t0). induction l as [|e l IH]; intros s0 N; cbn; [exact I|].
      split; [intros ->; apply N; now left|]. intros s1 _. apply IH. intros H. apply N. now right.
  Qed.

  (** * C98: turn_into_scheduler(), src/this_task.cc 13-21

      The callee is eager; if the calling thread is not a worker it suspends once in yield() and is then resumed by a worker; the
      caller is expected to go on on a worker. *)

  (** False: if the worker finishes the callee before the calling thread has tested await_ready(), the caller continues
      on its own thread, which is not a worker. *)
  Theorem C98_turn_into_scheduler_refuted : forall w t0 v, eager = true -> out = Value v -> worker w = true -> worker t0 = false ->
    exists l s, l = [ECall; EBodySuspend; EBodyWake; EPick w; EBodyEnd; ELocals; EFinal; EAwait; EAwaitReady] /\
      run step (init t0) l = Some s /\ caller s = CDone out /\ worker (cthread s) = false.
  Proof.
    intros w t0 v Eg O W F. eexists. eexists. split; [reflexivity|]. cbn. rewrite Eg. cbn. rewrite W. cbn. rewrite O. cbn. repeat split. exact F.
  Qed.

  (** What holds: the caller ends up on a worker if it began on one, or if await_ready() found the callee unfinished. *)
  Theorem C98_turn_into_scheduler_partial : forall t0 l s r,
    run_all step (fun s e => e = EAwaitReady -> ss_ff s = None \/ worker (cthread s) = true) (init t0) l ->
    run step (init t0) l = Some s -> caller s = CDone r -> worker (cthread s) = true.
  Proof.
    intros t0 l s r A R.
    refine (run_inv_cond step _ (fun s => forall r, caller s = CDone r -> worker (cthread s) = true) _ l (init t0) s _ A R r).
    - clear. intros s e s' J P E r C. destruct s as [c ct ee n ff wt]; cbn in *.
      destruct e; cbn in E;
        repeat match type of E with context [match ?x with _ => _ end] => destruct x eqn:?; cbn in E; try discriminate end;
        inversion E; subst; clear E; unfold set_value in *; cbn in *; try (destruct wt; cbn in * ); try discriminate; eauto.
      all: destruct (P eq_refl) as [Q|Q]; [discriminate|exact Q].
    - cbn. intros ? ?; discriminate.
  Qed.
End P.
Print Assumptions C96_result_exact. Print Assumptions C96_completes_once. Print Assumptions C96_no_lost_wakeup. Print Assumptions C96_never_stuck. Print Assumptions C96_every_schedule.
Print Assumptions C97_locals_alive_refuted. Print Assumptions C97_exception_partial. Print Assumptions C97_never_suspending_partial.
Print Assumptions C98_turn_into_scheduler_refuted. Print Assumptions C98_turn_into_scheduler_partial.

(** Cases: a lazy callee that suspends, finishes while the caller is between await_ready and await_suspend. *)
Example C96_case : exists s,
  run (step false (fun t => Nat.ltb t 4) (Value 7)) (init 0)
    [ECall; EAwait; EPick 1; EBodySuspend; EAwaitReady; EBodyWake; EPick 2; EBodyEnd; ELocals; EAwaitSuspend; EFinal; EResume 3] = Some s /\
  caller s = CDone (Value 7) /\ cthread s = 3 /\ callee s = EGone.
Proof. eexists. cbn. repeat split. Qed.
Example C97_case : exists s,
  run (step true (fun t => Nat.ltb t 4) (Exn 5)) (init 0)
    [ECall; EBodySuspend; EAwait; EAwaitReady; EAwaitSuspend; EBodyWake; EPick 2; EBodyEnd; EUnhandled; EResume 3] = Some s /\
  caller s = CDone (Exn 5) /\ locals_alive s = false.
Proof. eexists. cbn. repeat split. Qed.
Example C98_case : exists l s,
  run_all (step true (fun t => Nat.ltb t 4) (Value 0)) (fun s e => e = EAwaitReady -> ss_ff s = None \/ Nat.ltb (cthread s) 4 = true) (init 9) l /\
  run (step true (fun t => Nat.ltb t 4) (Value 0)) (init 9) l = Some s /\ caller s = CDone (Value 0) /\ cthread s = 1.
Proof.
  exists [ECall; EBodySuspend; EAwait; EAwaitReady; EBodyWake; EPick 2; EBodyEnd; EAwaitSuspend; EResume 1]. eexists.
  split; [|cbn; repeat split]. apply (run_allb_ok _ (fun s e => match e, ss_ff s with EAwaitReady, Some _ => Nat.ltb (cthread s) 4 | _, _ => true end)).
  - intros s e H ->. destruct (ss_ff s); auto.
  - vm_compute. reflexivity.
Qed.
