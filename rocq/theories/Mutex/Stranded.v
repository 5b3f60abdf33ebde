(** C02: how false it is. Every waiter that reaches the queue after everybody else has left the mutex. *)
From Coq Require Import List Arith Bool Lia.
From Verif.Common Require Import TS ListX.
From Verif.Mutex Require Import Model Spec Proofs.
Import ListNotations.

(** coroutine i is in the mutex only as somebody who wants it: not at all, before the enqueue, or suspended *)
Definition wants_only (s : state) (i : nat) : Prop := at_ s i = Idle \/ at_ s i = Enqueuing \/ at_ s i = Waiting.
Definition no_new (l : list event) : Prop := forall i, ~ In (EAcquire i) l /\ ~ In (ETry i) l.

(** C02, refuted for every history that leaves a coroutine between its failed attempt and its enqueue while nobody owns the mutex, is being handed it or is releasing it (so that it is free): it suspends on a free mutex, and stays
    suspended whatever those already waiting do, until somebody new asks for the mutex. *)
Theorem C02_every_late_waiter_strands_refuted : forall b l s w, run (step b) init l = Some s -> at_ s w = Enqueuing -> (forall j, wants_only s j) ->
  exists s', step b s (EEnqueue w) = Some s' /\ forall l' s'', no_new l' -> run (step b) s' l' = Some s'' -> at_ s'' w = Waiting /\ forall j, wants_only s'' j.
Proof.
  intros b l s w _ Hw Ho. cbn [step]. rewrite Hw. eexists. split; [reflexivity|].
  assert (G : forall l' s0 s'', (forall j, wants_only s0 j) -> at_ s0 w = Waiting -> no_new l' -> run (step b) s0 l' = Some s'' -> at_ s'' w = Waiting /\ forall j, wants_only s'' j).
  { induction l' as [|e l' IH]; intros s0 s'' A W N R; cbn [run] in R; [injection R as <-; auto|]. destruct (step b s0 e) as [s1|] eqn:E; [|discriminate].
    assert (H : (forall j, wants_only s1 j) /\ at_ s1 w = Waiting).
    { destruct e as [i|i|i|i|i|i k|i|i|i]; cbn [step] in E; try (exfalso; destruct (N i) as [N1 N2]; first [apply N1; left; reflexivity|apply N2; left; reflexivity]);
        destruct (at_ s0 i) eqn:Ei; try discriminate E; try (exfalso; destruct (A i) as [X|[X|X]]; congruence).
      injection E as <-. unfold wants_only. cbn. split.
      - intros j. destruct (Nat.eq_dec j i) as [->|]; [rewrite upd_same; auto|rewrite upd_other by assumption; apply A].
      - destruct (Nat.eq_dec w i) as [->|]; [apply upd_same|rewrite upd_other by assumption; exact W]. }
    destruct H as [A1 W1]. apply (IH s1); auto. intros i. split; intros X; [apply (proj1 (N i))|apply (proj2 (N i))]; now right. }
  intros l' s'' N R. refine (G l' _ s'' _ _ N R); unfold wants_only; cbn; [|apply upd_same].
  intros j. destruct (Nat.eq_dec j w) as [->|]; [rewrite upd_same; auto|rewrite upd_other by assumption; apply Ho].
Qed.
Print Assumptions C02_every_late_waiter_strands_refuted.
Example C02_late_waiter_case : exists s, run (step false) init [EAcquire 0; EAcquire 1; EAcquire 2; EEnqueue 2; EClear 0; ERelTAS 0; ERelDeq 0 0; EResume 2; EClear 2; ERelTAS 2; ERelNone 2; ERelClear 2] = Some s /\
  at_ s 1 = Enqueuing /\ flag s = false /\ forall j, wants_only s j.
Proof. eexists. split; [vm_compute; reflexivity|]. repeat split. intros j. unfold wants_only. do 4 (destruct j as [|j]; [cbn; auto|]). cbn. auto. Qed.
