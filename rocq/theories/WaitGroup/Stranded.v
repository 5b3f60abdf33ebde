(** C07 and C92: how false they are. *)
From Coq Require Import List Arith NArith Bool Lia.
From Verif.Common Require Import TS ListX.
From Verif.WaitGroup Require Import Model Spec Proofs Holds.
Import ListNotations.
Local Open Scope N_scope.

Definition no_done (l : list event) : Prop := forall i n, ~ In (EDone i n) l.
(** nobody is inside done(): a waiter stays where it is until somebody calls done() *)
Lemma stays : forall l s s' w, (forall j, at_ s j <> Draining) -> at_ s w = Waiting -> no_done l -> run step s l = Some s' -> at_ s' w = Waiting.
Proof.
  induction l as [|e l IH]; intros s s' w D W N R; cbn [run] in R; [now injection R as <-|]. destruct (step s e) as [s1|] eqn:E; [|discriminate].
  apply (IH s1 s' w); auto; [| |intros i n Hi; apply (N i n); now right].
  - destruct e as [i n|i n|i k|i|i|i|i]; cbn [step] in E; destruct (at_ s i) eqn:Ei; try discriminate; try (exfalso; now apply (D i)); try (exfalso; apply (N i n); now left);
      injection E as <-; intros j; cbn; try apply D; (destruct (Nat.eq_dec j i) as [->|Hj]; [rewrite upd_same|rewrite upd_other by exact Hj; apply D]); try discriminate; destruct (count s =? 0); discriminate.
  - destruct e as [i n|i n|i k|i|i|i|i]; cbn [step] in E; destruct (at_ s i) eqn:Ei; try discriminate; try (exfalso; now apply (D i)); try (exfalso; apply (N i n); now left);
      injection E as <-; cbn; auto; (destruct (Nat.eq_dec w i) as [->|Hw]; [congruence|now rewrite upd_other]).
Qed.
Lemma sub64_self n : n < size_max1 -> sub64 n n = 0.
Proof. intros H. unfold sub64. rewrite (N.mod_small n) by exact H. replace (n + (size_max1 - n)) with size_max1 by lia. apply N.mod_same. discriminate. Qed.

(** C07, refuted for every history and every done(n), n > 1, that hands back all that is registered while nobody else is inside done(): it brings the counter to zero and every waiter, however long it has been waiting,
    stays suspended whatever happens, until somebody calls done() again. *)
Theorem C07_every_done_of_many_strands_refuted : forall l s i n, run step init l = Some s -> count s = n -> 1 < n -> at_ s i = Idle -> (forall j, at_ s j <> Draining) ->
  exists s', step s (EDone i n) = Some s' /\ count s' = 0 /\ forall w, at_ s w = Waiting -> forall l' s'', no_done l' -> run step s' l' = Some s'' -> at_ s'' w = Waiting.
Proof.
  intros l s i n R Hc Hn Hi D. cbn [step]. rewrite Hi, Hc. destruct (N.eqb_spec n 1); [lia|]. eexists. split; [reflexivity|]. cbn. split; [apply sub64_self; rewrite <- Hc; exact (count_lt _ _ R)|].
  intros w Hw l' s'' N' R'. refine (stays l' _ s'' w _ _ N' R'); cbn; auto.
Qed.
Print Assumptions C07_every_done_of_many_strands_refuted.

(** C07, refuted for every history that reaches counter zero with nobody inside done() and with a waiter that had read the counter before and has not put itself into the queue yet: it suspends and stays suspended, until somebody
    calls done() again. *)
Theorem C07_every_late_waiter_strands_refuted : forall l s w, run step init l = Some s -> count s = 0 -> at_ s w = Enqueuing -> (forall j, at_ s j <> Draining) ->
  exists s', step s (EEnqueue w) = Some s' /\ count s' = 0 /\ forall l' s'', no_done l' -> run step s' l' = Some s'' -> at_ s'' w = Waiting.
Proof.
  intros l s w R Hc Hw D. cbn [step]. rewrite Hw. eexists. split; [reflexivity|]. cbn. split; [exact Hc|].
  intros l' s'' N' R'. refine (stays l' _ s'' w _ _ N' R'); cbn; [|apply upd_same]. intros j. destruct (Nat.eq_dec j w) as [->|Hj]; [rewrite upd_same; discriminate|rewrite upd_other by exact Hj; apply D].
Qed.
Print Assumptions C07_every_late_waiter_strands_refuted.

(** C92, refuted for every history that reaches counter 1 and every waiter in the queue: done(0) resumes it, with the counter still 1. *)
Theorem C92_done_zero_wakes_everybody_refuted : forall l s i w k rest, run step init l = Some s -> count s = 1 -> at_ s i = Idle -> take_nth k (waitings s) = Some (w, rest) ->
  exists s', run step s [EDone i 0; EDrain i k; EResume w] = Some s' /\ count s' = 1 /\ at_ s' w = Idle.
Proof.
  intros l s i w k rest R Hc Hi Hk. cbn [run step]. rewrite Hi, Hc. cbn. rewrite upd_same, Hk. cbn. rewrite upd_same. eexists. split; [reflexivity|]. cbn. split; [reflexivity|apply upd_same].
Qed.
Print Assumptions C92_done_zero_wakes_everybody_refuted.

Example C07_done_of_many_case : exists s, run step init [EAdd 0 3; EWait 1; EEnqueue 1; EWait 4; EEnqueue 4; EDone 2 1] = Some s /\ count s = 2 /\ at_ s 2%nat = Idle /\ at_ s 1%nat = Waiting /\ at_ s 4%nat = Waiting /\ forall j, at_ s j <> Draining.
Proof. eexists. split; [vm_compute; reflexivity|]. repeat split. intros j. do 6 (destruct j as [|j]; [discriminate|]). discriminate. Qed.
Example C07_late_waiter_case : exists s, run step init [EAdd 0 1; EWait 1; EDone 2 1; EDrainEnd 2] = Some s /\ count s = 0 /\ at_ s 1%nat = Enqueuing /\ forall j, at_ s j <> Draining.
Proof. eexists. split; [vm_compute; reflexivity|]. repeat split. intros j. do 6 (destruct j as [|j]; [discriminate|]). discriminate. Qed.
Example C92_everybody_case : exists s rest, run step init [EAdd 0 1; EWait 1; EEnqueue 1; EWait 2; EEnqueue 2] = Some s /\ count s = 1 /\ at_ s 0%nat = Idle /\ take_nth 1 (waitings s) = Some (2%nat, rest).
Proof. eexists. eexists. split; [vm_compute; reflexivity|]. repeat split. Qed.
