(** C74 and C84: how false they are. Every addition after a worker has ended; every addition after the last stop(). *)
From Coq Require Import List Arith Bool Lia.
From Verif.Common Require Import TS.
From Verif.EventLoop Require Import Model Spec Proofs Props Holds.
Import ListNotations.

Lemma memb_In i l : memb i l = true <-> In i l.
Proof. unfold memb. rewrite existsb_exists. split; [intros (x & H & E); apply Nat.eqb_eq in E; now subst|intros H; exists i; split; [exact H|apply Nat.eqb_refl]]. Qed.
(** invariant: every stopped loop is registered; every ended thread is still listed *)
Lemma late_inv : forall l s, run unext uinit l = Some s -> (forall x, In x (ustopped s) -> In x (loops s)) /\ (forall t, In t (exited s) -> In t (attrs s)).
Proof.
  intros l s Hr. revert Hr. apply (run_inv unext (fun s => (forall x, In x (ustopped s) -> In x (loops s)) /\ (forall t, In t (exited s) -> In t (attrs s)))); [|split; intros ? []].
  clear. intros s e s' [A B] E. unfold unext in E. destruct (uub s); [discriminate|]. destruct e as [t|lp| |t].
  - destruct (memb t (attrs s)); [discriminate|]. injection E as <-. cbn. auto.
  - destruct (memb lp (loops s)); [discriminate|]. injection E as <-. cbn. split; [|exact B]. intros x Hx. apply in_or_app. left. auto.
  - injection E as <-. cbn. split; [|exact B]. intros x Hx. apply in_app_iff in Hx as [Hx|Hx]; auto.
  - destruct (memb t (attrs s)) eqn:M; [|discriminate]. injection E as <-. cbn. split; [exact A|]. intros u [<-|Hu]; [now apply memb_In|auto].
Qed.

(** C84, refuted for every history and every loop added in it after which stop() is not called again, however often it was called before: the loop was accepted, is driven, and never receives stop(). *)
Theorem C84_added_after_the_last_stop_refuted : forall l1 lp l2 s, run unext uinit (l1 ++ UAdd lp :: l2) = Some s -> ~ In UStop l2 ->
  In lp (loops s) /\ ~ In lp (ustopped s).
Proof.
  intros l1 lp l2 s Hr N. apply run_app_inv in Hr as (s1 & R1 & R2). cbn [run] in R2. destruct (unext s1 (UAdd lp)) as [s2|] eqn:E; [|discriminate].
  destruct (late_inv _ _ R1) as [A _].
  assert (H2 : In lp (loops s2) /\ ~ In lp (ustopped s2)).
  { unfold unext in E. destruct (uub s1); [discriminate|]. destruct (memb lp (loops s1)) eqn:M; [discriminate|]. injection E as <-. cbn. split; [apply in_or_app; right; now left|].
    intros H. apply A, memb_In in H. congruence. }
  clear E R1 A. revert s2 H2 R2. induction l2 as [|e l IH]; intros s2 H2 R2; cbn [run] in R2; [now injection R2 as <-|]. destruct (unext s2 e) as [s3|] eqn:E; [|discriminate].
  apply (IH (fun X => N (or_intror X)) s3); [|exact R2]. unfold unext in E. destruct (uub s2); [discriminate|]. destruct H2 as [H2 H3], e as [t|lq| |t].
  - destruct (memb t (attrs s2)); [discriminate|]. injection E as <-. auto.
  - destruct (memb lq (loops s2)); [discriminate|]. injection E as <-. cbn. split; [apply in_or_app; now left|exact H3].
  - exfalso. apply N. now left.
  - destruct (memb t (attrs s2)); [|discriminate]. injection E as <-. auto.
Qed.
Print Assumptions C84_added_after_the_last_stop_refuted.
Example C84_late_case : exists s, run unext uinit ([UPrep 1; UAdd 4; UStop; UStop] ++ UAdd 5 :: [UPrep 2; UExit 1; UExit 2]) = Some s /\ (loops s, ustopped s) = ([4;5], [4;4]).
Proof. apply run_proj_ok with (f := fun s => (loops s, ustopped s)). vm_compute. reflexivity. Qed.

(** C74, refuted for every history in which a worker has ended, whatever was prepared, added or stopped before and since: the next add_loop() of a new loop uses the attribute object of the ended thread. *)
Theorem C74_add_after_any_worker_exit_refuted : forall l1 t l2 lp s, run unext uinit (l1 ++ UExit t :: l2) = Some s -> uub s = false -> ~ In lp (loops s) ->
  exists s', unext s (UAdd lp) = Some s' /\ uub s' = true.
Proof.
  intros l1 t l2 lp s Hr Hu Hl. pose proof (late_inv _ _ Hr) as [_ B]. apply run_app_inv in Hr as (s1 & R1 & R2). cbn [run] in R2. destruct (unext s1 (UExit t)) as [s2|] eqn:E; [|discriminate].
  assert (H2 : In t (exited s2)). { unfold unext in E. destruct (uub s1); [discriminate|]. destruct (memb t (attrs s1)); [|discriminate]. injection E as <-. now left. }
  assert (H : In t (exited s)).
  { clear E R1 B. revert s2 H2 R2. induction l2 as [|e l IH]; intros s2 H2 R2; cbn [run] in R2; [now injection R2 as <-|]. destruct (unext s2 e) as [s3|] eqn:E; [|discriminate].
    apply (IH s3); [|exact R2]. unfold unext in E. destruct (uub s2); [discriminate|]. destruct e as [u|lq| |u].
    - destruct (memb u (attrs s2)); [discriminate|]. injection E as <-. auto.
    - destruct (memb lq (loops s2)); [discriminate|]. injection E as <-. auto.
    - injection E as <-. auto.
    - destruct (memb u (attrs s2)); [|discriminate]. injection E as <-. now right. }
  unfold unext. rewrite Hu. destruct (memb lp (loops s)) eqn:M; [apply memb_In in M; contradiction|]. eexists. split; [reflexivity|]. cbn. apply existsb_exists. exists t. split; [now apply B|now apply memb_In].
Qed.
Print Assumptions C74_add_after_any_worker_exit_refuted.
Example C74_late_case : exists s, run unext uinit ([UPrep 1; UPrep 2; UAdd 4; UStop] ++ UExit 2 :: [UStop]) = Some s /\ (uub s, memb 5 (loops s)) = (false, false).
Proof. apply run_proj_ok with (f := fun s => (uub s, memb 5 (loops s))). vm_compute. reflexivity. Qed.
