(** What holds of C47: the frame is touched too late only where an acquire_shared() has to wait. *)
From Coq Require Import List Arith ZArith Bool.
From Verif.Common Require Import TS.
From Verif.SharedMutex Require Import Model Spec Proofs Props.
Import ListNotations.

Theorem C47_only_where_a_reader_waits_partial : forall l s, run step init l = Some s -> use_after_free s = true ->
  ~ run_all step no_reader_waits init l.
Proof. intros l s Hr Hu Ha. destruct (C04_asserts_hold_partial l s Ha Hr) as [_ H]. congruence. Qed.
Print Assumptions C47_only_where_a_reader_waits_partial.
(** the schedule of the refutation has such a wait *)
Example C47_case : ~ run_all step no_reader_waits init uaf_schedule.
Proof. destruct uaf_ok as (s & Hr & Hu). eapply C47_only_where_a_reader_waits_partial; eauto. Qed.
