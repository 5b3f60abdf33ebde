From Coq Require Import List Arith Bool Permutation Lia.
From Verif.Common Require Import TS.
From Verif.ThreadPool Require Import Model Spec Proofs.
Import ListNotations.

(** C15: every task is executed at most once and none is invented, under every schedule including quick_stop:
    accepted = executed + still queued, as multisets. *)
Theorem C15_executed_at_most_once : forall n ord l s,
  run (next n ord) init l = Some s ->
  Permutation (accepted (trace (next n ord) (observe n ord) init l))
              (executed (trace (next n ord) (observe n ord) init l) ++ queued n s).
Proof. exact conservation. Qed.
Print Assumptions C15_executed_at_most_once.

(** C15: graceful stop. If after stop only running tasks enqueue (and nobody calls quick_stop), then when the
    workers have all left, everything accepted - including what running tasks enqueued meanwhile - has been executed. *)
Theorem C15_graceful_stop_executes_everything : forall n ord, (forall i, i < n <-> In i ord) -> forall l s, 0 < n ->
  run_all (next n ord) (graceful n) init l -> run (next n ord) init l = Some s ->
  all_workers_exited n s ->
  Permutation (accepted (trace (next n ord) (observe n ord) init l))
              (executed (trace (next n ord) (observe n ord) init l)).
Proof. exact graceful_complete. Qed.
Print Assumptions C15_graceful_stop_executes_everything.

(** ... and the workers do leave: with stop requested and nothing queued, a worker that executes no task reaches
    its end by its own steps alone. *)
Theorem C15_workers_leave : forall n ord s w,
  w < n -> terminated s = false -> stop_req s = true -> enq_passed s w = false ->
  (forall i, queues s i = []) -> (forall x, wpcs s w <> WExec x) ->
  exists l s', run (next n ord) s l = Some s' /\ wpcs s' w = WExit /\ (forall e, In e l -> exists k, e = EWorker w k).
Proof. exact leaves. Qed.
Print Assumptions C15_workers_leave.

(** Non-vacuity: two workers; a task enqueues another one after stop was requested; worker 1 leaves early while
    worker 0 is still executing; everything is executed. *)
Definition demo : list event :=
  [EEnqCheck 5; EEnqPut 5 0 10; EWorker 0 0; EWorker 0 0 (* runs 10 *);
   EStop 5;
   EWorker 1 0; EWorker 1 0; EWorker 1 0; EWorker 1 0; EWorker 1 0 (* worker 1: scans both queues empty, leaves *);
   EEnqCheck 0; EEnqPut 0 1 11; EFinish 0;
   EWorker 0 0; EWorker 0 0; EWorker 0 0; EWorker 0 0 (* scan finds 11 *); EWorker 0 0; EWorker 0 0; EWorker 0 0 (* steals it *); EFinish 0;
   EWorker 0 0; EWorker 0 0; EWorker 0 0; EWorker 0 0; EWorker 0 0 (* leaves *); EStopDone 5].
Example C15_case : exists s,
  run (next 2 [0;1]) init demo = Some s /\
  trace (next 2 [0;1]) (observe 2 [0;1]) init demo = [Accepted 5 10; Begin 0 10; Accepted 0 11; Begin 0 11; StopReturned 5] /\
  run_all (next 2 [0;1]) (graceful 2) init demo /\ all_workers_exited 2 s.
Proof.
  destruct (run_check_ok (next 2 [0;1]) init demo (fun s => exited (wpcs s 0) && exited (wpcs s 1))) as (s & Hr & Hc); [vm_compute; reflexivity|].
  exists s. split; [exact Hr|]. split; [vm_compute; reflexivity|]. split.
  - apply (run_allb_ok (next 2 [0;1])
      (fun s e => match e with EEnqPut a _ _ => negb (stop_req s) || Nat.ltb a 2 | EQuick _ => false | _ => true end)); [|vm_compute; reflexivity].
    intros s0 e. destruct e; cbn [graceful]; auto; [|discriminate]. intros Hb Hs. rewrite Hs in Hb. cbn [negb orb] in Hb. now apply Nat.ltb_lt in Hb.
  - apply andb_true_iff in Hc. destruct Hc as [H0 H1]. unfold exited in H0, H1.
    intros [|[|w]] Hw; try lia; [destruct (wpcs s 0)|destruct (wpcs s 1)]; congruence.
Qed.

(** C16 is false: after a completed graceful stop() an enqueue is accepted, and no continuation executes the task. *)
Theorem C16_accepted_after_stop_refuted : exists l s,
  run (next 1 [0]) init l = Some s /\
  trace (next 1 [0]) (observe 1 [0]) init l = [StopReturned 5; Accepted 5 42] /\
  forall l', executed (trace (next 1 [0]) (observe 1 [0]) init (l ++ l')) = [].
Proof.
  exists [EStop 5; EWorker 0 0; EWorker 0 0; EWorker 0 0; EWorker 0 0; EStopDone 5; EEnqCheck 5; EEnqPut 5 0 42].
  match goal with |- exists s, run _ _ ?L = _ /\ _ =>
    destruct (run_check_ok (next 1 [0]) init L (fun s => exited (wpcs s 0))) as (s & Hr & Hc); [vm_compute; reflexivity|] end.
  exists s. split; [exact Hr|]. split; [vm_compute; reflexivity|]. intros l'.
  rewrite (accepted_after_exit_lost 1 [0] _ l' _ Hr); [vm_compute; reflexivity|].
  intros [|w] Hw; [|lia]. unfold exited in Hc. destruct (wpcs s 0); congruence.
Qed.
Print Assumptions C16_accepted_after_stop_refuted.

(** Also with quick_stop(): a call that passed the test before it puts the task afterwards. *)
Theorem C16_race_with_quick_stop_refuted : exists l s,
  run (next 1 [0]) init l = Some s /\
  trace (next 1 [0]) (observe 1 [0]) init l = [StopReturned 6; Accepted 5 42] /\
  forall l', executed (trace (next 1 [0]) (observe 1 [0]) init (l ++ l')) = [].
Proof.
  exists [EEnqCheck 5; EQuick 6; EStop 6; EWorker 0 0; EWorker 0 0; EStopDone 6; EEnqPut 5 0 42].
  match goal with |- exists s, run _ _ ?L = _ /\ _ =>
    destruct (run_check_ok (next 1 [0]) init L (fun s => exited (wpcs s 0))) as (s & Hr & Hc); [vm_compute; reflexivity|] end.
  exists s. split; [exact Hr|]. split; [vm_compute; reflexivity|]. intros l'.
  rewrite (accepted_after_exit_lost 1 [0] _ l' _ Hr); [vm_compute; reflexivity|].
  intros [|w] Hw; [|lia]. unfold exited in Hc. destruct (wpcs s 0); congruence.
Qed.
Print Assumptions C16_race_with_quick_stop_refuted.

(** Partial: an enqueue that begins after quick_stop() raised its flag is refused and leaves no trace; and in graceful
    histories (C15) everything accepted is executed. *)
Theorem C16_refused_after_quick_stop_partial : forall n ord s a s' o,
  stop_now s = true -> step n ord s (EEnqCheck a) = Some (s', o) -> s' = s /\ o = [Refused a].
Proof. exact refused. Qed.
Print Assumptions C16_refused_after_quick_stop_partial.

(** C44: any number of stop/quick_stop calls from any threads: the shutdown body runs at most once, and a call
    that returned did so after all workers had left. *)
Theorem C44_shutdown_once : forall n ord l s, run (next n ord) init l = Some s -> once s <= 1.
Proof. intros n ord l s Hr. exact (proj1 (ending_run n ord l s Hr)). Qed.
Print Assumptions C44_shutdown_once.

Theorem C44_stop_returns_after_workers_ended : forall n ord l s a,
  run (next n ord) init l = Some s -> spcs s a = SReturned -> all_workers_exited n s.
Proof. exact stop_returns_after_exit. Qed.
Print Assumptions C44_stop_returns_after_workers_ended.

Example C44_case : exists s,
  run (next 2 [0;1]) init (demo ++ [EStop 6; EStopDone 6]) = Some s /\ spcs s 5 = SReturned /\ spcs s 6 = SReturned /\ once s = 1.
Proof.
  destruct (run_check_ok (next 2 [0;1]) init (demo ++ [EStop 6; EStopDone 6])
    (fun s => match spcs s 5, spcs s 6 with SReturned, SReturned => Nat.eqb (once s) 1 | _, _ => false end))
    as (s & Hr & Hc); [vm_compute; reflexivity|].
  exists s. split; [exact Hr|]. destruct (spcs s 5), (spcs s 6); try discriminate.
  apply Nat.eqb_eq in Hc. now repeat split.
Qed.

(** Called from a task (on a worker thread), stop() joins its own thread: join() throws inside the noexcept
    function and the program is terminated. *)
Theorem C78_stop_from_task_refuted : exists l s,
  run (next 1 [0]) init l = Some s /\ terminated s = true /\ wpcs s 0 = WExec 10.
Proof.
  exists [EEnqCheck 5; EEnqPut 5 0 10; EWorker 0 0; EWorker 0 0; EStop 0].
  match goal with |- exists s, run _ _ ?L = _ /\ _ =>
    destruct (run_check_ok (next 1 [0]) init L (fun s => terminated s && match wpcs s 0 with WExec x => Nat.eqb x 10 | _ => false end))
      as (s & Hr & Hc); [vm_compute; reflexivity|] end.
  exists s. split; [exact Hr|]. apply andb_true_iff in Hc. destruct Hc as [H0 H1]. split; [exact H0|].
  destruct (wpcs s 0); try discriminate. apply Nat.eqb_eq in H1. now subst.
Qed.
Print Assumptions C78_stop_from_task_refuted.

Theorem C44_not_terminated : forall n ord l s,
  run_all (next n ord) (stop_by_others n) init l -> run (next n ord) init l = Some s -> terminated s = false.
Proof. exact not_terminated. Qed.
Print Assumptions C44_not_terminated.
