From Coq Require Import List Arith Bool Lia.
From Verif.Common Require Import TS.
From Verif.Queues Require Import Model Spec Proofs.
Import ListNotations.

(** C41: what was dequeued so far is, in order, what was enqueued, minus what is still in the queue. *)
Theorem C41_fifo : forall l q1, run qnext [] l = Some q1 ->
  q_ins (trace qnext qobserve [] l) = q_outs (trace qnext qobserve [] l) ++ q1.
Proof. intros l q1 Hr. exact (fifo l [] q1 Hr). Qed.
Print Assumptions C41_fifo.
(** C41: dequeue returns nothing only when nothing is inside; empty() and size() are exact. *)
Theorem C41_dequeue_none_iff_empty : forall l q1, run qnext [] l = Some q1 ->
  (qobserve q1 QDeq q1 = [QOut None] <-> length (q_ins (trace qnext qobserve [] l)) = length (q_outs (trace qnext qobserve [] l))) /\
  qobserve q1 QSize q1 = [QSizeIs (length (q_ins (trace qnext qobserve [] l)) - length (q_outs (trace qnext qobserve [] l)))] /\
  (qobserve q1 QEmpty q1 = [QIsEmpty true] <-> q1 = []).
Proof.
  intros l q1 Hr. pose proof (C41_fifo l q1 Hr) as E. apply (f_equal (@length nat)) in E. rewrite app_length in E.
  rewrite E. repeat split; cbn.
  - destruct q1; cbn; [lia|discriminate].
  - destruct q1; cbn; [reflexivity|lia].
  - f_equal. f_equal. lia.
  - destruct q1; [reflexivity|discriminate].
  - intros ->. reflexivity.
Qed.
Print Assumptions C41_dequeue_none_iff_empty.
Example C41_case : option_map (fun q1 => (q1, trace qnext qobserve [] [QEnq 1; QEnq 2; QDeq; QEnq 3; QDeq; QSize]))
   (run qnext [] [QEnq 1; QEnq 2; QDeq; QEnq 3; QDeq; QSize]) =
   Some ([3], [QIn 1; QIn 2; QOut (Some 1); QIn 3; QOut (Some 2); QSizeIs 1]).
Proof. reflexivity. Qed.

(** C41: enqueue on the single-threaded scheduler returns, for every spawn tree, with an empty queue, after running every task of
    the tree exactly in depth-first order, also past tasks that threw. *)
Theorem C41_local_scheduler_drains : forall t, exists k, lrun k (linit t) = LSt [] [] (rev (executed t)).
Proof. exact scheduler_runs. Qed.
Print Assumptions C41_local_scheduler_drains.
Example C41_local_case :
  executed (Task 1 [Spawn (Task 2 [Spawn (Task 3 []); Throw; Spawn (Task 4 [])]); Spawn (Task 5 [])]) = [1;2;3;5].
Proof. reflexivity. Qed.

(** C54: through any number of moves of the type-erased wrapper, a queue is destroyed (and its storage freed) exactly once,
    when its last holder dies; using a wrapper that was not moved from is never undefined behaviour. *)
Definition no_moved_from_use (s : wstate) (e : wevent) : Prop :=
  forall i, e = WUse i -> forall w, wraps s i = Some w -> storage w <> None.
Theorem C54_destroyed_exactly_once : forall l s, run_all wnext no_moved_from_use winit l -> run wnext winit l = Some s ->
  wub s = false /\ forall qu, wdestroys s qu <= 1 /\ freed s qu = wdestroys s qu /\
    (made s qu = true -> (forall i, wraps s i = None) -> wdestroys s qu = 1) /\
    (forall i w, wraps s i = Some w -> storage w = Some qu -> wdestroys s qu = 0).
Proof.
  intros l s HA Hr.
  assert (H : WInv s).
  { refine (run_inv_cond wnext no_moved_from_use WInv _ l winit s winv_init HA Hr). intros s0 e s1 HI HP. now apply winv_next. }
  destruct H. split; [exact w_ub|]. intros qu.
  assert (D : wdestroys s qu <= 1).
  { destruct (made s qu) eqn:Em; [|rewrite w_fresh; auto]. destruct (w_dead _ Em) as [(i & u & E1 & E2)|]; [|lia].
    destruct (w_alive _ _ _ E1 E2). lia. }
  repeat split; auto.
  - intros Hm Hn. destruct (w_dead _ Hm) as [(i & u & E1 & _)|]; [|auto]. rewrite Hn in E1. discriminate.
  - intros i w E1 E2. apply (w_alive _ _ _ E1 E2).
Qed.
Print Assumptions C54_destroyed_exactly_once.
Example C54_case : exists s, run wnext winit [WMake 0 9; WMove 1 0; WKill 0; WUse 1; WMove 2 1; WKill 2; WKill 1] = Some s /\
  wdestroys s 9 = 1.
Proof. apply run_proj_ok. vm_compute. reflexivity. Qed.

(** C54: a wrapper that was moved from has no queue: every use of it but destruction is undefined (a null m_storage is dereferenced), whatever happened to the queue since. *)
Theorem C54_moved_from_use_undefined : forall s i j s1, wnext s (WMove i j) = Some s1 -> i <> j ->
  (exists s2, wnext s1 (WUse j) = Some s2 /\ wub s2 = true) /\ exists s3, wnext s1 (WKill j) = Some s3 /\ wub s3 = false /\ wdestroys s3 = wdestroys s /\ freed s3 = freed s.
Proof.
  intros s i j s1 H N. unfold wnext in H. destruct (wub s) eqn:Eu; [discriminate|]. destruct (is_none (wraps s i)); [|discriminate]. destruct (wraps s j) as [w|] eqn:Ej; [|discriminate].
  injection H as <-. unfold wnext. cbn [wub wraps]. rewrite upd_other by congruence. rewrite upd_same. split; eexists; (split; [reflexivity|]); repeat split.
Qed.
Print Assumptions C54_moved_from_use_undefined.
