From Coq Require Import List Arith Bool Permutation.
From Verif.Common Require Import TS.
From Verif.WSQueue Require Import Model Spec Proofs.
Import ListNotations.

(** C14: every task handed in is handed out at most once or still inside; nothing is invented. All
    interleavings of registration, enqueue and (multi-step, stealing) dequeue by any number of threads. *)
Theorem C14_conservation : forall l s, run next init l = Some s ->
  Permutation (ins (trace next observe init l)) (outs (trace next observe init l) ++ contents (keys s) (q s)).
Proof. exact conservation. Qed.
Print Assumptions C14_conservation.

(** C14: with nothing in progress, a registered thread's dequeue gets a task unless the whole queue is empty. *)
Theorem C14_quiescent_dequeue_complete : forall l s t,
  run next init l = Some s -> ub s = false -> quiet s -> In t (keys s) ->
  exists l' s' r, run next s l' = Some s' /\ trace next observe s l' = [Out t r] /\ quiet s' /\
    (r = None <-> size s = 0).
Proof. exact dequeue_alone. Qed.
Print Assumptions C14_quiescent_dequeue_complete.

Theorem C14_size : forall s, size s = length (contents (keys s) (q s)).
Proof. exact size_contents. Qed.
Print Assumptions C14_size.

Theorem C14_proper_use_no_ub : forall l s,
  run_all next proper_use init l -> run next init l = Some s -> ub s = false.
Proof. exact no_ub. Qed.
Print Assumptions C14_proper_use_no_ub.

(** Outside of that use the code runs into undefined behaviour: enqueue before any consumer registered, dequeue by
    an unregistered thread. *)
Theorem C94_unregistered_use_refuted :
  (forall a b x, exists s, run next init [EEnqueue a b x] = Some s /\ ub s = true) /\
  (forall s t k o, ub s = false -> at_ s t = Idle -> ~ In t (keys s) ->
     exists s', next s (EDeqOwn t k o) = Some s' /\ ub s' = true).
Proof.
  split.
  - intros. eexists. split; reflexivity.
  - intros s t k o Hu Ha Hn. apply memb_nIn in Hn. unfold next, step. rewrite Hu, Ha, Hn. eexists. split; reflexivity.
Qed.
Print Assumptions C94_unregistered_use_refuted.

Example C14_case : exists s,
  run next init [ERegister 1; ERegister 2; EEnqueue 1 1 10; EEnqueue 1 1 11; EEnqueue 7 2 12;
                 EDeqOwn 2 0 [1;2]; EDeqOwn 2 0 [1;2]; EDeqSteal 2 1] = Some s /\
  trace next observe init [ERegister 1; ERegister 2; EEnqueue 1 1 10; EEnqueue 1 1 11; EEnqueue 7 2 12;
                 EDeqOwn 2 0 [1;2]; EDeqOwn 2 0 [1;2]; EDeqSteal 2 1]
    = [In_ 10; In_ 11; In_ 12; Out 2 (Some 12); Out 2 (Some 11)] /\
  contents (keys s) (q s) = [10] /\ ub s = false /\ In 1 (keys s).
Proof. eexists. split; [reflexivity|]. repeat split. cbn. auto. Qed.
