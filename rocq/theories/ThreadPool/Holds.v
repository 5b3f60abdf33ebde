(** What holds of C78: the process is terminated exactly if the first call of stop() comes from a worker. *)
From Coq Require Import List Arith Bool Lia.
From Verif.Common Require Import TS.
From Verif.ThreadPool Require Import Model.
Import ListNotations.

Definition is_stop (e : event) : bool := match e with EStop _ => true | _ => false end.

Lemma worker_step_keeps ord s w k s' o : worker_step ord s w k = Some (s', o) -> once s' = once s /\ terminated s' = terminated s.
Proof.
  unfold worker_step. intros H. destruct (wpcs s w); try discriminate.
  - injection H as <- _; auto.
  - injection H as <- _; auto.
  - destruct rest; injection H as <- _; auto.
  - destruct (enq_passed s w); [discriminate|]. destruct (queues s w); [injection H as <- _; auto|]. destruct (take_nth _ _) as [[? ?]|]; [|discriminate]. injection H as <- _; auto.
  - destruct rest as [|i rest]; [injection H as <- _; auto|]. destruct (queues s i); [injection H as <- _; auto|]. destruct (take_nth _ _) as [[? ?]|]; [|discriminate]. injection H as <- _; auto.
  - injection H as <- _; auto.
Qed.
Lemma step_cases n ord s e s' : next n ord s e = Some s' -> terminated s = false /\
  ((is_stop e = false \/ once s <> 0) /\ once s' = once s /\ terminated s' = false \/
   exists a, e = EStop a /\ once s = 0 /\ once s' = 1 /\ terminated s' = (a <? n)).
Proof.
  intros H. unfold next, step in H. destruct (terminated s) eqn:T; [discriminate|]. split; [reflexivity|]. destruct e as [w k|a|a i x|w|a|a|a]; cbn [is_stop].
  - left. split; [now left|]. destruct (w <? n); [|discriminate]. destruct (worker_step ord s w k) as [[s1 o]|] eqn:E; [|discriminate]. injection H as <-.
    destruct (worker_step_keeps _ _ _ _ _ _ E) as [-> ->]. auto.
  - left. split; [now left|]. destruct (_ && _); [|discriminate]. destruct (stop_now s); injection H as <-; auto.
  - left. split; [now left|]. destruct (_ && _); [|discriminate]. injection H as <-; auto.
  - left. split; [now left|]. destruct (w <? n); [|discriminate]. destruct (wpcs s w); try discriminate. destruct (enq_passed s w); [discriminate|].
    destruct (spcs s w); try discriminate; injection H as <-; auto.
  - left. split; [now left|]. destruct (_ && _); [|discriminate]. injection H as <-; auto.
  - destruct (_ && _); [|discriminate]. destruct (once s) eqn:O.
    + right. exists a. destruct (a <? n); injection H as <-; cbn; rewrite O; auto.
    + left. split; [right; lia|]. injection H as <-. cbn. rewrite O. auto.
  - left. split; [now left|]. destruct (spcs s a); try discriminate; [destruct (all_exited n s)|destruct (once_done s)]; try discriminate; injection H as <-; auto.
Qed.
Lemma once_run n ord : forall l s, run (next n ord) init l = Some s -> (once s = 0 <-> forall e, In e l -> is_stop e = false).
Proof.
  induction l as [|e l IH] using rev_ind; intros s Hr; [injection Hr as <-; cbn; easy|].
  destruct (run_app_inv _ _ _ _ _ Hr) as (s1 & R1 & R2). cbn [run] in R2. destruct (next n ord s1 e) as [s2|] eqn:E; [|discriminate]. injection R2 as <-.
  specialize (IH _ R1). destruct (step_cases _ _ _ _ _ E) as (_ & [([C|C] & O & _)|(a & -> & O & O' & _)]).
  - rewrite O, IH. split; intros G x Hx; [apply in_app_iff in Hx; destruct Hx as [Hx|[<-|[]]]; auto|apply G, in_app_iff; auto].
  - rewrite O. split; [intros K; easy|]. intros G. exfalso. apply C, IH. intros x Hx. apply G, in_app_iff. auto.
  - rewrite O'. split; [discriminate|]. intros G. specialize (G (EStop a)). cbn in G. exfalso. assert (K : true = false); [|discriminate]. apply G, in_app_iff. right. now left.
Qed.

(** Any number of workers, tasks and threads, every schedule: std::terminate is called exactly by a stop() that is the first stop()
    of all and comes from one of the pool's own workers. In particular never when the first stop() comes from another
    thread, and never by quick_stop()'s flag alone. *)
Theorem C78_exactly_the_first_from_a_worker_partial : forall n ord l s, run (next n ord) init l = Some s ->
  (terminated s = true <-> exists l1 a, l = l1 ++ [EStop a] /\ a < n /\ forall e, In e l1 -> is_stop e = false).
Proof.
  intros n ord l s Hr. destruct l as [|e l _] using rev_ind.
  - injection Hr as <-. split; [discriminate|]. intros (l1 & a & E & _). destruct l1; discriminate.
  - destruct (run_app_inv _ _ _ _ _ Hr) as (s1 & R1 & R2). cbn [run] in R2. destruct (next n ord s1 e) as [s2|] eqn:E; [|discriminate]. injection R2 as <-.
    pose proof (once_run _ _ _ _ R1) as O. destruct (step_cases _ _ _ _ _ E) as (_ & [(C & _ & T)|(a & -> & O1 & _ & T)]); rewrite T.
    + split; [discriminate|]. intros (l1 & a & El & _ & G). exfalso. apply app_inj_tail in El. destruct El as [-> ->].
      destruct C as [C|C]; [discriminate|]. apply C, O, G.
    + rewrite Nat.ltb_lt. split.
      * intros La. exists l, a. split; [reflexivity|]. split; [exact La|]. now apply O.
      * intros (l1 & b & El & Lb & _). apply app_inj_tail in El. destruct El as [_ El]. congruence.
Qed.
Print Assumptions C78_exactly_the_first_from_a_worker_partial.
Example C78_case : exists s, run (next 1 [0]) init [EEnqCheck 5; EEnqPut 5 0 10; EWorker 0 0; EWorker 0 0; EStop 5; EFinish 0] = Some s /\ terminated s = false.
Proof. eexists. split; [vm_compute; reflexivity|reflexivity]. Qed.
