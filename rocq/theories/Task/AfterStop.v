(** C51: how false it is. Starting or awaiting any task that has not been started, after quick_stop(). *)
From Coq Require Import List Arith Bool Lia.
From Verif.Common Require Import TS.
From Verif.Task Require Import Model Spec Proofs Props.
Import ListNotations.

Lemma stop_hdestroy s h : stop_now (hdestroy s h) = stop_now s.
Proof. unfold hdestroy, coro_destroy. destruct (holds h); [|reflexivity]. destruct (m_h h); [|reflexivity]. destruct (frames s n) as [[]|]; reflexivity. Qed.
Lemma stop_enqueue s h q : stop_now (enqueue s h q) = stop_now s.
Proof. unfold enqueue. destruct (hbool h); [destruct (stop_now s) eqn:E; cbn; auto|apply stop_hdestroy]. Qed.
Lemma stop_call s h : stop_now (call s h) = stop_now s.
Proof. unfold call, coro_resume. destruct (m_h h) as [c|]; [|reflexivity]. destruct (frames s c) as [[]|]; reflexivity. Qed.
Lemma stop_mono s e s' : next s e = Some s' -> stop_now s = true -> stop_now s' = true.
Proof.
  intros E Hs. unfold next, step in E. destruct (ub s || terminated s); [discriminate|].
  destruct e; repeat match type of E with context [match ?x with _ => _ end] => destruct x; try discriminate E end;
    cbn [option_map fst] in E; injection E as <-; rewrite ?stop_enqueue, ?stop_call; cbn; rewrite ?stop_hdestroy; auto; discriminate Hs.
Qed.
Lemma stop_run : forall l s, run next init l = Some s -> In EQuickStop l -> stop_now s = true.
Proof.
  intros l. induction l as [|e l IH] using rev_ind; intros s R Hi; [contradiction|]. apply run_app_inv in R. destruct R as (s1 & R1 & R2). cbn in R2. destruct (next s1 e) as [s2|] eqn:E; [|discriminate]. injection R2 as <-.
  apply in_app_iff in Hi. destruct Hi as [Hi|[->|[]]]; [eapply stop_mono; eauto|]. unfold next, step in E. destruct (ub s1 || terminated s1); [discriminate|]. injection E as <-. reflexivity.
Qed.

(** C51, refuted for every history with a quick_stop() in it and every task object that still owns its coroutine and its future: run(), run_and_get_future() (of a lazy task that has no result) and co_await
    end the process. *)
Theorem C51_every_start_after_quick_stop_refuted : forall l s j q eg f, run next init l = Some s -> In EQuickStop l -> ub s = false -> terminated s = false ->
  objs s j = Some (OTask eg (fresh_handle f) (Some f)) -> objs s q = None ->
  (exists s', next s (EAwait j q) = Some s' /\ terminated s' = true) /\
  (eg = false -> result_set s f = false -> (exists s', next s (ERun j q) = Some s' /\ terminated s' = true) /\ (exists s', next s (ERunFuture j q) = Some s' /\ terminated s' = true)).
Proof.
  intros l s j q eg f R Hi Hu Ht Hj Hq. pose proof (stop_run _ _ R Hi) as Hs. unfold next, step. rewrite Hu, Ht, Hq, Hj. cbn [orb is_none]. split.
  - eexists. split; [reflexivity|]. unfold enqueue. cbn. rewrite Hs. reflexivity.
  - intros -> Hr. rewrite Hr. cbn [hbool fresh_handle holds m_h andb]. split; (eexists; split; [reflexivity|]); unfold enqueue; cbn; rewrite Hs; reflexivity.
Qed.
Print Assumptions C51_every_start_after_quick_stop_refuted.
Example C51_every_start_case : exists s, run next init [ENewLazy 0 0; EQuickStop; ENewLazy 1 1] = Some s /\
  (negb (ub s) && negb (terminated s) && is_none (objs s 2) && negb (result_set s 1) && match objs s 1 with Some (OTask false (H (Some 1) true) (Some 1)) => true | _ => false end)%bool = true.
Proof. apply run_check_ok. vm_compute. reflexivity. Qed.
