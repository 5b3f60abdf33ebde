(** Model of the destruction of thread_pool and event_loop<Loops...> objects while workers exist.
    include/koios/event_loop.h 36-37 (the loops are base classes, declared after task_scheduler: destroyed before it), 113-123 (destructor),
    126-129 (before_each_task), 53-59 (polling); include/koios/task_scheduler.h 63-66; src/thread_pool.cc 30-54 (destructor, stop,
    quick_stop), 56-119 (consumer), 121-128 (done); thread_pool.h 259-273 (m_thrs: jthreads, joined by their destructors).

    [k] loops ([k = 0]: a plain thread_pool or task_scheduler), [n] workers, [manual]: constructed with manually_stop.
    One step of a worker is one decision at the head of its loop or the polling of one loop. What tasks do is left out; with stop(), a worker may
    go on (there are tasks) or end. Polling a loop that has been destroyed, or any step on a destroyed pool, is undefined behaviour.
    Simplification: the destructor is not run by a worker (that would be C78's self-join). *)
From Coq Require Import List Arith Bool Lia.
From Verif.Common Require Import TS.
Import ListNotations.

(* where a worker is: thread_pool.cc 72-77, event_loop.h 53-59, 126-129 *)
Inductive wpc := WTop | WPoll (j : nat) (* about to poll loop j *) | WEnded.
(* how far the destruction is: event_loop.h 36-37, 113-123, thread_pool.cc 30-34 *)
Inductive dpc := DNot | DLoops (j : nat) (* loops j, j+1, ... are destroyed *) | DJoining (* in ~thread_pool() *) | DGone.
(* what the state keeps of event_loop.h 36-37, 53-59, 113-129, thread_pool.cc 30-128 *)
Record state := St { workers : nat -> wpc; requested : bool; now : bool; dtor : dpc; ub : bool }.

Section Teardown.
  Variable k n : nat.
  Variable manual : bool.
  (* before anything has happened; event_loop.h 36-37, 53-59, 113-129, thread_pool.cc 30-128 *)
  Definition init : state := St (fun _ => WTop) false false DNot false.
  (* the steps of event_loop.h 36-37, 53-59, 113-129, thread_pool.cc 30-128 *)
  Inductive event :=
  | EStop            (* stop(): request *)
  | EQuickStop       (* quick_stop(): request *)
  | WNext (w : nat)  (* head of the loop: go on *)
  | WQuit (w : nat)  (* head of the loop: done() *)
  | WPolls (w : nat) (* poll the next loop *)
  | EDestroy         (* ~event_loop(), its body *)
  | EKillLoop        (* destructor of one Loops base, last one first *)
  | EPoolDtor        (* body of ~thread_pool() *)
  | EJoined.         (* all threads joined, members destroyed *)

  (* bookkeeping of the model, no counterpart in /repo *)
  Definition set_w s w x := St (upd (workers s) w x) (requested s) (now s) (dtor s) (ub s).
  (* the worker has left consumer(): thread_pool.cc 119 *)
  Definition ended (s : state) (w : nat) : bool := match workers s w with WEnded => true | _ => false end.
  (* all threads can be joined: thread_pool.h 259-273 *)
  Definition all_ended (s : state) : bool := forallb (ended s) (seq 0 n).
  (* whether loop j is destroyed: event_loop.h 36-37 *)
  Definition destroyed (s : state) (j : nat) : bool :=
    match dtor s with DNot => false | DLoops i => i <=? j | _ => true end.
  (* ~thread_pool() is over: thread_pool.cc 30-34 *)
  Definition pool_gone (s : state) : bool := match dtor s with DGone => true | _ => false end.

  (* what each step does: event_loop.h 36-37, 53-59, 113-129, thread_pool.cc 30-128 *)
  Definition step (s : state) (e : event) : option state :=
    if ub s then None else
    match e with
    | EStop => match dtor s with DNot => Some (St (workers s) true (now s) (dtor s) false) | _ => None end
    | EQuickStop => match dtor s with DNot => Some (St (workers s) true true (dtor s) false) | _ => None end
    | WNext w =>
        if w <? n then
          match workers s w with
          | WTop => if requested s && now s then None
                    else Some (St (upd (workers s) w (match k with O => WTop | _ => match dtor s with
                                                                                  | DJoining | DGone => WTop   (* the object is a plain pool by now *)
                                                                                  | _ => WPoll 0
                                                                                  end end))
                                  (requested s) (now s) (dtor s) (pool_gone s))
          | _ => None
          end
        else None
    | WQuit w => if w <? n then
                   match workers s w with
                   | WTop => if requested s then Some (St (upd (workers s) w WEnded) true (now s) (dtor s) (pool_gone s)) else None
                   | _ => None
                   end
                 else None
    | WPolls w =>
        if w <? n then
          match workers s w with
          | WPoll j => Some (St (upd (workers s) w (if S j <? k then WPoll (S j) else WTop)) (requested s) (now s) (dtor s) (destroyed s j))
          | _ => None
          end
        else None
    | EDestroy => match dtor s with DNot => Some (St (workers s) (requested s) (now s) (DLoops k) false) | _ => None end
    | EKillLoop => match dtor s with DLoops (S j) => Some (St (workers s) (requested s) (now s) (DLoops j) false) | _ => None end
    | EPoolDtor => match dtor s with
                   | DLoops 0 => Some (if manual then St (workers s) (requested s) (now s) DJoining false
                                       else St (workers s) true true DJoining false)
                   | _ => None
                   end
    | EJoined => match dtor s with
                 | DJoining => if all_ended s then Some (St (workers s) (requested s) (now s) DGone false) else None
                 | _ => None
                 end
    end.

  (** stop() or quick_stop() has returned before the destructor is called: all workers have ended (C44). *)
  (* specification, no counterpart in /repo *)
  Definition stopped_first (s : state) (e : event) : Prop := match e with EDestroy => forall w, w < n -> workers s w = WEnded | _ => True end.

  Lemma all_ended_spec s : all_ended s = true <-> forall w, w < n -> workers s w = WEnded.
  Proof.
    unfold all_ended. rewrite forallb_forall. unfold ended. split.
    - intros H w Hw. assert (Hin : In w (seq 0 n)) by (apply in_seq; lia). specialize (H w Hin). destruct (workers s w); try reflexivity; discriminate H.
    - intros H w Hw. apply in_seq in Hw. rewrite H by lia. reflexivity.
  Qed.

  (** ** a plain pool *)
  Definition InvP (s : state) : Prop :=
    ub s = false /\ (forall w, w < n -> workers s w = WTop \/ workers s w = WEnded) /\ (dtor s = DGone -> forall w, w < n -> workers s w = WEnded).
  Lemma invp_step s e s' : k = 0 -> InvP s -> step s e = Some s' -> InvP s'.
  Proof.
    intros Hk (Hu & Hw & Hg). unfold step. rewrite Hu. subst k. destruct e.
    - destruct (dtor s); try discriminate. intros E; inversion E; subst. repeat split; cbn; auto; discriminate.
    - destruct (dtor s); try discriminate. intros E; inversion E; subst. repeat split; cbn; auto; discriminate.
    - destruct (Nat.ltb_spec w n) as [Hl|]; [|discriminate]. destruct (workers s w) eqn:Ew; try discriminate.
      destruct (requested s && now s); [discriminate|]. intros E; inversion E; subst; clear E. split; [|split]; cbn.
      + unfold pool_gone. destruct (dtor s); try reflexivity. specialize (Hg eq_refl w Hl). congruence.
      + intros v Hv. unfold upd. destruct (Nat.eqb_spec v w); auto.
      + intros Hd. specialize (Hg Hd w Hl). congruence.
    - destruct (Nat.ltb_spec w n) as [Hl|]; [|discriminate]. destruct (workers s w) eqn:Ew; try discriminate.
      destruct (requested s); [|discriminate]. intros E; inversion E; subst; clear E. split; [|split]; cbn.
      + unfold pool_gone. destruct (dtor s); try reflexivity. specialize (Hg eq_refl w Hl). congruence.
      + intros v Hv. unfold upd. destruct (Nat.eqb_spec v w); auto.
      + intros Hd. specialize (Hg Hd w Hl). congruence.
    - destruct (Nat.ltb_spec w n) as [Hl|]; [|discriminate]. destruct (Hw w Hl) as [->| ->]; discriminate.
    - destruct (dtor s); try discriminate. intros E; inversion E; subst. repeat split; cbn; auto; discriminate.
    - destruct (dtor s) as [|[|j]| |]; try discriminate. intros E; inversion E; subst. repeat split; cbn; auto; discriminate.
    - destruct (dtor s) as [|[|j]| |]; try discriminate. intros E; inversion E; subst. destruct manual; (split; [reflexivity|split; cbn; [auto|discriminate]]).
    - destruct (dtor s) as [|[|j]| |]; try discriminate. destruct (all_ended s) eqn:Ea; [|discriminate].
      intros E; inversion E; subst. split; [reflexivity|split; cbn; [auto|intros _; now apply all_ended_spec]].
  Qed.

  (** ** destruction after the workers have ended *)
  Definition InvS (s : state) : Prop :=
    ub s = false /\ (dtor s <> DNot -> forall w, w < n -> workers s w = WEnded).
  Lemma invs_step s e s' : InvS s -> stopped_first s e -> step s e = Some s' -> InvS s'.
  Proof.
    intros (Hu & Hd) Hp. unfold step. rewrite Hu. destruct e; cbn in Hp.
    - destruct (dtor s); try discriminate. intros E; inversion E; subst. split; cbn; congruence.
    - destruct (dtor s); try discriminate. intros E; inversion E; subst. split; cbn; congruence.
    - destruct (Nat.ltb_spec w n) as [Hl|]; [|discriminate]. destruct (workers s w) eqn:Ew; try discriminate.
      assert (Hn : dtor s = DNot). { destruct (dtor s); auto; assert (workers s w = WEnded) by (apply Hd; [discriminate|auto]); congruence. }
      destruct (requested s && now s); [discriminate|]. intros E; inversion E; subst; clear E. unfold InvS, pool_gone. cbn. rewrite Hn. split; [reflexivity|congruence].
    - destruct (Nat.ltb_spec w n) as [Hl|]; [|discriminate]. destruct (workers s w) eqn:Ew; try discriminate.
      assert (Hn : dtor s = DNot). { destruct (dtor s); auto; assert (workers s w = WEnded) by (apply Hd; [discriminate|auto]); congruence. }
      destruct (requested s); [|discriminate]. intros E; inversion E; subst; clear E. unfold InvS, pool_gone. cbn. rewrite Hn. split; [reflexivity|congruence].
    - destruct (Nat.ltb_spec w n) as [Hl|]; [|discriminate]. destruct (workers s w) eqn:Ew; try discriminate.
      assert (Hn : dtor s = DNot). { destruct (dtor s); auto; assert (workers s w = WEnded) by (apply Hd; [discriminate|auto]); congruence. }
      intros E; inversion E; subst; clear E. unfold InvS, destroyed. cbn. rewrite Hn. split; [reflexivity|congruence].
    - destruct (dtor s); try discriminate. intros E; inversion E; subst. split; cbn; auto.
    - destruct (dtor s) as [|[|j]| |]; try discriminate. intros E; inversion E; subst. split; cbn; auto. intros _. apply Hd. discriminate.
    - destruct (dtor s) as [|[|j]| |]; try discriminate. intros E; inversion E; subst. destruct manual; split; cbn; auto; intros _; apply Hd; discriminate.
    - destruct (dtor s) as [|[|j]| |]; try discriminate. destruct (all_ended s) eqn:Ea; [|discriminate].
      intros E; inversion E; subst. split; cbn; auto. intros _. apply Hd. discriminate.
  Qed.

  (** ** manually_stop: the destructor of a pool that was not stopped never returns *)
  Definition InvM (s : state) : Prop := requested s = false /\ (forall w, w < n -> workers s w <> WEnded) /\ dtor s <> DGone.
  Lemma invm_step s e s' : manual = true -> 0 < n -> InvM s -> e <> EStop -> e <> EQuickStop -> step s e = Some s' -> InvM s'.
  Proof.
    intros Hm Hn (Hr & Hw & Hd) H1 H2. unfold step. destruct (ub s); [discriminate|]. rewrite Hm. destruct e; try congruence.
    - destruct (Nat.ltb_spec w n); [|discriminate]. destruct (workers s w) eqn:Ew; try discriminate. destruct (requested s && now s); [discriminate|].
      intros E; inversion E; subst; clear E. split; [exact Hr|split; cbn; [|exact Hd]]. intros v Hv. unfold upd. destruct (Nat.eqb_spec v w); [|auto].
      destruct k; [congruence|destruct (dtor s); congruence].
    - destruct (Nat.ltb_spec w n); [|discriminate]. destruct (workers s w) eqn:Ew; try discriminate. rewrite Hr. discriminate.
    - destruct (Nat.ltb_spec w n); [|discriminate]. destruct (workers s w) eqn:Ew; try discriminate.
      intros E; inversion E; subst; clear E. split; [exact Hr|split; cbn; [|exact Hd]]. intros v Hv. unfold upd. destruct (Nat.eqb_spec v w); [|auto].
      destruct (match k with S (S m) => j <=? m | _ => false end); congruence.
    - destruct (dtor s); try discriminate. intros E; inversion E; subst. split; [exact Hr|split; cbn; [exact Hw|congruence]].
    - destruct (dtor s) as [|[|j]| |]; try discriminate. intros E; inversion E; subst. split; [exact Hr|split; cbn; [exact Hw|congruence]].
    - destruct (dtor s) as [|[|j]| |]; try discriminate. intros E; inversion E; subst. split; [exact Hr|split; cbn; [exact Hw|congruence]].
    - destruct (dtor s) as [|[|j]| |]; try discriminate. destruct (all_ended s) eqn:Ea; [|discriminate].
      rewrite all_ended_spec in Ea. exfalso. eapply Hw; [exact Hn|]. apply Ea. lia.
  Qed.

  (** ** the destructor of a pool that stops by itself returns *)
  Definition wcost (x : wpc) : nat := match x with WTop => 1 | WPoll j => 2 + (k - j) | WEnded => 0 end.
  Fixpoint total (m : nat) (s : state) : nat := match m with O => 0 | S m' => wcost (workers s m') + total m' s end.
End Teardown.

(** C107: a scheduler object may be destroyed while it is working. *)

(** False for event loops: the component loops are destroyed before ~thread_pool() stops the workers, which go on polling them. With
    any number of loops and workers: *)
Theorem C107_running_event_loop_refuted : forall k n manual, 0 < k -> 0 < n -> exists l s,
  run (step k n manual) init l = Some s /\ ub s = true /\ ~ In EStop l /\ ~ In EQuickStop l.
Proof.
  intros k n manual Hk Hn.
  assert (Hkill : forall j s, dtor s = DLoops j -> ub s = false ->
            run (step k n manual) s (repeat EKillLoop j) = Some (St (workers s) (requested s) (now s) (DLoops 0) false)).
  { induction j as [|j IH]; intros s Hd Hu; cbn; [destruct s; cbn in *; subst; reflexivity|].
    unfold step at 1. rewrite Hu, Hd. apply (IH (St (workers s) (requested s) (now s) (DLoops j) false)); reflexivity. }
  exists ([WNext 0; EDestroy] ++ repeat EKillLoop k ++ [WPolls 0]).
  destruct k as [|k]; [lia|]. destruct n as [|n]; [lia|].
  set (s1 := St (upd (fun _ => WTop) 0 (WPoll 0)) false false (DLoops (S k)) false).
  exists (St (upd (workers s1) 0 (if 1 <? S k then WPoll 1 else WTop)) false false (DLoops 0) true).
  repeat split.
  - rewrite (run_app _ _ _ _ s1) by reflexivity. rewrite (run_app _ _ _ _ _ (Hkill (S k) s1 eq_refl eq_refl)). reflexivity.
  - rewrite !in_app_iff. intros [H|[H|H]].
    + destruct H as [H|[H|H]]; try discriminate; destruct H.
    + apply repeat_spec in H. discriminate.
    + destruct H as [H|H]; [discriminate|destruct H].
  - rewrite !in_app_iff. intros [H|[H|H]].
    + destruct H as [H|[H|H]]; try discriminate; destruct H.
    + apply repeat_spec in H. discriminate.
    + destruct H as [H|H]; [discriminate|destruct H].
Qed.
Print Assumptions C107_running_event_loop_refuted.
(** What holds: if stop() or quick_stop() (runtime_exit()) has returned before, destruction is safe, for any number of loops; *)
Theorem C107_stopped_first_partial : forall k n manual l s,
  run_all (step k n manual) (stopped_first n) init l -> run (step k n manual) init l = Some s -> ub s = false.
Proof.
  intros k n manual l s HA Hr. apply (run_inv_cond _ _ (InvS n)) with (l := l) (s := init) (s' := s) in HA; auto.
  - apply HA.
  - intros; eapply invs_step; eauto.
  - split; [reflexivity|]. cbn. congruence.
Qed.
Print Assumptions C107_stopped_first_partial.
(** a plain pool, without loops, may be destroyed while it works: it stops and joins its workers before anything they use goes away. *)
Theorem C107_plain_pool_partial : forall n manual l s,
  run (step 0 n manual) init l = Some s -> ub s = false /\ (dtor s = DGone -> forall w, w < n -> workers s w = WEnded).
Proof.
  intros n manual l s Hr. assert (HI : InvP n s).
  { revert Hr. apply (run_inv _ (InvP n)); [intros; eapply invp_step; eauto|]. split; [reflexivity|]. split; cbn; auto. discriminate. }
  destruct HI as (H1 & _ & H2). auto.
Qed.
Print Assumptions C107_plain_pool_partial.
(** A pool made with manually_stop and not stopped: its destructor never returns (as documented). *)
Theorem C107_manual_pool_blocks : forall k n l s, 0 < n ->
  run (step k n true) init l = Some s -> ~ In EStop l -> ~ In EQuickStop l -> dtor s <> DGone.
Proof.
  intros k n l s Hn Hr H1 H2. assert (HI : InvM n s); [|apply HI].
  assert (H0 : InvM n init). { repeat split; cbn; intros; discriminate. }
  revert H0 Hr. generalize init. induction l as [|e l IH]; cbn; intros s0 H0 Hr; [inversion Hr; subst; auto|].
  destruct (step k n true s0 e) as [s1|] eqn:E; [|discriminate]. cbn in H1, H2. apply (IH ltac:(tauto) ltac:(tauto) s1); auto.
  eapply (invm_step k n true); eauto; intros ->; tauto.
Qed.
Print Assumptions C107_manual_pool_blocks.

(** The destructor of a pool that stops by itself does return: in every state after the workers were told to stop, each enabled step of
    a worker brings the end nearer, some worker can move until all have ended, and then the destructor finishes. *)
Section Progress.
  Variables k n : nat.
  Definition pending (s : state) : nat := total k n s.
  Lemma total_upd_out m (s s' : state) w x : workers s' = upd (workers s) w x -> m <= w -> total k m s' = total k m s.
  Proof.
    intros E. induction m as [|m IH]; intros Hm; [reflexivity|]. cbn. rewrite E. rewrite upd_other by lia. rewrite IH by lia. reflexivity.
  Qed.
  Lemma total_upd m (s s' : state) w x : workers s' = upd (workers s) w x -> w < m ->
    total k m s' + wcost k (workers s w) = total k m s + wcost k x.
  Proof.
    intros E. induction m as [|m IH]; intros Hm; [lia|]. cbn. destruct (Nat.eq_dec w m) as [->|Hne].
    - rewrite E. rewrite upd_same. rewrite (total_upd_out m s s' m x E) by lia. lia.
    - rewrite E. rewrite upd_other by lia. specialize (IH ltac:(lia)). lia.
  Qed.
  Definition is_worker (e : event) : Prop := match e with WNext _ | WQuit _ | WPolls _ => True | _ => False end.
  Lemma pending_dec s e s' : requested s = true -> now s = true -> is_worker e -> step k n false s e = Some s' ->
    pending s' < pending s /\ requested s' = true /\ now s' = true /\ dtor s' = dtor s.
  Proof.
    intros Hr Hw Hi. unfold step, pending. destruct (ub s); [discriminate|]. destruct e; try contradiction Hi.
    - rewrite Hr, Hw. destruct (w <? n); [|discriminate]. destruct (workers s w); discriminate.
    - destruct (Nat.ltb_spec w n) as [Hl|]; [|discriminate]. destruct (workers s w) eqn:Ew; try discriminate. rewrite Hr. intros E; inversion E; subst; clear E.
      cbn. repeat split; auto. pose proof (total_upd n s (St (upd (workers s) w WEnded) true (now s) (dtor s) (pool_gone s)) w WEnded eq_refl Hl) as H.
      rewrite Ew in H. cbn in H. lia.
    - destruct (Nat.ltb_spec w n) as [Hl|]; [|discriminate]. destruct (workers s w) as [|j|] eqn:Ew; try discriminate. intros E; inversion E; subst; clear E.
      split; [|auto].
      pose proof (total_upd n s (St (upd (workers s) w (if S j <? k then WPoll (S j) else WTop)) (requested s) (now s) (dtor s) (destroyed s j)) w _ eq_refl Hl) as H.
      rewrite Ew in H. destruct (Nat.ltb_spec (S j) k); cbn [wcost] in H; lia.
  Qed.
  Lemma worker_moves s w : ub s = false -> requested s = true -> w < n -> workers s w <> WEnded -> exists e s', is_worker e /\ step k n false s e = Some s'.
  Proof.
    intros Hu Hr Hl Hw. destruct (workers s w) as [|j|] eqn:Ew; [| |congruence].
    - exists (WQuit w). unfold step. rewrite Hu, Hr, Ew. destruct (Nat.ltb_spec w n); [|lia]. eexists. split; [exact I|reflexivity].
    - exists (WPolls w). unfold step. rewrite Hu, Ew. destruct (Nat.ltb_spec w n); [|lia]. eexists. split; [exact I|reflexivity].
  Qed.
End Progress.
Lemma joining_requested n l s : run (step 0 n false) init l = Some s -> dtor s = DJoining -> requested s = true /\ now s = true.
Proof.
  intros Hr Hd. assert (HI : dtor s = DJoining \/ dtor s = DGone -> requested s = true /\ now s = true); [|apply HI; auto].
    revert Hr. apply (run_inv _ (fun s => dtor s = DJoining \/ dtor s = DGone -> requested s = true /\ now s = true)).
    - clear. intros s e s' HI. unfold step. destruct (ub s); [discriminate|]. destruct e.
      + destruct (dtor s); try discriminate. intros E; inversion E; subst; cbn. intros [H|H]; discriminate.
      + destruct (dtor s); try discriminate. intros E; inversion E; subst; cbn. intros [H|H]; discriminate.
      + destruct (w <? n); [|discriminate]. destruct (workers s w); try discriminate. destruct (requested s && now s); [discriminate|]. intros E; inversion E; subst; cbn. exact HI.
      + destruct (w <? n); [|discriminate]. destruct (workers s w); try discriminate. destruct (requested s); [|discriminate]. intros E; inversion E; subst; cbn.
        intros H. destruct (HI H). auto.
      + destruct (w <? n); [|discriminate]. destruct (workers s w); try discriminate. intros E; inversion E; subst; cbn. exact HI.
      + destruct (dtor s); try discriminate. intros E; inversion E; subst; cbn. intros [H|H]; discriminate.
      + destruct (dtor s) as [|[|j]| |]; try discriminate. intros E; inversion E; subst; cbn. intros [H|H]; discriminate.
      + destruct (dtor s) as [|[|j]| |]; try discriminate. intros E; inversion E; subst; cbn. auto.
      + destruct (dtor s) as [|[|j]| |]; try discriminate. destruct (all_ended n s); [|discriminate]. intros E; inversion E; subst; cbn. auto.
    - cbn. intros [H|H]; discriminate. 
Qed.
Theorem C107_destructor_returns_partial : forall n l s,
  run (step 0 n false) init l = Some s -> dtor s = DJoining ->
  exists l' s', run (step 0 n false) s l' = Some s' /\ length l' <= S (pending 0 n s) /\ dtor s' = DGone.
Proof.
  intros n l s Hr Hd.
  assert (HP : InvP n s) by (revert Hr; apply (run_inv _ (InvP n)); [intros; eapply invp_step; eauto|split; [reflexivity|split; cbn; auto; discriminate]]).
  pose proof (joining_requested n l s Hr Hd) as HQ.
  destruct HQ as [Hq Hn]. clear Hr l. remember (pending 0 n s) as m eqn:Em. revert s HP Hd Hq Hn Em. induction m as [m IH] using lt_wf_ind. intros s HP Hd Hq Hn Em.
  destruct (all_ended n s) eqn:Ea.
  - exists [EJoined], (St (workers s) (requested s) (now s) DGone false). cbn. unfold step. destruct HP as (Hu & _). rewrite Hu, Hd, Ea. repeat split. lia.
  - assert (Hex : exists w, w < n /\ workers s w <> WEnded).
    { apply not_true_iff_false in Ea. unfold all_ended in Ea. rewrite forallb_forall in Ea.
      destruct (existsb (fun w => negb (ended s w)) (seq 0 n)) eqn:Ex.
      - apply existsb_exists in Ex as (w & Hw & He). apply in_seq in Hw. exists w. split; [lia|]. unfold ended in He. destruct (workers s w); discriminate.
      - exfalso. apply Ea. intros w Hw. apply not_true_iff_false in Ex. destruct (ended s w) eqn:E; [reflexivity|].
        exfalso. apply Ex. apply existsb_exists. exists w. rewrite E. auto. }
    destruct Hex as (w & Hl & Hw). destruct HP as (Hu & HP2). destruct (worker_moves 0 n s w Hu Hq Hl Hw) as (e & s1 & Hi & Hs).
    destruct (pending_dec 0 n s e s1 Hq Hn Hi Hs) as (H1 & H2 & H3 & H4).
    destruct (IH (pending 0 n s1)) with (s := s1) as (l' & s' & Hr & Hlen & Hd'); auto; [lia| |congruence|].
    + eapply invp_step; eauto. split; auto.
    + exists (e :: l'), s'. cbn. rewrite Hs. repeat split; auto. lia.
Qed.
Print Assumptions C107_destructor_returns_partial.
(** Under every schedule: the workers cannot make more than [pending] steps, and when no worker can move the destructor can finish. *)
Theorem C107_every_schedule_partial : forall n l s l' s',
  run (step 0 n false) init l = Some s -> dtor s = DJoining -> Forall is_worker l' -> run (step 0 n false) s l' = Some s' ->
  length l' <= pending 0 n s /\
  ((forall e, is_worker e -> step 0 n false s' e = None) -> exists s'', step 0 n false s' EJoined = Some s'' /\ dtor s'' = DGone).
Proof.
  intros n l s l' s' Hr Hd HF Hr'.
  assert (HP : InvP n s) by (revert Hr; apply (run_inv _ (InvP n)); [intros; eapply invp_step; eauto|split; [reflexivity|split; cbn; auto; discriminate]]).
  destruct (joining_requested n l s Hr Hd) as [Hq Hn]. clear Hr l. revert s HP Hd Hq Hn Hr'.
  induction HF as [|e l' He HF IH]; intros s HP Hd Hq Hn Hr'; cbn in Hr'.
  - inversion Hr'; subst s'. split; [cbn; lia|]. intros Hno.
    assert (Ha : all_ended n s = true).
    { apply all_ended_spec. intros w Hl. destruct HP as (Hu & _). destruct (workers s w) as [|j|] eqn:Ew; [| |reflexivity]; exfalso.
      - destruct (worker_moves 0 n s w Hu Hq Hl) as (e & s1 & Hi & Hs); [congruence|]. rewrite Hno in Hs by exact Hi. discriminate.
      - destruct (worker_moves 0 n s w Hu Hq Hl) as (e & s1 & Hi & Hs); [congruence|]. rewrite Hno in Hs by exact Hi. discriminate. }
    destruct HP as (Hu & _). eexists. unfold step. rewrite Hu, Hd, Ha. split; reflexivity.
  - destruct (step 0 n false s e) as [s1|] eqn:Es; [|discriminate].
    destruct (pending_dec 0 n s e s1 Hq Hn He Es) as (H1 & H2 & H3 & H4).
    destruct (IH s1) as [H5 H6]; auto; [eapply invp_step; eauto|congruence|]. split; [cbn; lia|exact H6].
Qed.
Print Assumptions C107_every_schedule_partial.
Example C107_case : exists s, run (step 4 2 false) init [WNext 0; WPolls 0; EQuickStop; WPolls 0; WPolls 0; WPolls 0; WQuit 0; WQuit 1; EDestroy; EKillLoop; EKillLoop; EKillLoop; EKillLoop; EPoolDtor; EJoined] = Some s /\ (dtor s, ub s) = (DGone, false).
Proof. apply run_proj_ok with (f := fun s => (dtor s, ub s)). vm_compute. reflexivity. Qed.
Example C107_plain_case : exists s, run (step 0 2 false) init [WNext 0; EDestroy; WNext 1; EPoolDtor; WQuit 0] = Some s /\ (dtor s, pending 0 2 s) = (DJoining, 1).
Proof. apply run_proj_ok with (f := fun s => (dtor s, pending 0 2 s)). vm_compute. reflexivity. Qed.
Example C107_running_case : exists s, run (step 4 1 false) init [EDestroy; EKillLoop; WNext 0; WPolls 0; WPolls 0; WPolls 0; WPolls 0] = Some s /\ ub s = true.
Proof. apply run_proj_ok with (f := ub). vm_compute. reflexivity. Qed.

(** The other way round: whichever worker is about to poll a loop when that loop's destructor has begun touches a destroyed object - also when ~thread_pool() is
    already waiting for the workers. *)
Theorem C107_polls_destroyed_loop_refuted : forall k n manual s w j, ub s = false -> w < n -> workers s w = WPoll j ->
  (exists i, dtor s = DLoops i /\ i <= j) \/ dtor s = DJoining -> exists s', step k n manual s (WPolls w) = Some s' /\ ub s' = true.
Proof.
  intros k n manual s w j Hu Hw Hp Hd. unfold step. rewrite Hu, Hp. destruct (Nat.ltb_spec w n); [|lia]. eexists. split; [reflexivity|]. cbn. unfold destroyed.
  destruct Hd as [(i & -> & Hi)| ->]; [now apply Nat.leb_le|reflexivity].
Qed.
Print Assumptions C107_polls_destroyed_loop_refuted.
Example C107_polls_destroyed_case : exists s, run (step 2 1 false) init [WNext 0; EDestroy; EKillLoop; EKillLoop; EPoolDtor] = Some s /\ ub s = false /\ workers s 0 = WPoll 0 /\ dtor s = DJoining.
Proof. eexists. split; [vm_compute; reflexivity|]. repeat split. Qed.
(** stop() lets every worker end at the head of its loop; after quick_stop() no worker goes on from there; and neither request is taken back. *)
Theorem C107_stop_ends_workers : forall k n manual s e s1 l s2, e = EStop \/ e = EQuickStop -> step k n manual s e = Some s1 -> run (step k n manual) s1 l = Some s2 -> ub s2 = false ->
  forall w, w < n -> workers s2 w = WTop -> (exists s3, step k n manual s2 (WQuit w) = Some s3 /\ workers s3 w = WEnded) /\ (e = EQuickStop -> step k n manual s2 (WNext w) = None).
Proof.
  intros k n manual s e s1 l s2 He Hs Hr Hu w Hw Ht.
  assert (H0 : requested s1 = true /\ (e = EQuickStop -> now s1 = true)).
  { unfold step in Hs. destruct (ub s); [discriminate|]. destruct He as [-> | ->]; destruct (dtor s); try discriminate; injection Hs as <-; split; easy. }
  assert (H2 : requested s2 = true /\ (e = EQuickStop -> now s2 = true)).
  { clear Hs Hu Ht. revert s1 H0 Hr. induction l as [|x l IH]; intros s1 H0 Hr; cbn [run] in Hr; [injection Hr as <-; exact H0|]. destruct (step k n manual s1 x) as [s1'|] eqn:E; [|discriminate].
    apply (IH s1'); [|exact Hr]. clear IH Hr. destruct H0 as [A B]. unfold step in E. destruct (ub s1); [discriminate|]. destruct x.
    - destruct (dtor s1); try discriminate; injection E as <-; split; [reflexivity|exact B].
    - destruct (dtor s1); try discriminate; injection E as <-; split; reflexivity.
    - destruct (w0 <? n); [|discriminate]. destruct (workers s1 w0); try discriminate. destruct (requested s1 && now s1); [discriminate|]. injection E as <-. now split.
    - destruct (w0 <? n); [|discriminate]. destruct (workers s1 w0); try discriminate. destruct (requested s1); [|discriminate]. injection E as <-. now split.
    - destruct (w0 <? n); [|discriminate]. destruct (workers s1 w0); try discriminate. injection E as <-. now split.
    - destruct (dtor s1); try discriminate. injection E as <-. now split.
    - destruct (dtor s1) as [|[|j]| |]; try discriminate. injection E as <-. now split.
    - destruct (dtor s1) as [|[|j]| |]; try discriminate. injection E as <-. destruct manual; now split.
    - destruct (dtor s1); try discriminate. destruct (all_ended n s1); [|discriminate]. injection E as <-. now split. }
  destruct H2 as [A B]. unfold step. rewrite Hu, Ht. destruct (Nat.ltb_spec w n); [|lia]. rewrite A. split.
  - eexists. split; [reflexivity|]. cbn. apply upd_same.
  - intros E. rewrite (B E). reflexivity.
Qed.
Print Assumptions C107_stop_ends_workers.
