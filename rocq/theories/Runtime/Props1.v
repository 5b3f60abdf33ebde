From Coq Require Import List Arith Bool Lia.
From Verif.Common Require Import TS.
From Verif.Runtime Require Import Monitor.
Import ListNotations.

(** ** C105 *)
Section Listed.
  Variable threads : list nat.
  Notation step := (step threads).
  (** the registry is complete and without duplicates *)
  Definition Full (s : state) : Prop :=
    (forall m, mutexes s m = Some (Live true) -> terminated s = false -> exists i x, g_ts_p s = Some i /\ scheds s i = Some x /\ In m (m_mutexes x)) /\
    (forall i x, scheds s i = Some x -> NoDup (m_mutexes x)).
  Lemma full_step s e s' : Inv threads s -> Full s -> proper s e -> step s e = Some s' -> Full s'.
  Proof.
    intros [Hu Hr Hp] [Hf Hn] Hpr. unfold Monitor.step. destruct (terminated s) eqn:Et; [discriminate|].
    assert (Hf' : forall m, mutexes s m = Some (Live true) -> exists i x, g_ts_p s = Some i /\ scheds s i = Some x /\ In m (m_mutexes x)) by auto. clear Hf.
    destruct e; cbn in Hpr.
    - destruct (scheds s i) eqn:Ei; [discriminate|]. intros E; inversion E; subst; clear E. split; cbn.
      + intros m Hm _. destruct (Hf' _ Hm) as (j & x & H1 & H2 & H3). rewrite H1, H2 in Hpr. rewrite Hpr in H3. destruct H3.
      + intros j x Hj. unfold upd in Hj. destruct (Nat.eqb_spec j i); [inversion Hj; constructor|eauto].
    - destruct (g_ts_p s) as [i|] eqn:Eg; [|discriminate]. destruct (scheds s i) as [x|] eqn:Ei; [|discriminate].
      intros E; inversion E; subst; clear E. split; cbn.
      + intros m Hm _. destruct (Hf' _ Hm) as (j & y & H1 & H2 & H3). exists i, (Sched true (m_mutexes x)). inversion H1; subst.
        rewrite upd_same. repeat split; auto. cbn. congruence.
      + intros j y Hj. unfold upd in Hj. destruct (Nat.eqb_spec j i); [inversion Hj; cbn; eauto|eauto].
    - destruct (g_ts_p s) eqn:Eg; [|discriminate]. intros E; inversion E; subst. split; auto. intros. rewrite Eg. auto.
    - destruct (g_ts_p s) as [i|] eqn:Eg; [|discriminate]. destruct (scheds s i) as [x|] eqn:Ei; [|discriminate].
      intros E; inversion E; subst; clear E. split; cbn.
      + intros m Hm _. destruct (Hf' _ Hm) as (j & y & H1 & H2 & H3). exists i, (Sched true (m_mutexes x)). inversion H1; subst.
        rewrite upd_same. repeat split; auto. cbn. congruence.
      + intros j y Hj. unfold upd in Hj. destruct (Nat.eqb_spec j i); [inversion Hj; cbn; eauto|eauto].
    - destruct (g_ts_p s) as [i|] eqn:Eg; [|discriminate]. destruct (scheds s i) as [x|] eqn:Ei; [|discriminate].
      destruct (m_cleanning x && negb (locked threads s i)); [|discriminate]. intros E; inversion E; subst; clear E. split; cbn; [|auto].
      intros m Hm _. destruct (Hf' _ Hm) as (j & y & H1 & H2 & H3). inversion H1; subst. rewrite Ei in H2. inversion H2; subst. rewrite Hpr in H3. destruct H3.
    - destruct (mutexes s m) eqn:Em; [discriminate|]. intros E; inversion E; subst; clear E. split; cbn; [|auto].
      intros m' Hm. unfold upd in Hm. destruct (Nat.eqb_spec m' m); [discriminate|auto].
    - destruct (mutexes s m) as [[[]|]|] eqn:Em; try discriminate; [intros E; inversion E; subst; split; auto|].
      unfold add_event. destruct (g_ts_p s) as [i|] eqn:Eg; [|intros E; inversion E; subst; cbn; split; cbn; [discriminate|auto]].
      destruct (scheds s i) as [x|] eqn:Ei; [|intros E; inversion E; subst; cbn; split; cbn; [discriminate|auto]].
      destruct (m_cleanning x) eqn:Ec; [intros E; inversion E; subst; cbn; split; cbn; [discriminate|auto]|].
      destruct (locked threads s i) eqn:El; [discriminate|]. cbn. rewrite Et. intros E; inversion E; subst; clear E. split; cbn.
      + intros m' Hm' _. exists i, (Sched false (m :: remove_ m (m_mutexes x))). rewrite upd_same. repeat split; auto. cbn.
        unfold upd in Hm'. destruct (Nat.eqb_spec m' m); [now left|]. right. apply in_remove. split; [|auto].
        destruct (Hf' _ Hm') as (j & y & H1 & H2 & H3). congruence.
      + intros j y Hj. unfold upd in Hj. destruct (Nat.eqb_spec j i); [|eauto]. inversion Hj; subst. cbn. constructor.
        * rewrite in_remove. tauto.
        * apply NoDup_filter. eauto.
    - destruct (mutexes s m) as [[o|]|] eqn:Em; try discriminate.
      unfold add_event. destruct (g_ts_p s) as [i|] eqn:Eg; [|intros E; inversion E; subst; cbn; split; cbn; [discriminate|auto]].
      destruct (scheds s i) as [x|] eqn:Ei; [|intros E; inversion E; subst; cbn; split; cbn; [discriminate|auto]].
      destruct (m_cleanning x) eqn:Ec; [intros E; inversion E; subst; cbn; split; cbn; [discriminate|auto]|].
      destruct (locked threads s i) eqn:El; [discriminate|]. cbn. rewrite Et. intros E; inversion E; subst; clear E. split; cbn.
      + intros m' Hm' _. exists i, (Sched false (remove_ m (m_mutexes x))). rewrite upd_same. repeat split; auto. cbn.
        unfold upd in Hm'. destruct (Nat.eqb_spec m' m); [discriminate|]. apply in_remove. split; [|auto].
        destruct (Hf' _ Hm') as (j & y & H1 & H2 & H3). congruence.
      + intros j y Hj. unfold upd in Hj. destruct (Nat.eqb_spec j i); [|eauto]. inversion Hj; subst. cbn. apply NoDup_filter. eauto.
    - destruct (mutexes s m) as [[o|]|] eqn:Em; try discriminate. intros E; inversion E; subst; clear E. split; cbn; [|auto].
      intros m' Hm'. unfold upd in Hm'. destruct (Nat.eqb_spec m' m); [discriminate|auto].
    - destruct (printing s t) eqn:Ep; [discriminate|]. destruct (scheds s i) as [x|] eqn:Ei; [|discriminate].
      destruct (existsb (Nat.eqb t) threads) eqn:Ex; [|discriminate]. intros E; inversion E; subst; clear E. split; cbn; auto.
    - destruct (printing s t) as [[i [|m rest]]|] eqn:Ep; try discriminate. intros E; inversion E; subst; clear E. split; cbn; auto.
    - destruct (printing s t) as [[i [|m rest]]|] eqn:Ep; try discriminate. intros E; inversion E; subst; clear E. split; cbn; auto.
  Qed.
  Lemma full_init : Full init. Proof. split; cbn; intros; discriminate. Qed.
  Lemma both_run l s : run_all step proper init l -> run step init l = Some s -> Inv threads s /\ Full s.
  Proof.
    intros HA Hr. apply (run_inv_cond step proper (fun s => Inv threads s /\ Full s)) with (l := l) (s := init); auto.
    - intros s0 e s1 [H1 H2] Hp He. split; [eapply inv_step; eauto|eapply full_step; eauto].
    - split; [apply inv_init|apply full_init].
  Qed.
End Listed.

(** C105: printing the status of the runtime never touches a mutex that has been destroyed, whatever the interleaving of printing with the
    creation, acquisition and destruction of mutexes; *)
Theorem C105_status_touches_only_living_mutexes : forall threads l s,
  run_all (step threads) proper init l -> run (step threads) init l = Some s -> ub s = false.
Proof. intros threads l s HA Hr. destruct (both_run threads l s HA Hr) as [[Hu _ _] _]. exact Hu. Qed.
Print Assumptions C105_status_touches_only_living_mutexes.
(** and what is printed is complete: a thread that starts printing has before it every mutex that was acquired and is not destroyed, once. *)
Theorem C105_status_is_complete : forall threads l s t i s',
  run_all (step threads) proper init l -> run (step threads) init l = Some s -> g_ts_p s = Some i ->
  step threads s (MPrintBegin t i) = Some s' ->
  exists todo, printing s' t = Some (i, todo) /\ NoDup todo /\ (forall m, In m todo <-> mutexes s m = Some (Live true)).
Proof.
  intros threads l s t i s' HA Hr Hg Hs. destruct (both_run threads l s HA Hr) as [[Hu Hreg _] [Hf Hn]].
  unfold step in Hs. destruct (terminated s) eqn:Et; [discriminate|]. destruct (printing s t); [discriminate|].
  destruct (scheds s i) as [x|] eqn:Ei; [|discriminate]. destruct (existsb (Nat.eqb t) threads); [|discriminate]. inversion Hs; subst; clear Hs. cbn.
  exists (m_mutexes x). rewrite upd_same. split; [reflexivity|]. split; [eauto|]. intros m. split.
  - intros Hm. eapply Hreg; eauto.
  - intros Hm. destruct (Hf m Hm eq_refl) as (j & y & H1 & H2 & H3). congruence.
Qed.
Print Assumptions C105_status_is_complete.
Example C105_case : run_all (step [7]) proper init [MInit 0; MNew 1; MNew 2; MAcquire 1; MAcquire 2; MPrintBegin 7 0; MPrintOne 7; MPrintOne 7; MPrintEnd 7; MDestroy 1; MDead 1; MNew 1; MPrintBegin 7 0; MPrintOne 7] /\
  exists s, run (step [7]) init [MInit 0; MNew 1; MNew 2; MAcquire 1; MAcquire 2; MPrintBegin 7 0; MPrintOne 7; MPrintOne 7; MPrintEnd 7; MDestroy 1; MDead 1; MNew 1; MPrintBegin 7 0; MPrintOne 7] = Some s /\
    (printing s 7, ub s, terminated s) = (Some (0, []), false, false).
Proof.
  split; [|apply run_proj_ok with (f := fun s => (printing s 7, ub s, terminated s)); vm_compute; reflexivity].
  cbn. repeat (split; [exact I|]; intros ? E; inversion E; subst; clear E; cbn). exact I.
Qed.
(** C105 without the condition is false: after a second runtime_init() a mutex tells the new scheduler that it goes away, while a worker
    of the old one, not yet stopped, prints it. *)
Theorem C105_second_init_refuted : exists s,
  run (step [7]) init [MInit 0; MNew 1; MAcquire 1; MPrintBegin 7 0; MInit 1; MDestroy 1; MDead 1; MPrintOne 7] = Some s /\ ub s = true.
Proof. apply run_proj_ok with (f := ub). vm_compute. reflexivity. Qed.
Print Assumptions C105_second_init_refuted.

(** ** C106 *)
(** A mutex can be used and destroyed at any time: false. Without a runtime, the first acquire() and even the destruction of a mutex
    that was never used end the process; *)
Theorem C106_no_runtime_refuted : forall threads l s m o e,
  run (step threads) init l = Some s -> terminated s = false -> g_ts_p s = None -> mutexes s m = Some (Live o) ->
  (e = MDestroy m \/ (e = MAcquire m /\ o = false)) ->
  exists s', step threads s e = Some s' /\ terminated s' = true.
Proof.
  intros threads l s m o e _ Ht Hg Hm [->|[-> ->]]; unfold step, add_event; rewrite Ht, Hm, Hg; eexists; split; reflexivity.
Qed.
Print Assumptions C106_no_runtime_refuted.
(** after event_loop::stop(), and when the global scheduler is destroyed at the end of the program, likewise - for example a mutex in the
    frame of a task that was still queued then. *)
Theorem C106_after_stop_refuted : forall threads l s i x m o e,
  run (step threads) init l = Some s -> terminated s = false -> g_ts_p s = Some i -> scheds s i = Some x -> m_cleanning x = true ->
  mutexes s m = Some (Live o) -> (e = MDestroy m \/ (e = MAcquire m /\ o = false)) ->
  exists s', step threads s e = Some s' /\ terminated s' = true.
Proof.
  intros threads l s i x m o e _ Ht Hg Hi Hc Hm [->|[-> ->]]; unfold step, add_event; rewrite Ht, Hm, Hg, Hi, Hc; eexists; split; reflexivity.
Qed.
Print Assumptions C106_after_stop_refuted.
Example C106_after_stop_case : exists s, run (step []) init [MInit 0; MNew 1; MAcquire 1; MStop; MDestroy 1] = Some s /\ terminated s = true.
Proof. eexists; split; reflexivity. Qed.
Example C106_static_destruction_case : exists s, run (step []) init [MNew 1; MInit 0; MAcquire 1; MQuickStop; MFinal; MDestroy 1] = Some s /\ terminated s = true.
Proof. eexists; split; reflexivity. Qed.
Example C106_no_runtime_case : exists s, run (step []) init [MNew 1; MDestroy 1] = Some s /\ terminated s = true.
Proof. eexists; split; reflexivity. Qed.

(** What holds: as long as the runtime is up - initialised, not stop()ped, not being destroyed; runtime_exit() does no harm - no mutex
    operation ends the process, *)
Theorem C106_while_up_partial : forall threads l s e s',
  run (step threads) init l = Some s -> terminated s = false -> up s -> step threads s e = Some s' -> terminated s' = false.
Proof.
  intros threads l s e s' _ Ht (i & x & Hg & Hi & Hc) Hs. unfold step in Hs. rewrite Ht in Hs. destruct e.
  all: try solve [repeat match type of Hs with context [match ?a with _ => _ end] => destruct a; try discriminate end; inversion Hs; subst; auto].
  - destruct (mutexes s m) as [[[]|]|]; try discriminate; [inversion Hs; subst; auto|].
    unfold add_event in Hs. rewrite Hg, Hi, Hc in Hs. destruct (locked threads s i); [discriminate|]. cbn in Hs. rewrite Ht in Hs.
    inversion Hs; subst. exact Ht.
  - destruct (mutexes s m) as [[o|]|]; try discriminate.
    unfold add_event in Hs. rewrite Hg, Hi, Hc in Hs. destruct (locked threads s i); [discriminate|]. cbn in Hs. rewrite Ht in Hs.
    inversion Hs; subst. exact Ht.
Qed.
Print Assumptions C106_while_up_partial.
(** the runtime stays up until stop() or the end of the program, *)
Theorem C106_up_until_stop_partial : forall threads l s e s',
  run (step threads) init l = Some s -> up s -> step threads s e = Some s' -> e <> MStop -> e <> MFinal -> up s'.
Proof.
  intros threads l s e s' _ (i & x & Hg & Hi & Hc) Hs H1 H2. unfold step in Hs. destruct (terminated s) eqn:Et; [discriminate|].
  assert (Hup : up s) by (exists i, x; auto).
  assert (Hset : forall s0 r m y, g_ts_p s0 = Some i -> scheds s0 i = Some x -> up (set_mutex (set_sched s0 i (Sched false r)) m y)).
  { intros s0 r m y Hg0 Hi0. exists i, (Sched false r). cbn. rewrite upd_same. auto. }
  destruct e; try congruence.
  - destruct (scheds s i0) eqn:E0; [discriminate|]. inversion Hs; subst. exists i0, (Sched false []). cbn. rewrite upd_same. auto.
  - rewrite Hg in Hs. inversion Hs; subst. exact Hup.
  - rewrite Hg, Hi, Hc in Hs. discriminate.
  - destruct (mutexes s m); [discriminate|]. inversion Hs; subst. exact Hup.
  - destruct (mutexes s m) as [[[]|]|]; try discriminate; [inversion Hs; subst; auto|].
    unfold add_event in Hs. rewrite Hg, Hi, Hc in Hs. destruct (locked threads s i); [discriminate|]. cbn in Hs. rewrite Et in Hs.
    inversion Hs; subst. apply (Hset s); auto.
  - destruct (mutexes s m) as [[o|]|]; try discriminate.
    unfold add_event in Hs. rewrite Hg, Hi, Hc in Hs. destruct (locked threads s i); [discriminate|]. cbn in Hs. rewrite Et in Hs.
    inversion Hs; subst. apply (Hset s); auto.
  - destruct (mutexes s m) as [[o|]|]; try discriminate. inversion Hs; subst. exact Hup.
  - destruct (printing s t); [discriminate|]. destruct (scheds s i0); [|discriminate]. destruct (existsb _ _); [|discriminate]. inversion Hs; subst. exact Hup.
  - destruct (printing s t) as [[? [|? ?]]|]; try discriminate. inversion Hs; subst. exists i, x. cbn. auto.
  - destruct (printing s t) as [[? [|? ?]]|]; try discriminate. inversion Hs; subst. exact Hup.
Qed.
Print Assumptions C106_up_until_stop_partial.
(** and a mutex that has been acquired once can be acquired again even after stop(). *)
Theorem C106_acquired_before_partial : forall threads l s m,
  run (step threads) init l = Some s -> terminated s = false -> mutexes s m = Some (Live true) -> step threads s (MAcquire m) = Some s.
Proof. intros threads l s m _ Ht Hm. unfold step. rewrite Ht, Hm. reflexivity. Qed.
Print Assumptions C106_acquired_before_partial.
(** The lock does not make mutex operations wait for ever: when nobody is printing, they go through at once. *)
Theorem C106_not_blocked_partial : forall threads l s m o,
  run (step threads) init l = Some s -> terminated s = false -> up s -> mutexes s m = Some (Live o) -> (forall t, printing s t = None) ->
  (exists s', step threads s (MDestroy m) = Some s') /\ (exists s', step threads s (MAcquire m) = Some s').
Proof.
  intros threads l s m o _ Ht (i & x & Hg & Hi & Hc) Hm Hp.
  assert (Hl : locked threads s i = false).
  { unfold locked. apply not_true_iff_false. rewrite existsb_exists. intros (t & _ & H). rewrite Hp in H. discriminate. }
  unfold step, add_event. rewrite Ht, Hm, Hg, Hi, Hc, Hl. destruct o; split; eexists; reflexivity.
Qed.
Print Assumptions C106_not_blocked_partial.
Example C106_up_case : exists s, run (step [3]) init [MInit 0; MNew 5; MAcquire 5; MQuickStop] = Some s /\ up s /\ mutexes s 5 = Some (Live true).
Proof. eexists. split; [reflexivity|]. split; [|reflexivity]. exists 0, (Sched false [5]). repeat split; reflexivity. Qed.
