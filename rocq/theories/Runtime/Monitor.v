(** Model of koios::mutex objects as registered objects: the global scheduler pointer (src/runtime.cc 24, 68-99), event_loop::add_event
    and the flag it tests (include/koios/event_loop.h 70-81, 95-106, 113-123), mutex_monitor (src/mutex_monitor.cc, mutex_monitor.h) and the
    registration code of mutex (src/coroutine_mutex.cc 13-36). print_status is called by a worker (src/thread_pool.cc 95).

    Schedulers, mutexes (their addresses, which can be used again) and threads are numbers. One step is one critical section of the
    monitor's lock, or one visited entry while the shared lock is held.
    Simplifications: runtime_init and the destruction of the global pointer do not run at the same time as a mutex operation; a
    scheduler that has been replaced only prints; an exception leaving a noexcept function is [terminated]. *)
From Coq Require Import List Arith Bool.
From Verif.Common Require Import TS.
Import ListNotations.

(* a scheduler: event_loop.h 158 (m_cleanning), mutex_monitor.h 30-57 (m_mutexes) *)
Record sched := Sched { m_cleanning : bool; m_mutexes : list nat }.
(* a mutex object: coroutine_mutex.cc 13-36 (m_once, destructor) *)
Inductive life := Live (once : bool) (* m_once *) | Dying (* ~mutex() body done, members still there *).
(* what the state keeps of runtime.cc 24, 68-99, event_loop.h 70-123, mutex_monitor.cc 12-46, coroutine_mutex.cc 13-36 *)
Record state := St {
  g_ts_p : option nat;
  scheds : nat -> option sched;
  mutexes : nat -> option life;
  printing : nat -> option (nat * list nat);       (* thread -> the scheduler whose shared lock it holds, entries still to print *)
  terminated : bool;
  ub : bool                                        (* a destroyed mutex was accessed *)
}.
(* before anything has happened; runtime.cc 24, 68-99, event_loop.h 70-123, mutex_monitor.cc 12-46, coroutine_mutex.cc 13-36 *)
Definition init : state := St None (fun _ => None) (fun _ => None) (fun _ => None) false false.

(* the steps of runtime.cc 24, 68-99, event_loop.h 70-123, mutex_monitor.cc 12-46, coroutine_mutex.cc 13-36 *)
Inductive event :=
| MInit (i : nat)           (* runtime_init: a new scheduler i *)
| MStop                     (* event_loop::stop() *)
| MQuickStop                (* event_loop::quick_stop(), runtime_exit() *)
| MFinal                    (* static destruction begins: ~event_loop() of the global scheduler *)
| MFinalDone                (* ... is over *)
| MNew (m : nat)            (* a mutex is constructed *)
| MAcquire (m : nat)        (* acquire() / try_acquire() *)
| MDestroy (m : nat)        (* the body of ~mutex() *)
| MDead (m : nat)           (* its members are destroyed *)
| MPrintBegin (t i : nat)   (* a worker t of scheduler i enters print_status *)
| MPrintOne (t : nat)       (* m->print_status() of the next entry *)
| MPrintEnd (t : nat).

(* bookkeeping of the model, no counterpart in /repo *)
Definition set_sched s i x := St (g_ts_p s) (upd (scheds s) i (Some x)) (mutexes s) (printing s) (terminated s) (ub s).
(* bookkeeping of the model, no counterpart in /repo *)
Definition set_mutex s m x := St (g_ts_p s) (scheds s) (upd (mutexes s) m x) (printing s) (terminated s) (ub s).
(* bookkeeping of the model, no counterpart in /repo *)
Definition set_print s t x := St (g_ts_p s) (scheds s) (mutexes s) (upd (printing s) t x) (terminated s) (ub s).
(* an exception leaves a noexcept function: coroutine_mutex.cc 13-36 *)
Definition terminate s := St (g_ts_p s) (scheds s) (mutexes s) (printing s) true (ub s).
(* bookkeeping of the model, no counterpart in /repo *)
Definition remove_ (m : nat) (l : list nat) : list nat := filter (fun x => negb (Nat.eqb x m)) l.

(** get_task_scheduler().add_event<mutex_monitor>(op, m), inside a noexcept function. [readers]: the shared lock is held *)
Definition add_event (s : state) (f : list nat -> list nat) (locked : nat -> bool) : option state :=
  match g_ts_p s with
  | None => Some (terminate s)                                     (* runtime.cc 71-75 *)
  | Some i => match scheds s i with
              | None => Some (terminate s)
              | Some x => if m_cleanning x then Some (terminate s) (* event_loop.h 73-79: throws; coroutine_mutex.h: noexcept *)
                          else if locked i then None               (* waits for the exclusive lock *)
                          else Some (set_sched s i (Sched false (f (m_mutexes x))))
              end
  end.

Section Threads.
  Variable threads : list nat.      (* all threads that ever print *)
  (* m_lk held shared by print_status: mutex_monitor.cc 12-46 *)
  Definition locked (s : state) (i : nat) : bool :=
    existsb (fun t => match printing s t with Some (j, _) => Nat.eqb i j | None => false end) threads.

  (* what each step does: runtime.cc 24, 68-99, event_loop.h 70-123, mutex_monitor.cc 12-46, coroutine_mutex.cc 13-36 *)
  Definition step (s : state) (e : event) : option state :=
    if terminated s then None else
    match e with
    | MInit i => match scheds s i with
                 | None => Some (St (Some i) (upd (scheds s) i (Some (Sched false []))) (mutexes s) (printing s) false (ub s))
                 | Some _ => None
                 end
    | MStop | MFinal => match g_ts_p s with
                        | Some i => match scheds s i with
                                    | Some x => Some (set_sched s i (Sched true (m_mutexes x)))
                                    | None => None
                                    end
                        | None => None
                        end
    | MQuickStop => match g_ts_p s with Some _ => Some s | None => None end
    | MFinalDone => match g_ts_p s with
                    | Some i => match scheds s i with
                                | Some x => if m_cleanning x && negb (locked s i)
                                            then Some (St None (scheds s) (mutexes s) (printing s) false (ub s)) else None
                                | None => None
                                end
                    | None => None
                    end
    | MNew m => match mutexes s m with None => Some (set_mutex s m (Some (Live false))) | _ => None end
    | MAcquire m => match mutexes s m with
                    | Some (Live true) => Some s
                    | Some (Live false) =>
                        match add_event s (fun l => m :: remove_ m l) (locked s) with
                        | Some s' => Some (if terminated s' then s' else set_mutex s' m (Some (Live true)))
                        | None => None
                        end
                    | _ => None
                    end
    | MDestroy m => match mutexes s m with
                    | Some (Live _) =>
                        match add_event s (remove_ m) (locked s) with
                        | Some s' => Some (if terminated s' then s' else set_mutex s' m (Some Dying))
                        | None => None
                        end
                    | _ => None
                    end
    | MDead m => match mutexes s m with Some Dying => Some (set_mutex s m None) | _ => None end
    | MPrintBegin t i =>
        match printing s t, scheds s i with
        | None, Some x => if existsb (Nat.eqb t) threads then Some (set_print s t (Some (i, m_mutexes x))) else None
        | _, _ => None
        end
    | MPrintOne t =>
        match printing s t with
        | Some (i, m :: rest) =>
            Some (St (g_ts_p s) (scheds s) (mutexes s) (upd (printing s) t (Some (i, rest))) (terminated s)
                     (ub s || match mutexes s m with None => true | Some _ => false end))
        | _ => None
        end
    | MPrintEnd t => match printing s t with Some (_, []) => Some (set_print s t None) | _ => None end
    end.

  (** The runtime is not initialised again while a mutex is registered with it. *)
  (* specification, no counterpart in /repo *)
  Definition proper (s : state) (e : event) : Prop :=
    match e with
    | MInit _ => match g_ts_p s with
                 | Some i => match scheds s i with Some x => m_mutexes x = [] | None => True end
                 | None => True
                 end
    | MFinalDone => (* every mutex acquired is gone when the global scheduler goes *)
                    match g_ts_p s with
                    | Some i => match scheds s i with Some x => m_mutexes x = [] | None => True end
                    | None => True
                    end
    | _ => True
    end.
  (** The runtime is up: initialised, not stopped with stop(), not being destroyed. *)
  (* specification, no counterpart in /repo *)
  Definition up (s : state) : Prop := exists i x, g_ts_p s = Some i /\ scheds s i = Some x /\ m_cleanning x = false.

  (** ** Invariant *)
  Record Inv (s : state) : Prop := {
    v_ub : ub s = false;
    v_reg : forall i x m, scheds s i = Some x -> In m (m_mutexes x) -> g_ts_p s = Some i /\ mutexes s m = Some (Live true);
    v_print : forall t i l, printing s t = Some (i, l) -> In t threads /\ exists x, scheds s i = Some x /\ incl l (m_mutexes x)
  }.
  Lemma in_remove m l x : In x (remove_ m l) <-> In x l /\ x <> m.
  Proof. unfold remove_. rewrite filter_In. destruct (Nat.eqb_spec x m); cbn; intuition congruence. Qed.
  Lemma locked_false s i t l : locked s i = false -> In t threads -> printing s t = Some (i, l) -> False.
  Proof.
    intros H Ht Hp. unfold locked in H. rewrite <- Bool.not_true_iff_false in H. apply H. apply existsb_exists. exists t. split; [exact Ht|].
    rewrite Hp. apply Nat.eqb_refl.
  Qed.
  Lemma inv_init : Inv init. Proof. split; cbn; auto; discriminate. Qed.

  Lemma inv_step s e s' : Inv s -> proper s e -> step s e = Some s' -> Inv s'.
  Proof.
    intros [Hu Hr Hp] Hpr. unfold step. destruct (terminated s) eqn:Et; [discriminate|]. destruct e; cbn in Hpr.
    - (* MInit *) destruct (scheds s i) eqn:Ei; [discriminate|]. intros E; inversion E; subst; clear E. split; cbn; auto.
      + intros j x m Hj Hm. unfold upd in Hj. destruct (Nat.eqb_spec j i) as [->|]; [inversion Hj; subst; destruct Hm|].
        destruct (Hr _ _ _ Hj Hm) as [H1 H2]. rewrite H1, Hj in Hpr. rewrite Hpr in Hm. destruct Hm.
      + intros t j l Ht. destruct (Hp _ _ _ Ht) as (Hin & x & Hx & Hi). split; [exact Hin|]. exists x. unfold upd.
        destruct (Nat.eqb_spec j i); [congruence|]. auto.
    - (* MStop *) destruct (g_ts_p s) as [i|] eqn:Eg; [|discriminate]. destruct (scheds s i) as [x|] eqn:Ei; [|discriminate].
      intros E; inversion E; subst; clear E. split; cbn; auto.
      + intros j y m Hj Hm. unfold upd in Hj. destruct (Nat.eqb_spec j i) as [->|]; [inversion Hj; subst; cbn in Hm|]; rewrite Eg in *; eauto.
      + intros t j l Ht. destruct (Hp _ _ _ Ht) as (Hin & y & Hy & Hi). split; [exact Hin|]. unfold upd.
        destruct (Nat.eqb_spec j i) as [->|]; [eexists; split; [reflexivity|]; cbn; replace x with y by congruence; exact Hi|eauto].
    - (* MQuickStop *) destruct (g_ts_p s) eqn:Eg; [|discriminate]. intros E; inversion E; subst. split; auto.
      intros. rewrite Eg. eauto.
    - (* MFinal *) destruct (g_ts_p s) as [i|] eqn:Eg; [|discriminate]. destruct (scheds s i) as [x|] eqn:Ei; [|discriminate].
      intros E; inversion E; subst; clear E. split; cbn; auto.
      + intros j y m Hj Hm. unfold upd in Hj. destruct (Nat.eqb_spec j i) as [->|]; [inversion Hj; subst; cbn in Hm|]; rewrite Eg in *; eauto.
      + intros t j l Ht. destruct (Hp _ _ _ Ht) as (Hin & y & Hy & Hi). split; [exact Hin|]. unfold upd.
        destruct (Nat.eqb_spec j i) as [->|]; [eexists; split; [reflexivity|]; cbn; replace x with y by congruence; exact Hi|eauto].
    - (* MFinalDone *) destruct (g_ts_p s) as [i|] eqn:Eg; [|discriminate]. destruct (scheds s i) as [x|] eqn:Ei; [|discriminate].
      destruct (m_cleanning x && negb (locked s i)); [|discriminate]. intros E; inversion E; subst; clear E. split; cbn; auto.
      intros j y m Hj Hm. destruct (Hr _ _ _ Hj Hm) as [H1 _]. inversion H1; subst. rewrite Ei in Hj. inversion Hj; subst. rewrite Hpr in Hm. destruct Hm.
    - (* MNew *) destruct (mutexes s m) eqn:Em; [discriminate|]. intros E; inversion E; subst; clear E. split; cbn; auto.
      intros j y m' Hj Hm. destruct (Hr _ _ _ Hj Hm) as [H1 H2]. split; [exact H1|]. unfold upd. destruct (Nat.eqb_spec m' m); congruence.
    - (* MAcquire *) destruct (mutexes s m) as [[[]|]|] eqn:Em; try discriminate.
      + intros E; inversion E; subst. split; auto.
      + unfold add_event. destruct (g_ts_p s) as [i|] eqn:Eg; [|intros E; inversion E; subst; cbn; split; auto; cbn; intros; rewrite ?Eg; eauto].
        destruct (scheds s i) as [x|] eqn:Ei; [|intros E; inversion E; subst; cbn; split; auto; cbn; intros; rewrite ?Eg; eauto].
        destruct (m_cleanning x) eqn:Ec; [intros E; inversion E; subst; cbn; split; auto; cbn; intros; rewrite ?Eg; eauto|].
        destruct (locked s i) eqn:El; [discriminate|]. cbn. rewrite Et. intros E; inversion E; subst; clear E. split; cbn; auto.
        * intros j y m' Hj Hm. unfold upd in Hj. destruct (Nat.eqb_spec j i) as [->|].
          -- inversion Hj; subst; clear Hj. cbn in Hm. split; [exact Eg|]. unfold upd. destruct (Nat.eqb_spec m' m) as [->|Hne]; [reflexivity|].
             destruct Hm as [->|Hm]; [congruence|]. apply in_remove in Hm as [Hm _]. eapply Hr; eauto.
          -- destruct (Hr _ _ _ Hj Hm) as [H1 H2]. congruence.
        * intros t j l Ht. destruct (Hp _ _ _ Ht) as (Hin & y & Hy & Hi). split; [exact Hin|]. unfold upd.
          destruct (Nat.eqb_spec j i) as [->|]; [exfalso; eapply locked_false; eauto|eauto].
    - (* MDestroy *) destruct (mutexes s m) as [[o|]|] eqn:Em; try discriminate.
      unfold add_event. destruct (g_ts_p s) as [i|] eqn:Eg; [|intros E; inversion E; subst; cbn; split; auto; cbn; intros; rewrite ?Eg; eauto].
      destruct (scheds s i) as [x|] eqn:Ei; [|intros E; inversion E; subst; cbn; split; auto; cbn; intros; rewrite ?Eg; eauto].
      destruct (m_cleanning x) eqn:Ec; [intros E; inversion E; subst; cbn; split; auto; cbn; intros; rewrite ?Eg; eauto|].
      destruct (locked s i) eqn:El; [discriminate|]. cbn. rewrite Et. intros E; inversion E; subst; clear E. split; cbn; auto.
      + intros j y m' Hj Hm. unfold upd in Hj. destruct (Nat.eqb_spec j i) as [->|].
        * inversion Hj; subst; clear Hj. cbn in Hm. apply in_remove in Hm as [Hm Hne]. split; [exact Eg|]. unfold upd.
          destruct (Nat.eqb_spec m' m); [congruence|]. eapply Hr; eauto.
        * destruct (Hr _ _ _ Hj Hm) as [H1 H2]. congruence.
      + intros t j l Ht. destruct (Hp _ _ _ Ht) as (Hin & y & Hy & Hi). split; [exact Hin|]. unfold upd.
        destruct (Nat.eqb_spec j i) as [->|]; [exfalso; eapply locked_false; eauto|eauto].
    - (* MDead *) destruct (mutexes s m) as [[o|]|] eqn:Em; try discriminate. intros E; inversion E; subst; clear E. split; cbn; auto.
      intros j y m' Hj Hm. destruct (Hr _ _ _ Hj Hm) as [H1 H2]. split; [exact H1|]. unfold upd. destruct (Nat.eqb_spec m' m); congruence.
    - (* MPrintBegin *) destruct (printing s t) eqn:Ep; [discriminate|]. destruct (scheds s i) as [x|] eqn:Ei; [|discriminate].
      destruct (existsb (Nat.eqb t) threads) eqn:Ex; [|discriminate]. intros E; inversion E; subst; clear E. split; cbn; auto.
      intros t' j l Ht. unfold upd in Ht. destruct (Nat.eqb_spec t' t) as [->|]; [|eauto]. inversion Ht; subst. split.
      + apply existsb_exists in Ex as (y & Hy & E). apply Nat.eqb_eq in E. now subst.
      + exists x. split; [exact Ei|apply incl_refl].
    - (* MPrintOne *) destruct (printing s t) as [[i [|m rest]]|] eqn:Ep; try discriminate. intros E; inversion E; subst; clear E.
      destruct (Hp _ _ _ Ep) as (Hin & x & Hx & Hi). split; cbn; auto.
      + rewrite Hu. destruct (Hr _ _ m Hx) as [_ ->]; [apply Hi; now left|]. reflexivity.
      + intros t' j l Ht. unfold upd in Ht. destruct (Nat.eqb_spec t' t) as [->|]; [|eauto]. inversion Ht; subst. split; [exact Hin|].
        exists x. split; [exact Hx|]. intros y Hy. apply Hi. now right.
    - (* MPrintEnd *) destruct (printing s t) as [[i [|m rest]]|] eqn:Ep; try discriminate. intros E; inversion E; subst; clear E. split; cbn; auto.
      intros t' j l Ht. unfold upd in Ht. destruct (Nat.eqb_spec t' t) as [->|]; [discriminate|eauto].
  Qed.
End Threads.
