(** Timed model of sleeping coroutines: the idle workers of Idle.v, each with its own timer.
    include/koios/this_task.h 24-70 (sleep_for: an event for the timer of the calling thread), include/koios/timer.h 94-100, 161-168 (the worker may sleep until its own
    earliest deadline), 193-206 (each thread uses its own timer); src/timer.cc 20-59 (a poll hands all due sleepers to the scheduler), src/thread_pool.cc 72-98 (the worker polls its own loops,
    then looks for a task, then sleeps no longer than they allow); event_loop.h 126-143.

    A poll is a sequence of [SFire] steps; a worker begins to look for a task only when none of its sleepers is due. How the timer does that is C11-C13.
    Negative durations are taken as 0: due at once. *)
From Coq Require Import List Arith Bool Lia.
From Verif.Common Require Import TS.
From Verif.ThreadPool Require Import Idle.
Import ListNotations.

(* what the state keeps of this_task.h 24-70, timer.h 94-100, 161-168, 193-206, timer.cc 20-59, thread_pool.cc 72-98 *)
Record sstate := SSt {
  base : state;
  timers : nat -> list (nat * nat);    (* worker -> deadline, coroutine *)
  began : nat -> nat;                  (* when the worker's current or latest task began *)
  ended : nat -> nat }.                (* when its latest task ended *)
(* the steps of this_task.h 24-70, timer.h 94-100, 161-168, 193-206, timer.cc 20-59, thread_pool.cc 72-98 *)
Inductive sevent :=
| Base (e : event)                     (* everything of Idle.v *)
| SSleep (w d x : nat)                 (* the task running on w is coroutine x, and awaits sleep_for(d) *)
| SFire (w : nat) (y : nat * nat).     (* w's poll hands coroutine (snd y) to the scheduler *)

Section Sleepers.
  Variable n : nat.
  (* before anything has happened; this_task.h 24-70, timer.h 94-100, 161-168, 193-206, timer.cc 20-59, thread_pool.cc 72-98 *)
  Definition sinit : sstate := SSt init (fun _ => []) (fun _ => 0) (fun _ => 0).
  (* now >= deadline, timer.cc 23-50 *)
  Definition due (t : nat) (y : nat * nat) : bool := fst y <=? t.
  (* a worker polls before it looks for a task and sleeps no longer than its timer allows: thread_pool.cc 74-98, timer.h 94-100 *)
  Definition allowed (s : sstate) (e : event) : bool :=
    match e with
    | WBegin w => negb (existsb (due (now (base s))) (timers s w))
    | WGoSleep w d => forallb (fun y => now (base s) + d <=? fst y) (timers s w)
    | _ => true
    end.
  (* what each step does: this_task.h 24-70, timer.h 94-100, 161-168, 193-206, timer.cc 20-59, thread_pool.cc 72-98 *)
  Definition sstep (s : sstate) (e : sevent) : option sstate :=
    match e with
    | Base e => if allowed s e then
                  match step n (base s) e with
                  | Some b => Some (SSt b (timers s)
                                        (match e with WTake w _ => upd (began s) w (now b) | _ => began s end)
                                        (match e with WFinish w => upd (ended s) w (now b) | _ => ended s end))
                  | None => None
                  end
                else None
    | SSleep w d x => if w <? n then
                        match workers (base s) w with
                        | WBusy => Some (SSt (base s) (upd (timers s) w (timers s w ++ [(now (base s) + d, x)])) (began s) (ended s))
                        | _ => None
                        end
                      else None
    | SFire w y => if (w <? n) && due (now (base s)) y && in_queue y (timers s w) then
                     match workers (base s) w, step n (base s) (EEnqueue (snd y)) with
                     | WTop, Some b => Some (SSt b (upd (timers s) w (remove1 y (timers s w))) (began s) (ended s))
                     | _, _ => None
                     end
                   else None
    end.

  (** ** invariant *)
  Definition ok_t (s : sstate) (w : nat) (D : nat) : Prop :=
    match workers (base s) w with
    | WTop => D <= now (base s) -> D = now (base s) \/ (began s w <= D /\ ended s w = now (base s))
    | WScan _ | WEmpty => now (base s) < D
    | WSleep u => u <= D
    | WBusy => began s w <= D
    | WEnded => True
    end.
  Definition SInv (s : sstate) : Prop :=
    Inv n (base s) /\ forall w, w < n -> began s w <= now (base s) /\ forall y, In y (timers s w) -> ok_t s w (fst y).

  (** what a worker's step does to it *)
  Lemma ok_same s s' w D : ok_t s w D -> workers (base s') w = workers (base s) w -> now (base s') = now (base s) -> began s' w = began s w -> ended s' w = ended s w -> ok_t s' w D.
  Proof. intros H H1 H2 H3 H4. unfold ok_t in *. rewrite H1, H2, H3, H4. exact H. Qed.
  Ltac same s := match goal with |- ok_t _ _ _ => apply (ok_same s); auto; cbn; rewrite ?upd_other by auto; auto end.
  Ltac other s v w := unfold ok_t; cbn; unfold upd; destruct (Nat.eqb_spec v w).

  Lemma SInv_base s e b : SInv s -> allowed s e = true -> step n (base s) e = Some b ->
    SInv (SSt b (timers s) (match e with WTake w _ => upd (began s) w (now b) | _ => began s end) (match e with WFinish w => upd (ended s) w (now b) | _ => ended s end)).
  Proof.
    intros [HI H] Ha Hs. pose proof (Inv_step n _ _ _ HI Hs) as HI'. split; [exact HI'|]. cbn. pose proof HI as (H1 & _). unfold step in Hs. destruct e as [x|[v|]| | |v|v|v x|v|v d|v|v|d]; intros w Hw; destruct (H w Hw) as [Hb Ht].
    - destruct (is_stopped (base s)); [discriminate|]. injection Hs as <-. split; [exact Hb|]. intros y Hy. same s.
    - destruct (notify (base s)); [discriminate|]. destruct ((v <? n) && asleep (workers (base s) v)) eqn:E; [|discriminate]. injection Hs as <-. split; [exact Hb|]. intros y Hy. specialize (Ht y Hy).
      other s w v; [|exact Ht]. subst. intros HD. unfold ok_t in Ht. specialize (H1 v Hw). destruct (workers (base s) v); try (cbn in E; rewrite andb_false_r in E; discriminate). cbn in H1. left. lia.
    - destruct (notify (base s)); [discriminate|]. destruct (forallb _ _); [|discriminate]. injection Hs as <-. split; [exact Hb|]. intros y Hy. same s.
    - destruct (is_stopped (base s)); [discriminate|]. injection Hs as <-. split; [exact Hb|]. intros y Hy. same s.
    - destruct (notify_all (base s)); [|discriminate]. injection Hs as <-. split; [exact Hb|]. intros y Hy. specialize (Ht y Hy). unfold ok_t in *. cbn. specialize (H1 w Hw).
      destruct (workers (base s) w) eqn:Ew; cbn; auto. cbn in H1. intros HD. left. lia.
    - destruct ((v <? n) && negb (is_stopped (base s))); [|discriminate]. destruct (workers (base s) v) eqn:Ev; try discriminate. injection Hs as <-. split; [exact Hb|]. intros y Hy. specialize (Ht y Hy).
      other s w v; [|exact Ht]. subst. cbn in Ha. apply negb_true_iff, not_true_iff_false in Ha. destruct (lt_dec (now (base s)) (fst y)); [auto|]. exfalso. apply Ha. apply existsb_exists. exists y. split; [exact Hy|]. unfold due. apply Nat.leb_le. lia.
    - destruct ((v <? n) && is_stopped (base s)); [|discriminate]. destruct (workers (base s) v) eqn:Ev; try discriminate. injection Hs as <-. split; [exact Hb|]. intros y Hy. specialize (Ht y Hy). other s w v; [exact I|exact Ht].
    - destruct ((v <? n) && in_queue x (queue (base s))); [|discriminate]. destruct (workers (base s) v) eqn:Ev; try discriminate. injection Hs as <-. cbn. split.
      + unfold upd. destruct (Nat.eqb_spec w v); lia.
      + intros y Hy. specialize (Ht y Hy). other s w v; [|exact Ht]. subst. unfold ok_t in Ht. rewrite Ev in Ht. lia.
    - destruct (v <? n); [|discriminate]. destruct (workers (base s) v) as [|snap| |u| |] eqn:Ev; try discriminate. destruct (existsb _ _); [discriminate|]. injection Hs as <-. split; [exact Hb|]. intros y Hy. specialize (Ht y Hy).
      other s w v; [|exact Ht]. subst. unfold ok_t in Ht. rewrite Ev in Ht. destruct (is_stopped (base s)); [exact I|exact Ht].
    - destruct ((v <? n) && (d <=? latch)); [|discriminate]. destruct (workers (base s) v) eqn:Ev; try discriminate. injection Hs as <-. split; [exact Hb|]. intros y Hy. specialize (Ht y Hy).
      other s w v; [|exact Ht]. subst. cbn in Ha. rewrite forallb_forall in Ha. specialize (Ha y Hy). apply Nat.leb_le in Ha. exact Ha.
    - destruct (v <? n); [|discriminate]. destruct (workers (base s) v) eqn:Ev; try discriminate. injection Hs as <-. split; [exact Hb|]. intros y Hy. specialize (Ht y Hy).
      other s w v; [|exact Ht]. subst. unfold ok_t in Ht. rewrite Ev in Ht. specialize (H1 v Hw). rewrite Ev in H1. cbn in H1. intros HD. left. lia.
    - destruct (v <? n); [|discriminate]. destruct (workers (base s) v) eqn:Ev; try discriminate. injection Hs as <-. split; [exact Hb|]. intros y Hy. specialize (Ht y Hy).
      other s w v; [|exact Ht]. subst. unfold ok_t in Ht. rewrite Ev in Ht. intros HD. right. auto.
    - destruct (_ && _) eqn:E; [|discriminate]. injection Hs as <-. cbn. split; [lia|]. intros y Hy. specialize (Ht y Hy). unfold ok_t in *. cbn.
      apply andb_true_iff in E as [E _]. apply andb_true_iff in E as [E _]. rewrite forallb_forall in E. specialize (E w ltac:(apply in_seq; lia)). destruct (workers (base s) w); cbn in E; try discriminate; auto.
  Qed.

  Lemma SInv_step s e s' : SInv s -> sstep s e = Some s' -> SInv s'.
  Proof.
    intros HI Hs. destruct e as [e|v d x|v y]; unfold sstep in Hs.
    - destruct (allowed s e) eqn:Ea; [|discriminate]. destruct (step n (base s) e) as [b|] eqn:Es; [|discriminate]. injection Hs as <-. now apply SInv_base.
    - destruct (v <? n); [|discriminate]. destruct (workers (base s) v) eqn:Ev; try discriminate. injection Hs as <-. destruct HI as [HI H]. split; [exact HI|]. intros w Hw. destruct (H w Hw) as [Hb Ht]. split; [exact Hb|].
      cbn. intros y Hy. unfold upd in Hy. destruct (Nat.eqb_spec w v); [subst|apply (ok_same s); auto]. apply in_app_iff in Hy as [Hy|[<-|[]]]; [apply (ok_same s); auto|]. unfold ok_t. cbn. rewrite Ev. lia.
    - destruct ((v <? n) && due (now (base s)) y && in_queue y (timers s v)) eqn:E; [|discriminate]. destruct (workers (base s) v) eqn:Ev; try discriminate.
      destruct (step n (base s) (EEnqueue (snd y))) as [b|] eqn:Es; [|discriminate]. injection Hs as <-. pose proof (SInv_base s (EEnqueue (snd y)) b HI eq_refl Es) as [H1 H2]. split; [exact H1|].
      intros w Hw. destruct (H2 w Hw) as [Hb Ht]. split; [exact Hb|]. cbn in Ht |- *. intros z Hz. unfold upd in Hz. destruct (Nat.eqb_spec w v); [subst; apply remove1_incl in Hz|]; specialize (Ht z Hz); exact Ht.
  Qed.
  Lemma SInv_run l s : run sstep sinit l = Some s -> SInv s.
  Proof.
    apply (run_inv _ SInv); [intros; eapply SInv_step; eauto|]. split; [|cbn; intros w _; split; [lia|contradiction]]. split; [intros; exact I|]. split; cbn; [intros x T []|discriminate].
  Qed.

  (** the histories of Idle.v are those of this model without the timers: its theorems apply *)
  Definition of_base (e : sevent) : list event := match e with Base e => [e] | SFire _ y => [EEnqueue (snd y)] | SSleep _ _ _ => [] end.
  Lemma base_run l s s' : run sstep s l = Some s' -> run (step n) (base s) (concat (map of_base l)) = Some (base s').
  Proof.
    revert s. induction l as [|e l IH]; intros s Hr; cbn -[step] in Hr |- *; [injection Hr as <-; reflexivity|].
    destruct (sstep s e) as [s1|] eqn:Es; [|discriminate]. specialize (IH s1 Hr). destruct e as [e|v d x|v y]; unfold sstep in Es; cbn [of_base app].
    - destruct (allowed s e); [|discriminate]. destruct (step n (base s) e) as [b|] eqn:Eb; [|discriminate]. injection Es as <-. cbn -[step]. rewrite Eb. exact IH.
    - destruct (v <? n); [|discriminate]. destruct (workers (base s) v); try discriminate. injection Es as <-. exact IH.
    - destruct (_ && _); [|discriminate]. destruct (workers (base s) v); try discriminate. destruct (step n (base s) (EEnqueue (snd y))) as [b|] eqn:Eb; [|discriminate]. injection Es as <-. cbn -[step]. rewrite Eb. exact IH.
  Qed.
End Sleepers.

(** C115: a sleeping coroutine is handed back to the scheduler at its deadline if there is an idle worker.

    False: the timers are per worker. While the worker on which the coroutine went to sleep executes another task, nobody looks at its timer, however many other workers are idle
    and for however long: here for any number of half seconds, with the other worker looking for work in between. *)
Definition idle_round (w : nat) : list sevent := [Base (WWake w); Base (WBegin w); Base (WNone w); Base (WGoSleep w 500); Base (ETick 500)].
Lemma idle_round_run s : workers (base s) 0 = WBusy -> workers (base s) 1 = WSleep (now (base s)) -> queue (base s) = [] -> stopped (base s) = None ->
  notify (base s) = 0 -> notify_all (base s) = false -> timers s 1 = [] ->
  exists s', run (sstep 2) s (idle_round 1) = Some s' /\ workers (base s') 0 = WBusy /\ workers (base s') 1 = WSleep (now (base s')) /\ queue (base s') = [] /\ stopped (base s') = None /\
  notify (base s') = 0 /\ notify_all (base s') = false /\ timers s' = timers s /\ now (base s') = now (base s) + 500.
Proof.
  destruct s as [[t q ws st nf na] tm b e]. cbn [base workers now queue stopped notify notify_all timers]. intros H0 H1 -> -> -> -> H2.
  set (w1 := upd ws 1 WTop). set (w2 := upd w1 1 (WScan [])). set (w3 := upd w2 1 WEmpty). set (w4 := upd w3 1 (WSleep (t + 500))).
  assert (E1 : sstep 2 (SSt (St t [] ws None 0 false) tm b e) (Base (WWake 1)) = Some (SSt (St t [] w1 None 0 false) tm b e)) by (cbn; rewrite H1; reflexivity).
  assert (E2 : sstep 2 (SSt (St t [] w1 None 0 false) tm b e) (Base (WBegin 1)) = Some (SSt (St t [] w2 None 0 false) tm b e)) by (cbn; rewrite H2; cbn; reflexivity).
  assert (E3 : sstep 2 (SSt (St t [] w2 None 0 false) tm b e) (Base (WNone 1)) = Some (SSt (St t [] w3 None 0 false) tm b e)) by reflexivity.
  assert (E4 : sstep 2 (SSt (St t [] w3 None 0 false) tm b e) (Base (WGoSleep 1 500)) = Some (SSt (St t [] w4 None 0 false) tm b e)).
  { unfold sstep, allowed, step. cbn [base timers]. rewrite H2. reflexivity. }
  assert (E5 : sstep 2 (SSt (St t [] w4 None 0 false) tm b e) (Base (ETick 500)) = Some (SSt (St (t + 500) [] w4 None 0 false) tm b e)).
  { unfold sstep, allowed, step. cbn [base now workers notify notify_all seq forallb]. replace (w4 0) with WBusy by (symmetry; exact H0). change (w4 1) with (WSleep (t + 500)). unfold at_rest. rewrite Nat.leb_refl. reflexivity. }
  exists (SSt (St (t + 500) [] w4 None 0 false) tm b e). split; [|repeat split; auto].
  unfold idle_round. cbn [run]. rewrite E1. cbn [run]. rewrite E2. cbn [run]. rewrite E3. cbn [run]. rewrite E4. cbn [run]. rewrite E5. reflexivity.
Qed.
Theorem C115_busy_worker_refuted : forall k, exists s,
  run (sstep 2) sinit ([Base (WBegin 0); Base (WBegin 1); Base (WNone 1); Base (WGoSleep 1 500); Base (EEnqueue 1); Base (ENotify (Some 1)); Base (WBegin 1);
                        Base (EEnqueue 2); Base (ENotify None); Base (WTake 0 (1, 0)); SSleep 0 1 1; Base (WFinish 0); Base (WBegin 0); Base (WTake 0 (2, 0));
                        Base (WNone 1); Base (WGoSleep 1 500); Base (ETick 500)]
                       ++ concat (repeat (idle_round 1) k)) = Some s /\
  now (base s) = 500 + k * 500 /\ timers s 0 = [(1, 1)] /\ workers (base s) 0 = WBusy /\ workers (base s) 1 = WSleep (500 + k * 500) /\ queue (base s) = [].
Proof.
  intros k. 
  match goal with |- exists s, run _ _ (?l ++ _) = _ /\ _ => destruct (run_proj_ok (sstep 2) (fun s => (now (base s), timers s 0, timers s 1, workers (base s) 0, workers (base s) 1, queue (base s), stopped (base s), notify (base s), notify_all (base s)))
    sinit l (500, [(1, 1)], [], WBusy, WSleep 500, [], None, 0, false) ltac:(vm_compute; reflexivity)) as (s0 & Hr & Hp) end.
  injection Hp as P1 P2 P3 P4 P5 P6 P7 P8 P9. rewrite (run_app _ _ _ _ _ Hr).
  assert (H : exists s, run (sstep 2) s0 (concat (repeat (idle_round 1) k)) = Some s /\ workers (base s) 0 = WBusy /\ workers (base s) 1 = WSleep (now (base s)) /\ queue (base s) = [] /\ stopped (base s) = None /\
    notify (base s) = 0 /\ notify_all (base s) = false /\ timers s = timers s0 /\ now (base s) = 500 + k * 500).
  { rewrite <- P1 in P5. clear Hr. revert s0 P1 P2 P3 P4 P5 P6 P7 P8 P9. enough (G : forall c s0, now (base s0) = c -> timers s0 1 = [] -> workers (base s0) 0 = WBusy -> workers (base s0) 1 = WSleep (now (base s0)) -> queue (base s0) = [] -> stopped (base s0) = None ->
      notify (base s0) = 0 -> notify_all (base s0) = false -> exists s, run (sstep 2) s0 (concat (repeat (idle_round 1) k)) = Some s /\ workers (base s) 0 = WBusy /\ workers (base s) 1 = WSleep (now (base s)) /\ queue (base s) = [] /\ stopped (base s) = None /\
      notify (base s) = 0 /\ notify_all (base s) = false /\ timers s = timers s0 /\ now (base s) = c + k * 500) by (intros; now apply G).
    induction k as [|k IH]; intros c s0 P1 P3 P4 P5 P6 P7 P8 P9.
    - exists s0. split; [reflexivity|]. repeat split; auto; lia.
    - destruct (idle_round_run s0 P4 P5 P6 P7 P8 P9 P3) as (s1 & R & Q1 & Q2 & Q3 & Q4 & Q5 & Q6 & Q7 & Q8). change (concat (repeat (idle_round 1) (S k))) with (idle_round 1 ++ concat (repeat (idle_round 1) k)).
      rewrite (run_app _ _ _ _ _ R). destruct (IH (c + 500) s1) as (s & R' & F1 & F2 & F3 & F4 & F5 & F6 & F7 & F8); auto; [lia|rewrite Q7; auto|]. exists s. split; [exact R'|]. repeat split; auto; [congruence|lia]. }
  destruct H as (s & R & F1 & F2 & F3 & F4 & F5 & F6 & F7 & F8). exists s. split; [exact R|]. rewrite F7, <- F8. repeat split; auto.
Qed.
Print Assumptions C115_busy_worker_refuted.

(** What holds. As long as no quick_stop() was called: if the deadline of a sleeping coroutine has passed, the worker on which it went to sleep has been executing one and the same task ever since the deadline
    (or earlier), or has just finished it and is about to poll; it is not asleep, not about to go to sleep and not looking for other work. *)
Lemma ended_stopped n l s w : run (step n) init l = Some s -> workers s w = WEnded -> stopped s <> None.
Proof.
  intros Hr. revert w. revert Hr. apply (run_inv (step n) (fun s => forall w, workers s w = WEnded -> stopped s <> None)); [|cbn; discriminate]. clear l s.
  intros s e s' H Hs w Hw. unfold step in Hs. destruct e as [x|[v|]| | |v|v|v x|v|v d|v|v|d].
  - destruct (is_stopped s); [discriminate|]. injection Hs as <-. eapply H; eauto.
  - destruct (notify s); [discriminate|]. destruct (_ && _); [|discriminate]. injection Hs as <-. cbn in *. unfold upd in Hw. destruct (Nat.eqb_spec w v); [discriminate|eapply H; eauto].
  - destruct (notify s); [discriminate|]. destruct (forallb _ _); [|discriminate]. injection Hs as <-. eapply H; eauto.
  - destruct (is_stopped s); [discriminate|]. injection Hs as <-. cbn. discriminate.
  - destruct (notify_all s); [|discriminate]. injection Hs as <-. cbn in *. destruct (asleep (workers s w)); [discriminate|eapply H; eauto].
  - destruct (_ && _); [|discriminate]. destruct (workers s v); try discriminate. injection Hs as <-. cbn in *. unfold upd in Hw. destruct (Nat.eqb_spec w v); [discriminate|eapply H; eauto].
  - destruct (v <? n); [|discriminate]. cbn in Hs. destruct (is_stopped s) eqn:E; [|discriminate]. destruct (workers s v); try discriminate. injection Hs as <-. cbn in *. unfold is_stopped in E. destruct (stopped s); [discriminate|discriminate].
  - destruct (_ && _); [|discriminate]. destruct (workers s v); try discriminate. injection Hs as <-. cbn in *. unfold upd in Hw. destruct (Nat.eqb_spec w v); [discriminate|eapply H; eauto].
  - destruct (v <? n); [|discriminate]. destruct (workers s v); try discriminate. destruct (existsb _ _); [discriminate|]. injection Hs as <-. cbn in *. unfold upd in Hw. destruct (Nat.eqb_spec w v); [|eapply H; eauto].
    destruct (is_stopped s) eqn:E; [|discriminate]. unfold is_stopped in E. destruct (stopped s); discriminate.
  - destruct (_ && _); [|discriminate]. destruct (workers s v); try discriminate. injection Hs as <-. cbn in *. unfold upd in Hw. destruct (Nat.eqb_spec w v); [discriminate|eapply H; eauto].
  - destruct (v <? n); [|discriminate]. destruct (workers s v); try discriminate. injection Hs as <-. cbn in *. unfold upd in Hw. destruct (Nat.eqb_spec w v); [discriminate|eapply H; eauto].
  - destruct (v <? n); [|discriminate]. destruct (workers s v); try discriminate. injection Hs as <-. cbn in *. unfold upd in Hw. destruct (Nat.eqb_spec w v); [discriminate|eapply H; eauto].
  - destruct (_ && _); [|discriminate]. injection Hs as <-. eapply H; eauto.
Qed.
Theorem C115_overdue_only_while_busy_partial : forall n l s w D x,
  run (sstep n) sinit l = Some s -> stopped (base s) = None -> w < n -> In (D, x) (timers s w) -> D < now (base s) ->
  began s w <= D /\ (workers (base s) w = WBusy \/ (workers (base s) w = WTop /\ ended s w = now (base s))).
Proof.
  intros n l s w D x Hr Hst Hw Hin HD. destruct (SInv_run n l s Hr) as [(I1 & _) I2]. destruct (I2 w Hw) as [_ Ht]. specialize (Ht _ Hin). unfold ok_t in Ht. cbn in Ht. specialize (I1 w Hw).
  destruct (workers (base s) w) eqn:Ew; cbn in I1; try lia.
  - destruct Ht as [Ht|Ht]; [lia|lia|]. split; [apply Ht|right]. split; [reflexivity|apply Ht].
  - split; auto.
  - exfalso. apply (ended_stopped n _ _ w (base_run n l sinit s Hr)) in Ew. congruence.
Qed.
Print Assumptions C115_overdue_only_while_busy_partial.

(** When such a worker is at the head of its loop it polls first: it does not look for work, nor does time pass, before the coroutine is handed over; *)
Theorem C115_poll_before_anything_partial : forall n l s w D x,
  run (sstep n) sinit l = Some s -> stopped (base s) = None -> w < n -> In (D, x) (timers s w) -> D <= now (base s) -> workers (base s) w = WTop ->
  (exists s', sstep n s (SFire w (D, x)) = Some s' /\ In (x, now (base s)) (queue (base s'))) /\ sstep n s (Base (WBegin w)) = None /\ forall d, 0 < d -> sstep n s (Base (ETick d)) = None.
Proof.
  intros n l s w D x Hr Hst Hw Hin HD Ew. unfold sstep. split; [|split].
  - destruct (Nat.ltb_spec w n); [|lia]. unfold due. cbn [fst]. destruct (Nat.leb_spec D (now (base s))); [|lia]. replace (in_queue (D, x) (timers s w)) with true by (symmetry; now apply in_queue_ok). cbn [andb].
    rewrite Ew. unfold step, is_stopped. rewrite Hst. eexists. split; [reflexivity|]. cbn. apply in_app_iff. right. left. reflexivity.
  - unfold allowed. replace (existsb (due (now (base s))) (timers s w)) with true; [reflexivity|]. symmetry. apply existsb_exists. exists (D, x). split; [auto|]. now apply Nat.leb_le.
  - intros d Hd. cbn [allowed]. unfold step. replace (forallb (fun v => at_rest (now (base s) + d) (workers (base s) v)) (seq 0 n)) with false; [reflexivity|]. symmetry. apply not_true_iff_false. rewrite forallb_forall. intros Hf.
    specialize (Hf w ltac:(apply in_seq; lia)). rewrite Ew in Hf. discriminate.
Qed.
Print Assumptions C115_poll_before_anything_partial.
(** never before its deadline; late only if its worker executed one and the same task from the deadline (or before) until now; *)
Theorem C115_fired_in_time_partial : forall n l s w D x s',
  run (sstep n) sinit l = Some s -> sstep n s (SFire w (D, x)) = Some s' ->
  D <= now (base s) /\ (D < now (base s) -> began s w <= D /\ ended s w = now (base s)) /\ queue (base s') = queue (base s) ++ [(x, now (base s))] /\ now (base s') = now (base s).
Proof.
  intros n l s w D x s' Hr Hs. unfold sstep in Hs. destruct (Nat.ltb_spec w n) as [Hw|]; [|discriminate]. cbn [andb] in Hs. destruct (due (now (base s)) (D, x)) eqn:Ed; [|discriminate]. cbn [andb] in Hs.
  destruct (in_queue (D, x) (timers s w)) eqn:Eq; [|discriminate]. apply in_queue_ok in Eq. destruct (workers (base s) w) eqn:Ew; try discriminate.
  unfold step in Hs. destruct (is_stopped (base s)); [discriminate|]. injection Hs as <-. apply Nat.leb_le in Ed. cbn in Ed. split; [exact Ed|]. split; [|split; reflexivity].
  intros HD. destruct (SInv_run n l s Hr) as [_ I2]. destruct (I2 w Hw) as [_ Ht]. specialize (Ht _ Eq). unfold ok_t in Ht. rewrite Ew in Ht. cbn in Ht. destruct (Ht Ed); [lia|auto].
Qed.
Print Assumptions C115_fired_in_time_partial.
(** and once handed over it waits at most another half second for an idle worker (C110 applies to these histories too). *)
Theorem C115_then_half_a_second_partial : forall n l s x T w,
  run (sstep n) sinit l = Some s -> In (x, T) (queue (base s)) -> T + 500 < now (base s) -> w < n ->
  match workers (base s) w with WSleep _ | WEmpty => False | _ => True end.
Proof. intros n l s x T w Hr. apply (C110_no_worker_sleeps_over_a_task n _ (base s) x T w (base_run n l sinit s Hr)). Qed.
Print Assumptions C115_then_half_a_second_partial.
Example C115_case : exists s, run (sstep 2) sinit [Base (EEnqueue 1); Base (ENotify None); Base (WBegin 0); Base (WTake 0 (1, 0)); SSleep 0 300 1; Base (WFinish 0); Base (WBegin 0); Base (WNone 0); Base (WGoSleep 0 300);
    Base (WBegin 1); Base (WNone 1); Base (WGoSleep 1 500); Base (ETick 300); Base (WWake 0); SFire 0 (300, 1); Base (ENotify (Some 1)); Base (WBegin 1); Base (WTake 1 (1, 300)); Base (WBegin 0); Base (WNone 0); Base (WGoSleep 0 500); Base (ETick 7)] = Some s /\
  (now (base s), timers s 0, queue (base s), workers (base s) 0, workers (base s) 1) = (307, [], [], WSleep 800, WBusy).
Proof. apply run_proj_ok with (f := fun s => (now (base s), timers s 0, queue (base s), workers (base s) 0, workers (base s) 1)). vm_compute. reflexivity. Qed.
