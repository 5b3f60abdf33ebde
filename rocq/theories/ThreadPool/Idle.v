(** Timed model of idle workers. src/thread_pool.cc 36-54 (stop, quick_stop: request, then notify_all without the lock), 72-100 (the loop of a worker: done, poll, dequeue,
    done, sleep at most 500 ms), 121-133 (done); include/koios/thread_pool.h 132-135 (wake_up), 173-189 (enqueue, then notify_one without the lock).

    Time is in milliseconds. Time passes only while every worker is asleep or executing a task and no notification is outstanding: all other steps
    are taken to be instantaneous. A task is a number with the time of its enqueueing. A scan of the queues is not atomic (C14): it takes some task, or nothing if
    none of the tasks that were there when it began is still there. How long a worker sleeps (at most 500 ms) is chosen by the environment: the loops' max_sleep_duration.
    Wake-ups may be spurious. A notification reaches workers that are asleep at that moment, nobody else. *)
From Coq Require Import List Arith Bool Lia.
From Verif.Common Require Import TS.
Import ListNotations.

(* waiting_latch, thread_pool.cc 80 *)
Definition latch := 500.
(* where a worker is in consumer(), thread_pool.cc 72-100 *)
Inductive wpc :=
| WTop                                 (* 72 *)
| WScan (snap : list (nat * nat))      (* inside dequeue *)
| WEmpty                               (* 78: not yet asleep *)
| WSleep (until : nat)                 (* 98 *)
| WBusy                                (* 104 *)
| WEnded.
(* what the state keeps of thread_pool.cc 36-54, 72-100, 121-133, thread_pool.h 132-135, 173-189 *)
Record state := St {
  now : nat;
  queue : list (nat * nat);            (* task, time it was enqueued *)
  workers : nat -> wpc;
  stopped : option nat;                (* time of quick_stop() *)
  notify : nat;                        (* notify_one calls that are due *)
  notify_all : bool }.

Section Idle.
  Variable n : nat.
  (* before anything has happened; thread_pool.cc 36-54, 72-100, 121-133, thread_pool.h 132-135, 173-189 *)
  Definition init : state := St 0 [] (fun _ => WTop) None 0 false.
  Inductive event :=
  | EEnqueue (x : nat)
  | ENotify (w : option nat)           (* notify_one: wakes sleeping worker w; None: nobody sleeps *)
  | EQuickStop | ENotifyAll
  | WBegin (w : nat)                   (* 72-75: not done, start to look for a task *)
  | WQuit (w : nat)                    (* 72, 77 *)
  | WTake (w : nat) (x : nat * nat)    (* 75, 101-104 *)
  | WNone (w : nat)                    (* 75-77 *)
  | WGoSleep (w : nat) (d : nat)       (* 78-98 *)
  | WWake (w : nat)                    (* timeout or spurious *)
  | WFinish (w : nat)                  (* the task returns or suspends *)
  | ETick (d : nat).

  (* bookkeeping of the model, no counterpart in /repo *)
  Definition set_w s w x := St (now s) (queue s) (upd (workers s) w x) (stopped s) (notify s) (notify_all s).
  (* bookkeeping of the model, no counterpart in /repo *)
  Definition eq_task (a b : nat * nat) : bool := (fst a =? fst b) && (snd a =? snd b).
  (* bookkeeping of the model, no counterpart in /repo *)
  Fixpoint remove1 (x : nat * nat) (l : list (nat * nat)) : list (nat * nat) :=
    match l with [] => [] | y :: l' => if eq_task x y then l' else y :: remove1 x l' end.
  (* bookkeeping of the model, no counterpart in /repo *)
  Definition in_queue (x : nat * nat) (l : list (nat * nat)) : bool := existsb (eq_task x) l.
  (* in m_cond.wait_for, thread_pool.cc 98 *)
  Definition asleep (p : wpc) : bool := match p with WSleep _ => true | _ => false end.
  (* time may pass: environment, not code of /repo *)
  Definition at_rest (t : nat) (p : wpc) : bool := match p with WSleep u => t <=? u | WBusy | WEnded => true | _ => false end.
  (* the stop token, thread_pool.cc 121-128 *)
  Definition is_stopped (s : state) : bool := match stopped s with Some _ => true | None => false end.

  (* what each step does: thread_pool.cc 36-54, 72-100, 121-133, thread_pool.h 132-135, 173-189 *)
  Definition step (s : state) (e : event) : option state :=
    match e with
    | EEnqueue x => if is_stopped s then None                                           (* throws *)
                    else Some (St (now s) (queue s ++ [(x, now s)]) (workers s) (stopped s) (S (notify s)) (notify_all s))
    | ENotify (Some w) => match notify s with
                          | S k => if (w <? n) && asleep (workers s w) then Some (St (now s) (queue s) (upd (workers s) w WTop) (stopped s) k (notify_all s)) else None
                          | O => None
                          end
    | ENotify None => match notify s with
                      | S k => if forallb (fun w => negb (asleep (workers s w))) (seq 0 n) then Some (St (now s) (queue s) (workers s) (stopped s) k (notify_all s)) else None
                      | O => None
                      end
    | EQuickStop => if is_stopped s then None else Some (St (now s) (queue s) (workers s) (Some (now s)) (notify s) true)
    | ENotifyAll => if notify_all s then Some (St (now s) (queue s) (fun w => if asleep (workers s w) then WTop else workers s w) (stopped s) (notify s) false) else None
    | WBegin w => if (w <? n) && negb (is_stopped s) then match workers s w with WTop => Some (set_w s w (WScan (queue s))) | _ => None end else None
    | WQuit w => if (w <? n) && is_stopped s then match workers s w with WTop => Some (set_w s w WEnded) | _ => None end else None
    | WTake w x => if (w <? n) && in_queue x (queue s) then
                     match workers s w with WScan _ => Some (St (now s) (remove1 x (queue s)) (upd (workers s) w WBusy) (stopped s) (notify s) (notify_all s)) | _ => None end
                   else None
    | WNone w => if w <? n then
                   match workers s w with
                   | WScan snap => if existsb (fun x => in_queue x (queue s)) snap then None
                                   else Some (set_w s w (if is_stopped s then WEnded else WEmpty))
                   | _ => None
                   end
                 else None
    | WGoSleep w d => if (w <? n) && (d <=? latch) then match workers s w with WEmpty => Some (set_w s w (WSleep (now s + d))) | _ => None end else None
    | WWake w => if w <? n then match workers s w with WSleep _ => Some (set_w s w WTop) | _ => None end else None
    | WFinish w => if w <? n then match workers s w with WBusy => Some (set_w s w WTop) | _ => None end else None
    | ETick d => if forallb (fun w => at_rest (now s + d) (workers s w)) (seq 0 n) && (notify s =? 0) && negb (notify_all s)
                 then Some (St (now s + d) (queue s) (workers s) (stopped s) (notify s) (notify_all s)) else None
    end.

  (** ** the invariant *)
  Definition ok_w (s : state) (p : wpc) : Prop :=
    match p with
    | WScan snap => (forall x T, In (x, T) (queue s) -> In (x, T) snap \/ T = now s) /\ (forall R, stopped s = Some R -> R = now s)
    | WEmpty => (forall x T, In (x, T) (queue s) -> T = now s) /\ (forall R, stopped s = Some R -> R = now s)
    | WSleep u => now s <= u <= now s + latch /\ (forall x T, In (x, T) (queue s) -> u <= T + latch) /\ (forall R, stopped s = Some R -> u <= R + latch)
    | _ => True
    end.
  Definition Inv (s : state) : Prop := (forall w, w < n -> ok_w s (workers s w)) /\ (forall x T, In (x, T) (queue s) -> T <= now s) /\ (forall R, stopped s = Some R -> R <= now s).

  Lemma eq_task_ok a b : eq_task a b = true <-> a = b.
  Proof. destruct a as [a1 a2], b as [b1 b2]. unfold eq_task. cbn. rewrite andb_true_iff, !Nat.eqb_eq. split; [intros [-> ->]; reflexivity|intros H; injection H; auto]. Qed.
  Lemma in_queue_ok x l : in_queue x l = true <-> In x l.
  Proof. unfold in_queue. rewrite existsb_exists. split; [intros (y & Hy & E); apply eq_task_ok in E; now subst|intros H; exists x; split; [auto|now apply eq_task_ok]]. Qed.
  Lemma remove1_incl x l y : In y (remove1 x l) -> In y l.
  Proof. induction l as [|z l IH]; cbn; [auto|]. destruct (eq_task x z); [auto|]. intros [H|H]; auto. Qed.

  Lemma ok_mono s s' p : ok_w s p -> now s' = now s -> stopped s' = stopped s -> (forall y, In y (queue s') -> In y (queue s)) -> ok_w s' p.
  Proof.
    intros H H1 H2 H3. destruct p; cbn in *; auto; rewrite ?H1, ?H2.
    - destruct H as [Ha Hb]. split; [intros x T Hx; apply (Ha x T); auto|exact Hb].
    - destruct H as [Ha Hb]. split; [intros x T Hx; apply (Ha x T); auto|exact Hb].
    - destruct H as (Ha & Hb & Hc). split; [exact Ha|split; [intros x T Hx; apply (Hb x T); auto|exact Hc]].
  Qed.

  Lemma set_w_inv s w p : Inv s -> ok_w s p -> Inv (set_w s w p).
  Proof.
    intros (H1 & H2 & H3) Hp. split; [|split; auto]. intros v Hv. cbn. unfold upd. destruct (Nat.eqb_spec v w).
    - apply (ok_mono s); auto.
    - apply (ok_mono s); auto. 
  Qed.

  Lemma Inv_step s e s' : Inv s -> step s e = Some s' -> Inv s'.
  Proof.
    intros HI Hs. pose proof HI as (H1 & H2 & H3). unfold step in Hs. destruct e as [x|[w|]| | |w|w|w x|w|w d|w|w|d].
    - destruct (is_stopped s) eqn:Est; [discriminate|]. injection Hs as <-. assert (Hns : stopped s = None) by (unfold is_stopped in Est; destruct (stopped s); [discriminate|reflexivity]).
      split; [|split]; cbn.
      + intros w Hw. specialize (H1 w Hw). destruct (workers s w) as [|snap| |u| |]; cbn in *; auto; rewrite Hns.
        * split; [|discriminate]. intros y T Hy. apply in_app_iff in Hy as [Hy|[Hy|[]]]; [apply (proj1 H1); auto|injection Hy; auto].
        * split; [|discriminate]. intros y T Hy. apply in_app_iff in Hy as [Hy|[Hy|[]]]; [apply (proj1 H1 y); auto|injection Hy; auto].
        * destruct H1 as (Ha & Hb & Hc). split; [lia|split; [|discriminate]]. intros y T Hy. apply in_app_iff in Hy as [Hy|[Hy|[]]]; [eauto|]. injection Hy as <- <-. lia.
      + intros y T Hy. apply in_app_iff in Hy as [Hy|[Hy|[]]]; [eauto|injection Hy; lia].
      + exact H3.
    - destruct (notify s) as [|k]; [discriminate|]. destruct ((w <? n) && asleep (workers s w)); [|discriminate]. injection Hs as <-. split; [|split; auto].
      intros v Hv. cbn. unfold upd. destruct (Nat.eqb_spec v w); [exact I|]. apply (ok_mono s); auto.
    - destruct (notify s) as [|k]; [discriminate|]. destruct (forallb _ _); [|discriminate]. injection Hs as <-. split; [|split; auto].
      intros v Hv. cbn. apply (ok_mono s); auto.
    - destruct (is_stopped s) eqn:Est; [discriminate|]. injection Hs as <-. split; [|split; auto]; cbn.
      + intros w Hw. specialize (H1 w Hw). destruct (workers s w) as [|snap| |u| |]; cbn in *; auto.
        * split; [apply H1|]. intros R HR. injection HR; auto.
        * split; [apply H1|]. intros R HR. injection HR; auto.
        * destruct H1 as (Ha & Hb & Hc). split; [exact Ha|split; [exact Hb|]]. intros R HR. injection HR as <-. lia.
      + intros R HR. injection HR; lia.
    - destruct (notify_all s); [|discriminate]. injection Hs as <-. split; [|split; auto]. intros v Hv. cbn. specialize (H1 v Hv).
      destruct (asleep (workers s v)); [exact I|]. apply (ok_mono s); auto.
    - destruct ((w <? n) && negb (is_stopped s)) eqn:E; [|discriminate]. destruct (workers s w); try discriminate. injection Hs as <-. apply set_w_inv; auto. cbn. split; [auto|].
      intros R HR. unfold is_stopped in E. rewrite HR in E. rewrite andb_false_r in E. discriminate.
    - destruct ((w <? n) && is_stopped s); [|discriminate]. destruct (workers s w); try discriminate. injection Hs as <-. apply set_w_inv; auto. exact I.
    - destruct ((w <? n) && in_queue x (queue s)); [|discriminate]. destruct (workers s w); try discriminate. injection Hs as <-. split; [|split]; cbn.
      + intros v Hv. unfold upd. destruct (Nat.eqb_spec v w); [exact I|]. apply (ok_mono s); auto. cbn. apply remove1_incl.
      + intros y T Hy. apply remove1_incl in Hy. eauto.
      + exact H3.
    - destruct (Nat.ltb_spec w n) as [Hw|]; [|discriminate]. specialize (H1 w Hw). destruct (workers s w) as [|snap| |u| |]; try discriminate.
      destruct (existsb (fun x => in_queue x (queue s)) snap) eqn:Ex; [discriminate|]. injection Hs as <-. apply set_w_inv; auto.
      destruct (is_stopped s); [exact I|]. cbn in H1 |- *. split; [|apply H1]. intros x T Hx. destruct H1 as [H1 _]. destruct (H1 x T Hx) as [Hsn|]; auto.
      exfalso. apply not_true_iff_false in Ex. apply Ex. apply existsb_exists. exists (x, T). split; [auto|now apply in_queue_ok].
    - destruct (Nat.ltb_spec w n) as [Hw|]; [|discriminate]. destruct (Nat.leb_spec d latch) as [Hd|]; [|discriminate]. cbn in Hs. specialize (H1 w Hw). destruct (workers s w) as [|snap| |u| |]; try discriminate.
      injection Hs as <-. apply set_w_inv; auto. cbn in H1 |- *. destruct H1 as [Ha Hb]. split; [lia|split; [intros x T Hx; rewrite (Ha x T Hx); lia|intros R HR; rewrite (Hb R HR); lia]].
    - destruct (w <? n); [|discriminate]. destruct (workers s w); try discriminate. injection Hs as <-. apply set_w_inv; auto. exact I.
    - destruct (w <? n); [|discriminate]. destruct (workers s w); try discriminate. injection Hs as <-. apply set_w_inv; auto. exact I.
    - destruct (forallb (fun w => at_rest (now s + d) (workers s w)) (seq 0 n)) eqn:Ef; [|discriminate]. destruct ((notify s =? 0) && negb (notify_all s)) eqn:En; [|rewrite <- andb_assoc, En in Hs; discriminate].
      rewrite <- andb_assoc, En in Hs. injection Hs as <-. rewrite forallb_forall in Ef. split; [|split]; cbn.
      + intros w Hw. specialize (H1 w Hw). assert (Hr := Ef w ltac:(apply in_seq; lia)). cbn in Hr. destruct (workers s w) as [|snap| |u| |]; cbn in *; auto; try discriminate.
        apply Nat.leb_le in Hr. destruct H1 as (Ha & Hb & Hc). split; [lia|split; [exact Hb|exact Hc]].
      + intros x T Hx. specialize (H2 x T Hx). lia.
      + intros R HR. specialize (H3 R HR). lia.
  Qed.
  Lemma Inv_run l s : run step init l = Some s -> Inv s.
  Proof. apply (run_inv _ Inv); [intros; eapply Inv_step; eauto|]. split; [intros; exact I|]. split; cbn; [intros x T []|discriminate]. Qed.
End Idle.

(** C110: half a second after it was enqueued, a task that is still waiting finds every worker at work: nobody is asleep or about to go to sleep. *)
Theorem C110_no_worker_sleeps_over_a_task : forall n l s x T w,
  run (step n) init l = Some s -> In (x, T) (queue s) -> T + 500 < now s -> w < n ->
  match workers s w with WSleep _ | WEmpty => False | _ => True end.
Proof.
  intros n l s x T w Hr Hx Ht Hw. destruct (Inv_run n l s Hr) as (H1 & _). specialize (H1 w Hw). destruct (workers s w) as [|snap| |u| |]; cbn in H1; auto.
  - destruct H1 as [H1 _]. specialize (H1 x T Hx). lia.
  - destruct H1 as (H1 & H2 & _). specialize (H2 x T Hx). unfold latch in H2. lia.
Qed.
Print Assumptions C110_no_worker_sleeps_over_a_task.
(** Whoever looks for a task then gets one: looking cannot come out empty. *)
Theorem C110_who_looks_finds : forall n l s x T w,
  run (step n) init l = Some s -> In (x, T) (queue s) -> T < now s -> step n s (WNone w) = None.
Proof.
  intros n l s x T w Hr Hx Ht. destruct (Inv_run n l s Hr) as (H1 & _). unfold step. destruct (Nat.ltb_spec w n) as [Hw|]; [|reflexivity].
  specialize (H1 w Hw). destruct (workers s w) as [|snap| |u| |]; try reflexivity. cbn in H1. destruct H1 as [H1 _]. destruct (H1 x T Hx) as [Hs|]; [|lia].
  replace (existsb (fun x0 => in_queue x0 (queue s)) snap) with true; [reflexivity|]. symmetry. apply existsb_exists. exists (x, T). split; [auto|now apply in_queue_ok].
Qed.
Print Assumptions C110_who_looks_finds.
(** C110: a sleeping worker is woken at once. Between an enqueue() and the next moment a notify_one was made, and it woke a sleeping worker if one slept all the while. *)
Lemma notified n l : forall s s' d s'', run (step n) s l = Some s' -> step n s' (ETick d) = Some s'' -> 0 < notify s ->
  run_all (step n) (fun s _ => exists w, w < n /\ asleep (workers s w) = true) s l -> exists w, w < n /\ In (ENotify (Some w)) l.
Proof.
  induction l as [|e l IH]; intros s s' d s'' HR Ht Hn HA; cbn [run] in HR.
  - injection HR as ->. unfold step in Ht. destruct (notify s') as [|k]; [lia|]. cbn [Nat.eqb] in Ht. rewrite andb_false_r in Ht. discriminate.
  - destruct (step n s e) as [s1|] eqn:E; [|discriminate]. cbn [run_all] in HA. destruct HA as [(w & Hw & Hs) HA]. specialize (HA s1 E).
    assert (Hd : (exists v, e = ENotify (Some v) /\ v < n) \/ 0 < notify s1).
    { destruct e as [x|[v|]| | |v|v|v x|v|v d0|v|v|d0]; unfold step in E.
      - destruct (is_stopped s); [discriminate|]. injection E as <-. right. cbn. lia.
      - destruct (notify s); [discriminate|]. destruct (Nat.ltb_spec v n); [|discriminate]. left. eauto.
      - destruct (notify s); [discriminate|]. destruct (forallb _ _) eqn:Ef; [|discriminate]. rewrite forallb_forall in Ef.
        specialize (Ef w ltac:(apply in_seq; lia)). rewrite Hs in Ef. discriminate.
      - destruct (is_stopped s); [discriminate|]. injection E as <-. right. exact Hn.
      - destruct (Idle.notify_all s); [|discriminate]. injection E as <-. right. exact Hn.
      - destruct (_ && _); [|discriminate]. destruct (workers s v); try discriminate. injection E as <-. right. exact Hn.
      - destruct (_ && _); [|discriminate]. destruct (workers s v); try discriminate. injection E as <-. right. exact Hn.
      - right. destruct (_ && _); [|discriminate]. destruct (workers s v) as [|snap| |u| |]; try discriminate. injection E as <-. exact Hn.
      - right. destruct (v <? n); [|discriminate]. destruct (workers s v) as [|snap| |u| |]; try discriminate. destruct (existsb _ _); [discriminate|]. injection E as <-. exact Hn.
      - right. destruct (_ && _); [|discriminate]. destruct (workers s v) as [|snap| |u| |]; try discriminate. injection E as <-. exact Hn.
      - right. destruct (v <? n); [|discriminate]. destruct (workers s v) as [|snap| |u| |]; try discriminate. injection E as <-. exact Hn.
      - right. destruct (v <? n); [|discriminate]. destruct (workers s v) as [|snap| |u| |]; try discriminate. injection E as <-. exact Hn.
      - destruct (notify s); [lia|]. cbn [Nat.eqb] in E. rewrite andb_false_r in E. discriminate. }
    destruct Hd as [(v & -> & Hv)|Hd]; [exists v; split; [exact Hv|now left]|].
    destruct (IH s1 s' d s'' HR Ht Hd HA) as (v & Hv & Hin). exists v. split; [exact Hv|now right].
Qed.
Theorem C110_enqueue_wakes_a_sleeper : forall n s x s1 l s2 d s3,
  step n s (EEnqueue x) = Some s1 -> run (step n) s1 l = Some s2 -> step n s2 (ETick d) = Some s3 ->
  run_all (step n) (fun s _ => exists w, w < n /\ asleep (workers s w) = true) s1 l -> exists w, w < n /\ In (ENotify (Some w)) l.
Proof.
  intros n s x s1 l s2 d s3 E HR Ht HA. refine (notified n l s1 s2 d s3 HR Ht _ HA). unfold step in E. destruct (is_stopped s); [discriminate|]. injection E as <-. cbn. lia.
Qed.
Print Assumptions C110_enqueue_wakes_a_sleeper.
(** What being woken is: a notified worker sleeps no more, and looks for a task before any time passes. *)
Theorem C110_a_woken_worker_looks : forall n s w s1, step n s (ENotify (Some w)) = Some s1 ->
  asleep (workers s w) = true /\ workers s1 w = WTop /\ (forall d, step n s1 (ETick d) = None) /\ queue s1 = queue s.
Proof.
  intros n s w s1 E. unfold step in E. destruct (notify s); [discriminate|]. destruct (Nat.ltb_spec w n) as [Hw|]; [|discriminate]. cbn [andb] in E.
  destruct (asleep (workers s w)) eqn:Ea; [|discriminate]. injection E as <-. cbn. rewrite upd_same. repeat split. intros d.
  match goal with |- context [forallb ?f ?l] => replace (forallb f l) with false; [reflexivity|] end.
  symmetry. apply not_true_iff_false. rewrite forallb_forall. intros Hf. specialize (Hf w ltac:(apply in_seq; lia)). cbn in Hf. rewrite upd_same in Hf. discriminate.
Qed.
Print Assumptions C110_a_woken_worker_looks.
Example C110_wake_case : exists s1 s2 s3, 
  run (step 2) init [WBegin 0; WBegin 1; WNone 0; WNone 1; WGoSleep 0 300; WGoSleep 1 300; ETick 5; EEnqueue 7] = Some s1 /\
  run (step 2) s1 [ENotify (Some 1); WBegin 1; WTake 1 (7, 5)] = Some s2 /\ step 2 s2 (ETick 10) = Some s3 /\ workers s2 1 = WBusy /\ asleep (workers s2 0) = true.
Proof. do 3 eexists. split; [vm_compute; reflexivity|]. split; [vm_compute; reflexivity|]. split; [vm_compute; reflexivity|]. split; reflexivity. Qed.

(** Not at once, though: the notification is lost if it falls between a worker's look at the queue and its sleep; then the task waits, with the only worker asleep, up to the full half second. *)
Theorem C110_immediately_refuted : forall d, d <= 500 -> exists s,
  run (step 1) init [WBegin 0; WNone 0; EEnqueue 7; ENotify None; WGoSleep 0 500; ETick d] = Some s /\
  queue s = [(7, 0)] /\ now s = d /\ workers s 0 = WSleep 500.
Proof.
  intros d Hd. assert (Hd' : (d <=? 500) = true) by now apply Nat.leb_le.
  exists (St d [(7, 0)] (upd (upd (upd (fun _ => WTop) 0 (WScan [])) 0 WEmpty) 0 (WSleep 500)) None 0 false).
  split; [|repeat split]. unfold run. 
  change (step 1 init (WBegin 0)) with (Some (set_w init 0 (WScan []))). cbv iota beta.
  change (step 1 (set_w init 0 (WScan [])) (WNone 0)) with (Some (set_w (set_w init 0 (WScan [])) 0 WEmpty)). cbv iota beta.
  set (s2 := set_w (set_w init 0 (WScan [])) 0 WEmpty).
  change (step 1 s2 (EEnqueue 7)) with (Some (St 0 [(7, 0)] (workers s2) None 1 false)). cbv iota beta.
  change (step 1 (St 0 [(7, 0)] (workers s2) None 1 false) (ENotify None)) with (Some (St 0 [(7, 0)] (workers s2) None 0 false)). cbv iota beta.
  assert (E : step 1 (St 0 [(7, 0)] (workers s2) None 0 false) (WGoSleep 0 500) = Some (St 0 [(7, 0)] (upd (workers s2) 0 (WSleep 500)) None 0 false)) by (vm_compute; reflexivity).
  rewrite E. unfold step. cbn [now workers notify notify_all]. cbn [seq forallb]. rewrite upd_same. unfold at_rest. rewrite Nat.add_0_l, Hd'. reflexivity.
Qed.
Print Assumptions C110_immediately_refuted.
Example C110_case : exists s, run (step 2) init [WBegin 0; WBegin 1; WNone 0; WGoSleep 0 300; EEnqueue 7; ENotify (Some 0); WTake 1 (7, 0); EEnqueue 8; ENotify None; WBegin 0; EEnqueue 9; ENotify None; WTake 0 (9, 0); ETick 600] = Some s /\
  (queue s, now s, workers s 0, workers s 1) = ([(8, 0)], 600, WBusy, WBusy).
Proof. apply run_proj_ok with (f := fun s => (queue s, now s, workers s 0, workers s 1)). vm_compute. reflexivity. Qed.

(** C111: half a second after quick_stop() (runtime_exit()) no worker is asleep: what still runs is executing a task. *)
Theorem C111_no_worker_sleeps_through_quick_stop : forall n l s R w,
  run (step n) init l = Some s -> stopped s = Some R -> R + 500 < now s -> w < n ->
  match workers s w with WBusy | WTop | WEnded => True | _ => False end.
Proof.
  intros n l s R w Hr HR Ht Hw. destruct (Inv_run n l s Hr) as (H1 & _). specialize (H1 w Hw). destruct (workers s w) as [|snap| |u| |]; cbn in H1; auto.
  - destruct H1 as [_ H1]. specialize (H1 R HR). lia.
  - destruct H1 as [_ H1]. specialize (H1 R HR). lia.
  - destruct H1 as (H1 & _ & H2). specialize (H2 R HR). unfold latch in H2. lia.
Qed.
Print Assumptions C111_no_worker_sleeps_through_quick_stop.
(** and a worker at the head of its loop ends at once: it takes no further task *)
Theorem C111_no_further_task : forall n l s R w,
  run (step n) init l = Some s -> stopped s = Some R -> w < n -> workers s w = WTop ->
  step n s (WBegin w) = None /\ step n s (ETick 1) = None /\ exists s', step n s (WQuit w) = Some s' /\ workers s' w = WEnded.
Proof.
  intros n l s R w Hr HR Hw He. unfold step, is_stopped. rewrite HR, He. destruct (Nat.ltb_spec w n); [|lia]. cbn [andb negb]. repeat split.
  - replace (forallb (fun w0 => at_rest (now s + 1) (workers s w0)) (seq 0 n)) with false; [reflexivity|]. symmetry. apply not_true_iff_false. rewrite forallb_forall. intros Hf.
    specialize (Hf w ltac:(apply in_seq; lia)). rewrite He in Hf. discriminate.
  - eexists. split; [reflexivity|]. cbn. apply upd_same.
Qed.
Print Assumptions C111_no_further_task.
(** Not at once either: *)
Theorem C111_at_once_refuted : exists s,
  run (step 1) init [WBegin 0; WNone 0; EQuickStop; ENotifyAll; WGoSleep 0 500; ETick 500] = Some s /\ (now s, stopped s, workers s 0) = (500, Some 0, WSleep 500).
Proof. apply run_proj_ok with (f := fun s => (now s, stopped s, workers s 0)). vm_compute. reflexivity. Qed.
Print Assumptions C111_at_once_refuted.
Example C111_case : exists s, run (step 2) init [WBegin 0; WBegin 1; WNone 0; WGoSleep 0 300; EEnqueue 7; ENotify (Some 0); WTake 1 (7, 0); EQuickStop; ENotifyAll; WQuit 0; ETick 501; WFinish 1] = Some s /\
  (stopped s, now s, workers s 0, workers s 1) = (Some 0, 501, WEnded, WTop).
Proof. apply run_proj_ok with (f := fun s => (stopped s, now s, workers s 0, workers s 1)). vm_compute. reflexivity. Qed.
