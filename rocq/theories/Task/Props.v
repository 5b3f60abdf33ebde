From Coq Require Import List Arith Bool Lia.
From Verif.Common Require Import TS.
From Verif.Task Require Import Model Spec Proofs.
Import ListNotations.

(** C17, for programs that stick to [allowed]: no undefined behaviour (no double destroy, no resume of a running or destroyed
    coroutine, no null handle) and no terminate, for every finite program. *)
Theorem C17_no_ub : forall l s,
  run_all next allowed init l -> run next init l = Some s -> ub s = false /\ terminated s = false.
Proof. intros l s HA Hr. pose proof (inv_run l s HA Hr) as H. split; apply H. Qed.
Print Assumptions C17_no_ub.

(** C17: every coroutine body is entered at most once, every frame destroyed at most once; a frame that is alive was not
    destroyed. *)
Theorem C17_started_and_destroyed_at_most_once : forall l s f,
  run_all next allowed init l -> run next init l = Some s ->
  starts s f <= 1 /\ destroys s f <= 1 /\ (destroys s f = 1 <-> frames s f = Some FGone).
Proof.
  intros l s f HA Hr. pose proof (i_cnt _ _ (inv_run l s HA Hr) f) as H.
  destruct (frames s f) as [[]|]; repeat split; try lia; try discriminate; reflexivity.
Qed.
Print Assumptions C17_started_and_destroyed_at_most_once.

(** C17: a suspended frame has exactly one owner (a user handle, a task object or a closure queued in the scheduler),
    so none leaks; a running or destroyed frame has none. *)
Theorem C17_exactly_one_owner : forall l s f,
  run_all next allowed init l -> run next init l = Some s ->
  match frames s f with
  | Some FNew | Some FSusp => exists i, owns s i f /\ forall j, owns s j f -> j = i
  | _ => forall i, ~ owns s i f
  end.
Proof.
  intros l s f HA Hr. pose proof (inv_run l s HA Hr) as H.
  assert (P : parked (frames s f) -> exists i, owns s i f /\ forall j, owns s j f -> j = i).
  { intros Hp. destruct (i_leak _ _ H f Hp) as [E|[i Hi]]; [discriminate|]. exists i. split; [now apply owns_own|].
    intros j Hj. apply owns_own in Hj. exact (i_uniq _ _ H _ _ _ Hj Hi). }
  assert (N : ~ parked (frames s f) -> forall i, ~ owns s i f).
  { intros Hn i Hi. apply owns_own in Hi. apply Hn. exact (i_park _ _ H _ _ Hi). }
  unfold parked in *. destruct (frames s f) as [[]|]; auto; apply N; intros [E|E]; discriminate E.
Qed.
Print Assumptions C17_exactly_one_owner.

(** C17: once all objects are gone, every frame that was created and is not running right now is destroyed, exactly once. *)
Theorem C17_no_leak : forall l s f,
  run_all next allowed init l -> run next init l = Some s ->
  (forall i, objs s i = None) -> frames s f <> None -> frames s f <> Some FRun -> destroys s f = 1.
Proof.
  intros l s f HA Hr Hn H1 H2. pose proof (C17_exactly_one_owner l s f HA Hr) as Ho.
  pose proof (C17_started_and_destroyed_at_most_once l s f HA Hr) as (_ & _ & Hd).
  destruct (frames s f) as [[]|]; try congruence; try (now apply Hd);
    destruct Ho as (i & (o & Eo & _) & _); rewrite Hn in Eo; discriminate.
Qed.
Print Assumptions C17_no_leak.

Definition case17 :=
  [ENewLazy 0 0;      (* a lazy task *)
   EMove 1 0; EKill 0;
   ERun 1 2;          (* run(): closure 2 *)
   EWork 2;           (* the body starts *)
   ENewEager 3 1;     (* ... and calls an eager coroutine *)
   ESuspend 1 4;      (* which suspends into an event loop *)
   EAwait 3 5;        (* the first coroutine awaits it *)
   ESuspend 0 6;
   EMove 7 4; EKill 4; EWakeUp 7 8; EKill 7; EWork 8; EFinish 1;
   EAssign 6 6;       (* self assignment drops the coroutine *)
   EKill 3; EKill 1; EKill 6].
Example C17_case : run_all next allowed init case17 /\
  exists s, run next init case17 = Some s /\
    (Nat.eqb (starts s 0) 1 && Nat.eqb (starts s 1) 1 && Nat.eqb (destroys s 0) 1 && Nat.eqb (destroys s 1) 1)%bool = true.
Proof.
  split; [apply (run_allb_ok _ allowedb); [apply allowedb_ok|]; vm_compute; reflexivity|].
  apply run_check_ok. vm_compute. reflexivity.
Qed.

(** C17 refuted in general: run() twice on a lazy task before it completed is undefined behaviour (the second call
    assumes a handle that was given to the scheduler). *)
Theorem C70_run_twice_refuted : exists s,
  run next init [ENewLazy 0 0; ERun 0 1; ERun 0 2] = Some s /\ ub s = true.
Proof. apply run_check_ok. vm_compute. reflexivity. Qed.
Print Assumptions C70_run_twice_refuted.
(** run() on a moved-from lazy task, too *)
Theorem C70_run_moved_from_refuted : exists s,
  run next init [ENewLazy 0 0; EMove 1 0; ERun 0 2] = Some s /\ ub s = true.
Proof. apply run_check_ok. vm_compute. reflexivity. Qed.
Print Assumptions C70_run_moved_from_refuted.
(** and calling a moved-from task_on_the_fly resumes the coroutine it no longer owns: here one that has already run to its end. *)
Theorem C70_call_moved_from_refuted : exists s,
  run next init [ENewLazy 0 0; ETake 1 0; EMove 2 1; ECall 2; EFinish 0; ECall 1] = Some s /\ ub s = true.
Proof. apply run_check_ok. vm_compute. reflexivity. Qed.
Print Assumptions C70_call_moved_from_refuted.

(** C18: all callers, all interleavings: nobody gets a task that is not the one stored; two callers never both get it; as soon as
    one caller returned and none is between its compare-exchange and its return, exactly one got it. *)
Theorem C18_at_most_one_gets_it : forall f l s c d g h,
  run rstep (rinit f) l = Some s -> pcs s c = RDone (Some g) -> pcs s d = RDone (Some h) -> c = d /\ g = f.
Proof.
  intros f l s c d g h Hr Hc Hd. pose proof (rinv_run f l s Hr) as H. unfold RInv in H. destruct (valid s).
  - destruct H as [_ H]. rewrite H in Hc. discriminate.
  - destruct H as (w & H1 & H2).
    assert (Ec : c = w) by (destruct (Nat.eq_dec c w); [auto|destruct (H1 c n); congruence]).
    assert (Ed : d = w) by (destruct (Nat.eq_dec d w); [auto|destruct (H1 d n); congruence]).
    subst. split; [reflexivity|]. destruct H2 as [[H2 _]|[H2 H3]]; congruence.
Qed.
Print Assumptions C18_at_most_one_gets_it.

Theorem C18_exactly_one_gets_it : forall f l s c g,
  run rstep (rinit f) l = Some s -> pcs s c = RDone g -> (forall d, pcs s d <> RWon) ->
  exists w, pcs s w = RDone (Some f) /\ forall d, d <> w -> pcs s d = RIdle \/ pcs s d = RDone None.
Proof.
  intros f l s c g Hr Hc Hn. pose proof (rinv_run f l s Hr) as H. unfold RInv in H. destruct (valid s).
  - destruct H as [_ H]. rewrite H in Hc. discriminate.
  - destruct H as (w & H1 & H2). exists w. destruct H2 as [[H2 _]|[H2 H3]]; [destruct (Hn _ H2)|auto].
Qed.
Print Assumptions C18_exactly_one_gets_it.

(** C18: a caller that lost knows immediately that another caller has won or is about to return the task. *)
Theorem C18_winner_exists : forall f l s c,
  run rstep (rinit f) l = Some s -> pcs s c = RDone None ->
  exists w, w <> c /\ (pcs s w = RWon \/ pcs s w = RDone (Some f)).
Proof.
  intros f l s c Hr Hc. pose proof (rinv_run f l s Hr) as H. unfold RInv in H. destruct (valid s).
  - destruct H as [_ H]. rewrite H in Hc. discriminate.
  - destruct H as (w & H1 & H2). exists w. split; [intros ->; destruct H2 as [[H2 _]|[H2 H3]]; congruence|].
    destruct H2 as [[H2 _]|[H2 H3]]; auto.
Qed.
Print Assumptions C18_winner_exists.

(** C18: the task has one owner at every moment: the object itself until the winner took it, then the winner and no longer the object
    (so destroying the object afterwards does not destroy the task). *)
Theorem C18_one_owner : forall f l s,
  run rstep (rinit f) l = Some s ->
  (slot s = fresh_handle f /\ forall c, pcs s c <> RDone (Some f)) \/
  (holds (slot s) = false /\ exists c, pcs s c = RDone (Some f)).
Proof.
  intros f l s Hr. pose proof (rinv_run f l s Hr) as H. unfold RInv in H. destruct (valid s).
  - destruct H as [H1 H2]. left. split; [exact H1|]. intros c. rewrite H2. discriminate.
  - destruct H as (w & H1 & [[H2 H3]|[H2 H3]]).
    + left. split; [exact H3|]. intros c. destruct (Nat.eq_dec c w) as [->|n]; [congruence|]. destruct (H1 c n); congruence.
    + right. eauto.
Qed.
Print Assumptions C18_one_owner.

Example C18_case : exists s, run rstep (rinit 7) [RCas 3; RCas 1; RMove 3; RCas 2] = Some s /\
  pcs s 3 = RDone (Some 7) /\ pcs s 1 = RDone None /\ pcs s 2 = RDone None.
Proof. eexists. split; [reflexivity|]. repeat split. Qed.

(** C50 refuted: from every state with a running coroutine, an awaiter whose await_suspend throws (a timer or IO awaited
    while the event loop refuses events) leads to undefined behaviour. *)
Theorem C50_await_on_stopping_loop_refuted : forall s f,
  ub s = false -> terminated s = false -> frames s f = Some FRun ->
  exists s', next s (ESuspendThrow f) = Some s' /\ ub s' = true /\ frames s' f = Some FGone.
Proof.
  intros s f H1 H2 H3. unfold next, step. rewrite H1, H2, H3. eexists. split; [reflexivity|]. cbn. now rewrite upd_same.
Qed.
Print Assumptions C50_await_on_stopping_loop_refuted.
Example C50_case : exists s, run next init [ENewEager 0 0] = Some s /\
  (negb (ub s) && negb (terminated s) && match frames s 0 with Some FRun => true | _ => false end)%bool = true.
Proof. apply run_check_ok. vm_compute. reflexivity. Qed.

(** C51 refuted: after quick_stop(), every wake-up of an owned coroutine terminates the process. *)
Theorem C51_wake_up_after_quick_stop_refuted : forall s i q f,
  ub s = false -> terminated s = false -> stop_now s = true -> objs s q = None ->
  objs s i = Some (OTof (fresh_handle f)) ->
  exists s', next s (EWakeUp i q) = Some s' /\ terminated s' = true.
Proof.
  intros s i q f H1 H2 H3 H4 H5. unfold next, step. rewrite H1, H2, H4, H5. cbn.
  unfold enqueue. cbn. rewrite H3. eexists. split; reflexivity.
Qed.
Print Assumptions C51_wake_up_after_quick_stop_refuted.
(** ... so does starting any lazy task *)
Theorem C51_run_after_quick_stop_refuted : exists s,
  run next init [EQuickStop; ENewLazy 0 0; ERun 0 1] = Some s /\ terminated s = true.
Proof. apply run_check_ok. vm_compute. reflexivity. Qed.
Print Assumptions C51_run_after_quick_stop_refuted.
Theorem C51_no_terminate_without_quick_stop_partial : forall l s,
  run_all next allowed init l -> run next init l = Some s -> terminated s = false.
Proof. intros l s HA Hr. exact (proj2 (C17_no_ub l s HA Hr)). Qed.
Print Assumptions C51_no_terminate_without_quick_stop_partial.
Example C51_case : exists s, run next init [ENewEager 0 0; ESuspend 0 1; EQuickStop] = Some s /\
  (negb (ub s) && negb (terminated s) && stop_now s && is_none (objs s 2) &&
   match objs s 1 with Some (OTof (H (Some 0) true)) => true | _ => false end)%bool = true.
Proof. apply run_check_ok. vm_compute. reflexivity. Qed.
