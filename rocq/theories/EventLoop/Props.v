From Coq Require Import List Arith Bool Lia.
From Verif.Common Require Import TS.
From Verif.EventLoop Require Import Model Spec Proofs.
Import ListNotations.

(** C32: after any interleaving of thread starts and add_loop calls, each loop was prepared exactly once for each started thread
    and for no other. *)
Theorem C32_prepared_exactly_once : forall l s, run unext uinit l = Some s ->
  forall lp t, cnt lp t (prepared s) = if memb lp (loops s) && memb t (attrs s) then 1 else 0.
Proof.
  intros l s Hr. assert (H : UInv s).
  { refine (run_inv unext UInv _ l uinit s _ Hr); [intros; eapply uinv_next; eauto|]. split; cbn; auto; constructor. }
  apply H.
Qed.
Print Assumptions C32_prepared_exactly_once.
Theorem C32_no_ub_while_workers_live : forall l s, run unext uinit l = Some s -> (forall t, ~ In (UExit t) l) -> uub s = false.
Proof.
  intros l s Hr Hn.
  assert (K : uub s = false /\ exited s = []).
  { refine (run_inv_cond unext (fun _ e => forall t, e <> UExit t) (fun s => uub s = false /\ exited s = []) _ l uinit s _ _ Hr).
    - intros s0 e s1 [H1 H2] HP. unfold unext. rewrite H1. destruct e; cbn.
      + destruct (memb t (attrs s0)); [discriminate|]. intros E; inversion E; auto.
      + destruct (memb l0 (loops s0)); [discriminate|]. intros E; inversion E; subst; cbn. rewrite H2. split; [|auto].
        induction (attrs s0); cbn; auto.
      + intros E; inversion E; auto.
      + destruct (HP t eq_refl).
    - auto.
    - clear -Hn. revert Hn. generalize uinit. induction l as [|e l IH]; cbn; intros s0 Hn; [exact I|]. split.
      + intros t ->. apply (Hn t). now left.
      + intros s1 _. apply IH. intros t Ht. apply (Hn t). now right. }
  apply K.
Qed.
Print Assumptions C32_no_ub_while_workers_live.
(** C32 refuted once a worker has ended: its attribute object is gone but still referenced. *)
Theorem C74_add_loop_after_worker_exit_refuted : exists s,
  run unext uinit [UPrep 1; UStop; UExit 1; UAdd 5] = Some s /\ uub s = true.
Proof. apply run_proj_ok. vm_compute. reflexivity. Qed.
Print Assumptions C74_add_loop_after_worker_exit_refuted.
Example C32_case : exists s, run unext uinit [UAdd 10; UPrep 1; UAdd 11; UPrep 2] = Some s /\
  (prepared s, uub s) = ([(10,2); (11,2); (11,1); (10,1)], false).
Proof. apply run_proj_ok with (f := fun s => (prepared s, uub s)). vm_compute. reflexivity. Qed.

(** C84 refuted: a loop added after stop() is accepted but never told to stop. *)
Theorem C84_added_after_stop_refuted : exists s,
  run unext uinit [UPrep 1; UAdd 4; UStop; UAdd 5] = Some s /\
  (uub s, stop_called s, memb 5 (loops s), memb 5 (ustopped s)) = (false, true, true, false).
Proof. apply run_proj_ok with (f := fun s => (uub s, stop_called s, memb 5 (loops s), memb 5 (ustopped s))). vm_compute. reflexivity. Qed.
Print Assumptions C84_added_after_stop_refuted.
(** C55: in every history, a loop has received stop() exactly if stop() was called at some time after the loop was added. *)
Lemma loops_mono s e s' lp : unext s e = Some s' ->
  (In lp (loops s') <-> In lp (loops s) \/ e = UAdd lp) /\
  (In lp (ustopped s') <-> In lp (ustopped s) \/ (e = UStop /\ In lp (loops s))).
Proof.
  unfold unext. destruct (uub s); [discriminate|].
  destruct e as [t|l|  |t]; cbn;
    repeat match goal with |- context [if ?b then _ else _] => destruct b eqn:?; try discriminate end;
    intros E; inversion E; subst; clear E; cbn; (split; [|]); rewrite ?in_app_iff; cbn; split; intros H;
    repeat match goal with
      | H : _ \/ _ |- _ => destruct H
      | H : _ /\ _ |- _ => destruct H
      | H : UAdd _ = UAdd _ |- _ => inversion H; clear H; subst
      | H : False |- _ => destruct H
      | H : _ = _ |- _ => try discriminate H; subst; cbn in *
    end; auto.
Qed.
Theorem C55_registered_are_stopped : forall l s lp, run unext uinit l = Some s ->
  (In lp (ustopped s) <-> exists l1 l2 l3, l = l1 ++ UAdd lp :: l2 ++ UStop :: l3).
Proof.
  assert (A : forall l s lp, run unext uinit l = Some s -> (In lp (loops s) <-> In (UAdd lp) l)).
  { intros l. induction l as [|e l IH] using rev_ind; intros s lp R.
    - inversion R; subst; cbn. tauto.
    - apply run_app_inv in R. destruct R as (s1 & R1 & R). cbn in R.
      destruct (unext s1 e) as [s2|] eqn:E; [|discriminate]. inversion R; subst. clear R.
      destruct (loops_mono _ _ _ lp E) as [H _]. rewrite H, (IH s1 lp R1), in_app_iff. cbn. intuition congruence. }
  intros l. induction l as [|e l IH] using rev_ind; intros s lp R.
  - inversion R; subst; cbn. split; [tauto|]. intros (l1 & l2 & l3 & E). destruct l1; discriminate.
  - apply run_app_inv in R. destruct R as (s1 & R1 & R). cbn in R.
    destruct (unext s1 e) as [s2|] eqn:E; [|discriminate]. inversion R; subst. clear R.
    destruct (loops_mono _ _ _ lp E) as [_ H]. rewrite H, (IH s1 lp R1), (A _ _ lp R1). split.
    + intros [(l1 & l2 & l3 & ->)|(-> & I)].
      * exists l1, l2, (l3 ++ [e]). rewrite <- app_assoc. cbn. rewrite <- app_assoc. reflexivity.
      * apply in_split in I. destruct I as (l1 & l2 & ->). exists l1, l2, []. rewrite <- app_assoc. reflexivity.
    + intros (l1 & l2 & l3 & Q). destruct l3 as [|x l3 _] using rev_ind.
      * assert (X : l ++ [e] = (l1 ++ UAdd lp :: l2) ++ [UStop]) by (rewrite Q, <- app_assoc; reflexivity).
        apply app_inj_tail in X. destruct X as [-> ->]. right. split; [reflexivity|]. apply in_or_app; right; left; reflexivity.
      * assert (X : l ++ [e] = (l1 ++ UAdd lp :: l2 ++ UStop :: l3) ++ [x])
          by (rewrite Q, <- app_assoc; cbn; rewrite <- app_assoc; reflexivity).
        apply app_inj_tail in X. destruct X as [-> ->]. left. exists l1, l2, l3. reflexivity.
Qed.
Print Assumptions C55_registered_are_stopped.
(** loops 4 and 5 are added before stop(), 6 after it *)
Example C55_case : exists s, run unext uinit [UPrep 1; UAdd 4; UPrep 2; UAdd 5; UStop; UAdd 6] = Some s /\ (memb 4 (ustopped s), memb 5 (ustopped s), memb 6 (ustopped s)) = (true, true, false).
Proof. apply run_proj_ok with (f := fun s => (memb 4 (ustopped s), memb 5 (ustopped s), memb 6 (ustopped s))). vm_compute. reflexivity. Qed.

(** C33: a polling round polls every component loop once, in order, whatever the answers; it answers true iff some loop did. *)
Theorem C33_polls_every_loop : forall Wd (lps : list (Wd -> bool * Wd)) w,
  snd (fst (do_occured_nonblk lps w)) = seq 0 (length lps) /\
  fst (fst (do_occured_nonblk lps w)) = existsb (fun b => b) (answers lps w).
Proof. intros Wd lps w. split; [apply (poll_from_polled lps 0 false [] w)|apply (poll_from_result lps 0 false [] w)]. Qed.
Print Assumptions C33_polls_every_loop.
(** C33: the user loops: all of them in order, with the disjunction of their answers, until quick_stop(); afterwards none is touched. *)
Theorem C33_user_loops : forall Wd (lps : list (@loop Wd)) w,
  (snd (fst (user_do_occured_nonblk false lps w)) = seq 0 (length lps) /\
   fst (fst (user_do_occured_nonblk false lps w)) = existsb (fun b => b) (answers lps w)) /\
  user_do_occured_nonblk true lps w = (false, [], w).
Proof. intros. split; [|reflexivity]. unfold user_do_occured_nonblk. apply C33_polls_every_loop. Qed.
Print Assumptions C33_user_loops.
Example C33_poll_case : do_occured_nonblk [fun w => (true, S w); fun w => (false, S w); fun w => (Nat.eqb w 2, w)] 0 = (true, [0;1;2], 2).
Proof. reflexivity. Qed.

(** C33: the idle time computed for a worker of one event loop is the minimum of what all component loops allow it, under every
    interleaving of its workers. *)
Theorem C33_sleep_is_minimum : forall k p pool ans l s w r,
  (forall w, pool w = p) -> run (snext k pool ans) sinit l = Some s -> spc s w = SDone r ->
  match r with
  | Some m => (exists i, i < k /\ m = ans i w) /\ forall i, i < k -> m <= ans i w
  | None => k = 0
  end.
Proof.
  intros k p pool ans l s w r HP Hr Hw.
  assert (H : SInv k ans p s).
  { refine (run_inv (snext k pool ans) (SInv k ans p) _ l sinit s (sinv_init k ans p) Hr). intros; eapply sinv_next; eauto. }
  assert (El : lock s p = Some w).
  { destruct H. destruct (lock s p) as [v|] eqn:El; [|rewrite s_idle in Hw; [discriminate|congruence]].
    destruct (Nat.eq_dec v w); [now subst|]. rewrite s_idle in Hw; [discriminate|congruence]. }
  pose proof (s_busy _ _ _ _ H w El) as B. rewrite Hw in B. destruct r as [m|].
  - symmetry in B. apply min_of_spec in B as [B1 B2]. apply in_map_iff in B1 as (i & E & Hi). apply in_seq in Hi. split.
    + exists i. split; [lia|auto].
    + intros j Hj. apply B2. apply in_map_iff. exists j. split; [auto|]. apply in_seq. lia.
  - symmetry in B. apply min_of_none in B. destruct k; [reflexivity|discriminate].
Qed.
Print Assumptions C33_sleep_is_minimum.
(** C33 refuted for two event loops of the same type in one process: they share the vector but not the lock; worker 2 is told to sleep
    longer than its loop 1 allows. *)
Definition ans2 (i w : nat) : nat := if (i =? 1) && (w =? 2) then 1 else 1000.
Theorem C75_two_event_loops_refuted : exists s,
  run (snext 2 (fun w => w) ans2) sinit
    [SLock 1; SLock 2; SClear 2; SPushNext 2; SPushNext 2; SClear 1; SPushNext 1; SMin 2] = Some s /\
  spc s 2 = SDone (Some 1000) /\ ans2 1 2 = 1.
Proof.
  destruct (run_proj_ok (snext 2 (fun w => w) ans2) (fun s => spc s 2) sinit
    [SLock 1; SLock 2; SClear 2; SPushNext 2; SPushNext 2; SClear 1; SPushNext 1; SMin 2] (SDone (Some 1000))) as (s & H1 & H2).
  - vm_compute. reflexivity.
  - exists s. repeat split; auto.
Qed.
Print Assumptions C75_two_event_loops_refuted.
Example C33_sleep_case : exists s, run (snext 3 (fun _ => 0) (fun i w => 10 * w + (5 - i))) sinit
   [SLock 1; SClear 1; SPushNext 1; SPushNext 1; SPushNext 1; SMin 1] = Some s /\ spc s 1 = SDone (Some 13).
Proof. apply run_proj_ok with (f := fun s => spc s 1). vm_compute. reflexivity. Qed.

(** C33, user loops: the minimum of their answers and 10 s (in ms) *)
Theorem C33_user_loops_sleep : forall l,
  user_max_sleep l <= Nat.pow 10 4 /\ (forall a, In a l -> user_max_sleep l <= a) /\ (In (user_max_sleep l) l \/ user_max_sleep l = Nat.pow 10 4).
Proof. exact user_max_sleep_spec. Qed.
Print Assumptions C33_user_loops_sleep.

(** C33: once stop() was called no event is accepted any more ... *)
Theorem C33_refused_after_stop : forall l s s', run anext ainit l = Some s -> In AStop l -> anext s AAdd = Some s' ->
  accepted s' = accepted s /\ refused s' = S (refused s).
Proof.
  intros l s s' Hr Hin. assert (Hc : cleanning s = true).
  { revert Hr Hin. generalize ainit as s0. induction l as [|e l IH]; cbn; intros s0 Hr Hin; [destruct Hin|].
    destruct Hin as [->|Hin].
    - cbn in Hr. set (s1 := {| cleanning := true; quick := quick s0; accepted := accepted s0; refused := refused s0 |}) in *.
      assert (H1 : cleanning s1 = true) by reflexivity. clearbody s1. clear -Hr H1. revert s1 H1 Hr.
      induction l as [|e l IH]; cbn; intros s1 H1 Hr; [inversion Hr; now subst|]. destruct e; cbn in Hr; rewrite ?H1 in Hr;
        (eapply IH; [|exact Hr]); cbn; auto.
    - destruct (anext s0 e) eqn:E; [|discriminate]. eauto. }
  cbn. rewrite Hc. intros E; inversion E; auto.
Qed.
Print Assumptions C33_refused_after_stop.
(** ... before it, every event is. *)
Theorem C33_accepted_until_stop : forall l s, run anext ainit l = Some s -> ~ In AStop l -> refused s = 0 /\ exists s', anext s AAdd = Some s' /\ accepted s' = S (accepted s) /\ refused s' = 0.
Proof.
  intros l s Hr Hn. assert (Hc : cleanning s = false /\ refused s = 0).
  { assert (G : forall l s0, cleanning s0 = false /\ refused s0 = 0 -> run anext s0 l = Some s -> ~ In AStop l -> cleanning s = false /\ refused s = 0).
    { clear. induction l as [|e l IH]; cbn [run]; intros s0 H0 Hr Hn; [injection Hr as <-; exact H0|]. destruct (anext s0 e) as [s1|] eqn:E; [|discriminate].
      apply (IH s1); [|exact Hr|intros X; apply Hn; now right]. destruct H0 as [H0 H1]. destruct e; cbn in E; [exfalso; apply Hn; now left| |rewrite H0 in E]; injection E as <-; split; auto. }
    apply (G l ainit); auto. }
  destruct Hc as [Hc Hf]. split; [exact Hf|]. eexists. cbn [anext]. rewrite Hc. split; [reflexivity|]. split; [reflexivity|exact Hf].
Qed.
Print Assumptions C33_accepted_until_stop.
(** ... but quick_stop() does not close the door at this level. *)
Theorem C75_accepted_after_quick_stop_refuted : exists s,
  run anext ainit [AQuickStop; AAdd] = Some s /\ (quick s, accepted s, refused s) = (true, 1, 0).
Proof. apply run_proj_ok with (f := fun s => (quick s, accepted s, refused s)). reflexivity. Qed.
Print Assumptions C75_accepted_after_quick_stop_refuted.
