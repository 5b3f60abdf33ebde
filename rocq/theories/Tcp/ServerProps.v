(** Properties C37, C63, C64 (koios::tcp_server). *)
From Coq Require Import List Arith Bool Lia Permutation.
From Verif.Common Require Import TS ListX.
From Verif.Tcp Require Import Server.
Import ListNotations.
#[local] Arguments upd : simpl never.

(** C37, full statement for until_done: it completes only after stop() and only when all accept loops have finished. False
    of the code for every number of workers: called before the loops have begun to run, until_done returns at once, without
    stop() and with every loop still to come. *)
Theorem C89_until_done_waits_refuted :
  forall t, 1 <= t -> exists s, run (next t) init [EStart; EUntil 0; EUntilReady 0] = Some s /\
    untils s 0 = UDone /\ req s = false /\ forall i, i < t -> nth_error (loops s) i = Some Spawned.
Proof.
  intros t _. eexists. split; [reflexivity|]. cbn. rewrite upd_same. repeat split. intros i Hi.
  destruct (nth_error (repeat Spawned t) i) as [x|] eqn:E; [f_equal; eapply repeat_spec, nth_error_In; exact E|].
  apply nth_error_None in E. rewrite repeat_length in E. lia.
Qed.
Print Assumptions C89_until_done_waits_refuted.

(** Even after stop(), and with is_stop() reporting true: the loops begin later and use the server object. *)
Theorem C89_is_stop_before_loops_refuted :
  forall t, 1 <= t -> exists s, run (next t) init [EStart; EStop; EUntil 0; EBegin 0] = Some s /\
    untils s 0 = UDone /\ nth_error (loops s) 0 = Some Testing /\ count s = 1.
Proof.
  intros t Ht. destruct t as [|t]; [lia|]. eexists. split; [reflexivity|]. cbn. now rewrite upd_same.
Qed.
Print Assumptions C89_is_stop_before_loops_refuted.

(** C37, what holds of until_done: if it is called when every accept loop has begun, and the object is not moved after
    start(), then it completes only after stop() was called and every loop has finished, in every schedule. Missing: the start-up
    window above. (That it does complete is C07's business: wait_group can strand its waiter.) *)
Theorem C89_until_done_waits_partial :
  forall t l s, 1 <= t -> run_all (next t) late_until init l -> run (next t) init l = Some s ->
    forall u, untils s u = UDone -> req s = true /\ length (loops s) = t /\ all_ended s.
Proof.
  intros t l s Ht HP HR u Hu. pose proof (inv2_run t l s HP HR) as [[Il Ic Ie Ih] Hd Hb Hz].
  destruct Hb as [Hs Hb]; [exists u; congruence|]. rewrite Hs in Il. rewrite Hz in Ic by eauto.
  assert (HE : all_ended s) by (intros i x Hx; eapply (act_zero (loops s)); [now rewrite <- Ic|exact Hb|exact Hx]). split; [|now split].
  apply Ie. exists 0. destruct (nth_error (loops s) 0) as [x|] eqn:E; [f_equal; eapply HE; exact E|]. apply nth_error_None in E. lia.
Qed.
Print Assumptions C89_until_done_waits_partial.

(** two loops, a client is served, until_done called while they run, stop(), both loops end, until_done completes *)
Definition served : list event :=
  [EStart; EBegin 0; EBegin 1; ETest 0; ETest 1; EAnswer 0 (AClient 7); EUntil 0; EUntilReady 0; EUntilEnqueue 0; EHand 0;
   EStop; EAnswer 1 ATimeout; ETest 1; ETest 0].
Definition late_untilb (s : state) (ev : event) : bool :=
  match ev with
  | EUntil _ => started s && forallb (fun x => match x with Spawned => false | _ => true end) (loops s)
  | EMove => negb (started s)
  | _ => true
  end.
Lemma late_untilb_ok s ev : late_untilb s ev = true -> late_until s ev.
Proof.
  destruct ev; cbn; try easy.
  - intros H. apply andb_true_iff in H. destruct H as [H1 H2]. split; [exact H1|]. intros i Hi. apply nth_error_In in Hi.
    apply (proj1 (forallb_forall _ _) H2) in Hi. discriminate.
  - now destruct (started s).
Qed.
Example C37_served : run_all (next 2) late_until init served /\
  exists s, run (next 2) init served = Some s /\ untils s 0 = UDone /\ handed s = [7].
Proof.
  split.
  - apply (run_allb_ok (next 2) late_untilb late_until late_untilb_ok). vm_compute. reflexivity.
  - destruct (run_proj_ok (next 2) (fun s => (untils s 0, handed s)) init served (UDone, [7])) as (s & Hr & Hp); [vm_compute; reflexivity|].
    inversion Hp. exists s. auto.
Qed.

(** C37, second half: every accepted client is handed to the callback exactly once. At every point of every schedule the
    accepted clients are those handed over plus those a loop is just about to hand over; when all loops have ended nothing is
    left. No hypothesis on the use of the server. *)
Theorem C37_each_client_handed_once :
  forall t l s, run (next t) init l = Some s ->
    Permutation (accepted s) (handed s ++ pending s) /\ (all_ended s -> Permutation (accepted s) (handed s)).
Proof.
  intros t l s HR. destruct (inv_run t l s HR) as [_ _ _ Ih]. split; [exact Ih|]. intros HE.
  assert (Hp : pending s = []).
  { unfold pending, all_ended in *. revert HE. clear. induction (loops s) as [|x q IH]; intros HE; [reflexivity|]. cbn. rewrite (HE 0 x eq_refl). cbn. apply IH. intros i y Hy. apply (HE (S i) y). exact Hy. }
  now rewrite Hp, app_nil_r in Ih.
Qed.
Print Assumptions C37_each_client_handed_once.

(** C64: after stop() the accept loops end: in every continuation they take at most three more steps each, and when they
    can take none (each accept having been answered, which its 50 ms deadline provides for) all have ended. *)
Definition left1 (x : lph) : nat := match x with Ended => 0 | Testing => 1 | Got _ => 2 | Spawned => 2 | Accepting => 3 end.
Definition loop_steps (l : list event) : nat := length (filter is_loop_event l).

Lemma left_step t s ev s' : req s = true -> started s = true -> next t s ev = Some s' ->
  req s' = true /\ started s' = true /\ sumf left1 (loops s') + (if is_loop_event ev then 1 else 0) <= sumf left1 (loops s).
Proof.
  intros Hr Hs Hn. destruct ev as [|i|i|i a|i| |u|u|u|]; cbn [next is_loop_event] in *.
  - rewrite Hs in Hn. discriminate.
  - destruct (nth_error (loops s) i) as [[]|] eqn:E; inversion Hn; subst. cbn [req started loops]. pose proof (sumf_set left1 _ Testing _ _ E) as H. cbn [left1] in H. repeat split; auto; lia.
  - destruct (nth_error (loops s) i) as [[]|] eqn:E; try discriminate. rewrite Hr in Hn. inversion Hn; subst. cbn [req started loops]. pose proof (sumf_set left1 _ Ended _ _ E) as H. cbn [left1] in H. repeat split; auto; lia.
  - destruct (nth_error (loops s) i) as [[]|] eqn:E; try discriminate.
    destruct a as [| |fd]; inversion Hn; subst; cbn [set_loop req started loops].
    + pose proof (sumf_set left1 _ Testing _ _ E) as H. cbn [left1] in H. repeat split; auto; lia.
    + pose proof (sumf_set left1 _ Testing _ _ E) as H. cbn [left1] in H. repeat split; auto; lia.
    + pose proof (sumf_set left1 _ (Got fd) _ _ E) as H. cbn [left1] in H. repeat split; auto; lia.
  - destruct (nth_error (loops s) i) as [[]|] eqn:E; inversion Hn; subst. cbn [req started loops]. pose proof (sumf_set left1 _ Testing _ _ E) as H. cbn [left1] in H. repeat split; auto; lia.
  - inversion Hn; subst. cbn. repeat split; auto; lia.
  - destruct (untils s u); inversion Hn; subst; cbn; repeat split; auto; lia.
  - destruct (untils s u); inversion Hn; subst; cbn; repeat split; auto; lia.
  - destruct (untils s u); inversion Hn; subst; cbn; repeat split; auto; lia.
  - inversion Hn; subst; cbn; repeat split; auto; lia.
Qed.
Lemma left_run t l : forall s s', req s = true -> started s = true -> run (next t) s l = Some s' ->
  sumf left1 (loops s') + loop_steps l <= sumf left1 (loops s).
Proof.
  unfold loop_steps. induction l as [|e l IH]; cbn [run filter]; intros s s' Hr Hs HR; [inversion HR; subst; cbn; lia|].
  destruct (next t s e) as [s1|] eqn:E; [|discriminate]. destruct (left_step t s e s1 Hr Hs E) as (Hr1 & Hs1 & Hl).
  specialize (IH s1 s' Hr1 Hs1 HR). destruct (is_loop_event e); cbn [length]; lia.
Qed.
Lemma left_bound l : sumf left1 l <= 3 * length l.
Proof. induction l as [|x l IH]; [cbn; lia|]. cbn [sumf length]. assert (left1 x <= 3) by (destruct x; cbn; lia). lia. Qed.

Theorem C64_loops_end_after_stop :
  forall t l s, run (next t) init l = Some s -> started s = true -> req s = true ->
    (forall l' s', run (next t) s l' = Some s' -> loop_steps l' <= 3 * t) /\
    (loops_idle t s -> all_ended s).
Proof.
  intros t l s HR Hs Hr. split.
  - intros l' s' HR'. pose proof (left_run t l' s s' Hr Hs HR'). pose proof (left_bound (loops s)). destruct (inv_run t l s HR) as [Il _ _ _]. rewrite Hs in Il. lia.
  - intros Hi i x Hx. destruct x as [| | |fd|]; [| | | |reflexivity]; exfalso.
    + specialize (Hi (EBegin i) eq_refl). cbn in Hi. rewrite Hx in Hi. discriminate.
    + specialize (Hi (ETest i) eq_refl). cbn in Hi. rewrite Hx, Hr in Hi. discriminate.
    + specialize (Hi (EAnswer i ATimeout) eq_refl). cbn in Hi. rewrite Hx in Hi. discriminate.
    + specialize (Hi (EHand i) eq_refl). cbn in Hi. rewrite Hx in Hi. discriminate.
Qed.
Print Assumptions C64_loops_end_after_stop.
Example C64_stopped : exists s, run (next 3) init [EStart; EBegin 1; ETest 1; EStop] = Some s /\ started s = true /\ req s = true /\ ~ all_ended s.
Proof.
  destruct (run_proj_ok (next 3) (fun s => (started s, req s, loops s)) init [EStart; EBegin 1; ETest 1; EStop] (true, true, [Spawned; Accepting; Spawned])) as (s & Hr & Hp); [vm_compute; reflexivity|].
  inversion Hp as [[H1 H2 H3]]. exists s. repeat split; auto. intros H. specialize (H 0 Spawned). rewrite H3 in H. discriminate (H eq_refl).
Qed.

(** Without stop() the loops never end, whatever accept answers: an error such as EMFILE does not take a loop down. *)
Theorem C64_loops_survive_errors :
  forall t l s, run (next t) init l = Some s -> req s = false -> forall i x, nth_error (loops s) i = Some x -> x <> Ended.
Proof.
  intros t l s HR Hr i x Hx ->. destruct (inv_run t l s HR) as [_ _ Ie _]. rewrite Ie in Hr by eauto. discriminate.
Qed.
Print Assumptions C64_loops_survive_errors.

(** C63, full statement: moving a started server object leaves until_done's meaning alone. False: whatever the loops are doing,
    on the moved-to object until_done completes at once (its wait_group was not moved). *)
Theorem C63_move_after_start_refuted :
  forall t l s u, run (next t) init l = Some s -> started s = true -> untils s u = UIdle ->
    exists s', run (next t) s ([EMove; EUntil u] ++ (if req s then [] else [EUntilReady u])) = Some s' /\
      untils s' u = UDone /\ loops s' = loops s /\ req s' = req s.
Proof.
  intros t l s u _ Hs Hu. cbn [app run next untils detached req]. rewrite Hs, orb_true_r, Hu. unfold user_ready. cbn [set_until detached].
  destruct (req s) eqn:Er; cbn [run next andb orb set_until untils].
  - eexists. split; [reflexivity|]. cbn [set_until untils loops req]. rewrite upd_same. auto.
  - rewrite upd_same. unfold user_ready. cbn [detached orb]. eexists. split; [reflexivity|]. cbn [set_until untils loops req]. rewrite upd_same. auto.
Qed.
Print Assumptions C63_move_after_start_refuted.
Example C63_running : exists s, run (next 1) init [EStart; EBegin 0; ETest 0] = Some s /\ started s = true /\ untils s 0 = UIdle /\ loops s = [Accepting].
Proof.
  destruct (run_proj_ok (next 1) (fun s => (started s, untils s 0, loops s)) init [EStart; EBegin 0; ETest 0] (true, UIdle, [Accepting])) as (s & Hr & Hp); [vm_compute; reflexivity|].
  inversion Hp. exists s. auto.
Qed.

