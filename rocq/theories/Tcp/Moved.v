(** What holds of C63: moving a tcp_server object before start(), and what the accept loops notice of a later move. *)
From Coq Require Import List Arith Bool Lia.
From Verif.Common Require Import TS ListX.
From Verif.Tcp Require Import Server.
Import ListNotations.
#[local] Arguments upd : simpl never.

Definition is_move (e : event) : bool := match e with EMove => true | _ => false end.
Definition is_until (e : event) : bool := match e with EUntil _ | EUntilReady _ | EUntilEnqueue _ => true | _ => false end.

Lemma not_started t l : forall s, (forall e, In e l -> e <> EStart) -> run (next t) init l = Some s -> started s = false /\ detached s = false.
Proof.
  induction l as [|e l IH] using rev_ind; intros s H R; [injection R as <-; split; reflexivity|].
  apply run_app_inv in R. destruct R as (s1 & R1 & R2). cbn in R2. destruct (next t s1 e) as [s2|] eqn:E; [|discriminate]. injection R2 as <-.
  destruct (IH s1 (fun x G => H x (proj2 (in_app_iff _ _ _) (or_introl G))) R1) as (S & D). assert (N : e <> EStart) by (apply H; apply in_app_iff; right; now left).
  destruct e as [|i|i|i a|i| |u|u|u|]; cbn [next] in E; [congruence| | | | | | | | |].
  - destruct (nth_error (loops s1) i) as [[]|]; try discriminate. injection E as <-. auto.
  - destruct (nth_error (loops s1) i) as [[]|]; try discriminate. destruct (req s1); injection E as <-; auto.
  - destruct (nth_error (loops s1) i) as [[]|]; try discriminate. destruct a; injection E as <-; auto.
  - destruct (nth_error (loops s1) i) as [[]|]; try discriminate. injection E as <-. auto.
  - injection E as <-. auto.
  - destruct (untils s1 u); try discriminate. injection E as <-. auto.
  - destruct (untils s1 u); try discriminate. injection E as <-. auto.
  - destruct (untils s1 u); try discriminate. injection E as <-. auto.
  - injection E as <-. cbn. rewrite S, D. auto.
Qed.
Lemma filter_none {A} (f : A -> bool) l : (forall x, In x l -> f x = true) -> filter f l = l.
Proof. induction l as [|x l IH]; intros H; [reflexivity|]. cbn [filter]. rewrite (H x (or_introl eq_refl)). f_equal. apply IH. intros y Hy. apply H. now right. Qed.
(** every history in which all the moves precede start(): it could have happened without them, with the same outcome *)
Theorem C63_moved_before_start_partial : forall t l1 l2 s, (forall e, In e l1 -> e <> EStart) -> (forall e, In e l2 -> e <> EMove) ->
  run (next t) init (l1 ++ l2) = Some s -> run (next t) init (filter (fun e => negb (is_move e)) (l1 ++ l2)) = Some s.
Proof.
  intros t l1 l2 s H1 H2 R. apply run_app_inv in R. destruct R as (s1 & R1 & R2). rewrite filter_app, (filter_none _ l2) by (intros e He; specialize (H2 e He); destruct e; try reflexivity; congruence).
  enough (G : run (next t) init (filter (fun e => negb (is_move e)) l1) = Some s1).
  { clear R1. revert G. generalize (filter (fun e => negb (is_move e)) l1), init. intros k. induction k as [|e k IH]; intros s0 G; cbn in *; [injection G as ->; exact R2|]. destruct (next t s0 e); [apply IH; exact G|discriminate]. }
  clear H2 R2 l2 s. revert s1 R1. induction l1 as [|e l1 IH] using rev_ind; intros s1 R1; [exact R1|]. apply run_app_inv in R1. destruct R1 as (s0 & R0 & R1).
  specialize (IH (fun x G => H1 x (proj2 (in_app_iff _ _ _) (or_introl G))) s0 R0). destruct (not_started t l1 s0 (fun x G => H1 x (proj2 (in_app_iff _ _ _) (or_introl G))) R0) as (S & D).
  rewrite filter_app. destruct (is_move e) eqn:M.
  - destruct e; try discriminate. cbn [filter is_move negb]. rewrite app_nil_r. cbn in R1. rewrite S, orb_false_r in R1. rewrite IH. rewrite <- R1, <- S. destruct s0; reflexivity.
  - cbn [filter]. rewrite M. cbn [negb]. clear R0 H1 S D. revert IH. generalize (filter (fun e => negb (is_move e)) l1), init. intros k. induction k as [|x k IHk]; intros z G; cbn [run app] in *; [injection G as ->; exact R1|]. destruct (next t z x); [apply IHk; exact G|discriminate].
Qed.
Print Assumptions C63_moved_before_start_partial.
(** every history: the accept loops, the clients they accept and hand over and the stop flag are the same without the moves (and without the calls of until_done()) *)
Theorem C63_loops_do_not_notice_partial : forall t l s, run (next t) init l = Some s ->
  exists s', run (next t) init (filter (fun e => negb (is_move e || is_until e)) l) = Some s' /\
    loops s' = loops s /\ req s' = req s /\ accepted s' = accepted s /\ handed s' = handed s.
Proof.
  intros t l s R. enough (G : exists s', run (next t) init (filter (fun e => negb (is_move e || is_until e)) l) = Some s' /\
    started s' = started s /\ count s' = count s /\ loops s' = loops s /\ req s' = req s /\ accepted s' = accepted s /\ handed s' = handed s) by (destruct G as (s' & G & _ & _ & G'); eauto).
  revert s R. induction l as [|e l IH] using rev_ind; intros s R; [injection R as <-; exists init; repeat split|].
  apply run_app_inv in R. destruct R as (s1 & R1 & R2). cbn in R2. destruct (next t s1 e) as [s2|] eqn:E; [|discriminate]. injection R2 as <-.
  destruct (IH s1 R1) as (s' & G & E1 & E2 & E3 & E4 & E5 & E6). clear IH R1. rewrite filter_app.
  assert (A : forall k z x y w, run (next t) z k = Some x -> next t x y = Some w -> run (next t) z (k ++ [y]) = Some w).
  { intros k. induction k as [|a k IH]; intros z x y w K1 K2; cbn [run app] in *; [injection K1 as ->; now rewrite K2|]. destruct (next t z a); [eapply IH; eauto|discriminate]. }
  destruct (is_move e || is_until e) eqn:M.
  - cbn [filter]. rewrite M. cbn [negb]. rewrite app_nil_r. exists s'. split; [exact G|]. destruct e as [|i|i|i a|i| |u|u|u|]; try discriminate; cbn [next] in E;
      try (destruct (untils s1 u); try discriminate); injection E as <-; (repeat split; auto; congruence).
  - cbn [filter]. rewrite M. cbn [negb]. destruct e as [|i|i|i a|i| |u|u|u|]; try discriminate; cbn [next] in E.
    + destruct (started s1) eqn:S; [discriminate|]. injection E as <-. eexists. split; [eapply A; [exact G|]; cbn [next]; rewrite E1; reflexivity|]. cbn. (repeat split; auto; congruence).
    + destruct (nth_error (loops s1) i) as [[]|] eqn:N; try discriminate. injection E as <-. eexists. split; [eapply A; [exact G|]; cbn [next]; rewrite E3, N; reflexivity|]. cbn. rewrite E2. (repeat split; auto; congruence).
    + destruct (nth_error (loops s1) i) as [[]|] eqn:N; try discriminate. destruct (req s1) eqn:Q; injection E as <-; (eexists; split; [eapply A; [exact G|]; cbn [next]; rewrite E3, N, E4; reflexivity|]); cbn; rewrite ?E2, ?E3; (repeat split; auto; congruence).
    + destruct (nth_error (loops s1) i) as [[]|] eqn:N; try discriminate. destruct a; injection E as <-; (eexists; split; [eapply A; [exact G|]; cbn [next]; rewrite E3, N; reflexivity|]); cbn; rewrite ?E3, ?E5; (repeat split; auto; congruence).
    + destruct (nth_error (loops s1) i) as [[]|] eqn:N; try discriminate. injection E as <-. eexists. split; [eapply A; [exact G|]; cbn [next]; rewrite E3, N; reflexivity|]. cbn. rewrite E6. (repeat split; auto; congruence).
    + injection E as <-. eexists. split; [eapply A; [exact G|]; reflexivity|]. cbn. (repeat split; auto; congruence).
Qed.
Print Assumptions C63_loops_do_not_notice_partial.
(** a server moved before it is started, and one moved while a client is being accepted *)
Example C63_before_case : exists s, run (next 2) init [EMove; EStart; EBegin 0; ETest 0; EAnswer 0 (AClient 7); EHand 0] = Some s /\ handed s = [7] /\ detached s = false.
Proof. eexists. split; [reflexivity|]. split; reflexivity. Qed.
Example C63_after_case : exists s, run (next 1) init [EStart; EBegin 0; ETest 0; EMove; EAnswer 0 (AClient 7); EUntil 3; EUntilReady 3; EHand 0] = Some s /\ handed s = [7] /\ untils s 3 = UDone.
Proof. eexists. split; [reflexivity|]. split; reflexivity. Qed.
