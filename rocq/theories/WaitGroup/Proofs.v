From Coq Require Import List Arith NArith Bool Lia.
From Verif.Common Require Import TS.
From Verif.WaitGroup Require Import Model Spec.
Import ListNotations.
Local Open Scope N_scope.

Lemma add64_small a b : a + b < 2 ^ 64 -> add64 a b = a + b.
Proof. intros Hlt. unfold add64, size_max1. now apply N.mod_small. Qed.

Lemma sub64_small a b : b <= a -> a < 2 ^ 64 -> sub64 a b = a - b.
Proof.
  intros Hle Ha. unfold sub64, size_max1.
  rewrite (N.mod_small b) by lia.
  replace (a + (2 ^ 64 - b)) with ((a - b) + 1 * 2 ^ 64) by lia.
  rewrite N.mod_add by discriminate. apply N.mod_small. lia.
Qed.

Record Inv (s : state) : Prop := {
  inv_nodup : NoDup (waitings s);
  inv_wait : forall i, In i (waitings s) <-> at_ s i = Waiting
}.

Lemma Inv_init : Inv init.
Proof. constructor; cbn; [constructor|]. split; [easy|discriminate]. Qed.

Lemma goto_same s i p : at_ (goto s i p) i = p.
Proof. cbn. apply upd_same. Qed.

Ltac upd_cases :=
  repeat match goal with
  | H : context[upd _ ?i _ ?j] |- _ =>
      destruct (Nat.eq_dec j i) as [?|?];
      [subst; rewrite ?upd_same in *|rewrite ?(upd_other _ i j) in * by assumption]
  | |- context[upd _ ?i _ ?j] =>
      destruct (Nat.eq_dec j i) as [?|?];
      [subst; rewrite ?upd_same in *|rewrite ?(upd_other _ i j) in * by assumption]
  end.

Lemma Inv_move s i p c :
  Inv s -> at_ s i <> Waiting -> p <> Waiting ->
  Inv {| count := c; waitings := waitings s; at_ := upd (at_ s) i p |}.
Proof.
  intros [I1 I2] H1 H2. constructor; cbn; [assumption|].
  intros j. rewrite I2. upd_cases; split; congruence.
Qed.
Lemma Inv_count s c : Inv s -> Inv (set_count s c).
Proof. intros [I1 I2]. now constructor. Qed.

Lemma Inv_step s e s' : Inv s -> step s e = Some s' -> Inv s'.
Proof.
  intros HI Hs. destruct e as [i n|i n|i k|i|i|i|i]; cbn in Hs;
    destruct (at_ s i) eqn:Ei; try discriminate.
  - inversion Hs; subst. now apply Inv_count.
  - inversion Hs; subst. destruct (count s =? 1); [|now apply Inv_count].
    apply (Inv_move s i Draining); auto; congruence.
  - destruct (take_nth k (waitings s)) as [[w rest]|] eqn:Et; [|discriminate].
    inversion Hs; subst; clear Hs. apply take_nth_spec in Et.
    destruct Et as (l1 & l2 & E1 & E2 & _). destruct HI as [I1 I2].
    rewrite E1 in I1. pose proof (NoDup_remove_1 _ _ _ I1) as N1.
    pose proof (NoDup_remove_2 _ _ _ I1) as N2. constructor; cbn.
    + now subst.
    + intros j. subst rest. upd_cases.
      * split; [contradiction|discriminate].
      * rewrite <- I2, E1, !in_app_iff. cbn. split; intros [Hx|Hx]; auto.
        destruct Hx; [congruence|auto].
  - destruct (waitings s) eqn:Ew; [|discriminate]. inversion Hs; subst.
    apply (Inv_move s i Idle); auto; congruence.
  - inversion Hs; subst. apply (Inv_move s i); [assumption|congruence|].
    destruct (count s =? 0); discriminate.
  - inversion Hs; subst; clear Hs. destruct HI as [I1 I2]. constructor; cbn.
    + apply NoDup_snoc; [assumption|]. rewrite I2. congruence.
    + intros j. rewrite in_app_iff. cbn. upd_cases; [split; auto|].
      rewrite <- I2. split; [|now left]. intros [Hx|[Hx|[]]]; [assumption|congruence].
  - inversion Hs; subst. apply (Inv_move s i Idle); auto; congruence.
Qed.

(** ** C06: refinement to the automaton *)
Record Sim (s : state) (sp : spec) : Prop := {
  sim_count : counter sp = count s;
  sim_small : count s < 2 ^ 64;
  sim_sus : forall i, suspended sp i = match at_ s i with Enqueuing | Waiting => true | _ => false end;
  sim_res : forall i, resumed sp i = match at_ s i with Woken => true | _ => false end;
  sim_zero : forall i, zeroing sp i = match at_ s i with Draining => true | _ => false end
}.

Lemma Sim_init : Sim init spec_init.
Proof. constructor; cbn; auto. lia. Qed.

Ltac one := eapply acc_cons; [|].

Lemma sim_accepts l : forall s sp,
  Inv s -> Sim s sp -> run_all step legal s l -> accepts sp (trace step observe s l).
Proof.
  induction l as [|e l IH]; cbn [trace]; intros s sp HI HS HL; [constructor|].
  cbn in HL. destruct HL as [HP HL].
  destruct (step s e) as [s'|] eqn:Hs; [|constructor].
  specialize (HL _ eq_refl).
  pose proof (Inv_step _ _ _ HI Hs) as HI'.
  destruct sp as [c sus res z]. destruct HS as [S1 S2 S3 S4 S5]; cbn in *. subst c.
  destruct e as [i n|i n|i k|i|i|i|i]; cbn in Hs;
    destruct (at_ s i) eqn:Ei; try discriminate.
  - inversion Hs; subst s'; clear Hs. cbn [legal] in HP.
    cbn [observe app]. eapply acc_cons; [apply sp_add|]. apply IH; auto.
    constructor; cbn; auto; rewrite add64_small by assumption; auto.
  - inversion Hs; subst s'; clear Hs. cbn [legal] in HP.
    assert (Esub : sub64 (count s) n = count s - n) by (apply sub64_small; lia).
    cbn [observe]. destruct (count s =? 1) eqn:E1.
    + apply N.eqb_eq in E1. rewrite goto_same. cbn [app].
      eapply acc_cons; [apply sp_done; lia|]. apply IH; auto.
      assert (n = 1) by lia. subst n.
      constructor; cbn; rewrite ?Esub; auto; try lia.
      * intros j. rewrite S3. upd_cases; [now rewrite Ei|reflexivity].
      * intros j. rewrite S4. upd_cases; [now rewrite Ei|reflexivity].
      * intros j. upd_cases; [|apply S5]. rewrite E1. reflexivity.
    + apply N.eqb_neq in E1.
      assert (Ea : at_ (set_count s (sub64 (count s) n)) i = Idle) by exact Ei.
      rewrite Ea. cbn [app].
      eapply acc_cons; [apply sp_done; lia|]. eapply acc_cons; [apply sp_done_ret|].
      apply IH; auto. constructor; cbn; rewrite ?Esub; auto; try lia.
      intros j. upd_cases; [now rewrite Ei|]. apply S5.
  - cbn [observe]. destruct (take_nth k (waitings s)) as [[w rest]|] eqn:Et; [|discriminate].
    inversion Hs; subst s'; clear Hs. cbn [app].
    apply take_nth_spec in Et. destruct Et as (l1 & l2 & E1 & E2 & _).
    assert (Hw : at_ s w = Waiting).
    { apply (inv_wait _ HI). rewrite E1, in_app_iff. right; now left. }
    eapply acc_cons.
    { apply sp_wakes; [rewrite S5, Ei|rewrite S3, Hw|rewrite S4, Hw]; reflexivity. }
    apply IH; auto. constructor; cbn; auto; intros j; upd_cases; auto.
    rewrite S5, Hw. reflexivity.
  - destruct (waitings s) eqn:Ew; [|discriminate]. inversion Hs; subst s'; clear Hs.
    cbn [observe app]. eapply acc_cons; [apply sp_done_ret|]. apply IH; auto.
    constructor; cbn; auto; intros j; upd_cases; auto.
    + now rewrite S3, Ei.
    + now rewrite S4, Ei.
  - inversion Hs; subst s'; clear Hs. cbn [observe]. rewrite goto_same.
    destruct (count s =? 0) eqn:E0; cbn [app].
    + apply N.eqb_eq in E0. eapply acc_cons.
      { apply sp_passes; [assumption|now rewrite S3, Ei|now rewrite S4, Ei]. }
      apply IH; auto. constructor; cbn; auto; intros j; upd_cases; auto.
      * now rewrite S3, Ei.
      * now rewrite S4, Ei.
      * now rewrite S5, Ei.
    + apply N.eqb_neq in E0. eapply acc_cons.
      { apply sp_suspends; [assumption|now rewrite S3, Ei|now rewrite S4, Ei]. }
      apply IH; auto. constructor; cbn; auto; intros j; upd_cases; auto.
      * now rewrite S4, Ei.
      * now rewrite S5, Ei.
  - inversion Hs; subst s'; clear Hs. cbn [observe app]. apply IH; auto.
    constructor; cbn; auto; intros j; upd_cases; auto.
    + now rewrite S3, Ei.
    + now rewrite S4, Ei.
    + now rewrite S5, Ei.
  - inversion Hs; subst s'; clear Hs. cbn [observe app].
    eapply acc_cons; [apply sp_resumed; now rewrite S4, Ei|]. apply IH; auto.
    constructor; cbn; auto; intros j; upd_cases; auto.
    + now rewrite S3, Ei.
    + now rewrite S5, Ei.
Qed.

Lemma refines_spec l : run_all step legal init l -> accepts spec_init (trace step observe init l).
Proof. apply sim_accepts; [apply Inv_init|apply Sim_init]. Qed.

(** ** done(0): a guard with amount 0 resumes the waiters although the counter is positive. *)
Definition done0_schedule : list event := [EAdd 0 1; EWait 1; EEnqueue 1; EDone 2 0; EDrain 2 0; EResume 1].
Lemma done0_wakes :
  exists l s, run step init l = Some s /\ count s = 1 /\
    In (OSuspends 1) (trace step observe init l) /\ In (OResumed 1) (trace step observe init l) /\
    (forall i n, In (ODone i n) (trace step observe init l) -> n = 0).
Proof.
  exists done0_schedule. eexists. split; [vm_compute; reflexivity|].
  split; [reflexivity|]. vm_compute. repeat split; auto 10.
  intros i n H. repeat (destruct H as [H|H]; [try discriminate; try (inversion H; reflexivity)|]).
  destruct H.
Qed.

(** ** C07 *)
Definition stranded_jump : list event := [EAdd 0 2; EWait 1; EEnqueue 1; EDone 2 2].
Definition stranded_race : list event := [EAdd 0 1; EWait 1; EDone 2 1; EDrainEnd 2; EEnqueue 1].

Lemma stranded_by_jump :
  exists l s,
    run_all step (fun s e => legal s e /\ match e with EEnqueue _ => count s <> 0 | _ => True end) init l /\
    run step init l = Some s /\ count s = 0 /\ quiescent s /\ at_ s 1%nat = Waiting.
Proof.
  exists stranded_jump. eexists. split; [|split; [vm_compute; reflexivity|]].
  - cbn. repeat (split; [split; try exact I; cbv; intuition discriminate|let E := fresh in intros ? E; vm_compute in E; inversion E; subst; clear E]); exact I.
  - repeat split; auto. intros i; cbn. destruct i as [|[|[|i]]]; cbn; auto.
Qed.

Lemma stranded_by_race :
  exists l s, run_all step legal init l /\ run step init l = Some s /\
    (forall i n, In (EDone i n) l -> n = 1) /\
    count s = 0 /\ quiescent s /\ at_ s 1%nat = Waiting.
Proof.
  exists stranded_race. eexists. split; [|split; [vm_compute; reflexivity|]].
  - cbn. repeat (split; [try exact I; cbv; intuition discriminate|let E := fresh in intros ? E; vm_compute in E; inversion E; subst; clear E]); exact I.
  - split.
    + intros i n H. cbn in H. repeat (destruct H as [H|H]; [try discriminate; try (inversion H; reflexivity)|]).
      destruct H.
    + repeat split; auto. intros i; cbn. destruct i as [|[|[|i]]]; cbn; auto.
Qed.

Definition live (s : state) : Prop :=
  waitings s <> [] -> count s <> 0 \/ exists j, at_ s j = Draining.

Lemma live_step s e s' :
  Inv s -> count s < 2 ^ 64 -> live s -> in_time s e -> step s e = Some s' ->
  live s' /\ count s' < 2 ^ 64.
Proof.
  intros HI Hc HL [HP HT] Hs.
  destruct e as [i n|i n|i k|i|i|i|i]; cbn in Hs;
    destruct (at_ s i) eqn:Ei; try discriminate; cbn in HP, HT.
  - inversion Hs; subst; clear Hs. unfold live; cbn. rewrite add64_small by assumption.
    split; [|assumption]. intros Hne. destruct (HL Hne) as [Hn|Hd]; [left; lia|right; assumption].
  - inversion Hs; subst; clear Hs.
    assert (Esub : sub64 (count s) n = count s - n) by (apply sub64_small; lia).
    destruct (count s =? 1) eqn:E1.
    + split; [|cbn; rewrite Esub; lia]. intros _. right. exists i. apply goto_same.
    + apply N.eqb_neq in E1. unfold live; cbn. rewrite Esub. split; [|lia].
      intros _. left. intros Hz. apply E1. rewrite <- HT; lia.
  - destruct (take_nth k (waitings s)) as [[w rest]|] eqn:Et; [|discriminate].
    inversion Hs; subst; clear Hs. split; [|assumption]. intros _. right. exists i. cbn.
    apply take_nth_spec in Et. destruct Et as (l1 & l2 & E1 & E2 & _).
    assert (Hw : at_ s w = Waiting).
    { apply (inv_wait _ HI). rewrite E1, in_app_iff. right; now left. }
    rewrite upd_other by congruence. assumption.
  - destruct (waitings s) eqn:Ew; [|discriminate]. inversion Hs; subst; clear Hs.
    split; [|assumption]. unfold live; cbn. congruence.
  - inversion Hs; subst; clear Hs. split; [|assumption]. unfold live; cbn. intros Hne.
    destruct (HL Hne) as [Hn|[j Hj]]; [now left|right]. exists j.
    rewrite upd_other by congruence. assumption.
  - inversion Hs; subst; clear Hs. split; [|assumption]. unfold live; cbn. intros _.
    destruct HT as [Hn|[j Hj]]; [now left|right]. exists j.
    rewrite upd_other by congruence. assumption.
  - inversion Hs; subst; clear Hs. split; [|assumption]. unfold live; cbn. intros Hne.
    destruct (HL Hne) as [Hn|[j Hj]]; [now left|right]. exists j.
    rewrite upd_other by congruence. assumption.
Qed.

Lemma no_stranded_in_time l s :
  run_all step in_time init l -> run step init l = Some s ->
  count s = 0 -> quiescent s -> forall i, at_ s i = Idle.
Proof.
  intros HP Hr H0 Hq.
  assert (H : Inv s /\ count s < 2 ^ 64 /\ live s).
  { refine (run_inv_cond step in_time (fun s => Inv s /\ count s < 2 ^ 64 /\ live s) _ l init s _ HP Hr).
    - intros s0 e s1 (A & B & C) HPe Hs. split; [eapply Inv_step; eauto|].
      destruct (live_step _ _ _ A B C HPe Hs). auto.
    - split; [apply Inv_init|]. split; [cbn; lia|]. unfold live; cbn; congruence. }
  destruct H as (HI & _ & HL). intros i. destruct (Hq i) as [Hi|Hi]; [assumption|exfalso].
  assert (Hne : waitings s <> []).
  { apply (inv_wait _ HI) in Hi. intros E. rewrite E in Hi. destruct Hi. }
  destruct (HL Hne) as [Hn|[j Hj]]; [congruence|]. destruct (Hq j); congruence.
Qed.

(** ** C45: a resumed waiter saw the counter at zero after it started to wait *)
Definition reuse_schedule : list event :=
  [EAdd 0 1; EDone 0 1; EAdd 2 1; EWait 1; EEnqueue 1; EDrain 0 0; EResume 1].
Definition reuse_tail : list event := [EWait 1; EEnqueue 1; EDrain 0 0; EResume 1].

Lemma woken_without_zero :
  exists pre l s, run_all step legal init (pre ++ EWait 1 :: l) /\
    run step init (pre ++ EWait 1 :: l) = Some s /\
    In (EResume 1) l /\
    (forall l1 l2 s1, l = l1 ++ l2 -> run step init (pre ++ EWait 1 :: l1) = Some s1 -> count s1 <> 0).
Proof.
  exists [EAdd 0 1; EDone 0 1; EAdd 2 1], [EEnqueue 1; EDrain 0 0; EResume 1]. eexists.
  split; [|split; [vm_compute; reflexivity|split; [cbn; auto|]]].
  - cbn. repeat (split; [try exact I; cbv; intuition discriminate|let E := fresh in intros ? E; vm_compute in E; inversion E; subst; clear E]); exact I.
  - intros l1 l2 s1 E Hr.
    destruct l1 as [|a [|b [|c [|d l1]]]]; cbn in E; inversion E; subst;
      vm_compute in Hr; inversion Hr; subst; cbn; discriminate.
Qed.

Definition drain_zero (s : state) : Prop := forall i, at_ s i = Draining -> count s = 0.

Lemma drain_zero_step s e s' :
  Inv s -> count s < 2 ^ 64 -> drain_zero s -> no_reuse_while_draining s e -> step s e = Some s' ->
  drain_zero s' /\ count s' < 2 ^ 64.
Proof.
  intros HI Hc HD [HP HT] Hs.
  destruct e as [i n|i n|i k|i|i|i|i]; cbn in Hs;
    destruct (at_ s i) eqn:Ei; try discriminate; cbn in HP, HT.
  - inversion Hs; subst; clear Hs. unfold drain_zero; cbn. rewrite add64_small by assumption. split; [|assumption].
    intros j Hj; cbn in *.
    destruct HT as [-> | HT]; [rewrite (HD j Hj); lia|]. now apply HT in Hj.
  - inversion Hs; subst; clear Hs.
    assert (Esub : sub64 (count s) n = count s - n) by (apply sub64_small; lia).
    unfold drain_zero; destruct (count s =? 1) eqn:E1; cbn; rewrite Esub; (split; [|lia]); intros j Hj; cbn in *.
    + apply N.eqb_eq in E1. lia.
    + rewrite (HD j Hj). lia.
  - destruct (take_nth k (waitings s)) as [[w rest]|] eqn:Et; [|discriminate].
    inversion Hs; subst; clear Hs. split; [|assumption]. intros j Hj; cbn in *. upd_cases; [discriminate|eauto].
  - destruct (waitings s) eqn:Ew; [|discriminate]. inversion Hs; subst; clear Hs.
    split; [|assumption]. intros j Hj; cbn in *. upd_cases; [discriminate|eauto].
  - inversion Hs; subst; clear Hs. split; [|assumption]. intros j Hj; cbn in *.
    upd_cases; [destruct (count s =? 0); discriminate|eauto].
  - inversion Hs; subst; clear Hs. split; [|assumption]. intros j Hj; cbn in *. upd_cases; [discriminate|eauto].
  - inversion Hs; subst; clear Hs. split; [|assumption]. intros j Hj; cbn in *. upd_cases; [discriminate|eauto].
Qed.

Lemma woken_at_zero l s i k s' :
  run_all step no_reuse_while_draining init l -> run step init l = Some s ->
  step s (EDrain i k) = Some s' -> count s = 0.
Proof.
  intros HP Hr Hs.
  assert (H : Inv s /\ count s < 2 ^ 64 /\ drain_zero s).
  { refine (run_inv_cond step no_reuse_while_draining (fun s => Inv s /\ count s < 2 ^ 64 /\ drain_zero s) _ l init s _ HP Hr).
    - intros s0 e s1 (A & B & C) HPe Hs'. split; [eapply Inv_step; eauto|].
      destruct (drain_zero_step _ _ _ A B C HPe Hs'). auto.
    - split; [apply Inv_init|]. split; [cbn; lia|]. intros j Hj. cbn in Hj. discriminate. }
  destruct H as (_ & _ & HD). cbn in Hs. destruct (at_ s i) eqn:Ei; try discriminate. eauto.
Qed.
