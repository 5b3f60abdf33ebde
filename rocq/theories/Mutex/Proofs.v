From Coq Require Import List Arith Bool Lia.
From Verif.Common Require Import TS.
From Verif.Mutex Require Import Model Spec.
Import ListNotations.

Definition tok (p : pc) : bool :=
  match p with Woken | Owner | RelHeld | RelEmpty => true | _ => false end.

Record Inv (s : state) : Prop := {
  inv_nodup : NoDup (waitings s);
  inv_wait : forall i, In i (waitings s) <-> at_ s i = Waiting;
  inv_uniq : forall i j, tok (at_ s i) = true -> tok (at_ s j) = true -> i = j;
  inv_tok : forall i, tok (at_ s i) = true -> flag s = true;
  inv_flag : flag s = true -> exists i, tok (at_ s i) = true
}.

Lemma Inv_init : Inv init.
Proof.
  constructor; cbn; intros; try easy; constructor.
Qed.

Ltac upd_cases :=
  repeat match goal with
  | H : context[upd _ ?i _ ?j] |- _ =>
      destruct (Nat.eq_dec j i) as [?|?];
      [subst; rewrite ?upd_same in *|rewrite ?(upd_other _ i j) in * by assumption]
  | |- context[upd _ ?i _ ?j] =>
      destruct (Nat.eq_dec j i) as [?|?];
      [subst; rewrite ?upd_same in *|rewrite ?(upd_other _ i j) in * by assumption]
  end.

(** Moving coroutine [i] between two places that are neither Waiting nor token-carrying changes,
    stated once for all the transitions that only touch [i]. *)
Lemma Inv_move s i p b :
  Inv s ->
  at_ s i <> Waiting -> p <> Waiting ->
  (tok p = true -> (tok (at_ s i) = true \/ flag s = false) /\ b = true) ->
  (tok p = false -> (tok (at_ s i) = true /\ b = false) \/ (tok (at_ s i) = false /\ b = flag s)) ->
  Inv {| flag := b; waitings := waitings s; at_ := upd (at_ s) i p |}.
Proof.
  intros [I1 I2 I3 I4 I5] Hw Hp Ht Hf. constructor; cbn.
  - assumption.
  - intros j. upd_cases.
    + rewrite I2. split; intros; congruence.
    + apply I2.
  - intros j k Hj Hk. upd_cases; try congruence; try (now eauto).
    + destruct (proj1 (Ht Hk)) as [H|H]; [now apply I3|].
      apply I4 in Hj; congruence.
    + destruct (proj1 (Ht Hj)) as [H|H]; [now apply I3|].
      apply I4 in Hk; congruence.
  - intros j Hj. upd_cases.
    + now apply Ht.
    + destruct (tok p) eqn:Ep.
      * now apply Ht.
      * destruct (Hf eq_refl) as [[H1 H2]|[H1 H2]].
        -- exfalso. match goal with Hn : _ <> _ |- _ => apply Hn end. now apply I3.
        -- subst b. eauto.
  - intros Hb. destruct (tok p) eqn:Ep.
    + exists i. now rewrite upd_same.
    + destruct (Hf eq_refl) as [[H1 H2]|[H1 H2]]; [congruence|].
      rewrite H2 in Hb. destruct (I5 Hb) as [j Hj]. exists j.
      rewrite upd_other; [assumption|]. intros ->. congruence.
Qed.

Lemma Inv_step sp s e s' : Inv s -> step sp s e = Some s' -> Inv s'.
Proof.
  intros HI H. destruct e as [i|i|i|i|i|i k|i|i|i]; cbn in H;
    destruct (at_ s i) eqn:Ei; try discriminate.
  - (* EAcquire *)
    inversion H; subst; clear H. unfold goto, set_flag; cbn.
    apply Inv_move; auto; destruct (flag s) eqn:Ef; cbn; try congruence; rewrite ?Ei; cbn; auto.
  - (* EEnqueue *)
    inversion H; subst; clear H. destruct HI as [I1 I2 I3 I4 I5].
    constructor; cbn.
    + assert (Hn : ~ In i (waitings s)) by (rewrite I2; congruence).
      now apply NoDup_snoc.
    + intros j. rewrite in_app_iff. cbn. upd_cases.
      * split; auto.
      * rewrite <- I2. split; [|now left]. intros [H|[H|[]]]; [assumption|congruence].
    + intros a b Ha Hb. upd_cases; cbn in *; try discriminate. now apply I3.
    + intros a Ha. upd_cases; cbn in *; try discriminate. now apply (I4 a).
    + intros Hf. destruct (I5 Hf) as [j Hj]. exists j.
      rewrite upd_other; [assumption|]. intros ->. rewrite Ei in Hj. discriminate.
  - (* ETry *)
    inversion H; subst; clear H. unfold goto, set_flag; cbn.
    apply Inv_move; auto; destruct (flag s) eqn:Ef; cbn; try congruence; rewrite ?Ei; cbn; auto.
  - (* EClear *)
    inversion H; subst; clear H. unfold goto, set_flag; cbn.
    apply Inv_move; auto; cbn; try congruence; rewrite ?Ei; cbn; auto.
  - (* ERelTAS *)
    inversion H; subst; clear H. unfold goto, set_flag; cbn.
    apply Inv_move; auto; destruct (flag s) eqn:Ef; cbn; try congruence; rewrite ?Ei; cbn; auto.
  - (* ERelDeq *)
    destruct (take_nth k (waitings s)) as [[w rest]|] eqn:Et; [|discriminate].
    inversion H; subst; clear H.
    apply take_nth_spec in Et. destruct Et as (l1 & l2 & E1 & E2 & _).
    destruct HI as [I1 I2 I3 I4 I5].
    assert (Hw : at_ s w = Waiting).
    { apply I2. rewrite E1, in_app_iff. right; now left. }
    assert (Hiw : i <> w) by (intros ->; congruence).
    rewrite E1 in I1. pose proof (NoDup_remove_1 _ _ _ I1) as N1.
    pose proof (NoDup_remove_2 _ _ _ I1) as N2.
    assert (Hti : forall j, tok (at_ s j) = true -> j = i).
    { intros j Hj. apply I3; [assumption|now rewrite Ei]. }
    constructor; cbn.
    + now subst rest.
    + intros j. subst rest. destruct (Nat.eq_dec j i) as [->|Hj].
      * rewrite upd_same. split; [|congruence]. intros Hin.
        assert (Hin' : In i (waitings s)).
        { rewrite E1, in_app_iff in *. cbn. tauto. }
        apply I2 in Hin'. congruence.
      * rewrite upd_other by assumption. destruct (Nat.eq_dec j w) as [->|Hjw].
        -- rewrite upd_same. split; [|congruence]. intros; contradiction.
        -- rewrite upd_other by assumption. rewrite <- I2, E1, !in_app_iff. cbn.
           split; intros [?|?]; auto. destruct H; [congruence|auto].
    + intros a b Ha Hb.
      assert (Hc : forall c, tok (upd (upd (at_ s) w Woken) i Idle c) = true -> c = w).
      { intros c. destruct (Nat.eq_dec c i) as [->|Hc]; [rewrite upd_same; cbn; congruence|].
        rewrite upd_other by assumption.
        destruct (Nat.eq_dec c w) as [->|Hcw]; [auto|]. rewrite upd_other by assumption.
        intros Hc'. apply Hti in Hc'. congruence. }
      rewrite (Hc a), (Hc b); auto.
    + intros a _. apply (I4 i). now rewrite Ei.
    + intros _. exists w. rewrite upd_other by auto. now rewrite upd_same.
  - (* ERelNone *)
    destruct (sp || _) eqn:Esp in H; [|discriminate].
    inversion H; subst; clear H. unfold goto; cbn.
    assert (Hfl : flag s = true) by (apply (inv_tok _ HI i); now rewrite Ei).
    apply Inv_move; auto; try congruence; rewrite ?Ei; cbn; auto; try (intros; congruence).
  - (* ERelClear *)
    inversion H; subst; clear H. unfold goto, set_flag; cbn.
    apply Inv_move; auto; cbn; try congruence; rewrite ?Ei; cbn; auto.
  - (* EResume *)
    inversion H; subst; clear H. unfold goto; cbn.
    assert (Hfl : flag s = true) by (apply (inv_tok _ HI i); now rewrite Ei).
    apply Inv_move; auto; try congruence; rewrite ?Ei; cbn; auto; try (intros; congruence).
Qed.

Lemma Inv_run sp l s : run (step sp) init l = Some s -> Inv s.
Proof.
  intros H. eapply run_inv; [|apply Inv_init|exact H]. intros. eapply Inv_step; eauto.
Qed.

(** ** C01 *)
Lemma exclusive_trace sp l : forall s o,
  Inv s -> (forall i, o = Some i <-> at_ s i = Owner) ->
  exclusive o (trace (step sp) observe s l).
Proof.
  induction l as [|e l IH]; cbn [trace]; intros s o HI Ho; [exact I|].
  destruct (step sp s e) as [s'|] eqn:Hs; [|exact I].
  pose proof (Inv_step _ _ _ _ HI Hs) as HI'.
  assert (Hown : forall i j, at_ s i = Owner -> tok (at_ s j) = true -> i = j).
  { intros i j Hi Hj. apply (inv_uniq _ HI); [now rewrite Hi|assumption]. }
  assert (HownN : forall j, tok (at_ s j) = true -> at_ s j <> Owner -> o = None).
  { intros j Hj Hn. destruct o as [i|]; [|reflexivity].
    assert (at_ s i = Owner) by now apply Ho.
    rewrite (Hown i j) in H by assumption. contradiction. }
  assert (HownF : flag s = false -> o = None).
  { intros Hf. destruct o as [i|]; [|reflexivity].
    assert (at_ s i = Owner) by now apply Ho.
    rewrite (inv_tok _ HI i) in Hf; [discriminate|now rewrite H]. }
  assert (keep : (forall i, at_ s' i = Owner <-> at_ s i = Owner) ->
                 exclusive o (trace (step sp) observe s' l)).
  { intros Hk. apply IH; [assumption|]. intros i. rewrite Hk. apply Ho. }
  assert (become : forall i, o = None ->
                 (forall j, at_ s' j = Owner <-> (j = i \/ at_ s j = Owner)) ->
                 exclusive (Some i) (trace (step sp) observe s' l)).
  { intros i Hn Hb. apply IH; [assumption|]. intros j. rewrite Hb.
    subst o. split.
    - intros E. inversion E. now left.
    - intros [->|Hj]; [reflexivity|]. apply Ho in Hj. discriminate. }
  destruct e as [i|i|i|i|i|i k|i|i|i]; cbn in Hs;
    destruct (at_ s i) eqn:Ei; try discriminate.
  - inversion Hs; subst s'; clear Hs. cbn [observe].
    cbn [goto set_flag at_]. rewrite upd_same. destruct (flag s) eqn:Ef; cbn.
    + apply keep. intros j; cbn. upd_cases; split; congruence.
    + split; [auto|]. apply become; [auto|]. intros j; cbn. upd_cases; intuition congruence.
  - inversion Hs; subst s'; clear Hs. cbn. apply keep.
    intros j; cbn. upd_cases; split; congruence.
  - inversion Hs; subst s'; clear Hs. cbn [observe].
    cbn [goto set_flag at_]. rewrite upd_same. destruct (flag s) eqn:Ef; cbn.
    + apply keep. intros j; cbn. upd_cases; split; congruence.
    + split; [auto|]. apply become; [auto|]. intros j; cbn. upd_cases; intuition congruence.
  - inversion Hs; subst s'; clear Hs. cbn. split; [now apply Ho|].
    apply IH; [assumption|]. intros j; cbn. upd_cases; split; try congruence.
    intros Hj. assert (i = j); [|congruence].
    symmetry. apply Hown; [assumption|]. now rewrite Ei.
  - inversion Hs; subst s'; clear Hs. cbn. apply keep.
    intros j; cbn. upd_cases; destruct (flag s); cbn; split; congruence.
  - destruct (take_nth k (waitings s)) as [[w rest]|] eqn:Et; [|discriminate].
    inversion Hs; subst s'; clear Hs. cbn. apply keep.
    apply take_nth_spec in Et. destruct Et as (l1 & l2 & E1 & _ & _).
    assert (Hw : at_ s w = Waiting).
    { apply (inv_wait _ HI). rewrite E1, in_app_iff. right; now left. }
    intros j; cbn. upd_cases; split; congruence.
  - destruct (sp || _) in Hs; [|discriminate].
    inversion Hs; subst s'; clear Hs. cbn. apply keep.
    intros j; cbn. upd_cases; split; congruence.
  - inversion Hs; subst s'; clear Hs. cbn. apply keep.
    intros j; cbn. upd_cases; split; congruence.
  - inversion Hs; subst s'; clear Hs. cbn. split.
    + apply (HownN i); rewrite Ei; [reflexivity|congruence].
    + apply become; [apply (HownN i); rewrite Ei; [reflexivity|congruence]|].
      intros j; cbn. upd_cases; intuition congruence.
Qed.

Lemma mutual_exclusion sp l : exclusive None (trace (step sp) observe init l).
Proof.
  apply exclusive_trace; [apply Inv_init|]. intros i; cbn; split; discriminate.
Qed.

(** ** C02 *)
Definition lost_wakeup_schedule : list event :=
  [EAcquire 0; EAcquire 1; EClear 0; ERelTAS 0; ERelNone 0; ERelClear 0; EEnqueue 1].

Lemma lost_wakeup :
  exists l s, run (step false) init l = Some s /\ quiescent s /\ at_ s 1 = Waiting /\ flag s = false.
Proof.
  exists lost_wakeup_schedule.
  destruct (run (step false) init lost_wakeup_schedule) as [s|] eqn:E; [|discriminate E].
  exists s. split; [reflexivity|]. cbn in E. inversion E; subst; clear E.
  split; [|split; reflexivity].
  intros i; cbn. unfold upd; cbn.
  destruct i as [|[|i]]; cbn; auto.
Qed.

Definition looks (p : pc) : Prop := p = Owner \/ p = Woken \/ p = RelHeld.

Lemma no_lost_step s e s' :
  Inv s -> (waitings s <> [] -> will_look s) -> enqueue_in_time s e ->
  step false s e = Some s' -> waitings s' <> [] -> will_look s'.
Proof.
  intros HI HL HP Hs Hne.
  assert (self : forall i p b q, looks p ->
            will_look {| flag := b; waitings := q; at_ := upd (at_ s) i p |}).
  { intros i p b q Hp. left. exists i. cbn. now rewrite upd_same. }
  assert (other : forall i p q, ~ looks (at_ s i) -> at_ s i <> RelCleared -> will_look s ->
            will_look {| flag := flag s; waitings := q; at_ := upd (at_ s) i p |}).
  { intros i p q H1 H2 [[j Hj]|[Hf [j Hj]]].
    - left. exists j. cbn. rewrite upd_other; [assumption|]. intros ->. now apply H1.
    - right. split; [exact Hf|]. exists j. cbn. rewrite upd_other; [assumption|]. congruence. }
  assert (busy : forall i p q, flag s = true -> ~ looks (at_ s i) -> will_look s ->
            will_look {| flag := true; waitings := q; at_ := upd (at_ s) i p |}).
  { intros i p q Ht H1 [[j Hj]|[Hf _]]; [|congruence].
    left. exists j. cbn. rewrite upd_other; [assumption|]. intros ->. now apply H1. }
  destruct e as [i|i|i|i|i|i k|i|i|i]; cbn in Hs;
    destruct (at_ s i) eqn:Ei; try discriminate.
  - inversion Hs; subst; clear Hs. cbn in *. unfold goto, set_flag; cbn.
    destruct (flag s) eqn:Ef; cbn.
    + apply busy; auto. rewrite Ei. unfold looks. intuition congruence.
    + apply self. left; reflexivity.
  - inversion Hs; subst; clear Hs. unfold goto, add_waiting; cbn.
    apply other; auto; rewrite Ei; unfold looks; intuition congruence.
  - inversion Hs; subst; clear Hs. cbn in *. unfold goto, set_flag; cbn.
    destruct (flag s) eqn:Ef; cbn.
    + apply busy; auto. rewrite Ei. unfold looks. intuition congruence.
    + apply self. left; reflexivity.
  - inversion Hs; subst; clear Hs. right. split; [reflexivity|].
    exists i. cbn. now rewrite upd_same.
  - inversion Hs; subst; clear Hs. cbn in *. unfold goto, set_flag; cbn.
    destruct (flag s) eqn:Ef; cbn.
    + apply busy; auto. rewrite Ei. unfold looks. intuition congruence.
    + apply self. right; right; reflexivity.
  - destruct (take_nth k (waitings s)) as [[w rest]|] eqn:Et; [|discriminate].
    inversion Hs; subst s'; clear Hs. left. exists w. cbn.
    apply take_nth_spec in Et. destruct Et as (l1 & l2 & E1 & _ & _).
    assert (Hw : at_ s w = Waiting).
    { apply (inv_wait _ HI). rewrite E1, in_app_iff. right; now left. }
    rewrite upd_other by congruence. rewrite upd_same. auto.
  - destruct (waitings s) eqn:Eq; cbn in Hs; [|discriminate].
    inversion Hs; subst; clear Hs. cbn in Hne. congruence.
  - inversion Hs; subst; clear Hs. cbn in Hne. exfalso.
    destruct (HL Hne) as [[j Hj]|[Hf _]].
    + assert (j = i).
      { apply (inv_uniq _ HI); [|now rewrite Ei].
        destruct Hj as [-> | [-> | ->]]; reflexivity. }
      subst j. rewrite Ei in Hj. intuition congruence.
    + rewrite (inv_tok _ HI i) in Hf; [discriminate|now rewrite Ei].
  - inversion Hs; subst; clear Hs. apply self. left; reflexivity.
Qed.

Lemma no_lost_wakeup_when_in_time l s :
  run_all (step false) enqueue_in_time init l ->
  run (step false) init l = Some s ->
  quiescent s -> forall i, at_ s i = Idle.
Proof.
  intros HP Hr Hq.
  assert (H : Inv s /\ (waitings s <> [] -> will_look s)).
  { revert HP Hr. apply (run_inv_cond (step false) enqueue_in_time
       (fun s => Inv s /\ (waitings s <> [] -> will_look s))).
    - intros s0 e s1 [H1 H2] HP Hs. split; [eapply Inv_step; eauto|].
      eapply no_lost_step; eauto.
    - split; [apply Inv_init|]. cbn. congruence. }
  destruct H as [HI HL]. intros i.
  destruct (Hq i) as [Hi|Hi]; [assumption|]. exfalso.
  assert (Hne : waitings s <> []).
  { apply (inv_wait _ HI) in Hi. intros E. rewrite E in Hi. destruct Hi. }
  destruct (HL Hne) as [[j Hj]|[_ [j Hj]]]; destruct (Hq j) as [E|E]; rewrite E in Hj;
    intuition congruence.
Qed.

(** A waiter that is suspended when the lock is free is woken by the next lock/unlock pair. *)
Lemma next_release_recovers l s j :
  run (step false) init l = Some s -> flag s = false -> waitings s <> [] ->
  at_ s j = Idle ->
  exists s' w, run (step false) s [EAcquire j; EClear j; ERelTAS j; ERelDeq j 0] = Some s' /\
     at_ s w = Waiting /\ at_ s' w = Woken /\ at_ s' j = Idle.
Proof.
  intros Hr Hf Hne Hj. pose proof (Inv_run _ _ _ Hr) as HI.
  destruct (waitings s) as [|w rest] eqn:Eq; [congruence|].
  assert (Hw : at_ s w = Waiting) by (apply (inv_wait _ HI); rewrite Eq; now left).
  assert (Hjw : j <> w) by congruence.
  cbn. rewrite Hj, Hf. cbn. rewrite upd_same. cbn. rewrite upd_same. cbn. rewrite upd_same. cbn.
  rewrite Eq. eexists. exists w. split; [reflexivity|]. split; [assumption|].
  cbn. split.
  - rewrite upd_other by auto. now rewrite upd_same.
  - now rewrite upd_same.
Qed.

(** Wake-ups are neither invented nor duplicated: exactly the suspended coroutines are in the
    queue, once each, and a dequeue only takes a suspended coroutine. *)
Lemma waiting_queue_exact sp l s :
  run (step sp) init l = Some s ->
  NoDup (waitings s) /\ (forall i, In i (waitings s) <-> at_ s i = Waiting).
Proof. intros H. pose proof (Inv_run _ _ _ H) as [H1 H2 _ _ _]. auto. Qed.

(** The flag is clear exactly when nobody owns, is being handed, or is about to hand over the lock. *)
Lemma flag_exact sp l s :
  run (step sp) init l = Some s ->
  (flag s = false <-> forall i, at_ s i <> Owner /\ at_ s i <> Woken /\ at_ s i <> RelHeld /\ at_ s i <> RelEmpty).
Proof.
  intros H. pose proof (Inv_run _ _ _ H) as HI. split.
  - intros Hf i. pose proof (inv_tok _ HI i) as Ht.
    destruct (at_ s i); cbn in Ht; repeat split; try congruence; intros; rewrite Ht in Hf; congruence.
  - intros Ha. destruct (flag s) eqn:Ef; [|reflexivity].
    destruct (inv_flag _ HI Ef) as [i Hi]. destruct (Ha i) as (H1 & H2 & H3 & H4).
    destruct (at_ s i); cbn in Hi; congruence.
Qed.
