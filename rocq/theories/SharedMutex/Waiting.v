(** C04 in histories in which readers do have to wait: exclusion holds as long as the two defects are not exercised. *)
From Coq Require Import List Arith ZArith Bool Lia.
From Verif.Common Require Import TS.
From Verif.SharedMutex Require Import Model Spec Proofs.
Import ListNotations.

(** The two things that break the lock: a shared unlock that brings the reader count from 1 to 0 although another
    reader (one that had to wait, and was not counted) has the lock or was scheduled with it; and a writer that calls
    acquire_shared() on the mutex it holds. *)
Definition defects_not_hit (s : state) (e : event) : Prop :=
  match e with
  | ERelease i _ _ => at_ s i = Reading -> m_shr_cnt s = 1%Z ->
                      forall j, j <> i -> at_ s j <> Reading /\ at_ s j <> ShrWoken
  | EShrEnq i => at_ s i <> WWantShr
  | _ => True
  end.

Definition rd (p : pc) : bool := match p with Reading | ShrWoken => true | _ => false end.
Definition ok_pc (p : pc) : bool := match p with WShrWaiting | WShrWoken | Both => false | _ => true end.
(** what the log knows about a coroutine *)
Definition cls (p : pc) : nat := match p with Reading => 1 | Writing | WWantShr => 2 | _ => 0 end.

Record WInv (s : state) : Prop := {
  w_ok : forall i, ok_pc (at_ s i) = true;
  w_uq : forall i, In i (m_uni_waitings s) -> at_ s i = UniWaiting;
  w_uqn : NoDup (m_uni_waitings s);
  w_sq : forall i, In i (m_shr_waitings s) -> at_ s i = ShrWaiting;
  w_sqn : NoDup (m_shr_waitings s);
  w_rd : forall i, rd (at_ s i) = true -> m_state s = SHR;
  w_wr : forall i, writer_pc (at_ s i) = true -> m_state s = UNI;
  w_one : forall i j, writer_pc (at_ s i) = true -> writer_pc (at_ s j) = true -> i = j;
  w_cw : forall w, m_current_writer s = Some w -> writer_pc (at_ s w) = true;
  w_cnt : m_state s <> SHR -> m_shr_cnt s = 0%Z;
  w_sdu : m_state s <> SHR_DURING_UNI;
  w_as : assert_failed s = false
}.

Lemma WInv_init : WInv init.
Proof. constructor; cbn; try discriminate; try contradiction; auto; constructor. Qed.

Lemma whealth s : WInv s -> health_check s = true.
Proof.
  intros HI. unfold health_check. destruct (m_state s) eqn:E; try reflexivity. cbn.
  rewrite (w_cnt _ HI) by congruence. reflexivity.
Qed.

(** A mutex recorded as free. *)
Lemma wake_uni_W k s : WInv s ->
  let s' := try_wake_up_next_uni_impl k s in
  WInv s' /\ (forall i, cls (at_ s' i) = cls (at_ s i)) /\
  (forall i, at_ s' i = at_ s i \/ at_ s i = UniWaiting).
Proof.
  intros HI. cbn. unfold try_wake_up_next_uni_impl. rewrite (check_id _ (whealth _ HI)).
  unfold being_held, being_held_sharedly.
  destruct (m_state s) eqn:Em; cbn; try (split; [assumption|split; intros; auto]); [].
  destruct (pick k (m_uni_waitings s)) as [[w rest]|] eqn:Ep; [|split; [assumption|split; auto]].
  apply pick_spec in Ep. destruct Ep as (l1 & l2 & E1 & E2).
  destruct HI as [A B C D E F G H I J K L].
  assert (Hw : at_ s w = UniWaiting) by (apply B; rewrite E1, in_app_iff; right; now left).
  rewrite E1 in C. pose proof (NoDup_remove_1 _ _ _ C) as N1. pose proof (NoDup_remove_2 _ _ _ C) as N2.
  split; [|split; intros j; cbn; updc j w; auto; now rewrite Hw].
  constructor; cbn; auto; try discriminate.
  - intros j; updc j w; auto.
  - subst rest. intros j Hj. updc j w; [contradiction|].
    apply B. rewrite E1. rewrite in_app_iff in *. cbn. tauto.
  - now subst.
  - intros j Hj; updc j w; auto. apply D in Hj. congruence.
  - intros j Hj; updc j w; [discriminate|]. apply F in Hj. congruence.
  - intros i j Hi Hj. updc i w; updc j w; auto; try (apply G in Hi; congruence); apply G in Hj; congruence.
  - intros x [= <-]. rewrite upd_same. reflexivity.
  - intros _. apply J. congruence.
Qed.

Lemma wake_shr_W k s : WInv s -> m_state s <> UNI -> 
  let s' := try_wake_up_shr_impl k s in
  WInv s' /\ (forall i, cls (at_ s' i) = cls (at_ s i)) /\ m_state s' <> UNI /\
  (forall i, at_ s' i = at_ s i \/ at_ s i = ShrWaiting).
Proof.
  intros HI Hu. cbn. unfold try_wake_up_shr_impl. rewrite (check_id _ (whealth _ HI)).
  unfold being_held. destruct (is_UNI (m_state s)) eqn:Eu.
  { destruct (m_state s); try discriminate. congruence. }
  destruct (pick k (m_shr_waitings s)) as [[w rest]|] eqn:Ep; [|split; [assumption|split; [auto|split; auto]]].
  apply pick_spec in Ep. destruct Ep as (l1 & l2 & E1 & E2).
  destruct HI as [A B C D E F G H I J K L].
  assert (Hw : at_ s w = ShrWaiting) by (apply D; rewrite E1, in_app_iff; right; now left).
  rewrite E1 in E. pose proof (NoDup_remove_1 _ _ _ E) as N1. pose proof (NoDup_remove_2 _ _ _ E) as N2.
  unfold wake_shr. cbn. rewrite Hw. cbn.
  split; [|split; [|split; [discriminate|]]]; try (intros j; updc j w; auto; now rewrite Hw).
  constructor; cbn; auto; try discriminate; try congruence.
  - intros j; updc j w; auto.
  - intros j Hj; updc j w; auto. apply B in Hj. congruence.
  - subst rest. intros j Hj. updc j w; [contradiction|].
    apply D. rewrite E1. rewrite in_app_iff in *. cbn. tauto.
  - intros j Hj. exfalso. updc j w; [discriminate|]. apply G in Hj. congruence.
  - intros i j Hi Hj. updc i w; [discriminate|]. updc j w; [discriminate|]. auto.
  - intros x Hx. updc x w; auto. apply I in Hx. rewrite Hw in Hx. discriminate.
Qed.

Lemma finish_W s : WInv s -> finish s = s.
Proof.
  intros HI. unfold finish. rewrite (check_id _ (whealth _ HI)).
  unfold being_held, being_held_sharedly. destruct (m_state s) eqn:Em; cbn; try reflexivity.
  destruct s; cbn in *; subst; reflexivity.
Qed.

(** moving a coroutine between positions that mean nothing to the lock *)
Lemma neutral_W s i p :
  WInv s -> ok_pc p = true -> rd p = rd (at_ s i) -> writer_pc p = writer_pc (at_ s i) ->
  at_ s i <> UniWaiting -> at_ s i <> ShrWaiting -> WInv (goto s i p).
Proof.
  intros [A B C D E F G H I J K L] Hok Hr Hw Hu Hsw. constructor; cbn; auto.
  - intros j; updc j i; auto.
  - intros j Hj; updc j i; auto. apply B in Hj. congruence.
  - intros j Hj; updc j i; auto. apply D in Hj. congruence.
  - intros j Hj; updc j i; [apply (F i); congruence|eauto].
  - intros j Hj; updc j i; [apply (G i); congruence|eauto].
  - intros a b Ha Hb.
    assert (Ha' : writer_pc (at_ s a) = true) by (updc a i; congruence).
    assert (Hb' : writer_pc (at_ s b) = true) by (updc b i; congruence). auto.
  - intros w Hw'. updc w i; auto. rewrite Hw. auto.
Qed.

Lemma set_kick_W s i b : WInv s -> WInv (set_kick s i b).
Proof. intros [A B C D E F G H I J K L]. constructor; cbn; auto. Qed.
Lemma set_uaf_W s b : WInv s -> WInv (set_uaf s b).
Proof. intros [A B C D E F G H I J K L]. constructor; cbn; auto. Qed.

Lemma WInv_step s e s' :
  WInv s -> defects_not_hit s e -> step s e = Some s' ->
  WInv s' /\
  match observe s e s' with
  | [GotShared i] => (forall j, cls (at_ s' j) = if Nat.eqb j i then 1 else cls (at_ s j)) /\ cls (at_ s i) = 0 /\ m_state s' = SHR
  | [GotUnique i] => (forall j, cls (at_ s' j) = if Nat.eqb j i then 2 else cls (at_ s j)) /\ cls (at_ s i) = 0 /\ m_state s' = UNI
  | [Unlocks i] => (forall j, cls (at_ s' j) = if Nat.eqb j i then 0 else cls (at_ s j)) /\ cls (at_ s i) <> 0
  | [Refused _] | [] => forall j, cls (at_ s' j) = cls (at_ s j)
  | _ => False
  end.
Proof.
  intros HI HP Hs. pose proof (whealth _ HI) as Hh.
  destruct e as [i|i|i ku ks|i|i|i|i|i ku ks]; cbn in HP, Hs.
  - (* EAcqShr *)
    unfold hold_this_shr_immediately in Hs. rewrite (check_id _ Hh) in Hs. unfold being_held in Hs.
    destruct (at_ s i) eqn:Ei; try discriminate.
    + destruct (is_UNI (m_state s)) eqn:Eu; cbn in Hs; inversion Hs; subst s'; clear Hs; cbn [observe goto at_]; rewrite upd_same.
      * split; [apply neutral_W; auto; rewrite Ei; (reflexivity || discriminate)|].
        intros j; cbn; updc j i; auto. now rewrite Ei.
      * assert (Hu : m_state s <> UNI) by (intros X; rewrite X in Eu; discriminate).
        destruct HI as [A B C D E F G H I J K L]. split; [|split; [|split]].
        -- constructor; cbn; auto; try congruence; try discriminate.
           ++ intros j; updc j i; auto.
           ++ intros j Hj; updc j i; auto. apply B in Hj. congruence.
           ++ intros j Hj; updc j i; auto. apply D in Hj. congruence.
           ++ intros j Hj; exfalso; updc j i; [discriminate|]. apply G in Hj. congruence.
           ++ intros a b Ha Hb. updc a i; [discriminate|]. updc b i; [discriminate|]. auto.
           ++ intros w Hw. apply I in Hw. updc w i; auto. rewrite Ei in Hw. discriminate.
        -- intros j; cbn. unfold upd. destruct (Nat.eqb j i); reflexivity.
        -- now rewrite Ei.
        -- reflexivity.
    + assert (Hu : m_state s = UNI) by (apply (w_wr _ HI i); now rewrite Ei).
      rewrite Hu in Hs. cbn in Hs. inversion Hs; subst s'; clear Hs; cbn [observe goto at_]; rewrite upd_same.
      split; [apply neutral_W; auto; rewrite Ei; (reflexivity || discriminate)|].
      intros j; cbn; updc j i; auto. now rewrite Ei.
  - (* EShrEnq *)
    destruct (at_ s i) eqn:Ei; try discriminate; [|exfalso; now apply HP].
    inversion Hs; subst s'; clear Hs. cbn [observe].
    assert (Hr : add_shr_waiting i s = goto (set_shrq s (m_shr_waitings s ++ [i])) i ShrWaiting).
    { unfold add_shr_waiting. rewrite Ei. destruct (m_current_writer s) as [w|] eqn:Ew; [|reflexivity].
      destruct (Nat.eqb_spec w i) as [->|]; [|reflexivity].
      apply (w_cw _ HI) in Ew. rewrite Ei in Ew. discriminate. }
    rewrite Hr. split.
    + apply set_kick_W. destruct HI as [A B C D E F G H I J K L]. constructor; cbn; auto.
      * intros j; updc j i; auto.
      * intros j Hj; updc j i; auto. apply B in Hj. congruence.
      * intros j Hj. rewrite in_app_iff in Hj. cbn in Hj. updc j i; auto. destruct Hj as [Hj|[Hj|[]]]; [auto|congruence].
      * apply NoDup_snoc; auto. intros X. apply D in X. congruence.
      * intros j Hj; updc j i; eauto. discriminate.
      * intros j Hj; updc j i; eauto. discriminate.
      * intros a b Ha Hb. updc a i; [discriminate|]. updc b i; [discriminate|]. auto.
      * intros w Hw. apply I in Hw. updc w i; auto. rewrite Ei in Hw. discriminate.
    + intros j; cbn; updc j i; auto. now rewrite Ei.
  - (* EKick *)
    destruct (kick s i); [|discriminate]. inversion Hs; subst s'; clear Hs. cbn [observe].
    set (s0 := set_uaf _ _). assert (H0 : WInv s0) by (apply set_uaf_W, set_kick_W; assumption).
    assert (E0 : forall j, at_ s0 j = at_ s j) by reflexivity. clearbody s0.
    unfold try_wake_up_next.
    destruct (wake_uni_W ku _ H0) as (H1 & H2 & _).
    set (s1 := try_wake_up_next_uni_impl ku s0) in *. clearbody s1.
    rewrite (check_id _ (whealth _ H1)). unfold being_held. destruct (is_UNI (m_state s1)) eqn:Eu.
    + split; [assumption|]. intros j. now rewrite H2, E0.
    + destruct (wake_shr_W ks s1 H1) as (H3 & H4 & _); [intros X; rewrite X in Eu; discriminate|].
      split; [assumption|]. intros j. now rewrite H4, H2, E0.
  - (* EAcqUni *)
    destruct (at_ s i) eqn:Ei; try discriminate. inversion Hs; subst s'; clear Hs. cbn [observe goto at_ hold_this_immediately].
    rewrite upd_same. split; [apply neutral_W; auto; rewrite Ei; (reflexivity || discriminate)|].
    intros j; cbn; updc j i; auto. now rewrite Ei.
  - (* EUniEnq *)
    destruct (at_ s i) eqn:Ei; try discriminate. inversion Hs; subst s'; clear Hs. cbn [observe].
    unfold add_waiting. rewrite (check_id _ Hh). unfold being_held, being_held_sharedly.
    destruct (m_state s) eqn:Em; cbn [is_UNI is_SHRs negb andb]; try (exfalso; now apply (w_sdu _ HI)).
    + destruct HI as [A B C D E F G H I J K L]. split.
      * constructor; cbn; auto; try congruence; try discriminate.
        -- intros j; updc j i; auto.
        -- intros j Hj; updc j i; auto. apply B in Hj. congruence.
        -- intros j Hj; updc j i; auto. apply D in Hj. congruence.
        -- intros j Hj; exfalso; updc j i; [discriminate|]. apply F in Hj. congruence.
        -- intros a b Ha Hb. updc a i; updc b i; auto; try (apply G in Ha; congruence); try (apply G in Hb; congruence).
        -- intros w [= <-]. rewrite upd_same. reflexivity.
        -- intros _. apply J. rewrite Em. discriminate.
      * intros j; cbn; updc j i; auto. now rewrite Ei.
    + destruct HI as [A B C D E F G H I J K L]. split.
      * constructor; cbn; auto.
        -- intros j; updc j i; auto.
        -- intros j Hj. rewrite in_app_iff in Hj. cbn in Hj. updc j i; auto. destruct Hj as [Hj|[Hj|[]]]; [auto|congruence].
        -- apply NoDup_snoc; auto. intros X. apply B in X. congruence.
        -- intros j Hj; updc j i; auto. apply D in Hj. congruence.
        -- intros j Hj; updc j i; [discriminate|]. first [exact (F j Hj) | exact (G j Hj)].
        -- intros a b Ha Hb. updc a i; [discriminate|]. updc b i; [discriminate|]. auto.
        -- intros w Hw. apply I in Hw. updc w i; auto. rewrite Ei in Hw. discriminate.
      * intros j; cbn; updc j i; auto. now rewrite Ei.
    + destruct HI as [A B C D E F G H I J K L]. split.
      * constructor; cbn; auto.
        -- intros j; updc j i; auto.
        -- intros j Hj. rewrite in_app_iff in Hj. cbn in Hj. updc j i; auto. destruct Hj as [Hj|[Hj|[]]]; [auto|congruence].
        -- apply NoDup_snoc; auto. intros X. apply B in X. congruence.
        -- intros j Hj; updc j i; auto. apply D in Hj. congruence.
        -- intros j Hj; updc j i; [discriminate|]. first [exact (F j Hj) | exact (G j Hj)].
        -- intros a b Ha Hb. updc a i; [discriminate|]. updc b i; [discriminate|]. auto.
        -- intros w Hw. apply I in Hw. updc w i; auto. rewrite Ei in Hw. discriminate.
      * intros j; cbn; updc j i; auto. now rewrite Ei.
  - (* ETryUni *)
    destruct (at_ s i) eqn:Ei; try discriminate. inversion Hs; subst s'; clear Hs. cbn [observe goto at_ hold_this_immediately].
    rewrite upd_same. split; [apply neutral_W; auto; rewrite Ei; (reflexivity || discriminate)|].
    intros j; cbn; updc j i; auto. now rewrite Ei.
  - (* EResume *)
    destruct (at_ s i) eqn:Ei; try discriminate; inversion Hs; subst s'; clear Hs; cbn [observe goto at_]; rewrite upd_same.
    + split; [apply neutral_W; auto; rewrite Ei; (reflexivity || discriminate)|].
      split; [|split; [now rewrite Ei|]].
      * intros j; cbn. unfold upd. destruct (Nat.eqb j i); reflexivity.
      * apply (w_rd _ HI i). now rewrite Ei.
    + split; [apply neutral_W; auto; rewrite Ei; (reflexivity || discriminate)|].
      split; [|split; [now rewrite Ei|]].
      * intros j; cbn. unfold upd. destruct (Nat.eqb j i); reflexivity.
      * apply (w_wr _ HI i). now rewrite Ei.
    + exfalso. pose proof (w_ok _ HI i) as X. rewrite Ei in X. discriminate.
  - (* ERelease *)
    assert (Hb : at_ s i <> Both) by (intros X; pose proof (w_ok _ HI i) as Y; rewrite X in Y; discriminate).
    assert (Hcases : (at_ s i = Reading \/ at_ s i = Writing) /\ s' = release ku ks (goto s i Idle)).
    { destruct (at_ s i); try discriminate; try congruence; inversion Hs; auto. }
    clear Hs. destruct Hcases as [Hc ->]. cbn [observe].
    assert (Hcls : forall j, cls (at_ (goto s i Idle) j) = if Nat.eqb j i then 0 else cls (at_ s j)).
    { intros j; cbn. unfold upd. destruct (Nat.eqb j i); reflexivity. }
    assert (Hnz : cls (at_ s i) <> 0) by (destruct Hc as [X|X]; rewrite X; discriminate).
    set (t := goto s i Idle) in *.
    destruct Hc as [Hc|Hc].
    + (* a reader *)
      assert (Hst : m_state s = SHR) by (apply (w_rd _ HI i); now rewrite Hc).
      assert (Hnw : forall j, writer_pc (at_ s j) = false).
      { intros j. destruct (writer_pc (at_ s j)) eqn:X; auto. apply (w_wr _ HI) in X. congruence. }
      assert (Ht : WInv (set_cnt t (m_shr_cnt t - 1))).
      { destruct HI as [A B C D E F G H I J K L]. constructor; cbn; auto; try congruence.
        - intros j; updc j i; auto.
        - intros j Hj; updc j i; auto. apply B in Hj. congruence.
        - intros j Hj; updc j i; auto. apply D in Hj. congruence.
        - intros j Hj; updc j i; [discriminate|]. rewrite Hnw in Hj. discriminate.
        - intros a b Ha Hb'. updc a i; [discriminate|]. updc b i; [discriminate|]. auto.
        - intros w Hw. apply I in Hw. rewrite Hnw in Hw. discriminate. }
      unfold release. change (m_state t) with (m_state s). rewrite Hst.
      destruct (Z.eqb_spec (m_shr_cnt t) 1) as [E1|E1].
      * specialize (HP Hc E1).
        assert (Hf : WInv (set_state (set_cnt t (m_shr_cnt t - 1)) NO)).
        { destruct Ht as [A B C D E F G H I J K L]. constructor; cbn; auto; try congruence; try discriminate.
          - intros j Hj. exfalso. updc j i; [discriminate|]. destruct (HP j) as [P1 P2]; [assumption|].
            destruct (at_ s j); cbn in Hj; congruence.
          - intros j Hj. exfalso. updc j i; [discriminate|]. rewrite Hnw in Hj. discriminate.
          - intros _. cbn in E1. lia. }
        destruct (wake_uni_W ku _ Hf) as (H1 & H2 & _).
        rewrite (finish_W _ H1). split; [assumption|]. split; [|assumption].
        intros j. rewrite H2. apply Hcls.
      * rewrite (finish_W _ Ht). split; [assumption|]. split; [|assumption]. intros j. apply Hcls.
    + (* the writer *)
      assert (Hst : m_state s = UNI) by (apply (w_wr _ HI i); now rewrite Hc).
      unfold release. change (m_state t) with (m_state s). rewrite Hst.
      assert (Hf : WInv (set_writer (set_state t NO) None)).
      { destruct HI as [A B C D E F G H I J K L]. constructor; cbn; auto; try congruence; try discriminate.
        - intros j; updc j i; auto.
        - intros j Hj; updc j i; auto. apply B in Hj. congruence.
        - intros j Hj; updc j i; auto. apply D in Hj. congruence.
        - intros j Hj. exfalso. updc j i; [discriminate|]. apply F in Hj. congruence.
        - intros j Hj. exfalso. updc j i; [discriminate|].
          assert (j = i) by (apply H; [assumption|now rewrite Hc]). contradiction.
        - intros a b Ha Hb'. updc a i; [discriminate|]. updc b i; [discriminate|]. auto.
        - intros _. apply J. congruence. }
      destruct (wake_shr_W ks _ Hf) as (H1 & H2 & H3 & _); [discriminate|].
      set (s2 := try_wake_up_shr_impl ks _) in *. clearbody s2. cbv zeta.
      rewrite (check_id _ (whealth _ H1)). destruct (being_held_sharedly s2).
      * rewrite (finish_W _ H1). split; [assumption|]. split; [|assumption]. intros j. rewrite H2. apply Hcls.
      * destruct (wake_uni_W ku _ H1) as (H4 & H5 & _). rewrite (finish_W _ H4).
        split; [assumption|]. split; [|assumption]. intros j. rewrite H5, H2. apply Hcls.
Qed.

(** what the log says about who holds, against the state *)
Definition agree (s : state) (R : list nat) (w : option nat) : Prop :=
  (forall j, In j R <-> cls (at_ s j) = 1) /\ (forall j, w = Some j <-> cls (at_ s j) = 2).

Lemma cls_rd p : cls p = 1 -> rd p = true. Proof. destruct p; (reflexivity || discriminate). Qed.
Lemma cls_wr p : cls p = 2 -> writer_pc p = true. Proof. destruct p; (reflexivity || discriminate). Qed.

Lemma exclusive_W l : forall s R w,
  WInv s -> agree s R w -> run_all step defects_not_hit s l -> rw_exclusive R w (trace step observe s l).
Proof.
  induction l as [|e l IH]; intros s R w HI HA Hrun; cbn [trace]; [exact I|].
  destruct (step s e) as [s'|] eqn:Hs; [|exact I].
  destruct Hrun as [HP Hrun]. specialize (Hrun _ Hs).
  destruct (WInv_step _ _ _ HI HP Hs) as [HI' Ho]. destruct HA as [HR Hw].
  destruct (observe s e s') as [|o rest] eqn:Eo; cbn [app].
  { apply IH; auto. split; intros j; rewrite Ho; auto. }
  destruct o as [i|i|i|i]; (destruct rest as [|o2 rest]; [|try contradiction; destruct o; contradiction]); cbn [app rw_exclusive].
  - destruct Ho as (H1 & H2 & H3). split.
    + destruct w as [x|]; auto. assert (cls (at_ s x) = 2) by now apply Hw. exfalso.
      assert (X : m_state s' = UNI).
      { apply (w_wr _ HI' x). apply cls_wr. rewrite H1. destruct (Nat.eqb_spec x i); [congruence|assumption]. }
      congruence.
    + apply IH; auto. split; intros j; rewrite H1.
      * cbn. destruct (Nat.eqb_spec j i) as [->|Hne]; [tauto|]. rewrite HR. split; [intros [X|X]; congruence|auto].
      * rewrite Hw. destruct (Nat.eqb_spec j i) as [->|Hne]; [|reflexivity]. rewrite H2. split; discriminate.
  - destruct Ho as (H1 & H2 & H3).
    assert (Hn2 : forall j, cls (at_ s j) <> 2).
    { intros j X. assert (j = i); [|congruence].
      apply (w_one _ HI'); apply cls_wr; rewrite H1; [|now rewrite Nat.eqb_refl].
      destruct (Nat.eqb j i); auto. }
    assert (Hn1 : forall j, cls (at_ s j) <> 1).
    { intros j X. assert (m_state s' = SHR); [|congruence]. apply (w_rd _ HI' j), cls_rd. rewrite H1.
      destruct (Nat.eqb_spec j i) as [->|]; congruence. }
    split; [|split].
    + destruct w as [x|]; auto. exfalso. apply (Hn2 x). now apply Hw.
    + destruct R as [|x R]; auto. exfalso. apply (Hn1 x). apply HR. now left.
    + apply IH; auto. split; intros j; rewrite H1.
      * destruct (Nat.eqb_spec j i) as [->|Hne]; [|apply HR]. rewrite HR. split; [intros X; now apply Hn1 in X|discriminate].
      * destruct (Nat.eqb_spec j i) as [->|Hne]; [tauto|]. split; [congruence|]. intros X. now apply Hn2 in X.
  - destruct Ho as (H1 & H2).
    assert (Hc : cls (at_ s i) = 1 \/ cls (at_ s i) = 2) by (destruct (at_ s i); cbn in *; auto; congruence).
    destruct Hc as [Hc|Hc]; [right|left].
    + split; [now apply HR|]. apply IH; auto. split; intros j; rewrite H1.
      * destruct (Nat.eqb_spec j i) as [->|Hne].
        -- split; [|discriminate]. intros X. now apply remove_In in X.
        -- rewrite <- HR. split; [intros X; apply in_remove in X; tauto|intros X; now apply in_in_remove].
      * rewrite Hw. destruct (Nat.eqb_spec j i) as [->|Hne]; [|reflexivity]. rewrite Hc. split; discriminate.
    + split; [now apply Hw|]. apply IH; auto. split; intros j; rewrite H1.
      * rewrite HR. destruct (Nat.eqb_spec j i) as [->|Hne]; [|reflexivity]. rewrite Hc. split; discriminate.
      * split; [discriminate|]. destruct (Nat.eqb_spec j i) as [->|Hne]; [discriminate|]. intros X.
        exfalso. apply Hne. apply (w_one _ HI); now apply cls_wr.
  - apply IH; auto. split; intros j; rewrite Ho; auto.
Qed.

(** C04 with waiting readers. Missing from the full statement: histories that hit one of the two defects. *)
Theorem C04_rw_exclusion_with_waiting_readers_partial :
  forall l, run_all step defects_not_hit init l -> rw_exclusive [] None (trace step observe init l).
Proof.
  intros l H. apply exclusive_W; auto using WInv_init. split; intros j; cbn; split; try easy; discriminate.
Qed.
Print Assumptions C04_rw_exclusion_with_waiting_readers_partial.

(** Readers wait, are woken by a writer's release and by their own second look (kick), new readers join them, and
    writers are kept out; one counted reader releases before the waiting one is woken. *)
Definition waiting_history : list event :=
  [EAcqUni 0; EUniEnq 0; EResume 0; EAcqShr 1; EShrEnq 1; EKick 1 0 0; EAcqShr 2; EAcqShr 3;
   ERelease 0 0 0; EResume 1; EAcqUni 4; EUniEnq 4; EShrEnq 2; EKick 2 0 0; EResume 2; EAcqShr 5; EAcqShr 6; ERelease 1 0 0; EShrEnq 3; EKick 3 0 0; EResume 3].
Definition dnh (s : state) (e : event) : bool :=
  match e with
  | ERelease i _ _ => negb (Z.eqb (m_shr_cnt s) 1) || match at_ s i with Reading => false | _ => true end
  | EShrEnq i => match at_ s i with WWantShr => false | _ => true end
  | _ => true
  end.
Lemma dnh_ok s e : dnh s e = true -> defects_not_hit s e.
Proof.
  destruct e; cbn; auto.
  - destruct (at_ s i); congruence.
  - intros H Hi Hc. rewrite Hi, Hc in H. discriminate.
Qed.
Example C04_waiting_nonvacuous :
  run_all step defects_not_hit init waiting_history /\
  trace step observe init waiting_history =
    [GotUnique 0; Unlocks 0; GotShared 1; GotShared 2; GotShared 5; GotShared 6; Unlocks 1; GotShared 3].
Proof.
  split; [|vm_compute; reflexivity].
  apply (run_allb_ok step dnh defects_not_hit); [exact dnh_ok|vm_compute; reflexivity].
Qed.

(** C46: what try_acquire() does do: it completes at once, without suspending the caller or touching anything else. *)
Theorem C46_try_acquire_never_waits_partial :
  forall l s i s', run step init l = Some s -> step s (ETryUni i) = Some s' ->
    at_ s' i = Idle /\ (forall j, at_ s' j = at_ s j) /\ m_state s' = m_state s /\
    m_uni_waitings s' = m_uni_waitings s /\ m_shr_waitings s' = m_shr_waitings s.
Proof.
  intros l s i s' _ Hs. cbn in Hs. destruct (at_ s i) eqn:Ei; try discriminate.
  inversion Hs; subst; clear Hs. cbn. rewrite upd_same.
  split; [reflexivity|split; [|auto]]. intros j. updc j i; auto.
Qed.
Print Assumptions C46_try_acquire_never_waits_partial.
