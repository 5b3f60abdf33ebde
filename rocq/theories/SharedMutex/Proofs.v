From Coq Require Import List Arith ZArith Bool Lia.
From Verif.Common Require Import TS.
From Verif.SharedMutex Require Import Model Spec.
Import ListNotations.

(** ** Refutations *)
(** 0 writes; 1 wants to read and waits; 0 releases: 1 woken but not counted; 2 reads (count 1);
    3 wants to write, waits; 2 releases: count 1 -> 0, so writer 3 is woken while 1 reads. *)
Definition writer_with_reader : list event :=
  [EAcqUni 0; EUniEnq 0; EResume 0; EAcqShr 1; EShrEnq 1; EKick 1 0 0; ERelease 0 0 0; EResume 1;
   EAcqShr 2; EAcqUni 3; EUniEnq 3; ERelease 2 0 0; EResume 3].
Lemma writer_with_reader_ok :
  exists s, run step init writer_with_reader = Some s /\ at_ s 1 = Reading /\ at_ s 3 = Writing /\
            use_after_free s = false.
Proof. eexists. split; [vm_compute; reflexivity|]. vm_compute. auto. Qed.

(** ... and then 1's release frees the mutex under writer 3 and lets writer 4 in. *)
Definition two_writers : list event :=
  writer_with_reader ++ [EAcqUni 4; EUniEnq 4; ERelease 1 0 0; EResume 4].
Lemma two_writers_ok :
  exists s, run step init two_writers = Some s /\ at_ s 3 = Writing /\ at_ s 4 = Writing /\
            use_after_free s = false.
Proof. eexists. split; [vm_compute; reflexivity|]. vm_compute. auto. Qed.

(** Re-entrant acquire_shared by the writer lets every other reader in. *)
Definition reentrant : list event :=
  [EAcqUni 0; EUniEnq 0; EResume 0; EAcqShr 0; EShrEnq 0; EKick 0 0 0; EResume 0; EAcqShr 1].
Lemma reentrant_ok :
  exists s, run step init reentrant = Some s /\ at_ s 0 = Both /\ at_ s 1 = Reading.
Proof. eexists. split; [vm_compute; reflexivity|]. vm_compute. auto. Qed.

(** C05: a reader that had to wait, once released, leaves the mutex marked as shared forever. *)
Definition stuck_schedule : list event :=
  [EAcqUni 0; EUniEnq 0; EResume 0; EAcqShr 1; EShrEnq 1; EKick 1 0 0; ERelease 0 0 0; EResume 1;
   ERelease 1 0 0; EAcqUni 2; EUniEnq 2].

Definition no_uni_grant (s : state) : Prop :=
  m_state s = SHR /\ forall i, at_ s i <> UniWoken /\ at_ s i <> Writing.

Lemma writers_blocked l : forall s s',
  no_uni_grant s -> (forall e, In e l -> writer_event e) -> run step s l = Some s' -> no_uni_grant s'.
Proof.
  induction l as [|e l IH]; cbn [run]; intros s s' HN HW Hr; [now inversion Hr; subst|].
  destruct (step s e) as [s1|] eqn:Hs; [|discriminate].
  apply (IH s1); [|intros; apply HW; now right|assumption].
  specialize (HW e (or_introl eq_refl)). destruct HN as [HS HN].
  assert (mv : forall t i p, m_state t = SHR -> (forall j, at_ t j = at_ s j) ->
            p <> UniWoken -> p <> Writing -> no_uni_grant (goto t i p)).
  { intros t i p E1 E2 E3 E4. split; [exact E1|]. intros j. cbn. unfold upd.
    destruct (Nat.eqb j i); [auto|]. rewrite E2. apply HN. }
  destruct e as [i|i|i ku ks|i|i|i|i|i ku ks]; cbn in HW; try contradiction; cbn in Hs;
    destruct (at_ s i) eqn:Ei; try discriminate; try (exfalso; destruct (HN i); congruence).
  - inversion Hs; subst. apply mv; auto; discriminate.
  - inversion Hs; subst. unfold add_waiting, being_held, being_held_sharedly, check; cbn. rewrite HS. cbn.
    apply mv; auto; discriminate.
  - inversion Hs; subst. apply mv; auto; discriminate.
  - inversion Hs; subst. apply mv; auto; discriminate.
  - inversion Hs; subst. apply mv; auto; discriminate.
Qed.

Lemma stuck_ok :
  exists s, run step init stuck_schedule = Some s /\ quiescent s /\ at_ s 2 = UniWaiting /\
    (forall l s', (forall e, In e l -> writer_event e) -> run step s l = Some s' ->
        forall i, at_ s' i <> UniWoken /\ at_ s' i <> Writing).
Proof.
  eexists. split; [vm_compute; reflexivity|]. split; [|split; [reflexivity|]].
  - intros i. do 3 (destruct i as [|i]; [cbv; auto|]). cbv; auto.
  - intros l s' HW Hr. eapply (writers_blocked l _ s'); [|exact HW|exact Hr].
    split; [reflexivity|]. intros i. do 3 (destruct i as [|i]; [cbv; split; discriminate|]). cbv; split; discriminate.
Qed.

(** Several readers waiting: only one of them is woken, the others stay although nobody holds. *)
Definition one_of_two : list event :=
  [EAcqUni 0; EUniEnq 0; EResume 0; EAcqShr 1; EShrEnq 1; EKick 1 0 0; EAcqShr 2; EShrEnq 2; EKick 2 0 0;
   ERelease 0 0 0; EResume 1; ERelease 1 0 0].
Lemma one_of_two_ok :
  exists s, run step init one_of_two = Some s /\ quiescent s /\ at_ s 2 = ShrWaiting.
Proof.
  eexists. split; [vm_compute; reflexivity|]. split; [|reflexivity].
  intros i. do 3 (destruct i as [|i]; [cbv; auto|]). cbv; auto.
Qed.

(** use after free: 0 writes, 1 enqueues; before 1's own try_wake_up_next runs, 0 releases, 1 is
    woken and runs on. *)
Definition uaf_schedule : list event :=
  [EAcqUni 0; EUniEnq 0; EResume 0; EAcqShr 1; EShrEnq 1; ERelease 0 0 0; EResume 1; EKick 1 0 0].
Lemma uaf_ok : exists s, run step init uaf_schedule = Some s /\ use_after_free s = true.
Proof. eexists. split; vm_compute; reflexivity. Qed.

(** release() reaches its assert(false) (state NO) although every caller holds a lock. *)
Lemma assert_fails : exists l s, run step init l = Some s /\ assert_failed s = true /\ use_after_free s = false.
Proof.
  exists (writer_with_reader ++ [ERelease 1 0 0; ERelease 3 0 0]). eexists.
  split; [vm_compute; reflexivity|]. vm_compute. auto.
Qed.

(** try_acquire never succeeds, whatever the state. *)
Lemma try_acquire_never l s i s' :
  run step init l = Some s -> step s (ETryUni i) = Some s' -> observe s (ETryUni i) s' = [Refused i].
Proof.
  intros _ Hs. cbn in Hs. destruct (at_ s i) eqn:Ei; try discriminate.
  inversion Hs; subst. cbn. now rewrite upd_same.
Qed.

(** ** Histories in which no reader waits *)
Definition writer_pc (p : pc) : bool := match p with UniWoken | Writing | WWantShr => true | _ => false end.
Definition allowed (p : pc) : bool :=
  match p with ShrWaiting | ShrWoken | WShrWaiting | WShrWoken | Both => false | _ => true end.

Record Inv (s : state) (R : list nat) : Prop := {
  i_shrq : m_shr_waitings s = [];
  i_kick : forall i, kick s i = false;
  i_allowed : forall i, allowed (at_ s i) = true;
  i_R : forall i, In i R <-> at_ s i = Reading;
  i_Rnd : NoDup R;
  i_cnt : m_shr_cnt s = Z.of_nat (length R);
  i_uq : NoDup (m_uni_waitings s);
  i_uqw : forall i, In i (m_uni_waitings s) <-> at_ s i = UniWaiting;
  i_st : match m_state s with
         | NO => R = [] /\ (forall i, writer_pc (at_ s i) = false) /\ m_uni_waitings s = []
         | SHR => R <> [] /\ (forall i, writer_pc (at_ s i) = false)
         | UNI => R = [] /\ exists w, writer_pc (at_ s w) = true /\
                                     forall i, writer_pc (at_ s i) = true -> i = w
         | SHR_DURING_UNI => False
         end;
  i_assert : assert_failed s = false;
  i_uaf : use_after_free s = false
}.

Lemma Inv_init : Inv init [].
Proof.
  constructor; cbn; auto; try (now constructor); try (now split).
Qed.

Lemma pick_spec k q w rest :
  pick k q = Some (w, rest) -> exists l1 l2, q = l1 ++ w :: l2 /\ rest = l1 ++ l2.
Proof.
  unfold pick. destruct q as [|a q]; [discriminate|]. intros H.
  apply take_nth_spec in H. destruct H as (l1 & l2 & H1 & H2 & _). eauto.
Qed.
Lemma pick_None k q : pick k q = None -> q = [].
Proof.
  unfold pick. destruct q as [|a q]; [auto|]. intros H. apply take_nth_None in H.
  pose proof (Nat.mod_upper_bound k (length (a :: q))). cbn [length] in *. lia.
Qed.

Lemma health s R : Inv s R -> health_check s = true.
Proof.
  intros HI. unfold health_check. destruct (m_state s) eqn:Em; try reflexivity. cbn.
  pose proof (i_st _ _ HI) as H. rewrite Em in H. destruct H as [-> _].
  rewrite (i_cnt _ _ HI). reflexivity.
Qed.

Lemma check_id s : health_check s = true -> check s = s.
Proof. intros H. unfold check. rewrite H. unfold fail_assert. cbn. rewrite orb_false_r. now destruct s. Qed.

Ltac updc j i := destruct (Nat.eq_dec j i) as [->|?]; [rewrite ?upd_same in *|rewrite ?(upd_other _ i j) in * by assumption].

(** The state of a mutex nobody holds, before the wake-up part of a release. *)
Record Free (s : state) : Prop := {
  f_shrq : m_shr_waitings s = [];
  f_kick : forall i, kick s i = false;
  f_allowed : forall i, allowed (at_ s i) = true;
  f_R : forall i, at_ s i <> Reading;
  f_cnt : m_shr_cnt s = 0%Z;
  f_uq : NoDup (m_uni_waitings s);
  f_uqw : forall i, In i (m_uni_waitings s) <-> at_ s i = UniWaiting;
  f_st : m_state s = NO;
  f_w : forall i, writer_pc (at_ s i) = false;
  f_assert : assert_failed s = false;
  f_uaf : use_after_free s = false
}.

Lemma wake_uni_Inv k s : Free s ->
  let s' := try_wake_up_next_uni_impl k s in
  Inv s' [] /\ (m_state s' = NO \/ m_state s' = UNI) /\
  (forall i, at_ s i = Idle -> at_ s' i = Idle) /\
  (forall i, at_ s' i = Writing <-> at_ s i = Writing) /\
  (forall i, at_ s' i = WWantShr <-> at_ s i = WWantShr).
Proof.
  intros HF. cbn. unfold try_wake_up_next_uni_impl.
  assert (Hh : health_check s = true) by (unfold health_check; now rewrite (f_st _ HF)).
  rewrite (check_id _ Hh). unfold being_held, being_held_sharedly. rewrite (f_st _ HF). cbn.
  destruct HF as [A B C D E F G H I J K].
  destruct (pick k (m_uni_waitings s)) as [[w rest]|] eqn:Ep.
  - apply pick_spec in Ep. destruct Ep as (l1 & l2 & E1 & E2).
    rewrite E1 in F. pose proof (NoDup_remove_1 _ _ _ F) as N1.
    pose proof (NoDup_remove_2 _ _ _ F) as N2.
    assert (Hw : at_ s w = UniWaiting) by (apply G; rewrite E1, in_app_iff; right; now left).
    split; [constructor; cbn; auto|split; [now right|]].
    + intros j; updc j w; auto.
    + intros j; updc j w; [split; [easy|discriminate]|split; [easy|intros X; now apply D in X]].
    + constructor.
    + now subst.
    + intros j. subst rest. updc j w; [split; [contradiction|discriminate]|].
      rewrite <- G, E1, !in_app_iff. cbn. split; intros [X|X]; auto. destruct X; [congruence|auto].
    + split; [reflexivity|]. exists w. rewrite upd_same. split; [reflexivity|].
      intros j Hj. updc j w; [reflexivity|]. rewrite I in Hj. discriminate.
    + split; [|split]; intros j; cbn; updc j w; try (split; congruence); try congruence; auto; reflexivity.
  - apply pick_None in Ep. split; [|split; [left; assumption|]].
    + constructor; auto.
      * intros i. split; [easy|]. intros X. now apply D in X.
      * constructor.
      * rewrite H. auto.
    + split; [|split]; intros j; [auto|reflexivity|reflexivity].
Qed.

Lemma try_shr_id k s : m_shr_waitings s = [] -> health_check s = true -> try_wake_up_shr_impl k s = s.
Proof.
  intros H1 H2. unfold try_wake_up_shr_impl. rewrite (check_id _ H2), H1. cbn.
  now destruct (being_held s).
Qed.

Lemma finish_id s R :
  Inv s R ->
  finish s = s.
Proof.
  intros HI. unfold finish. rewrite (check_id _ (health _ _ HI)).
  unfold being_held, being_held_sharedly. destruct (m_state s) eqn:Em; cbn; try reflexivity.
  destruct s; cbn in *; subst; reflexivity.
Qed.

Lemma remove_len (i : nat) R : NoDup R -> In i R -> S (length (remove Nat.eq_dec i R)) = length R.
Proof.
  induction R as [|a R IH]; cbn; intros Hn Hi; [easy|].
  inversion Hn; subst. destruct (Nat.eq_dec i a) as [->|Hne].
  - rewrite notin_remove by assumption. reflexivity.
  - destruct Hi as [Hi|Hi]; [congruence|]. cbn. now rewrite IH.
Qed.
Lemma remove_NoDup (i : nat) R : NoDup R -> NoDup (remove Nat.eq_dec i R).
Proof.
  induction R as [|a R IH]; cbn; intros Hn; [constructor|]. inversion Hn; subst.
  destruct (Nat.eq_dec i a); [auto|]. constructor; [|auto]. intros Hi. apply in_remove in Hi. tauto.
Qed.

(** One step: the invariant is kept, with the reader list evolving as the log says. *)
Lemma Inv_step s R e s' :
  Inv s R -> no_reader_waits s e -> step s e = Some s' ->
  exists R', Inv s' R' /\
    match observe s e s' with
    | [GotShared i] => R' = i :: R /\ (forall j, writer_pc (at_ s j) = false)
    | [GotUnique i] => R' = R /\ R = [] /\ at_ s i = UniWoken
    | [Unlocks i] => (at_ s i = Reading /\ R' = remove Nat.eq_dec i R) \/ (at_ s i = Writing /\ R' = R)
    | _ => R' = R
    end /\
    (forall j, (at_ s' j = Writing \/ at_ s' j = WWantShr) <->
               match observe s e s' with
               | [GotUnique i] => j = i \/ (at_ s j = Writing \/ at_ s j = WWantShr)
               | [Unlocks i] => j <> i /\ (at_ s j = Writing \/ at_ s j = WWantShr)
               | _ => (at_ s j = Writing \/ at_ s j = WWantShr)
               end).
Proof.
  intros HI HP Hs. pose proof (health _ _ HI) as Hh.
  destruct e as [i|i|i ku ks|i|i|i|i|i ku ks]; cbn in HP; try contradiction; cbn in Hs.
  - (* EAcqShr *)
    unfold hold_this_shr_immediately in Hs. rewrite (check_id _ Hh) in Hs.
    destruct HI as [A B C D E F G H I J K].
    destruct (being_held s) eqn:Eb; cbn in Hs; unfold being_held in Eb;
      destruct (m_state s) eqn:Em; try discriminate Eb; try contradiction;
      destruct (at_ s i) eqn:Ei; try discriminate Hs; inversion Hs; subst s'; clear Hs; cbn [observe goto at_];
      rewrite upd_same.
    + exists R. split; [|split; [reflexivity|]].
      * constructor; cbn; auto; try (intros j; updc j i; auto; rewrite ?D, ?H; split; congruence).
        rewrite Em. destruct I as [I1 [w [I2 I3]]]. split; [assumption|]. exists w. split.
        -- updc w i; [rewrite Ei in I2; discriminate|assumption].
        -- intros j Hj. updc j i; [discriminate|auto].
      * intros j; cbn. updc j i; [rewrite Ei; intuition congruence|reflexivity].
    + exists R. split; [|split; [reflexivity|]].
      * constructor; cbn; auto; try (intros j; updc j i; auto; rewrite ?D, ?H; split; congruence).
        rewrite Em. destruct I as [I1 [w [I2 I3]]]. split; [assumption|]. exists w. split.
        -- updc w i; auto.
        -- intros j Hj. updc j i; [|auto]. apply I3. now rewrite Ei.
      * intros j; cbn. updc j i; [rewrite Ei; intuition congruence|reflexivity].
    + destruct I as (I1 & I2 & I3). subst R.
      exists [i]. split; [|split; [split; [reflexivity|assumption]|]].
      * constructor; cbn; auto; try (intros j; updc j i; auto; rewrite ?H; split; congruence).
        -- intros j; updc j i; [split; auto|]. split; [intros [X|[]]; congruence|]. intros X. now apply D in X.
        -- constructor; [easy|constructor].
        -- rewrite F. reflexivity.
        -- split; [discriminate|]. intros j; updc j i; auto.
      * intros j; cbn. updc j i; [rewrite Ei; intuition congruence|reflexivity].
    + exfalso. destruct I as (_ & I2 & _). specialize (I2 i). rewrite Ei in I2. discriminate.
    + destruct I as (I1 & I2).
      exists (i :: R). split; [|split; [split; [reflexivity|assumption]|]].
      * constructor; cbn; auto; try (intros j; updc j i; auto; rewrite ?H; split; congruence).
        -- intros j; updc j i; [split; auto|]. rewrite D. split; [intros [X|X]; congruence|auto].
        -- constructor; [|assumption]. rewrite D. congruence.
        -- rewrite F. lia.
        -- split; [discriminate|]. intros j; updc j i; auto.
      * intros j; cbn. updc j i; [rewrite Ei; intuition congruence|reflexivity].
    + exfalso. destruct I as (_ & I2). specialize (I2 i). rewrite Ei in I2. discriminate.
  - (* EKick *)
    rewrite (i_kick _ _ HI) in Hs. discriminate.
  - (* EAcqUni *)
    destruct (at_ s i) eqn:Ei; try discriminate. inversion Hs; subst s'; clear Hs. cbn [observe goto at_ hold_this_immediately].
    rewrite upd_same. exists R. destruct HI as [A B C D E F G H I J K].
    split; [|split; [reflexivity|]].
    + constructor; cbn; auto; try (intros j; updc j i; auto; rewrite ?D, ?H; split; congruence).
      destruct (m_state s).
      * destruct I as (I1 & I2 & I3). repeat split; auto. intros j; updc j i; auto.
      * destruct I as (I1 & I2). repeat split; auto. intros j; updc j i; auto.
      * destruct I as (I1 & w & I2 & I3). split; [assumption|]. exists w. split.
        -- updc w i; [rewrite Ei in I2; discriminate|assumption].
        -- intros j Hj. updc j i; [discriminate|auto].
      * contradiction.
    + intros j; cbn. updc j i; [rewrite Ei; intuition congruence|reflexivity].
  - (* EUniEnq *)
    destruct (at_ s i) eqn:Ei; try discriminate. inversion Hs; subst s'; clear Hs. cbn [observe].
    unfold add_waiting. rewrite (check_id _ Hh). unfold being_held, being_held_sharedly.
    destruct HI as [A B C D E F G H I J K]. exists R.
    destruct (m_state s) eqn:Em; cbn [is_UNI is_SHRs negb andb]; try contradiction.
    + destruct I as (I1 & I2 & I3). subst R.
      split; [|split; [reflexivity|]].
      * constructor; cbn; auto; try (intros j; updc j i; auto; rewrite ?H; split; congruence).
        -- intros j; updc j i; [split; [easy|discriminate]|]. apply D.
        -- split; [reflexivity|]. exists i. rewrite upd_same. split; [reflexivity|].
           intros j Hj. updc j i; [reflexivity|]. rewrite I2 in Hj; discriminate.
      * intros j; cbn. updc j i; [rewrite Ei; intuition congruence|reflexivity].
    + destruct I as (I1 & I2). split; [|split; [reflexivity|]].
      * constructor; cbn; auto; try (intros j; updc j i; auto; rewrite ?D; split; congruence).
        -- apply NoDup_snoc; [assumption|]. rewrite H. congruence.
        -- intros j. rewrite in_app_iff. cbn. updc j i; [split; auto|]. rewrite <- H.
           split; [intros [X|[X|[]]]; [assumption|congruence]|auto].
        -- rewrite Em. split; [assumption|]. intros j; updc j i; auto.
      * intros j; cbn. updc j i; [rewrite Ei; intuition congruence|reflexivity].
    + destruct I as (I1 & w & I2 & I3). split; [|split; [reflexivity|]].
      * constructor; cbn; auto; try (intros j; updc j i; auto; rewrite ?D; split; congruence).
        -- apply NoDup_snoc; [assumption|]. rewrite H. congruence.
        -- intros j. rewrite in_app_iff. cbn. updc j i; [split; auto|]. rewrite <- H.
           split; [intros [X|[X|[]]]; [assumption|congruence]|auto].
        -- rewrite Em. split; [assumption|]. exists w. split.
           ++ updc w i; [rewrite Ei in I2; discriminate|assumption].
           ++ intros j Hj. updc j i; [discriminate|auto].
      * intros j; cbn. updc j i; [rewrite Ei; intuition congruence|reflexivity].
  - (* ETryUni *)
    destruct (at_ s i) eqn:Ei; try discriminate. inversion Hs; subst s'; clear Hs. cbn [observe goto at_ hold_this_immediately].
    rewrite upd_same. exists R. destruct HI as [A B C D E F G H I J K].
    split; [|split; [reflexivity|]].
    + constructor; cbn; auto; try (intros j; updc j i; auto; rewrite ?D, ?H; split; congruence).
      destruct (m_state s).
      * destruct I as (I1 & I2 & I3). repeat split; auto. intros j; updc j i; auto.
      * destruct I as (I1 & I2). repeat split; auto. intros j; updc j i; auto.
      * destruct I as (I1 & w & I2 & I3). split; [assumption|]. exists w. split.
        -- updc w i; [rewrite Ei in I2; discriminate|assumption].
        -- intros j Hj. updc j i; [discriminate|auto].
      * contradiction.
    + intros j; cbn. updc j i; [rewrite Ei; intuition congruence|reflexivity].
  - (* EResume *)
    destruct HI as [A B C D E F G H I J K]. pose proof (C i) as Ci.
    destruct (at_ s i) eqn:Ei; try discriminate. inversion Hs; subst s'; clear Hs.
    cbn [observe goto at_]. rewrite upd_same. exists R.
    assert (Hst : m_state s = UNI /\ R = []).
    { destruct (m_state s); auto.
      - exfalso. destruct I as (_ & I2 & _). specialize (I2 i). rewrite Ei in I2. discriminate.
      - exfalso. destruct I as (_ & I2). specialize (I2 i). rewrite Ei in I2. discriminate.
      - split; [reflexivity|]. apply I.
      - contradiction. }
    destruct Hst as [Em ER]. rewrite Em in I.
    split; [|split; [auto|]].
    + constructor; cbn; auto; try (intros j; updc j i; auto; rewrite ?D, ?H; split; congruence).
      rewrite Em. destruct I as (I1 & w & I2 & I3). split; [assumption|]. exists w. split.
      * updc w i; auto.
      * intros j Hj. updc j i; [|auto]. apply I3. now rewrite Ei.
    + intros j; cbn. updc j i; [intuition congruence|]. intuition congruence.
  - (* ERelease *)
    pose proof (i_allowed _ _ HI i) as Ci.
    assert (case_i : at_ s i = Reading \/ at_ s i = Writing).
    { destruct (at_ s i); try discriminate Hs; try discriminate Ci; auto. }
    cbn [observe].
    assert (Hs' : s' = release ku ks (goto s i Idle))
      by (destruct case_i as [X|X]; rewrite X in Hs; now inversion Hs).
    clear Hs. subst s'. destruct case_i as [Ei|Ei].
    + (* a reader releases *)
      exists (remove Nat.eq_dec i R).
      assert (HiR : In i R) by now apply (i_R _ _ HI).
      pose proof (remove_len _ _ (i_Rnd _ _ HI) HiR) as HL.
      assert (HN : NoDup (remove Nat.eq_dec i R)) by (apply remove_NoDup; apply HI).
      assert (Hst : m_state s = SHR).
      { pose proof (i_st _ _ HI) as I. destruct (m_state s); auto.
        - destruct I as (-> & _). destruct HiR.
        - destruct I as (-> & _). destruct HiR.
        - contradiction. }
      assert (Hw : forall j, writer_pc (at_ s j) = false).
      { pose proof (i_st _ _ HI) as I. rewrite Hst in I. apply I. }
      unfold release. change (m_state (goto s i Idle)) with (m_state s). change (m_shr_cnt (goto s i Idle)) with (m_shr_cnt s). rewrite Hst. rewrite (i_cnt _ _ HI). cbn [m_state set_state].
      destruct (Z.eqb_spec (Z.of_nat (length R)) 1) as [E1|E1].
      * assert (ER : remove Nat.eq_dec i R = []).
        { destruct (remove Nat.eq_dec i R); [reflexivity|cbn in HL; lia]. }
        assert (HF : Free (set_state (set_cnt (goto s i Idle) (Z.of_nat (length R) - 1)) NO)).
        { destruct HI as [A B C D E F G H I J K]. constructor; cbn; auto.
          - intros j; updc j i; auto.
          - intros j; updc j i; [discriminate|]. intros X. apply D in X.
            assert (In j (remove Nat.eq_dec i R)) by (apply in_in_remove; auto).
            rewrite ER in *. contradiction.
          - lia.
          - intros j; updc j i; [|apply H]. rewrite H, Ei. split; congruence.
          - intros j; updc j i; auto. }
        destruct (wake_uni_Inv ku _ HF) as (HI' & _ & _ & HW1 & HW2).
        rewrite (finish_id _ [] HI'). rewrite ER. split; [assumption|]. split; [now left|].
        intros j. rewrite HW1, HW2. cbn. updc j i; [intuition congruence|]. intuition congruence.
      * assert (HI' : Inv (set_cnt (goto s i Idle) (Z.of_nat (length R) - 1)) (remove Nat.eq_dec i R)).
        { destruct HI as [A B C D E F G H I J K]. constructor; cbn; auto.
          - intros j; updc j i; auto.
          - intros j; updc j i.
            + split; [|discriminate]. intros X. apply in_remove in X. tauto.
            + rewrite <- D. split; [intros X; now apply in_remove in X|intros X; now apply in_in_remove].
          - lia.
          - intros j; updc j i; [|apply H]. rewrite H, Ei. split; congruence.
          - rewrite Hst. split; [|intros j; updc j i; auto].
            intros X. rewrite X in HL. cbn in HL. lia. }
        rewrite (finish_id _ _ HI'). split; [assumption|]. split; [now left|].
        intros j. cbn. updc j i; [intuition congruence|]. intuition congruence.
    + (* a writer releases *)
      exists R.
      assert (Hst : m_state s = UNI /\ R = [] /\ forall j, writer_pc (at_ s j) = true -> j = i).
      { pose proof (i_st _ _ HI) as I. destruct (m_state s).
        - exfalso. destruct I as (_ & I2 & _). specialize (I2 i). rewrite Ei in I2. discriminate.
        - exfalso. destruct I as (_ & I2). specialize (I2 i). rewrite Ei in I2. discriminate.
        - split; [reflexivity|]. destruct I as (I1 & w & I2 & I3). split; [assumption|].
          intros j Hj. rewrite (I3 j Hj). symmetry. apply I3. now rewrite Ei.
        - contradiction. }
      destruct Hst as (Hst & -> & Hu).
      unfold release. change (m_state (goto s i Idle)) with (m_state s). rewrite Hst.
      assert (HF : Free (set_writer (set_state (goto s i Idle) NO) None)).
      { destruct HI as [A B C D E F G H I J K]. constructor; cbn; auto.
        - intros j; updc j i; auto.
        - intros j; updc j i; [discriminate|]. intros X. now apply D in X.
        - intros j; updc j i; [|apply H]. rewrite H, Ei. split; congruence.
        - intros j; updc j i; [reflexivity|]. destruct (writer_pc (at_ s j)) eqn:X; [|reflexivity].
          apply Hu in X. contradiction. }
      assert (HhF : health_check (set_writer (set_state (goto s i Idle) NO) None) = true) by reflexivity.
      rewrite (try_shr_id ks _ (f_shrq _ HF) HhF).
      assert (Hbs : being_held_sharedly (set_writer (set_state (goto s i Idle) NO) None) = false) by reflexivity.
      rewrite Hbs. rewrite (check_id _ HhF).
      destruct (wake_uni_Inv ku _ HF) as (HI' & _ & _ & HW1 & HW2).
      rewrite (finish_id _ [] HI'). split; [assumption|]. split; [now right|].
      intros j. rewrite HW1, HW2. cbn. updc j i; [intuition congruence|]. intuition congruence.
Qed.

Lemma obs_len s e s' : length (observe s e s') <= 1.
Proof. destruct e; cbn; try lia; destruct (at_ s' i); cbn; lia. Qed.

Lemma Inv_writer_unique s R i j :
  Inv s R -> writer_pc (at_ s i) = true -> writer_pc (at_ s j) = true -> i = j.
Proof.
  intros HI Hi Hj. pose proof (i_st _ _ HI) as I. destruct (m_state s).
  - destruct I as (_ & I & _). rewrite I in Hi. discriminate.
  - destruct I as (_ & I). rewrite I in Hi. discriminate.
  - destruct I as (_ & w & _ & I). rewrite (I i Hi), (I j Hj). reflexivity.
  - contradiction.
Qed.

Lemma rw_trace l : forall s R o,
  Inv s R -> (forall i, o = Some i <-> (at_ s i = Writing \/ at_ s i = WWantShr)) ->
  run_all step no_reader_waits s l ->
  rw_exclusive R o (trace step observe s l).
Proof.
  induction l as [|e l IH]; cbn [trace]; intros s R o HI Ho HP; [exact I|].
  cbn in HP. destruct HP as [HPe HPl].
  destruct (step s e) as [s'|] eqn:Hs; [|exact I].
  specialize (HPl _ eq_refl).
  destruct (Inv_step _ _ _ _ HI HPe Hs) as (R' & HI' & HR & HW).
  pose proof (obs_len s e s') as Hlen.
  destruct (observe s e s') as [|ob [|ob2 rest]] eqn:Eo; cbn [length] in Hlen; [| |lia].
  - subst R'. cbn. apply IH; auto. intros i. rewrite Ho, HW. reflexivity.
  - cbn [app]. destruct ob as [i|i|i|i]; cbn [rw_exclusive].
    + destruct HR as [-> HN]. split.
      * destruct o as [j|]; [|reflexivity]. exfalso.
        assert (X : at_ s j = Writing \/ at_ s j = WWantShr) by now apply Ho.
        specialize (HN j). destruct X as [X|X]; rewrite X in HN; discriminate.
      * apply IH; auto. intros j. rewrite Ho, HW. reflexivity.
    + destruct HR as (-> & -> & Hi).
      assert (Hno : o = None).
      { destruct o as [j|]; [|reflexivity]. exfalso.
        assert (X : at_ s j = Writing \/ at_ s j = WWantShr) by now apply Ho.
        assert (j = i).
        { apply (Inv_writer_unique _ _ _ _ HI).
          - destruct X as [X|X]; rewrite X; reflexivity.
          - now rewrite Hi. }
        subst j. destruct X; congruence. }
      split; [exact Hno|]. split; [reflexivity|].
      apply IH; auto. intros j. rewrite HW. rewrite <- Ho, Hno. split.
      * intros X. inversion X. now left.
      * intros [->|X]; [reflexivity|discriminate].
    + destruct HR as [[Hi ->]|[Hi ->]].
      * right. split; [now apply (i_R _ _ HI)|]. apply IH; auto. intros j. rewrite HW, Ho.
        split; [|tauto]. intros X. split; [|assumption]. intros ->. destruct X; congruence.
      * left. split; [apply Ho; auto|]. apply IH; auto. intros j. rewrite HW. split; [discriminate|].
        intros [X1 X2]. exfalso. apply X1.
        apply (Inv_writer_unique _ _ _ _ HI).
        -- destruct X2 as [X|X]; rewrite X; reflexivity.
        -- now rewrite Hi.
    + subst R'. apply IH; auto. intros j. rewrite HW, Ho. reflexivity.
Qed.

Lemma rw_exclusion_partial l :
  run_all step no_reader_waits init l -> rw_exclusive [] None (trace step observe init l).
Proof.
  intros HP. apply rw_trace; [apply Inv_init| |assumption].
  intros i; cbn. split; [discriminate|]. intros [X|X]; discriminate.
Qed.

Lemma Inv_run l s :
  run_all step no_reader_waits init l -> run step init l = Some s -> exists R, Inv s R.
Proof.
  intros HP Hr.
  refine (run_inv_cond step no_reader_waits (fun s => exists R, Inv s R) _ l init s _ HP Hr).
  - intros s0 e s1 [R HI] HPe Hs. destruct (Inv_step _ _ _ _ HI HPe Hs) as (R' & HI' & _). eauto.
  - exists []. apply Inv_init.
Qed.

Lemma rw_progress_partial l s :
  run_all step no_reader_waits init l -> run step init l = Some s -> quiescent s ->
  m_state s = NO /\ forall i, at_ s i = Idle.
Proof.
  intros HP Hr Hq. destruct (Inv_run _ _ HP Hr) as [R HI].
  assert (Hst : m_state s = NO).
  { pose proof (i_st _ _ HI) as I. destruct (m_state s); auto; exfalso.
    - destruct I as [I _]. destruct R as [|i R]; [congruence|].
      assert (X : at_ s i = Reading) by (apply (i_R _ _ HI); now left).
      destruct (Hq i) as [_ [Y|[Y|Y]]]; congruence.
    - destruct I as (_ & w & I & _). destruct (Hq w) as [_ [Y|[Y|Y]]]; rewrite Y in I; discriminate.
    - contradiction. }
  split; [assumption|]. intros i. pose proof (i_st _ _ HI) as I. rewrite Hst in I.
  destruct I as (_ & _ & I). destruct (Hq i) as [_ [Y|[Y|Y]]]; [assumption| |].
  - pose proof (i_allowed _ _ HI i) as X. rewrite Y in X. discriminate.
  - apply (i_uqw _ _ HI) in Y. rewrite I in Y. destruct Y.
Qed.

Lemma asserts_hold_partial l s :
  run_all step no_reader_waits init l -> run step init l = Some s ->
  assert_failed s = false /\ use_after_free s = false.
Proof.
  intros HP Hr. destruct (Inv_run _ _ HP Hr) as [R HI]. split; apply HI.
Qed.
