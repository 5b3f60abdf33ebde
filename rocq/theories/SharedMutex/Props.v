(** Properties C04, C05, C46 (koios::shared_mutex). *)
From Coq Require Import List Arith ZArith Bool Lia.
From Verif.Common Require Import TS.
From Verif.SharedMutex Require Import Model Spec Proofs.
Import ListNotations.

(** C04, full statement: forall l, rw_exclusive [] None (trace step observe init l). It is false. *)
(** A woken reader is not counted, so a writer gets in while it reads ... *)
Theorem C04_reader_and_writer_together_refuted :
  exists s, run step init writer_with_reader = Some s /\ at_ s 1 = Reading /\ at_ s 3 = Writing /\
            use_after_free s = false.
Proof. exact writer_with_reader_ok. Qed.
Print Assumptions C04_reader_and_writer_together_refuted.

(** ... and that reader's release then lets a second writer in. *)
Theorem C04_two_writers_refuted :
  exists s, run step init two_writers = Some s /\ at_ s 3 = Writing /\ at_ s 4 = Writing /\
            use_after_free s = false.
Proof. exact two_writers_ok. Qed.
Print Assumptions C04_two_writers_refuted.

(** A writer that re-acquires the mutex shared lets every other reader in. *)
Theorem C04_reentrant_writer_admits_readers_refuted :
  exists s, run step init reentrant = Some s /\ at_ s 0 = Both /\ at_ s 1 = Reading.
Proof. exact reentrant_ok. Qed.
Print Assumptions C04_reentrant_writer_admits_readers_refuted.

(** What does work: a writer that re-acquires the mutex shared while no reader waits gets the shared lock at once, and its release leaves it writer as before. *)
Theorem C04_reentrant_alone_partial : forall s i ku ks, m_state s = UNI -> m_current_writer s = Some i -> m_shr_cnt s = 0%Z -> m_shr_waitings s = [] -> at_ s i = Writing ->
  exists s1 s2, run step s [EAcqShr i; EShrEnq i; EKick i ku ks; EResume i] = Some s1 /\ at_ s1 i = Both /\ run step s1 [ERelease i ku ks] = Some s2 /\
    at_ s2 i = Writing /\ (forall j, at_ s2 j = at_ s j) /\ m_state s2 = UNI /\ m_current_writer s2 = Some i /\ m_shr_cnt s2 = 0%Z /\
    m_shr_waitings s2 = [] /\ m_uni_waitings s2 = m_uni_waitings s /\ assert_failed s2 = assert_failed s /\ use_after_free s2 = use_after_free s.
Proof.
  intros [h c w qs qu a k af uf] i ku ks; cbn [m_state m_current_writer m_shr_cnt m_shr_waitings at_]. intros -> -> -> -> Hi.
  assert (E1 : step (St UNI 0 (Some i) [] qu a k af uf) (EAcqShr i) = Some (St UNI 0 (Some i) [] qu (upd a i WWantShr) k (af || false) uf)) by (unfold step; cbn [at_]; rewrite Hi; reflexivity).
  assert (E2 : step (St UNI 0 (Some i) [] qu (upd a i WWantShr) k (af || false) uf) (EShrEnq i) =
    Some (St SHR_DURING_UNI 0 (Some i) [] qu (upd (upd a i WWantShr) i WShrWoken) (upd k i true) (af || false) uf)).
  { unfold step. cbn [at_]. rewrite upd_same. unfold add_shr_waiting. cbn [m_current_writer]. rewrite Nat.eqb_refl. unfold wake_shr. cbn [set_state at_]. rewrite upd_same. reflexivity. }
  assert (E3 : step (St SHR_DURING_UNI 0 (Some i) [] qu (upd (upd a i WWantShr) i WShrWoken) (upd k i true) (af || false) uf) (EKick i ku ks) =
    Some (St SHR_DURING_UNI 0 (Some i) [] qu (upd (upd a i WWantShr) i WShrWoken) (upd (upd k i true) i false) af uf)).
  { unfold step. cbn [kick at_]. rewrite !upd_same. unfold try_wake_up_next, try_wake_up_next_uni_impl, try_wake_up_shr_impl, check, fail_assert, health_check, being_held, being_held_sharedly, set_uaf, set_kick.
    cbn [m_state m_shr_cnt m_current_writer m_shr_waitings m_uni_waitings at_ kick assert_failed use_after_free is_UNI is_SHRs negb andb orb pick]. rewrite !orb_false_r. reflexivity. }
  assert (E4 : step (St SHR_DURING_UNI 0 (Some i) [] qu (upd (upd a i WWantShr) i WShrWoken) (upd (upd k i true) i false) af uf) (EResume i) =
    Some (St SHR_DURING_UNI 0 (Some i) [] qu (upd (upd (upd a i WWantShr) i WShrWoken) i Both) (upd (upd k i true) i false) af uf)) by (unfold step; cbn [at_]; rewrite upd_same; reflexivity).
  assert (E5 : step (St SHR_DURING_UNI 0 (Some i) [] qu (upd (upd (upd a i WWantShr) i WShrWoken) i Both) (upd (upd k i true) i false) af uf) (ERelease i ku ks) =
    Some (St UNI 0 (Some i) [] qu (upd (upd (upd (upd a i WWantShr) i WShrWoken) i Both) i Writing) (upd (upd k i true) i false) af uf)) by (unfold step; cbn [at_]; rewrite upd_same; reflexivity).
  eexists. eexists. cbn [run]. rewrite E1, E2, E3, E4. split; [reflexivity|]. cbn [at_]. rewrite upd_same. split; [reflexivity|]. rewrite E5. split; [reflexivity|]. cbn [at_]. rewrite upd_same.
  split; [reflexivity|]. split; [|repeat split]. intros j. cbn [at_]. destruct (Nat.eq_dec j i) as [->|N]; [now rewrite upd_same|]. now rewrite !upd_other by exact N.
Qed.
Print Assumptions C04_reentrant_alone_partial.
Example C04_reentrant_alone_case : exists s, run step init [EAcqUni 0; EUniEnq 0; EResume 0] = Some s /\
  m_state s = UNI /\ m_current_writer s = Some 0 /\ m_shr_cnt s = 0%Z /\ m_shr_waitings s = [] /\ at_ s 0 = Writing.
Proof. eexists. split; [vm_compute; reflexivity|]. repeat split. Qed.

(** The specification itself rejects the log of the first schedule. *)
Example C04_log_not_exclusive :
  trace step observe init writer_with_reader =
    [GotUnique 0; Unlocks 0; GotShared 1; GotShared 2; Unlocks 2; GotUnique 3] /\
  ~ rw_exclusive [] None (trace step observe init writer_with_reader).
Proof.
  split; [vm_compute; reflexivity|].
  vm_compute. intuition discriminate.
Qed.

(** What holds: in every history in which no acquire_shared() has to wait (writers may wait as they
    like), readers and writers exclude each other. *)
Theorem C04_rw_exclusion_partial :
  forall l, run_all step no_reader_waits init l -> rw_exclusive [] None (trace step observe init l).
Proof. exact rw_exclusion_partial. Qed.
Print Assumptions C04_rw_exclusion_partial.

(** In these histories no assertion of the implementation fails. *)
Theorem C04_asserts_hold_partial :
  forall l s, run_all step no_reader_waits init l -> run step init l = Some s ->
    assert_failed s = false /\ use_after_free s = false.
Proof. exact asserts_hold_partial. Qed.
Print Assumptions C04_asserts_hold_partial.
Theorem C04_assert_fails_refuted :
  exists l s, run step init l = Some s /\ assert_failed s = true /\ use_after_free s = false.
Proof. exact assert_fails. Qed.
Print Assumptions C04_assert_fails_refuted.

Definition no_wait_history : list event :=
  [EAcqShr 0; EAcqShr 1; EAcqUni 2; EUniEnq 2; EAcqUni 3; EUniEnq 3; ERelease 0 0 0; ERelease 1 1 0;
   EResume 3; ERelease 3 0 0; EResume 2; ERelease 2 0 0; EAcqShr 0; ERelease 0 0 0].
Example C04_partial_nonvacuous :
  run_all step no_reader_waits init no_wait_history /\
  trace step observe init no_wait_history =
   [GotShared 0; GotShared 1; Unlocks 0; Unlocks 1; GotUnique 3; Unlocks 3; GotUnique 2; Unlocks 2;
    GotShared 0; Unlocks 0].
Proof. split; [|vm_compute; reflexivity]. cbn -[step]. tauto. Qed.

(** C05, full statement: no reachable quiescent state has a suspended coroutine. It is false: after
    one reader that had to wait has released, the mutex stays marked shared although nobody holds
    it, and no writer ever gets it again, whatever writers do. *)
Theorem C05_writers_blocked_forever_refuted :
  exists s, run step init stuck_schedule = Some s /\ quiescent s /\ at_ s 2 = UniWaiting /\
    (forall l s', (forall e, In e l -> writer_event e) -> run step s l = Some s' ->
        forall i, at_ s' i <> UniWoken /\ at_ s' i <> Writing).
Proof. exact stuck_ok. Qed.
Print Assumptions C05_writers_blocked_forever_refuted.

(** Two waiting readers: the writer's release wakes only one, the other stays suspended. *)
Theorem C05_second_reader_stranded_refuted :
  exists s, run step init one_of_two = Some s /\ quiescent s /\ at_ s 2 = ShrWaiting.
Proof. exact one_of_two_ok. Qed.
Print Assumptions C05_second_reader_stranded_refuted.

Theorem C05_rw_progress_partial :
  forall l s, run_all step no_reader_waits init l -> run step init l = Some s -> quiescent s ->
    m_state s = NO /\ forall i, at_ s i = Idle.
Proof. exact rw_progress_partial. Qed.
Print Assumptions C05_rw_progress_partial.
Example C05_partial_nonvacuous :
  run_all step no_reader_waits init no_wait_history /\
  exists s, run step init no_wait_history = Some s /\ quiescent s.
Proof.
  split; [cbn -[step]; tauto|]. eexists. split; [vm_compute; reflexivity|].
  intros i. do 4 (destruct i as [|i]; [cbv; auto|]). cbv; auto.
Qed.

(** C46, full statement: try_acquire() obtains a free mutex. False: it never obtains it. *)
Theorem C46_try_acquire_never_succeeds_refuted :
  forall l s i s', run step init l = Some s -> step s (ETryUni i) = Some s' ->
    observe s (ETryUni i) s' = [Refused i].
Proof. exact try_acquire_never. Qed.
Print Assumptions C46_try_acquire_never_succeeds_refuted.
Example C46_nonvacuous : exists s', step init (ETryUni 0) = Some s' /\ m_state init = NO.
Proof. eexists. split; reflexivity. Qed.

(** C47, full statement: suspending in acquire_shared() never touches the awaiting coroutine's
    frame after it may have been resumed. False: await_suspend enqueues the coroutine and then
    still uses the awaitable object. *)
Theorem C47_acquire_shared_use_after_free_refuted :
  exists s, run step init uaf_schedule = Some s /\ use_after_free s = true.
Proof. exact uaf_ok. Qed.
Print Assumptions C47_acquire_shared_use_after_free_refuted.
