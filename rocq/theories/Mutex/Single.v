(** C130: koios::mutex on a single worker thread. There the two steps of a contended acquire (await_ready and await_suspend, acq_lk_aw.h 27-36), and the steps of a release (coroutine_mutex.h 86-88, coroutine_mutex.cc 41-52), are not interrupted by other coroutines, because nothing in them suspends; and all elements of the waiting queue are enqueued by one thread, for which moodycamel::ConcurrentQueue is first in, first out. *)
From Coq Require Import List Arith Bool Lia.
From Verif.Common Require Import TS.
From Verif.Mutex Require Import Model Spec Proofs.
Import ListNotations.

(** inside an operation of the mutex *)
(* specification, no counterpart in /repo (between the steps of acq_lk_aw.h 27-36 or coroutine_mutex.cc 39-52) *)
Definition inside (p : pc) : bool := match p with Enqueuing | RelCleared | RelHeld | RelEmpty => true | _ => false end.
(* specification, no counterpart in /repo *)
Definition who (e : event) : nat := match e with EAcquire i | EEnqueue i | ETry i | EClear i | ERelTAS i | ERelDeq i _ | ERelNone i | ERelClear i | EResume i => i end.
(** one thread executes all: the next step belongs to the coroutine that is inside an operation, if there is one; the oldest handle is dequeued *)
(* specification, no counterpart in /repo (one worker: thread_pool.cc 72-118) *)
Definition one_thread (s : state) (e : event) : Prop :=
  (forall i, inside (at_ s i) = true -> who e = i) /\ match e with ERelDeq _ k => k = 0 | _ => True end.

(** ** specification: requests and grants, in order *)
Definition requests (s : state) (e : event) (s' : state) : list nat :=
  match e with EAcquire i => [i] | ETry i => match at_ s' i with Owner => [i] | _ => [] end | _ => [] end.
Definition grants (s : state) (e : event) (s' : state) : list nat := flat_map (fun o => match o with Obtained i => [i] | _ => [] end) (observe s e s').

Record J (s : state) (rq gr : list nat) : Prop := {
  j_inv : Inv s;
  j_one : forall i j, inside (at_ s i) = true -> inside (at_ s j) = true -> i = j;
  j_enq : forall i, at_ s i = Enqueuing -> exists j, at_ s j = Owner \/ at_ s j = Woken;
  j_wait : waitings s <> [] -> exists j, tok (at_ s j) = true /\ at_ s j <> RelEmpty \/ at_ s j = RelCleared;
  j_cleared : forall i, at_ s i = RelCleared -> flag s = false;
  j_order : exists wk en, rq = gr ++ wk ++ waitings s ++ en /\ length wk <= 1 /\ length en <= 1 /\ (forall i, In i wk <-> at_ s i = Woken) /\ (forall i, In i en <-> at_ s i = Enqueuing) }.

Lemma J_init : J init [] [].
Proof.
  split; [apply Inv_init|discriminate|discriminate|intros H; now destruct H|discriminate|]. exists [], []. cbn. repeat split; auto; try contradiction; discriminate.
Qed.
Lemma no_en (en : list nat) (P : nat -> Prop) : (forall i, In i en <-> P i) -> (forall i, ~ P i) -> en = [].
Proof. intros H N. destruct en as [|x en]; auto. exfalso. apply (N x), H. now left. Qed.
Lemma one_en (en : list nat) (P : nat -> Prop) i : (forall x, In x en <-> P x) -> length en <= 1 -> P i -> en = [i].
Proof. intros H L Hp. apply H in Hp. destruct en as [|a [|b en]]; cbn in *; try lia; try contradiction. destruct Hp as [->|[]]; reflexivity. Qed.
Ltac uc := repeat match goal with
  | H : context[upd _ ?i _ ?j] |- _ => destruct (Nat.eq_dec j i) as [?|?]; [subst; rewrite ?upd_same in *|rewrite ?(upd_other _ i j) in * by assumption]
  | |- context[upd _ ?i _ ?j] => destruct (Nat.eq_dec j i) as [?|?]; [subst; rewrite ?upd_same in *|rewrite ?(upd_other _ i j) in * by assumption]
  end.
Ltac nin N0 := match goal with
  | H : inside (at_ _ ?a) = true |- _ => rewrite (N0 a eq_refl) in H; discriminate
  | H : at_ _ ?a = _ |- _ => let K := fresh in pose proof (N0 a eq_refl) as K; rewrite H in K; discriminate
  end.
Lemma J_step s e s' rq gr : J s rq gr -> one_thread s e -> step false s e = Some s' -> J s' (rq ++ requests s e s') (gr ++ grants s e s').
Proof.
  intros [HI Jo Je Jw Jc (wk & en & Eo & Lw & Le & Hw & He)] [Ht Hk] Hs. pose proof (Inv_step _ _ _ _ HI Hs) as HI'.
  assert (T1 : forall i j, tok (at_ s i) = true -> tok (at_ s j) = true -> i = j) by apply HI.
  assert (NI : forall i, inside (at_ s (who e)) = false -> inside (at_ s i) = false).
  { intros i Hi. destruct (inside (at_ s i)) eqn:E; auto. rewrite (Ht i E) in Hi. congruence. }
  destruct e as [i|i|i|i|i|i k|i|i|i]; cbn [who] in *; cbn in Hs; destruct (at_ s i) eqn:Ei; try discriminate.
  - (* EAcquire *) injection Hs as <-. assert (N0 := NI). cbn in N0. unfold requests, grants. cbn [observe goto set_flag at_]. rewrite upd_same.
    assert (en = []) as -> by (apply (no_en _ _ He); intros x Hx; specialize (NI x ltac:(reflexivity)); rewrite Hx in NI; discriminate).
    destruct (flag s) eqn:Ef; cbn [negb flat_map app].
    + rewrite app_nil_r. destruct (inv_flag _ HI Ef) as (j & Hj).
      assert (at_ s j = Owner \/ at_ s j = Woken) as Oj by (specialize (NI j eq_refl); destruct (at_ s j); try discriminate; auto).
      assert (j <> i) as Nji by (intros ->; rewrite Ei in Oj; destruct Oj; discriminate).
      split; cbn; auto.
      * intros a b Ha Hb. uc; auto; nin N0.
      * intros a Ha. exists j. now rewrite upd_other.
      * intros Hq. exists j. rewrite upd_other by auto. left. split; [exact Hj|destruct Oj; congruence].
      * intros a. uc; [discriminate|]. intros Ha. nin N0.
      * exists wk, [i]. rewrite Eo, app_nil_r, <- !app_assoc. repeat split; auto.
        -- intros Hx. uc; [|now apply Hw]. apply Hw in Hx. congruence.
        -- intros Hx. uc; [discriminate|]. now apply Hw.
        -- intros [<-|[]]. now rewrite upd_same.
        -- intros Hx. uc; [now left|]. exfalso. nin N0.
    + assert (NT : forall j, tok (at_ s j) = false) by (intros j; destruct (tok (at_ s j)) eqn:E; auto; rewrite (inv_tok _ HI j E) in Ef; discriminate).
      assert (waitings s = []) as Ew. { destruct (waitings s) eqn:E; auto. destruct Jw as (j & [[Hj _]|Hj]); [discriminate|rewrite NT in Hj; discriminate|]. specialize (N0 j eq_refl). rewrite Hj in N0. discriminate. }
      assert (wk = []) as -> by (apply (no_en _ _ Hw); intros x Hx; specialize (NT x); rewrite Hx in NT; discriminate).
      split; cbn; auto.
      * intros a b Ha Hb. uc; auto; try discriminate; nin N0.
      * intros a. uc; [discriminate|]. intros Ha. nin N0.
      * rewrite Ew. congruence.
      * intros a. uc; [discriminate|]. intros Ha. nin N0.
      * exists [], []. rewrite Eo, Ew. cbn. rewrite !app_nil_r. repeat split; auto; try contradiction; intros Hx; uc; try discriminate; [specialize (NT i0)|specialize (N0 i0 eq_refl)]; rewrite Hx in *; discriminate.
  - (* EEnqueue *) injection Hs as <-. unfold requests, grants. cbn [observe flat_map]. rewrite !app_nil_r.
    assert (en = [i]) as -> by exact (one_en en (fun x => at_ s x = Enqueuing) i He Le Ei). destruct (Je i Ei) as (j & Oj). assert (j <> i) as Nji by (intros ->; rewrite Ei in Oj; destruct Oj; discriminate).
    split; cbn; auto.
    + intros a b Ha Hb. uc; auto; try discriminate.
    + intros a. uc; [discriminate|]. intros Ha. exfalso. apply n. apply (Jo a i); [now rewrite Ha|now rewrite Ei].
    + intros _. exists j. rewrite upd_other by auto. left. destruct Oj as [O|O]; rewrite O; split; (reflexivity || discriminate).
    + intros a. uc; [discriminate|]. apply Jc.
    + exists wk, []. rewrite Eo, app_nil_r. repeat split; auto.
      * intros Hx. uc; [|now apply Hw]. apply Hw in Hx. congruence.
      * intros Hx. uc; [discriminate|]. now apply Hw.
      * intros [].
      * intros Hx. uc; [discriminate|]. exfalso. apply n. apply (Jo i0 i); [now rewrite Hx|now rewrite Ei].
  - (* ETry *) injection Hs as <-. assert (N0 := NI). cbn in N0. unfold requests, grants. cbn [observe goto set_flag at_]. rewrite upd_same.
    destruct (flag s) eqn:Ef; cbn [negb flat_map app].
    + rewrite !app_nil_r. split; cbn; auto.
      * intros a b Ha Hb. uc; auto; try discriminate.
      * intros a. uc; [discriminate|]. intros Ha. destruct (Je a Ha) as (j & Oj). exists j. rewrite upd_other; auto. intros ->. rewrite Ei in Oj. destruct Oj; discriminate.
      * intros Hq. destruct (Jw Hq) as (j & Oj). exists j. rewrite upd_other; auto. intros ->. rewrite Ei in Oj. destruct Oj as [[Oj _]|Oj]; discriminate.
      * intros a. uc; [discriminate|]. intros Ha. apply Jc in Ha. congruence.
      * exists wk, en. rewrite Eo. repeat split; auto.
        -- intros Hx. uc; [|now apply Hw]. apply Hw in Hx. congruence.
        -- intros Hx. uc; [discriminate|]. now apply Hw.
        -- intros Hx. uc; [|now apply He]. apply He in Hx. congruence.
        -- intros Hx. uc; [discriminate|]. now apply He.
    + assert (en = []) as -> by (apply (no_en _ _ He); intros x Hx; specialize (N0 x ltac:(reflexivity)); rewrite Hx in N0; discriminate).
      assert (NT : forall j, tok (at_ s j) = false) by (intros j; destruct (tok (at_ s j)) eqn:E; auto; rewrite (inv_tok _ HI j E) in Ef; discriminate).
      assert (waitings s = []) as Ew. { destruct (waitings s) eqn:E; auto. destruct Jw as (j & [[Hj _]|Hj]); [discriminate|rewrite NT in Hj; discriminate|]. specialize (N0 j eq_refl). rewrite Hj in N0. discriminate. }
      assert (wk = []) as -> by (apply (no_en _ _ Hw); intros x Hx; specialize (NT x); rewrite Hx in NT; discriminate).
      split; cbn; auto.
      * intros a b Ha Hb. uc; auto; try discriminate; nin N0.
      * intros a. uc; [discriminate|]. intros Ha. nin N0.
      * rewrite Ew. congruence.
      * intros a. uc; [discriminate|]. intros Ha. nin N0.
      * exists [], []. rewrite Eo, Ew. cbn. rewrite !app_nil_r. repeat split; auto; try contradiction; intros Hx; uc; try discriminate; [specialize (NT i0)|specialize (N0 i0 eq_refl)]; rewrite Hx in *; discriminate.
  - (* EClear *) injection Hs as <-. assert (N0 := NI). cbn in N0. unfold requests, grants. cbn [observe flat_map app]. rewrite !app_nil_r.
    assert (en = []) as -> by (apply (no_en _ _ He); intros x Hx; specialize (N0 x ltac:(reflexivity)); rewrite Hx in N0; discriminate).
    assert (wk = []) as ->. { apply (no_en _ _ Hw). intros x Hx. assert (x = i) by (apply T1; [now rewrite Hx|now rewrite Ei]). congruence. }
    split; cbn; auto.
    + intros a b Ha Hb. uc; auto; nin N0.
    + intros a. uc; [discriminate|]. intros Ha. nin N0.
    + intros _. exists i. rewrite upd_same. now right.
    + exists [], []. rewrite Eo. repeat split; auto; try contradiction; intros Hx; uc; try discriminate.
      * assert (i0 = i) by (apply T1; [now rewrite Hx|now rewrite Ei]). contradiction.
      * specialize (N0 i0 eq_refl). rewrite Hx in N0. discriminate.
  - (* ERelTAS *) pose proof (Jc i Ei) as Ef. rewrite Ef in Hs. injection Hs as <-. unfold requests, grants. cbn [observe flat_map app]. rewrite !app_nil_r.
    split; cbn; auto.
    + intros a b Ha Hb. uc; auto; apply Jo; rewrite ?Ei; auto.
    + intros a. uc; [discriminate|]. intros Ha. exfalso. apply n. apply (Jo a i); [now rewrite Ha|now rewrite Ei].
    + intros _. exists i. rewrite upd_same. left. split; [reflexivity|discriminate].
    + intros a. uc; [discriminate|]. intros Ha. exfalso. apply n. apply (Jo a i); [now rewrite Ha|now rewrite Ei].
    + exists wk, en. rewrite Eo. repeat split; auto.
      * intros Hx. uc; [|now apply Hw]. apply Hw in Hx. congruence.
      * intros Hx. uc; [discriminate|]. now apply Hw.
      * intros Hx. uc; [|now apply He]. apply He in Hx. congruence.
      * intros Hx. uc; [discriminate|]. now apply He.
  - (* ERelDeq *) subst k. destruct (waitings s) as [|w rest] eqn:Ew; [discriminate|]. cbn in Hs. injection Hs as <-. unfold requests, grants. cbn [observe flat_map app]. rewrite !app_nil_r.
    assert (Aw : at_ s w = Waiting) by (apply (inv_wait _ HI); rewrite Ew; now left). assert (w <> i) as Nwi by congruence.
    assert (wk = []) as ->. { apply (no_en _ _ Hw). intros x Hx. assert (x = i) by (apply T1; [now rewrite Hx|now rewrite Ei]). congruence. }
    assert (en = []) as ->. { apply (no_en _ _ He). intros x Hx. assert (x = i) by (apply (Jo x i); [now rewrite Hx|now rewrite Ei]). congruence. }
    split; cbn; auto.
    + intros a b Ha Hb. uc; auto; try discriminate; try (rewrite ?upd_same in *; discriminate). 
    + intros a. uc; try discriminate. intros Ha. exfalso. assert (a = i) by (apply (Jo a i); [now rewrite Ha|now rewrite Ei]). contradiction.
    + intros _. exists w. rewrite upd_other, upd_same by auto. left. split; [reflexivity|discriminate].
    + intros a. uc; try discriminate. intros Ha. exfalso. assert (a = i) by (apply (Jo a i); [now rewrite Ha|now rewrite Ei]). contradiction.
    + exists [w], []. rewrite Eo. cbn. repeat split; auto; try contradiction.
      * intros [<-|[]]. rewrite upd_other, upd_same by auto. reflexivity.
      * intros Hx. uc; try discriminate; auto. exfalso. assert (i0 = i) by (apply T1; [now rewrite Hx|now rewrite Ei]). contradiction.
      * intros Hx. uc; try discriminate. exfalso. assert (i0 = i) by (apply (Jo i0 i); [now rewrite Hx|now rewrite Ei]). contradiction.
  - (* ERelNone *) destruct (waitings s) as [|w rest] eqn:Ew; [|discriminate]. cbn in Hs. injection Hs as <-. unfold requests, grants. cbn [observe flat_map app]. rewrite !app_nil_r.
    split; cbn; auto.
    + intros a b Ha Hb. uc; auto; apply Jo; rewrite ?Ei; auto.
    + intros a. uc; [discriminate|]. intros Ha. exfalso. apply n. apply (Jo a i); [now rewrite Ha|now rewrite Ei].
    + rewrite Ew. congruence.
    + intros a. uc; [discriminate|]. apply Jc.
    + exists wk, en. rewrite Eo, Ew. repeat split; auto.
      * intros Hx. uc; [|now apply Hw]. apply Hw in Hx. congruence.
      * intros Hx. uc; [discriminate|]. now apply Hw.
      * intros Hx. uc; [|now apply He]. apply He in Hx. congruence.
      * intros Hx. uc; [discriminate|]. now apply He.
  - (* ERelClear *) injection Hs as <-. unfold requests, grants. cbn [observe flat_map app]. rewrite !app_nil_r.
    assert (Ew : waitings s = []). { destruct (waitings s) eqn:E; auto. destruct Jw as (j & [[Hj Nj]|Hj]); [discriminate| |].
      - assert (j = i) by (apply T1; [exact Hj|now rewrite Ei]). congruence.
      - assert (j = i) by (apply (Jo j i); [now rewrite Hj|now rewrite Ei]). congruence. }
    split; cbn; auto.
    + intros a b Ha Hb. uc; auto; try discriminate.
    + intros a. uc; [discriminate|]. intros Ha. exfalso. apply n. apply (Jo a i); [now rewrite Ha|now rewrite Ei].
    + rewrite Ew. congruence.
    + exists wk, en. rewrite Eo. repeat split; auto.
      * intros Hx. uc; [|now apply Hw]. apply Hw in Hx. congruence.
      * intros Hx. uc; [discriminate|]. now apply Hw.
      * intros Hx. uc; [|now apply He]. apply He in Hx. congruence.
      * intros Hx. uc; [discriminate|]. now apply He.
  - (* EResume *) injection Hs as <-. assert (N0 := NI). cbn in N0. unfold requests, grants. cbn [observe flat_map app]. rewrite !app_nil_r.
    assert (wk = [i]) as -> by exact (one_en wk (fun x => at_ s x = Woken) i Hw Lw Ei).
    split; cbn; auto.
    + intros a b Ha Hb. uc; auto; try discriminate.
    + intros a. uc; [discriminate|]. intros Ha. nin N0.
    + intros _. exists i. rewrite upd_same. left. split; [reflexivity|discriminate].
    + intros a. uc; [discriminate|]. apply Jc.
    + exists [], en. rewrite Eo. cbn. rewrite <- !app_assoc. cbn. repeat split; auto; try contradiction.
      * intros Hx. uc; [discriminate|]. exfalso. assert (i0 = i) by (apply T1; [now rewrite Hx|now rewrite Ei]). contradiction.
      * intros Hx. uc; [|now apply He]. apply He in Hx. congruence.
      * intros Hx. uc; [discriminate|]. now apply He.
Qed.
Lemma J_run : forall l s0 s rq gr, J s0 rq gr -> run_all (step false) one_thread s0 l -> run (step false) s0 l = Some s ->
  J s (rq ++ trace (step false) requests s0 l) (gr ++ trace (step false) grants s0 l).
Proof.
  induction l as [|e l IH]; intros s0 s rq gr HJ Hd Hr; cbn [run trace] in *; [injection Hr as <-; now rewrite !app_nil_r|].
  destruct (step false s0 e) as [s1|] eqn:E; [|discriminate]. destruct Hd as [Hd1 Hd2]. rewrite !app_assoc. apply IH; auto. now apply J_step.
Qed.

(** C130: on one worker no wake-up is lost: whenever a coroutine waits for the lock, somebody has it, has been handed it, or is in the middle of releasing it ... *)
Theorem C130_no_lost_wakeup : forall l s i, run_all (step false) one_thread init l -> run (step false) init l = Some s -> at_ s i = Waiting ->
  exists j, j <> i /\ at_ s j <> Idle /\ at_ s j <> Waiting /\ at_ s j <> RelEmpty.
Proof.
  intros l s i Hd Hr Hi. pose proof (J_run l init s [] [] J_init Hd Hr) as HJ. destruct (j_wait _ _ _ HJ) as (j & Hj).
  - intros E. assert (In i (waitings s)) as H by (apply (inv_wait _ (j_inv _ _ _ HJ)); exact Hi). rewrite E in H. contradiction.
  - exists j. destruct Hj as [[H1 H2]|H1]; [|rewrite H1; repeat split; try discriminate; congruence]. repeat split; try (intros E; rewrite E in H1; discriminate); auto. intros ->. rewrite Hi in H1. discriminate.
Qed.
Print Assumptions C130_no_lost_wakeup.
(** ... so when everything has come to rest nobody is waiting. *)
Theorem C130_quiescent_means_idle : forall l s, run_all (step false) one_thread init l -> run (step false) init l = Some s -> quiescent s -> forall i, at_ s i = Idle.
Proof.
  intros l s Hd Hr Hq i. destruct (Hq i) as [E|E]; auto. destruct (C130_no_lost_wakeup l s i Hd Hr E) as (j & _ & H1 & H2 & _). destruct (Hq j); contradiction.
Qed.
Print Assumptions C130_quiescent_means_idle.
(** C130: and the lock is first come, first served: the locks are obtained in the order of the requests, and those not served yet are the waiting ones in that order. *)
Theorem C130_first_come_first_served : forall l s, run_all (step false) one_thread init l -> run (step false) init l = Some s ->
  exists pending, trace (step false) requests init l = trace (step false) grants init l ++ pending /\
    (forall i, In i pending <-> at_ s i = Woken \/ at_ s i = Waiting \/ at_ s i = Enqueuing).
Proof.
  intros l s Hd Hr. pose proof (J_run l init s [] [] J_init Hd Hr) as HJ. destruct (j_order _ _ _ HJ) as (wk & en & E & _ & _ & Hw & He). cbn in E.
  exists (wk ++ waitings s ++ en). split; [exact E|]. intros i. rewrite !in_app_iff, Hw, He, (inv_wait _ (j_inv _ _ _ HJ)). tauto.
Qed.
Print Assumptions C130_first_come_first_served.
Example C130_case : let l := [EAcquire 0; EAcquire 1; EEnqueue 1; EAcquire 2; EEnqueue 2; ETry 3; EClear 0; ERelTAS 0; ERelDeq 0 0; EAcquire 0; EEnqueue 0; EResume 1; EClear 1; ERelTAS 1; ERelDeq 1 0; EResume 2] in
  run_all (step false) one_thread init l /\ trace (step false) requests init l = [0; 1; 2; 0] /\ trace (step false) grants init l = [0; 1; 2].
Proof.
  cbv zeta. split; [|split; vm_compute; reflexivity]. cbn [run_all]. 
  repeat (split; [split; [intros x; vm_compute; repeat (destruct x as [|x]; try discriminate; try reflexivity)|try exact I; try reflexivity]|intros s' Hs'; vm_compute in Hs'; injection Hs' as <-]). exact I.
Qed.
(** The order is lost on two threads: 2 asks after 1 and is served first. *)
Theorem C130_two_threads_overtaking : exists l s, run (step false) init l = Some s /\ trace (step false) requests init l = [0; 1; 2] /\ trace (step false) grants init l = [0; 2] /\ at_ s 1 = Waiting.
Proof.
  exists [EAcquire 0; EAcquire 1; EClear 0; ERelTAS 0; ERelNone 0; ERelClear 0; EAcquire 2; EEnqueue 1].
  destruct (run_proj_ok (step false) (fun s => at_ s 1) init [EAcquire 0; EAcquire 1; EClear 0; ERelTAS 0; ERelNone 0; ERelClear 0; EAcquire 2; EEnqueue 1] Waiting) as (s & H1 & H2); [vm_compute; reflexivity|].
  exists s. split; [exact H1|]. split; [vm_compute; reflexivity|]. split; [vm_compute; reflexivity|exact H2].
Qed.
Print Assumptions C130_two_threads_overtaking.
