(** C136: koios::wait_group on a single worker thread: the two steps of a wait() that has to suspend (await_ready, await_suspend; wait_group.h 39-47), and those of a done() that reaches zero (20-26, 56-63), are not interrupted by other coroutines, because nothing in them suspends. *)
From Coq Require Import List Arith NArith Bool Lia.
From Verif.Common Require Import TS.
From Verif.WaitGroup Require Import Model.
Import ListNotations.
Local Open Scope N_scope.

(* specification, no counterpart in /repo (between the steps of wait_group.h 39-47 or 20-26, 56-63) *)
Definition inside (p : pc) : bool := match p with Enqueuing | Draining => true | _ => false end.
(* specification, no counterpart in /repo *)
Definition who (e : event) : nat := match e with EAdd i _ | EDone i _ | EDrain i _ | EDrainEnd i | EWait i | EEnqueue i | EResume i => i end.
(** one thread executes all: the next step belongs to the coroutine that is inside an operation, if there is one *)
(* specification, no counterpart in /repo (one worker: thread_pool.cc 72-118) *)
Definition one_thread (s : state) (e : event) : Prop := forall i, inside (at_ s i) = true -> who e = i.
(** used as intended: done() hands back one unit that was added; the counter does not overflow *)
(* specification, no counterpart in /repo *)
Definition by_one (s : state) (e : event) : Prop :=
  match e with EDone _ n => n = 1 /\ 1 <= count s | EAdd _ n => count s + n < size_max1 | _ => True end.

Record J (s : state) : Prop := {
  j_one : forall i j, inside (at_ s i) = true -> inside (at_ s j) = true -> i = j;
  j_enq : forall i, at_ s i = Enqueuing -> count s <> 0;
  j_wait : forall i, at_ s i = Waiting <-> In i (waitings s);
  j_nd : NoDup (waitings s);
  j_pos : waitings s <> [] -> count s <> 0 \/ exists j, at_ s j = Draining;
  j_max : count s < size_max1 }.
Lemma J_step s e s' : J s -> one_thread s e -> by_one s e -> step s e = Some s' -> J s'.
Proof.
  intros [J1 J2 J3 JN J4 J5] Ht Hb Hs.
  assert (NI : inside (at_ s (who e)) = false -> forall i, inside (at_ s i) = false).
  { intros H i. destruct (inside (at_ s i)) eqn:E; auto. rewrite (Ht i E) in H. congruence. }
  assert (U : forall (f : nat -> pc) i p j, upd f i p j = if (j =? i)%nat then p else f j) by (intros f i p j; destruct (Nat.eqb_spec j i); [subst; apply upd_same|now apply upd_other]).
  destruct e as [i n|i n|i k|i|i|i|i]; cbn [who] in NI; unfold step in Hs; destruct (at_ s i) eqn:Ei; try discriminate; cbn [inside] in NI.
  - (* add *) injection Hs as <-. specialize (NI eq_refl). cbn in Hb. unfold add64. split; cbn [set_count count at_ waitings]; auto.
    + intros j E. specialize (NI j). rewrite E in NI. discriminate.
    + intros Hw. left. destruct (J4 Hw) as [H|(j & H)]; [|specialize (NI j); rewrite H in NI; discriminate]. rewrite N.mod_small by exact Hb. lia.
    + apply N.mod_lt. discriminate.
  - (* done *) injection Hs as <-. destruct Hb as [-> Hb]. specialize (NI eq_refl). assert (Es : sub64 (count s) 1 = count s - 1).
    { unfold sub64. rewrite (N.mod_small 1) by reflexivity. replace (count s + (size_max1 - 1)) with ((count s - 1) + 1 * size_max1) by (cbn; lia). rewrite N.mod_add by discriminate. apply N.mod_small. lia. }
    rewrite Es. destruct (N.eqb_spec (count s) 1) as [E1|N1].
    + split; cbn [goto set_count count at_ waitings]; try lia; try exact JN.
      * intros a b. rewrite !U. destruct (Nat.eqb_spec a i), (Nat.eqb_spec b i); subst; auto; rewrite ?NI; discriminate.
      * intros a. rewrite U. destruct (Nat.eqb_spec a i); [discriminate|]. intros E. specialize (NI a). rewrite E in NI. discriminate.
      * intros a. rewrite U. destruct (Nat.eqb_spec a i) as [->|]; [|apply J3]. rewrite <- J3, Ei. split; discriminate.
      * intros _. right. exists i. now rewrite U, Nat.eqb_refl.
    + split; cbn [set_count count at_ waitings]; auto; [|intros; left; lia|lia].
      intros a E. specialize (NI a). rewrite E in NI. discriminate.
  - (* drain *) destruct (take_nth k (waitings s)) as [[w rest]|] eqn:Et; [|discriminate]. injection Hs as <-. apply take_nth_spec in Et. destruct Et as (l1 & l2 & E1 & E2 & _).
    split; cbn [goto count at_ waitings]; auto.
    + intros a b. rewrite !U. destruct (Nat.eqb_spec a w), (Nat.eqb_spec b w); try discriminate. auto.
    + intros a. rewrite U. destruct (Nat.eqb_spec a w); [discriminate|]. apply J2.
    + intros a. rewrite U. rewrite E1 in JN. pose proof (NoDup_remove_2 _ _ _ JN) as NW. rewrite <- E2 in NW. destruct (Nat.eqb_spec a w) as [->|Na]; [split; [discriminate|intros; contradiction]|]. rewrite J3, E1, E2, !in_app_iff. cbn. split; intros Ha; tauto || (destruct Ha as [Ha|[Ha|Ha]]; auto; congruence).
    + rewrite E1 in JN. rewrite E2. now apply NoDup_remove_1 in JN.
    + intros Hr. right. destruct (Nat.eq_dec i w) as [<-|Nw]; [|exists i; rewrite U; apply Nat.eqb_neq in Nw; now rewrite Nw].
      exfalso. assert (at_ s i = Waiting) by (apply J3; rewrite E1; apply in_app_iff; right; now left). congruence.
  - (* drained *) destruct (waitings s) eqn:Ew; [|discriminate]. injection Hs as <-. split; cbn [goto count at_ waitings]; auto.
    + intros a b. rewrite !U. destruct (Nat.eqb_spec a i), (Nat.eqb_spec b i); try discriminate. auto.
    + intros a. rewrite U. destruct (Nat.eqb_spec a i); [discriminate|]. apply J2.
    + intros a. rewrite U. destruct (Nat.eqb_spec a i) as [->|]; [|rewrite Ew; apply J3]. rewrite Ew, <- J3, Ei. split; discriminate.
    + rewrite Ew. first [constructor | congruence].
  - (* wait *) injection Hs as <-. specialize (NI eq_refl). destruct (N.eqb_spec (count s) 0) as [E0|N0]; split; cbn [goto count at_ waitings]; auto.
    + intros a b. rewrite !U. destruct (Nat.eqb_spec a i), (Nat.eqb_spec b i); try discriminate. auto.
    + intros a. rewrite U. destruct (Nat.eqb_spec a i); [discriminate|]. apply J2.
    + intros a. rewrite U. destruct (Nat.eqb_spec a i) as [->|]; [|apply J3]. rewrite <- J3, Ei. split; discriminate.
    + intros Hw. destruct (J4 Hw) as [H|(j & H)]; [contradiction|specialize (NI j); rewrite H in NI; discriminate].
    + intros a b. rewrite !U. destruct (Nat.eqb_spec a i), (Nat.eqb_spec b i); subst; auto; rewrite ?NI; discriminate.
    + intros a. rewrite U. destruct (Nat.eqb_spec a i) as [->|]; [|apply J3]. rewrite <- J3, Ei. split; discriminate.
  - (* enqueue *) injection Hs as <-. pose proof (J2 i Ei) as N0. split; cbn [goto count at_ waitings]; auto.
    + intros a b. rewrite !U. destruct (Nat.eqb_spec a i), (Nat.eqb_spec b i); try discriminate. auto.
    + intros a. rewrite U. destruct (Nat.eqb_spec a i); [subst; split; auto; intros _; apply in_app_iff; right; now left|]. rewrite in_app_iff, J3. cbn. split; [auto|]. intros [H|[H|[]]]; auto. congruence.
    + apply NoDup_snoc; auto. rewrite <- J3, Ei. discriminate.
  - (* resume *) injection Hs as <-. split; cbn [goto count at_ waitings]; auto.
    + intros a b. rewrite !U. destruct (Nat.eqb_spec a i), (Nat.eqb_spec b i); try discriminate. auto.
    + intros a. rewrite U. destruct (Nat.eqb_spec a i); [discriminate|]. apply J2.
    + intros a. rewrite U. destruct (Nat.eqb_spec a i) as [->|]; [|apply J3]. rewrite <- J3, Ei. split; discriminate.
    + intros Hw. destruct (J4 Hw) as [H|(j & H)]; [auto|]. right. exists j. rewrite U. destruct (Nat.eqb_spec j i); [subst; congruence|exact H].
Qed.
Lemma J_run : forall l s, run_all step (fun s e => one_thread s e /\ by_one s e) init l -> run step init l = Some s -> J s.
Proof.
  intros l s Hd Hr. eapply (run_inv_cond step (fun s e => one_thread s e /\ by_one s e) J); eauto.
  - intros s0 e s1 HJ [H1 H2] Hs. eapply J_step; eauto.
  - split; cbn; try discriminate; try reflexivity; [split; [discriminate|contradiction]|constructor|congruence].
Qed.

(** C136: on one worker nobody is left waiting: while somebody waits, something added has not been done, or the done() that reached zero is just waking the waiters ... *)
Theorem C136_no_lost_wakeup : forall l s i, run_all step (fun s e => one_thread s e /\ by_one s e) init l -> run step init l = Some s -> at_ s i = Waiting -> 0 < count s \/ exists j, at_ s j = Draining.
Proof.
  intros l s i Hd Hr Hi. pose proof (J_run l s Hd Hr) as HJ. apply (j_wait _ HJ) in Hi. destruct (j_pos _ HJ) as [H|H]; [intros E; rewrite E in Hi; contradiction|left; lia|now right].
Qed.
Print Assumptions C136_no_lost_wakeup.
(** ... so when everything added has been done and all calls of done() have returned, every wait() has been released. *)
Theorem C136_all_released : forall l s, run_all step (fun s e => one_thread s e /\ by_one s e) init l -> run step init l = Some s -> count s = 0 -> (forall j, at_ s j <> Draining) -> forall i, at_ s i <> Waiting /\ at_ s i <> Enqueuing.
Proof.
  intros l s Hd Hr Hc Hn i. split; intros Hi.
  - destruct (C136_no_lost_wakeup l s i Hd Hr Hi) as [H|(j & H)]; [lia|now apply (Hn j)].
  - now apply (j_enq _ (J_run l s Hd Hr) i Hi).
Qed.
Print Assumptions C136_all_released.
(** A wake-up is because of a zero reached after the waiter began to wait: while anybody waits or is about to, the counter has not been zero since, except in the done() that is just waking it. *)
Theorem C136_waits_only_while_positive : forall l s i, run_all step (fun s e => one_thread s e /\ by_one s e) init l -> run step init l = Some s -> (forall j, at_ s j <> Draining) -> at_ s i = Waiting \/ at_ s i = Enqueuing -> 0 < count s.
Proof.
  intros l s i Hd Hr Hn [Hi|Hi].
  - destruct (C136_no_lost_wakeup l s i Hd Hr Hi) as [H|(j & H)]; [exact H|now apply Hn in H].
  - pose proof (j_enq _ (J_run l s Hd Hr) i Hi). lia.
Qed.
Print Assumptions C136_waits_only_while_positive.
Definition l_join := [EAdd 0 2; EWait 0; EEnqueue 0; EWait 3; EEnqueue 3; EDone 1 1; EDone 2 1; EDrain 2 1; EDrain 2 0; EDrainEnd 2; EResume 0; EResume 3].
Example C136_case : run_all step (fun s e => one_thread s e /\ by_one s e) init l_join /\ option_map (fun s => (count s, at_ s 0%nat, at_ s 3%nat)) (run step init l_join) = Some (0, Idle, Idle).
Proof.
  split; [|vm_compute; reflexivity]. unfold l_join. cbn [run_all].
  repeat (split; [split; [intros x; vm_compute; do 5 (destruct x as [|x]; try discriminate; try reflexivity)|first [exact I | vm_compute; reflexivity | split; [reflexivity|discriminate]]]|intros s' Hs'; vm_compute in Hs'; injection Hs' as <-]); exact I.
Qed.
(** done(2) at a counter of 2 releases nobody, on one worker too (C07). *)
Theorem C136_done_by_two : exists s, run_all step one_thread init [EAdd 0 2; EWait 0; EEnqueue 0; EDone 1 2] /\ run step init [EAdd 0 2; EWait 0; EEnqueue 0; EDone 1 2] = Some s /\ count s = 0 /\ at_ s 0%nat = Waiting /\ forall j, at_ s j <> Draining.
Proof.
  eexists. split; [|split; [vm_compute; reflexivity|]].
  - cbn [run_all]. repeat (split; [intros x; vm_compute; do 5 (destruct x as [|x]; try discriminate; try reflexivity)|intros s' Hs'; vm_compute in Hs'; injection Hs' as <-]); exact I.
  - cbn. split; [reflexivity|]. split; [reflexivity|]. intros [|j]; discriminate.
Qed.
Print Assumptions C136_done_by_two.
