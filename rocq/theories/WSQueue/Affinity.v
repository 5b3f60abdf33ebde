(** C109: which thread executes a task that was enqueued for a given worker (enqueue(ca, f), include/koios/thread_pool.h 111-130,
    work_stealing_queue.h 63-73). Uses the model of the queue, Model.v. *)
From Coq Require Import List Arith Bool Lia.
From Verif.Common Require Import TS.
From Verif.WSQueue Require Import Model Spec Proofs.
Import ListNotations.

(** False: any other worker that finds its own queue empty may take the task. *)
Theorem C109_other_thread_refuted : forall t u x b k, t <> u ->
  exists s, run next init [ERegister t; ERegister u; EEnqueue t b x; EDeqOwn u k [t; u]; EDeqSteal u 0] = Some s /\
  trace next observe init [ERegister t; ERegister u; EEnqueue t b x; EDeqOwn u k [t; u]; EDeqSteal u 0] = [In_ x; Out u (Some x)] /\ ub s = false.
Proof.
  intros t u x b k Hne.
  assert (E1 : (t =? u) = false) by now apply Nat.eqb_neq. assert (E2 : (u =? t) = false) by (apply Nat.eqb_neq; congruence).
  assert (F1 : (t =? t) = true) by apply Nat.eqb_refl. assert (F2 : (u =? u) = true) by apply Nat.eqb_refl.
  set (s1 := St [t] (upd (q init) t []) (at_ init) false).
  set (s2 := St [u; t] (upd (q s1) u []) (at_ s1) false).
  set (s3 := St [u; t] (upd (q s2) t (q s2 t ++ [x])) (at_ s2) false).
  set (s4 := set_pc s3 u (Stealing [t; u])).
  assert (H1 : step init (ERegister t) = Some (s1, [])) by reflexivity.
  assert (H2 : step s1 (ERegister u) = Some (s2, [])) by (cbn; rewrite E2; reflexivity).
  assert (H3 : step s2 (EEnqueue t b x) = Some (s3, [In_ x])) by (unfold step; replace (memb t (keys s2)) with true by (symmetry; apply memb_In; cbn; auto); reflexivity).
  assert (Hq : q s3 u = []). { unfold s3, s2, s1; cbn. rewrite upd_other by auto. now rewrite upd_same. }
  assert (Hq' : q s3 t = [x]). { unfold s3, s2, s1; cbn. rewrite upd_same, upd_other by auto. now rewrite upd_same. }
  assert (H4 : step s3 (EDeqOwn u k [t; u]) = Some (s4, [])).
  { unfold step, try_dequeue. rewrite Hq. replace (memb u (keys s3)) with true by (symmetry; apply memb_In; cbn; auto).
    replace (same_keys (keys s3) [t; u]) with true; [reflexivity|]. symmetry. unfold same_keys. cbn. rewrite E1, F1, F2, E2. reflexivity. }
  assert (H5 : exists s5, step s4 (EDeqSteal u 0) = Some (s5, [Out u (Some x)]) /\ ub s5 = false).
  { unfold step. change (ub s4) with false. replace (at_ s4 u) with (Stealing [t; u]) by (symmetry; apply upd_same).
    unfold try_dequeue. change (q s4 t) with (q s3 t). rewrite Hq'. cbn [take_nth]. eexists; split; reflexivity. }
  destruct H5 as (s5 & H5 & Hu5). exists s5. unfold next, trace, observe, run. cbn [option_map].
  rewrite H1. cbn [option_map fst]. rewrite H2. cbn [option_map fst]. rewrite H3. cbn [option_map fst]. rewrite H4. cbn [option_map fst]. rewrite H5. cbn [option_map fst]. auto.
Qed.
Print Assumptions C109_other_thread_refuted.

(** What holds. Let [target x] be the worker task [x] is meant for, every enqueue naming a registered worker. *)
Section Affinity.
  Variable target : nat -> tid.
  Definition for_its_target (s : state) (e : event) : Prop := match e with EEnqueue a _ x => a = target x /\ In a (keys s) | _ => True end.
  Definition placed (s : state) : Prop := forall j y, In y (q s j) -> target y = j.

  Lemma try_placed s j k r s' : placed s -> try_dequeue s j k = Some (r, s') ->
    placed s' /\ at_ s' = at_ s /\ (forall x, r = Some x -> target x = j) /\ (r = None -> q s j = []).
  Proof.
    intros HP H. unfold try_dequeue in H. destruct (q s j) as [|y l] eqn:E.
    - inversion H; subst. repeat split; auto. discriminate.
    - destruct (take_nth k (y :: l)) as [[x r0]|] eqn:Et; inversion H; subst; clear H. apply take_nth_spec in Et. destruct Et as (l1 & l2 & E1 & E2 & _).
      assert (Hin : forall z, In z r0 -> In z (q s j)). { intros z Hz. rewrite E, E1. rewrite E2 in Hz. apply in_app_iff in Hz. apply in_app_iff. destruct Hz; [auto|right; right; auto]. }
      repeat split.
      + intros i z Hz. cbn in Hz. unfold upd in Hz. destruct (Nat.eqb_spec i j); [subst; apply HP; auto|apply HP; auto].
      + intros z Hz. injection Hz as <-. apply HP. rewrite E, E1. apply in_app_iff. right. left. reflexivity.
      + discriminate.
  Qed.
  Lemma placed_step s e s' : placed s -> for_its_target s e -> next s e = Some s' -> placed s'.
  Proof.
    intros HP Hg. unfold next, step. destruct (ub s); [discriminate|]. destruct e; cbn in Hg.
    - destruct (memb t (keys s)); intros H; injection H as <-; auto. intros j y Hy. cbn in Hy. unfold upd in Hy. destruct (Nat.eqb_spec j t); [contradiction|auto].
    - destruct Hg as [-> Hin]. apply memb_In in Hin. rewrite Hin. intros H; injection H as <-. intros j y Hy. cbn in Hy. unfold upd in Hy.
      destruct (Nat.eqb_spec j (target x)); [|auto]. subst. apply in_app_iff in Hy. destruct Hy as [Hy|[<-|[]]]; auto.
    - destruct (at_ s t); [|discriminate]. destruct (memb t (keys s)); [|intros H; injection H as <-; exact HP]. destruct (same_keys (keys s) order); [|discriminate].
      destruct (try_dequeue s t k) as [[[x|] s0]|] eqn:E; try discriminate; apply (try_placed _ _ _ _ _ HP) in E as (E & _); intros H; injection H as <-; exact E.
    - destruct (at_ s t) as [|[|j rest]]; [discriminate|intros H; injection H as <-; exact HP|].
      destruct (try_dequeue s j k) as [[[x|] s0]|] eqn:E; try discriminate; apply (try_placed _ _ _ _ _ HP) in E as (E & _); intros H; injection H as <-; exact E.
  Qed.
  Lemma run_placed l s : run_all next for_its_target init l -> run next init l = Some s -> placed s.
  Proof. intros HA Hr. revert HA Hr. apply (run_inv_cond _ _ placed); [intros; eapply placed_step; eauto|intros j y []]. Qed.

  (** a dequeue that has gone on to the other queues began with an empty own queue *)
  Definition began (l : list event) (t : tid) : Prop :=
    exists l1 k o l2 s1, l = l1 ++ EDeqOwn t k o :: l2 /\ run next init l1 = Some s1 /\ q s1 t = [] /\ (forall k' o', ~ In (EDeqOwn t k' o') l2).
  Lemma began_snoc l t e : began l t -> (forall k o, e <> EDeqOwn t k o) -> began (l ++ [e]) t.
  Proof.
    intros (l1 & k & o & l2 & s1 & -> & Hr & Hq & Hn) He. exists l1, k, o, (l2 ++ [e]), s1. rewrite <- app_assoc. repeat split; auto.
    intros k' o' H. apply in_app_iff in H as [H|[H|[]]]; [eapply Hn; eauto|eapply He; eauto].
  Qed.
  Lemma stealing_began l s t rest : run next init l = Some s -> at_ s t = Stealing rest -> began l t.
  Proof.
    revert s rest. induction l as [|e l IH] using rev_ind; intros s rest Hr Ha; [cbn in Hr; injection Hr as <-; discriminate|].
    apply run_app_inv in Hr as (s1 & Hr1 & Hs). cbn in Hs. destruct (next s1 e) as [s2|] eqn:En; [|discriminate]. injection Hs as <-.
    unfold next, step in En. destruct (ub s1); [discriminate|]. destruct e as [t0|a b x|t0 k o|t0 k].
    - assert (Hat : at_ s2 = at_ s1) by (destruct (memb t0 (keys s1)); injection En as <-; reflexivity).
      apply began_snoc; [eapply IH; eauto; rewrite <- Hat; eauto|discriminate].
    - assert (Hat : at_ s2 = at_ s1).
      { destruct (memb a (keys s1)); [injection En as <-; reflexivity|]. destruct (keys s1); [injection En as <-; reflexivity|]. destruct (memb b (_ :: _)); [injection En as <-; reflexivity|discriminate]. }
      apply began_snoc; [eapply IH; eauto; rewrite <- Hat; eauto|discriminate].
    - destruct (Nat.eq_dec t0 t) as [->|Hne].
      + destruct (at_ s1 t) eqn:Eat; [|discriminate]. destruct (memb t (keys s1)); [|injection En as <-; cbn in Ha; congruence].
        destruct (same_keys (keys s1) o); [|discriminate]. destruct (try_dequeue s1 t k) as [[r s0]|] eqn:Et; [|destruct (memb t (keys s1)); discriminate].
        unfold try_dequeue in Et. destruct (q s1 t) as [|y l'] eqn:Eq.
        * injection Et as <- <-. exists l, k, o, [], s1. repeat split; auto.
        * destruct (take_nth k (y :: l')) as [[x r0]|]; [|discriminate]. injection Et as <- <-. injection En as <-. cbn in Ha. congruence.
      + assert (Hat : at_ s2 t = at_ s1 t).
        { destruct (at_ s1 t0) eqn:Eat; [|discriminate]. destruct (memb t0 (keys s1)); [|injection En as <-; reflexivity]. destruct (same_keys (keys s1) o); [|discriminate].
          destruct (try_dequeue s1 t0 k) as [[r s0]|] eqn:Et; [|discriminate].
          assert (H0 : at_ s0 = at_ s1). { unfold try_dequeue in Et. destruct (q s1 t0); [injection Et as _ <-; reflexivity|]. destruct (take_nth k _) as [[? ?]|]; [injection Et as _ <-; reflexivity|discriminate]. }
          destruct r; injection En as <-; cbn; rewrite ?upd_other by auto; now rewrite H0. }
        apply began_snoc; [eapply IH; eauto; rewrite <- Hat; eauto|]. intros k' o' H. injection H. congruence.
    - assert (Hst : exists rest', at_ s1 t = Stealing rest').
      { destruct (Nat.eq_dec t0 t) as [->|Hne]; [destruct (at_ s1 t); [discriminate|eauto]|].
        destruct (at_ s1 t0) as [|[|j rest0]] eqn:Eat; [discriminate|injection En as <-; cbn in Ha; rewrite upd_other in Ha by auto; eauto|].
        destruct (try_dequeue s1 j k) as [[r s0]|] eqn:Et; [|discriminate].
        assert (H0 : at_ s0 = at_ s1). { unfold try_dequeue in Et. destruct (q s1 j); [injection Et as _ <-; reflexivity|]. destruct (take_nth k _) as [[? ?]|]; [injection Et as _ <-; reflexivity|discriminate]. }
        destruct r; injection En as <-; cbn in Ha; rewrite upd_other in Ha by auto; rewrite H0 in Ha; eauto. }
      destruct Hst as (rest' & Hst). apply began_snoc; [eapply IH; eauto|discriminate].
  Qed.
End Affinity.

(** Until it is taken, a task waits in the queue of its worker; *)
Theorem C109_waits_at_its_worker_partial : forall target l s j y,
  run_all next (for_its_target target) init l -> run next init l = Some s -> In y (q s j) -> j = target y.
Proof. intros target l s j y HA Hr Hy. symmetry. eapply run_placed; eauto. Qed.
Print Assumptions C109_waits_at_its_worker_partial.
(** a worker executes a task meant for another one only if it had none of its own when it began to look. *)
Theorem C109_steals_only_without_own_partial : forall target l s e s' t x,
  run_all next (for_its_target target) init l -> run next init l = Some s -> next s e = Some s' ->
  In (Out t (Some x)) (observe s e s') -> target x <> t ->
  exists l1 k o l2 s1, l = l1 ++ EDeqOwn t k o :: l2 /\ run next init l1 = Some s1 /\ q s1 t = [] /\ (forall k' o', ~ In (EDeqOwn t k' o') l2).
Proof.
  intros target l s e s' t x HA Hr Hs Hin Hne. pose proof (run_placed _ _ _ HA Hr) as HP.
  unfold observe in Hin. destruct (step s e) as [[s0 o0]|] eqn:Es; [|contradiction]. unfold step in Es. destruct (ub s); [discriminate|]. destruct e as [t0|a b y|t0 k o|t0 k].
  - destruct (memb t0 (keys s)); injection Es as <- <-; contradiction.
  - destruct (memb a (keys s)); [injection Es as <- <-; destruct Hin as [H|[]]; discriminate|]. destruct (keys s); [injection Es as <- <-; contradiction|].
    destruct (memb b (_ :: _)); [injection Es as <- <-; destruct Hin as [H|[]]; discriminate|discriminate].
  - destruct (at_ s t0); [|discriminate]. destruct (memb t0 (keys s)); [|injection Es as <- <-; contradiction]. destruct (same_keys (keys s) o); [|discriminate].
    destruct (try_dequeue s t0 k) as [[[z|] s1]|] eqn:E; try discriminate; injection Es as <- <-; [|contradiction].
    destruct Hin as [H|[]]. injection H as -> ->. apply (try_placed _ _ _ _ _ _ HP) in E as (_ & _ & E & _). exfalso. apply Hne. auto.
  - destruct (at_ s t0) as [|[|j rest]] eqn:Ea; [discriminate|injection Es as <- <-; destruct Hin as [H|[]]; discriminate|].
    destruct (try_dequeue s j k) as [[[z|] s1]|] eqn:E; try discriminate; injection Es as <- <-; [|contradiction].
    destruct Hin as [H|[]]. injection H as -> ->. exact (stealing_began l s t (j :: rest) Hr Ea).
Qed.
Print Assumptions C109_steals_only_without_own_partial.
Example C109_case : let l := [ERegister 1; ERegister 2; EEnqueue 2 1 12; EEnqueue 2 1 22; EDeqOwn 1 0 [1; 2]; EDeqSteal 1 0] in
  run_all next (for_its_target (fun x => x mod 10)) init l /\
  exists s, run next init l = Some s /\ observe s (EDeqSteal 1 0) s = [Out 1 (Some 12)].
Proof.
  split; [repeat (split; [cbn; auto|intros ? H; vm_compute in H; injection H as <-]); exact I|]. eexists. split; reflexivity.
Qed.
