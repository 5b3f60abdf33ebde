From Coq Require Import List Arith Bool Lia Permutation.
From Verif.Common Require Import TS.
From Verif.ThreadPool Require Import Model Spec.
Import ListNotations.
#[local] Arguments upd : simpl never.

Section P.
Variable n : nat.
Variable ord : list nat.
Hypothesis Hord : forall i, i < n <-> In i ord.

(** ** Conservation, all schedules *)
Lemma queued_ext m s s' : (forall i, i < m -> queues s' i = queues s i) -> queued m s' = queued m s.
Proof. induction m as [|m IH]; cbn; intros H; [reflexivity|]. rewrite H by lia. rewrite IH; auto. Qed.

Lemma queued_set m s i l : i < m -> Permutation (queued m (set_q s i l) ++ queues s i) (queued m s ++ l).
Proof.
  induction m as [|m IH]; cbn; intros H; [lia|]. destruct (Nat.eq_dec i m) as [->|N].
  - rewrite upd_same. rewrite (queued_ext m s (set_q s m l)).
    + rewrite (Permutation_app_comm (l ++ queued m s)), <- app_assoc. apply Permutation_app_head. apply Permutation_app_comm.
    + intros j Hj. cbn. rewrite upd_other; auto. lia.
  - rewrite upd_other by auto. rewrite <- !app_assoc. apply Permutation_app_head. apply IH. lia.
Qed.

Lemma queued_push s i x : i < n -> Permutation (queued n (set_q s i (queues s i ++ [x]))) (x :: queued n s).
Proof.
  intros H. pose proof (queued_set n s i (queues s i ++ [x]) H) as P.
  apply (Permutation_app_inv_r (queues s i)). rewrite P. rewrite app_assoc.
  rewrite <- Permutation_cons_append. reflexivity.
Qed.
Lemma queued_take s i k x r : i < n -> take_nth k (queues s i) = Some (x, r) ->
  Permutation (queued n s) (x :: queued n (set_q s i r)).
Proof.
  intros H Ht. pose proof (queued_set n s i r H) as P. apply take_nth_spec in Ht. destruct Ht as (l1 & l2 & E & -> & _).
  rewrite E in P. apply (Permutation_app_inv_r (l1 ++ l2)). rewrite <- P. cbn.
  rewrite <- Permutation_middle. symmetry. rewrite <- Permutation_middle. reflexivity.
Qed.

(** every step only touches queues of workers *)
Record Inv0 (s : state) : Prop := { i0_q : forall i, n <= i -> queues s i = [] }.

Lemma cons_step s e s' o : Inv0 s -> step n ord s e = Some (s', o) ->
  Inv0 s' /\ Permutation (queued n s ++ accepted o) (executed o ++ queued n s').
Proof.
  intros HI Hs. unfold step in Hs. destruct (terminated s); [discriminate|].
  assert (same : forall s2, queues s2 = queues s -> Inv0 s2 /\ Permutation (queued n s ++ []) (queued n s2)).
  { intros s2 E. split; [constructor; rewrite E; apply HI|]. rewrite app_nil_r. rewrite (queued_ext n s s2); auto. now rewrite E. }
  assert (take : forall i k x r w, take_nth k (queues s i) = Some (x, r) ->
     Inv0 (set_w (set_q s i r) w (WExec x)) /\ Permutation (queued n s ++ []) ([x] ++ queued n (set_w (set_q s i r) w (WExec x)))).
  { intros i k x r w Et. assert (Hi : i < n).
    { destruct (Nat.lt_ge_cases i n); [assumption|]. rewrite (i0_q _ HI) in Et by assumption. destruct k; discriminate. }
    split.
    - constructor. cbn. intros j Hj. rewrite upd_other by lia. now apply HI.
    - rewrite app_nil_r. cbn [app]. rewrite (queued_take s i k x r Hi Et).
      rewrite (queued_ext n (set_q s i r) (set_w (set_q s i r) w (WExec x))); [reflexivity|]. reflexivity. }
  destruct e as [w k|a|a i x|w|a|a|a].
  - destruct (Nat.ltb w n); [|discriminate]. unfold worker_step in Hs.
    destruct (wpcs s w) as [sec|sec|sec [|i rest]| |[|i rest]| |x|]; try (inversion Hs; subst; clear Hs; cbn [accepted executed app]; apply same; reflexivity).
    + destruct (enq_passed s w); [discriminate|]. destruct (queues s w) eqn:Eq; [inversion Hs; subst; clear Hs; apply same; reflexivity|].
      rewrite <- Eq in *. destruct (take_nth k (queues s w)) as [[x r]|] eqn:Et; inversion Hs; subst; clear Hs. cbn [accepted executed]. eauto.
    + destruct (queues s i) eqn:Eq; [inversion Hs; subst; clear Hs; apply same; reflexivity|].
      rewrite <- Eq in *. destruct (take_nth k (queues s i)) as [[x r]|] eqn:Et; inversion Hs; subst; clear Hs. cbn [accepted executed]. eauto.
  - destruct (may_call n s a && negb (enq_passed s a)); [|discriminate]. destruct (stop_now s); inversion Hs; subst; apply same; reflexivity.
  - destruct (may_call n s a && enq_passed s a && Nat.ltb i n) eqn:E; [|discriminate]. inversion Hs; subst; clear Hs.
    apply andb_true_iff in E. destruct E as [_ E]. apply Nat.ltb_lt in E. cbn [accepted executed app]. split.
    + constructor. cbn. intros j Hj. rewrite upd_other by lia. now apply HI.
    + rewrite <- Permutation_cons_append. symmetry.
      rewrite <- (queued_ext n s (set_enq s a false)) by reflexivity. apply (queued_push (set_enq s a false) i x E).
  - destruct (Nat.ltb w n); [|discriminate]. destruct (wpcs s w); try discriminate. destruct (enq_passed s w); [discriminate|].
    destruct (spcs s w); inversion Hs; subst; apply same; reflexivity.
  - destruct (may_call n s a && negb (enq_passed s a)); inversion Hs; subst; apply same; reflexivity.
  - destruct (may_call n s a && negb (enq_passed s a)); [|discriminate]. destruct (once s); [destruct (Nat.ltb a n)|]; inversion Hs; subst; apply same; reflexivity.
  - destruct (spcs s a); try discriminate.
    + destruct (all_exited n s); inversion Hs; subst; apply same; reflexivity.
    + destruct (once_done s); inversion Hs; subst; apply same; reflexivity.
Qed.

Lemma accepted_app a b : accepted (a ++ b) = accepted a ++ accepted b.
Proof. induction a as [|[] a IH]; cbn; congruence. Qed.
Lemma executed_app a b : executed (a ++ b) = executed a ++ executed b.
Proof. induction a as [|[] a IH]; cbn; congruence. Qed.

Lemma conservation_gen l : forall s s', Inv0 s -> run (next n ord) s l = Some s' ->
  Inv0 s' /\ Permutation (queued n s ++ accepted (trace (next n ord) (observe n ord) s l))
                 (executed (trace (next n ord) (observe n ord) s l) ++ queued n s').
Proof.
  induction l as [|e l IH]; cbn [run trace]; intros s s' HI Hr.
  - inversion Hr; subst. cbn. rewrite app_nil_r. auto.
  - destruct (next n ord s e) as [s1|] eqn:En; [|discriminate].
    unfold next in En. unfold observe at 1 3. destruct (step n ord s e) as [[s2 o]|] eqn:Es; [|discriminate].
    cbn in En. inversion En; subst s2; clear En.
    destruct (cons_step _ _ _ _ HI Es) as [HI1 P1]. destruct (IH _ _ HI1 Hr) as [HI' P2].
    split; [assumption|]. rewrite accepted_app, executed_app, app_assoc, P1, <- !app_assoc. apply Permutation_app_head. exact P2.
Qed.
Lemma Inv0_init : Inv0 init. Proof. constructor. reflexivity. Qed.
Lemma queued_init m : queued m init = []. Proof. induction m; cbn; auto. Qed.

Lemma conservation l s : run (next n ord) init l = Some s ->
  Permutation (accepted (trace (next n ord) (observe n ord) init l))
              (executed (trace (next n ord) (observe n ord) init l) ++ queued n s).
Proof.
  intros Hr. destruct (conservation_gen l init s Inv0_init Hr) as [_ P]. now rewrite queued_init in P.
Qed.

(** ** Graceful stop *)
Definition live (p : wpc) (i : nat) : Prop :=
  match p with WExit => False | WScan _ rest => In i rest | _ => True end.
Definition early (p : wpc) : Prop :=
  match p with WDone2 _ | WScan _ _ | WExit => False | _ => True end.

Record J (s : state) : Prop := {
  j_now : stop_now s = false;
  j_early : stop_req s = false -> forall w, w < n -> early (wpcs s w);
  j_live : forall i, i < n -> queues s i <> [] -> exists w, w < n /\ live (wpcs s w) i
}.

Lemma early_live p i : early p -> live p i.
Proof. destruct p; cbn; tauto. Qed.

Lemma J_init : J init.
Proof. constructor; cbn; auto. congruence. Qed.

(** worker w changes its pc: fine if it is live (for every non-empty queue it was live for) afterwards *)
Lemma J_setw s w p : w < n -> J s -> (stop_req s = false -> early p) ->
  (forall i, i < n -> queues s i <> [] -> live (wpcs s w) i -> live p i) -> J (set_w s w p).
Proof.
  intros Hw [A B C] He Hl. constructor; cbn; auto.
  - intros Hr w' Hw'. destruct (Nat.eq_dec w' w) as [->|N]; [rewrite upd_same; auto|rewrite upd_other; auto].
  - intros i Hi Hq. destruct (C i Hi Hq) as (v & Hv & Lv). destruct (Nat.eq_dec v w) as [->|N].
    + exists w. split; [assumption|]. rewrite upd_same. auto.
    + exists v. split; [assumption|]. rewrite upd_other; auto.
Qed.

Lemma J_take s w i k x r : w < n -> J s -> take_nth k (queues s i) = Some (x, r) -> J (set_w (set_q s i r) w (WExec x)).
Proof.
  intros Hw [A B C] Ht. constructor; cbn; auto.
  - intros Hr w' Hw'. destruct (Nat.eq_dec w' w) as [->|N]; [rewrite upd_same; exact I|rewrite upd_other; auto].
  - intros j Hj Hq. exists w. split; [assumption|]. rewrite upd_same. exact I.
Qed.

Lemma J_step s e s' : 0 < n -> J s -> graceful n s e -> next n ord s e = Some s' -> J s'.
Proof.
  intros Hn0 HJ HG Hn. unfold next in Hn. destruct (step n ord s e) as [[s1 o]|] eqn:Hs; [|discriminate].
  cbn in Hn. inversion Hn; subst s1; clear Hn. unfold step in Hs. destruct (terminated s); [discriminate|].
  assert (same : forall s2, queues s2 = queues s -> wpcs s2 = wpcs s -> stop_now s2 = stop_now s ->
     (stop_req s2 = false -> stop_req s = false) -> J s2).
  { intros s2 E1 E2 E3 E4. destruct HJ as [A B C]. constructor; rewrite ?E1, ?E2, ?E3; auto. }
  destruct e as [w k|a|a i x|w|a|a|a]; cbn [graceful] in HG.
  - destruct (Nat.ltb_spec w n) as [Hw|]; [|discriminate]. unfold worker_step in Hs.
    destruct (wpcs s w) as [sec|sec|sec [|i rest]| |[|i rest]| |x|] eqn:Ew; try discriminate.
    + inversion Hs; subst; clear Hs. apply J_setw; auto.
      * intros ->. destruct sec; exact I.
      * intros i Hi Hq _. destruct (stop_req s), sec; exact I.
    + assert (stop_req s = true) by (destruct (stop_req s) eqn:E; auto; exfalso; pose proof (j_early _ HJ E w Hw) as X; now rewrite Ew in X).
      inversion Hs; subst; clear Hs. rewrite (j_now _ HJ). apply J_setw; auto; [congruence|].
      intros i Hi _ _. cbn. now apply Hord.
    + assert (stop_req s = true) by (destruct (stop_req s) eqn:E; auto; exfalso; pose proof (j_early _ HJ E w Hw) as X; now rewrite Ew in X).
      inversion Hs; subst; clear Hs. apply J_setw; auto; [congruence|]. rewrite Ew. intros i _ _ [].
    + assert (stop_req s = true) by (destruct (stop_req s) eqn:E; auto; exfalso; pose proof (j_early _ HJ E w Hw) as X; now rewrite Ew in X).
      inversion Hs; subst; clear Hs. apply J_setw; auto; [congruence|]. rewrite Ew. intros j Hj Hq Hin.
      destruct (queues s i) eqn:Ei; [|destruct sec; exact I]. cbn in *. destruct Hin as [->|Hin]; [congruence|assumption].
    + destruct (enq_passed s w); [discriminate|]. destruct (queues s w) eqn:Eq.
      * inversion Hs; subst; clear Hs. apply J_setw; auto; intros; exact I.
      * rewrite <- Eq in *. destruct (take_nth k (queues s w)) as [[x r]|] eqn:Et; inversion Hs; subst; clear Hs. eapply J_take; eauto.
    + inversion Hs; subst; clear Hs. apply J_setw; auto; intros; exact I.
    + destruct (queues s i) eqn:Eq.
      * inversion Hs; subst; clear Hs. apply J_setw; auto; intros; exact I.
      * rewrite <- Eq in *. destruct (take_nth k (queues s i)) as [[x r]|] eqn:Et; inversion Hs; subst; clear Hs. eapply J_take; eauto.
    + inversion Hs; subst; clear Hs. apply J_setw; auto; intros; exact I.
  - destruct (may_call n s a && negb (enq_passed s a)); [|discriminate]. destruct (stop_now s) eqn:En; inversion Hs; subst; apply same; auto.
  - destruct (may_call n s a && enq_passed s a && Nat.ltb i n) eqn:E; [|discriminate]. inversion Hs; subst; clear Hs.
    apply andb_true_iff in E. destruct E as [E _]. apply andb_true_iff in E. destruct E as [E _].
    assert (Hwit : exists w, w < n /\ live (wpcs s w) i).
    { destruct (Nat.ltb_spec a n) as [Ha|Ha].
      - exists a. split; [assumption|]. unfold may_call in E. apply Nat.ltb_lt in Ha. rewrite Ha in E.
        destruct (spcs s a), (wpcs s a); try discriminate; exact I.
      - exists 0. split; [assumption|]. apply early_live. apply HJ; [|assumption].
        destruct (stop_req s); [|reflexivity]. specialize (HG eq_refl). lia. }
    destruct HJ as [A B C]. constructor; cbn; auto. intros j Hj Hq.
    destruct (Nat.eq_dec j i) as [->|N]; [assumption|]. rewrite upd_other in Hq by assumption. auto.
  - destruct (Nat.ltb_spec w n) as [Hw|]; [|discriminate]. destruct (wpcs s w) eqn:Ew; try discriminate. destruct (enq_passed s w); [discriminate|].
    destruct (spcs s w); inversion Hs; subst; (apply J_setw; auto; intros; exact I).
  - contradiction.
  - destruct (may_call n s a && negb (enq_passed s a)); [|discriminate]. destruct (once s); [destruct (Nat.ltb a n)|]; inversion Hs; subst; apply same; auto; discriminate.
  - destruct (spcs s a); try discriminate.
    + destruct (all_exited n s); inversion Hs; subst; apply same; auto.
    + destruct (once_done s); inversion Hs; subst; apply same; auto.
Qed.

Lemma queued_nil m s : m <= n -> (forall i, i < n -> queues s i = []) -> queued m s = [].
Proof. induction m as [|m IH]; cbn; intros Hm H; [reflexivity|]. rewrite H by lia. apply IH; auto. lia. Qed.

Lemma graceful_complete l s : 0 < n ->
  run_all (next n ord) (graceful n) init l -> run (next n ord) init l = Some s ->
  all_workers_exited n s ->
  Permutation (accepted (trace (next n ord) (observe n ord) init l)) (executed (trace (next n ord) (observe n ord) init l)).
Proof.
  intros Hn HP Hr Hex.
  assert (HJ : J s).
  { refine (run_inv_cond (next n ord) (graceful n) J _ l init s J_init HP Hr). intros; eapply J_step; eauto. }
  pose proof (conservation l s Hr) as P. rewrite (queued_nil n s) in P; [now rewrite app_nil_r in P|lia|].
  intros i Hi. destruct (queues s i) eqn:E; [reflexivity|]. exfalso.
  destruct (j_live _ HJ i Hi) as (w & Hw & L); [congruence|]. rewrite (Hex w Hw) in L. exact L.
Qed.

(** ** stop() returns only after all workers ended; the shutdown body runs at most once *)
Definition ending (s : state) : Prop :=
  once s <= 1 /\
  (once_done s = true -> all_workers_exited n s) /\
  (forall a, spcs s a = SReturned -> once_done s = true) /\
  (forall a, spcs s a <> SOut -> once s = 1) /\
  (once s = 1 <-> stop_req s = true).

Lemma all_exited_spec m s : all_exited m s = true <-> forall w, w < m -> wpcs s w = WExit.
Proof.
  induction m as [|m IH]; cbn; [split; [intros; lia|reflexivity]|].
  rewrite andb_true_iff, IH. split.
  - intros [A B] w Hw. destruct (Nat.eq_dec w m) as [->|N]; [destruct (wpcs s m); try discriminate; reflexivity|apply B; lia].
  - intros H. split; [rewrite H by lia; reflexivity|intros; apply H; lia].
Qed.

Lemma worker_shape s w k s' o : worker_step ord s w k = Some (s', o) ->
  exists p, s' = set_w s w p \/ exists i r, s' = set_w (set_q s i r) w p.
Proof.
  intros Hs. unfold worker_step in Hs.
  repeat match type of Hs with
         | context[match ?x with _ => _ end] => destruct x; try discriminate
         end; inversion Hs; subst; eauto.
Qed.

Lemma exit_stays s e s' : next n ord s e = Some s' -> forall w, wpcs s w = WExit -> wpcs s' w = WExit.
Proof.
  intros Hn w Hw. unfold next in Hn. destruct (step n ord s e) as [[s1 o]|] eqn:Hs; [|discriminate].
  cbn in Hn. inversion Hn; subst s1; clear Hn. unfold step in Hs. destruct (terminated s); [discriminate|].
  destruct e as [v k|a|a i x|v|a|a|a].
  - destruct (Nat.ltb v n); [|discriminate]. destruct (Nat.eq_dec w v) as [->|N].
    + unfold worker_step in Hs. rewrite Hw in Hs. discriminate.
    + apply worker_shape in Hs. destruct Hs as (p & [->|(i & r & ->)]); cbn; rewrite upd_other; auto.
  - destruct (may_call n s a && negb (enq_passed s a)); [|discriminate]. destruct (stop_now s); inversion Hs; subst; auto.
  - destruct (may_call n s a && enq_passed s a && Nat.ltb i n); inversion Hs; subst; auto.
  - destruct (Nat.ltb v n); [|discriminate]. destruct (Nat.eq_dec w v) as [->|N]; [rewrite Hw in Hs; discriminate|].
    destruct (wpcs s v); try discriminate. destruct (enq_passed s v); [discriminate|].
    destruct (spcs s v); inversion Hs; subst; cbn; rewrite upd_other; auto.
  - destruct (may_call n s a && negb (enq_passed s a)); inversion Hs; subst; auto.
  - destruct (may_call n s a && negb (enq_passed s a)); [|discriminate]. destruct (once s); [destruct (Nat.ltb a n)|]; inversion Hs; subst; auto.
  - destruct (spcs s a); try discriminate.
    + destruct (all_exited n s); inversion Hs; subst; auto.
    + destruct (once_done s); inversion Hs; subst; auto.
Qed.

Lemma ending_step s e s' : ending s -> next n ord s e = Some s' -> ending s'.
Proof.
  intros HE Hn. pose proof (exit_stays _ _ _ Hn) as Hst.
  unfold next in Hn. destruct (step n ord s e) as [[s1 o]|] eqn:Hs; [|discriminate].
  cbn in Hn. inversion Hn; subst s1; clear Hn.
  destruct HE as (A & B & C & D & F).
  assert (same : once s' = once s -> once_done s' = once_done s -> spcs s' = spcs s -> stop_req s' = stop_req s -> ending s').
  { intros E1 E2 E3 E4. unfold ending. rewrite E1, E2, E3, E4. split; [assumption|]. split; [|split; [assumption|split; assumption]].
    intros Hd w Hw. apply Hst. now apply B. }
  unfold step in Hs. destruct (terminated s); [discriminate|].
  destruct e as [v k|a|a i x|v|a|a|a].
  - destruct (Nat.ltb v n); [|discriminate]. apply worker_shape in Hs. destruct Hs as (p & [->|(i & r & ->)]); apply same; reflexivity.
  - destruct (may_call n s a && negb (enq_passed s a)); [|discriminate]. destruct (stop_now s); inversion Hs; subst; apply same; reflexivity.
  - destruct (may_call n s a && enq_passed s a && Nat.ltb i n); inversion Hs; subst; apply same; reflexivity.
  - destruct (Nat.ltb v n); [|discriminate]. destruct (wpcs s v); try discriminate. destruct (enq_passed s v); [discriminate|].
    destruct (spcs s v); inversion Hs; subst; apply same; reflexivity.
  - destruct (may_call n s a && negb (enq_passed s a)); inversion Hs; subst; apply same; reflexivity.
  - destruct (may_call n s a && negb (enq_passed s a)) eqn:Em; [|discriminate].
    destruct (once s) as [|k] eqn:Eo.
    + assert (Hout : forall b, spcs s b = SOut).
      { intros b. destruct (spcs s b) eqn:E; auto; assert (0 = 1) by (apply (D b); congruence); lia. }
      assert (Hnd : once_done s = false \/ once_done s = true) by (destruct (once_done s); auto).
      destruct (Nat.ltb a n); inversion Hs; subst s'; clear Hs; unfold ending; cbn; rewrite Eo.
      * split; [lia|]. split; [assumption|]. split; [|split; [reflexivity|tauto]]. intros b Hb. rewrite Hout in Hb. discriminate.
      * split; [lia|]. split; [assumption|]. split; [|split; [reflexivity|tauto]].
        intros b Hb. destruct (Nat.eq_dec b a) as [->|N]; [rewrite upd_same in Hb; discriminate|].
        rewrite upd_other, Hout in Hb by assumption. discriminate.
    + assert (k = 0) by lia. subst k. inversion Hs; subst s'; clear Hs. unfold ending; cbn. rewrite Eo.
      split; [lia|]. split; [assumption|]. split; [|split; [reflexivity|assumption]].
      intros b Hb. destruct (Nat.eq_dec b a) as [->|N]; [rewrite upd_same in Hb; discriminate|].
      rewrite upd_other in Hb by assumption. eauto.
  - destruct (spcs s a) eqn:Ea; try discriminate.
    + destruct (all_exited n s) eqn:Ex; inversion Hs; subst s'; clear Hs. unfold ending; cbn.
      split; [assumption|]. split; [intros _; exact (proj1 (all_exited_spec n s) Ex)|]. split; [reflexivity|]. split; [|assumption].
      intros b Hb. destruct (Nat.eq_dec b a) as [->|N]; [apply (D a); congruence|]. rewrite upd_other in Hb by assumption. eauto.
    + destruct (once_done s) eqn:Ex; inversion Hs; subst s'; clear Hs. unfold ending; cbn. rewrite Ex.
      split; [assumption|]. split; [assumption|]. split; [reflexivity|]. split; [|assumption].
      intros b Hb. destruct (Nat.eq_dec b a) as [->|N]; [apply (D a); congruence|]. rewrite upd_other in Hb by assumption. eauto.
Qed.

Lemma ending_run l s : run (next n ord) init l = Some s -> ending s.
Proof.
  intros Hr. refine (run_inv (next n ord) ending ending_step l init s _ Hr).
  unfold ending; cbn. split; [lia|]. split; [discriminate|]. split; [discriminate|]. split; [congruence|]. split; discriminate.
Qed.

Lemma stop_returns_after_exit l s a : run (next n ord) init l = Some s -> spcs s a = SReturned -> all_workers_exited n s.
Proof. intros Hr Ha. destruct (ending_run l s Hr) as (A & B & C & _). eauto. Qed.

(** nothing is executed any more once all workers have left *)
Lemma nothing_runs l : forall s, all_workers_exited n s -> executed (trace (next n ord) (observe n ord) s l) = [].
Proof.
  induction l as [|e l IH]; cbn [trace]; intros s Hx; [reflexivity|].
  destruct (next n ord s e) as [s'|] eqn:En; [|reflexivity].
  rewrite executed_app. rewrite (IH s') by (intros w Hw; eapply exit_stays; [exact En|]; now apply Hx). rewrite app_nil_r.
  unfold next in En. unfold observe. destruct (step n ord s e) as [[s1 o]|] eqn:Hs; [|reflexivity]. clear En.
  unfold step in Hs. destruct (terminated s); [discriminate|].
  destruct e as [v k|a|a i x|v|a|a|a].
  - destruct (Nat.ltb_spec v n) as [Hv|]; [|discriminate]. unfold worker_step in Hs. rewrite (Hx v Hv) in Hs. discriminate.
  - destruct (may_call n s a && negb (enq_passed s a)); [|discriminate]. destruct (stop_now s); inversion Hs; reflexivity.
  - destruct (may_call n s a && enq_passed s a && Nat.ltb i n); inversion Hs; subst; reflexivity.
  - destruct (Nat.ltb v n); [|discriminate]. destruct (wpcs s v); try discriminate. destruct (enq_passed s v); [discriminate|].
    destruct (spcs s v); inversion Hs; subst; reflexivity.
  - destruct (may_call n s a && negb (enq_passed s a)); inversion Hs; reflexivity.
  - destruct (may_call n s a && negb (enq_passed s a)); [|discriminate]. destruct (once s); [destruct (Nat.ltb a n)|]; inversion Hs; reflexivity.
  - destruct (spcs s a); try discriminate.
    + destruct (all_exited n s); inversion Hs; reflexivity.
    + destruct (once_done s); inversion Hs; reflexivity.
Qed.

(** a task accepted when all workers are gone is never executed *)
Lemma accepted_after_exit_lost l1 l2 s : 
  run (next n ord) init l1 = Some s -> all_workers_exited n s ->
  executed (trace (next n ord) (observe n ord) init (l1 ++ l2)) = executed (trace (next n ord) (observe n ord) init l1).
Proof.
  intros Hr Hx. rewrite (trace_app _ _ _ _ _ _ Hr), executed_app, (nothing_runs l2 s Hx), app_nil_r. reflexivity.
Qed.

(** with stop requested, every queue empty: a worker that runs no task leaves by its own steps *)
Lemma leaves s w : w < n -> terminated s = false -> stop_req s = true -> enq_passed s w = false ->
  (forall i, queues s i = []) -> (forall x, wpcs s w <> WExec x) ->
  exists l s', run (next n ord) s l = Some s' /\ wpcs s' w = WExit /\ (forall e, In e l -> exists k, e = EWorker w k).
Proof.
  intros Hw Ht Hsr Hep Hq Hne.
  assert (W : forall s0, terminated s0 = false -> forall s1 o, worker_step ord s0 w 0 = Some (s1, o) -> next n ord s0 (EWorker w 0) = Some s1).
  { intros s0 T0 s1 o E. unfold next, step. rewrite T0. apply Nat.ltb_lt in Hw. rewrite Hw, E. reflexivity. }
  assert (one : forall s0 s1 o, terminated s0 = false -> worker_step ord s0 w 0 = Some (s1, o) ->
     (exists l s', run (next n ord) s1 l = Some s' /\ wpcs s' w = WExit /\ (forall e, In e l -> exists k, e = EWorker w k)) ->
     (exists l s', run (next n ord) s0 l = Some s' /\ wpcs s' w = WExit /\ (forall e, In e l -> exists k, e = EWorker w k))).
  { intros s0 s1 o T0 E (l & s' & R & X & Y). exists (EWorker w 0 :: l), s'. cbn [run]. rewrite (W _ T0 _ _ E).
    split; [assumption|]. split; [assumption|]. intros e [<-|He]; eauto. }
  assert (scan : forall rest sec s0, terminated s0 = false -> (forall i, queues s0 i = []) -> wpcs s0 w = WScan sec rest ->
     exists l s', run (next n ord) s0 l = Some s' /\ wpcs s' w = WExit /\ (forall e, In e l -> exists k, e = EWorker w k)).
  { induction rest as [|i rest IHr]; intros sec s0 T0 Q0 E0.
    - exists [EWorker w 0]. eexists. cbn [run]. split.
      + erewrite W; [reflexivity|assumption|]. unfold worker_step. rewrite E0. reflexivity.
      + cbn. rewrite upd_same. split; [reflexivity|]. intros e [<-|[]]; eauto.
    - eapply one; [assumption|unfold worker_step; rewrite E0, Q0; reflexivity|]. apply (IHr sec); cbn; auto. now rewrite upd_same. }
  assert (d2 : forall sec s0, terminated s0 = false -> (forall i, queues s0 i = []) -> wpcs s0 w = WDone2 sec ->
     exists l s', run (next n ord) s0 l = Some s' /\ wpcs s' w = WExit /\ (forall e, In e l -> exists k, e = EWorker w k)).
  { intros sec s0 T0 Q0 E0. eapply one; [assumption|unfold worker_step; rewrite E0; reflexivity|].
    destruct (stop_now s0).
    - exists []. eexists. cbn. split; [reflexivity|]. cbn. rewrite upd_same. split; [reflexivity|]. intros e [].
    - apply (scan ord sec); cbn; auto. now rewrite upd_same. }
  assert (d1 : forall sec s0, terminated s0 = false -> stop_req s0 = true -> (forall i, queues s0 i = []) -> wpcs s0 w = WDone1 sec ->
     exists l s', run (next n ord) s0 l = Some s' /\ wpcs s' w = WExit /\ (forall e, In e l -> exists k, e = EWorker w k)).
  { intros sec s0 T0 S0 Q0 E0. eapply one; [assumption|unfold worker_step; rewrite E0, S0; reflexivity|].
    apply (d2 sec); cbn; auto. now rewrite upd_same. }
  assert (steal : forall rest s0, terminated s0 = false -> stop_req s0 = true -> (forall i, queues s0 i = []) -> wpcs s0 w = WSteal rest ->
     exists l s', run (next n ord) s0 l = Some s' /\ wpcs s' w = WExit /\ (forall e, In e l -> exists k, e = EWorker w k)).
  { induction rest as [|i rest IHr]; intros s0 T0 S0 Q0 E0.
    - eapply one; [assumption|unfold worker_step; rewrite E0; reflexivity|]. apply (d1 true); cbn; auto. now rewrite upd_same.
    - eapply one; [assumption|unfold worker_step; rewrite E0, Q0; reflexivity|]. apply IHr; cbn; auto. now rewrite upd_same. }
  destruct (wpcs s w) as [sec|sec|sec rest| |rest| |x|] eqn:Ew.
  - eapply d1; eauto.
  - eapply d2; eauto.
  - eapply scan; eauto.
  - eapply one; [assumption|unfold worker_step; rewrite Ew, Hep, Hq; reflexivity|]. apply (steal ord); cbn; auto. now rewrite upd_same.
  - eapply steal; eauto.
  - eapply one; [assumption|unfold worker_step; rewrite Ew; reflexivity|]. apply (d1 false); cbn; auto. now rewrite upd_same.
  - exfalso. now apply (Hne x).
  - exists [], s. cbn. split; [reflexivity|]. split; [assumption|]. intros e [].
Qed.

Definition stop_by_others (s : state) (e : event) : Prop := match e with EStop a => n <= a | _ => True end.
Lemma not_terminated l s : run_all (next n ord) stop_by_others init l -> run (next n ord) init l = Some s -> terminated s = false.
Proof.
  intros HP Hr. refine (run_inv_cond (next n ord) stop_by_others (fun s => terminated s = false) _ l init s eq_refl HP Hr).
  clear. intros s e s' HT HU Hn. unfold next in Hn. destruct (step n ord s e) as [[s1 o]|] eqn:Hs; [|discriminate].
  cbn in Hn. inversion Hn; subst s1; clear Hn. unfold step in Hs. rewrite HT in Hs. 
  destruct e as [v k|a|a i x|v|a|a|a]; cbn in HU.
  - destruct (Nat.ltb v n); [|discriminate]. apply worker_shape in Hs. destruct Hs as (p & [->|(i & r & ->)]); assumption.
  - destruct (may_call n s a && negb (enq_passed s a)); [|discriminate]. destruct (stop_now s); inversion Hs; subst; assumption.
  - destruct (may_call n s a && enq_passed s a && Nat.ltb i n); inversion Hs; subst; assumption.
  - destruct (Nat.ltb v n); [|discriminate]. destruct (wpcs s v); try discriminate. destruct (enq_passed s v); [discriminate|].
    destruct (spcs s v); inversion Hs; subst; assumption.
  - destruct (may_call n s a && negb (enq_passed s a)); inversion Hs; subst; assumption.
  - destruct (may_call n s a && negb (enq_passed s a)); [|discriminate]. destruct (once s); [|inversion Hs; subst; assumption].
    destruct (Nat.ltb_spec a n); [lia|]. inversion Hs; subst; assumption.
  - destruct (spcs s a); try discriminate.
    + destruct (all_exited n s); inversion Hs; subst; assumption.
    + destruct (once_done s); inversion Hs; subst; assumption.
Qed.

(** quick_stop: an enqueue that begins afterwards is refused *)
Lemma refused s a s' o : stop_now s = true -> step n ord s (EEnqCheck a) = Some (s', o) -> s' = s /\ o = [Refused a].
Proof.
  intros Hn Hs. unfold step in Hs. destruct (terminated s); [discriminate|].
  destruct (may_call n s a && negb (enq_passed s a)); [|discriminate]. rewrite Hn in Hs. inversion Hs; auto.
Qed.
End P.
