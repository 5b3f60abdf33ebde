From Coq Require Import List Arith Bool Lia.
From Verif.Common Require Import TS Sum.
From Verif.Runtime Require Import Signal.
Import ListNotations.

(** ** what holds in every reachable state *)
Record K (s : state) : Prop := {
  k_null : ts s = Null -> once s = Free;
  k_join : forall t i, act s t = Joining i \/ handler s t = Some (HJoin i) ->
             once s = Running t /\ (forall j, j < i -> workers s j = WEnded) /\ (ts s <> Up -> i = 0);
  k_excl : forall t i j, act s t = Joining i -> handler s t = Some (HJoin j) -> False;
  k_sink : forall t, act s t = Logging <-> sink s = Some t }.


Lemma K_init : K init.
Proof. split; cbn; auto; try discriminate. - intros t i [H|H]; discriminate. - intros t; split; discriminate. Qed.

Lemma free_handler n m s t : free_to_act n m s t = true -> handler s t = None /\ t < n + m /\ (t < n -> workers s t = WRun).
Proof.
  unfold free_to_act, exists_thread. rewrite !andb_true_iff. intros ((H1 & H2) & H3). apply Nat.ltb_lt in H1.
  split; [destruct (handler s t); congruence|]. split; [exact H1|]. intros Hl. destruct (Nat.ltb_spec t n); [|lia]. destruct (workers s t); congruence.
Qed.

Definition plain (a : activity) : Prop := a = Normal \/ a = Stopping.
Lemma K_out s o : K s -> K (set_out s o).
Proof. intros [? ? ? ?]. split; cbn; auto. Qed.
Lemma K_set_act s t a : K s -> plain a -> plain (act s t) -> K (set_act s t a).
Proof.
  intros [K0 K1 K2 K3] Ha Hp. split; cbn; auto.
  - intros u i [H|H]; [|apply K1; auto]. unfold upd in H. destruct (Nat.eqb_spec u t); [subst; destruct Ha; congruence|apply K1; auto].
  - intros u i j H. unfold upd in H. destruct (Nat.eqb_spec u t); [subst; destruct Ha; congruence|eauto].
  - intros u. unfold upd. destruct (Nat.eqb_spec u t); [subst|auto]. rewrite <- K3. split; [destruct Ha; congruence|destruct Hp; congruence].
Qed.
Lemma K_set_h s t h : K s -> (forall i, h <> Some (HJoin i)) -> K (set_h s t h).
Proof.
  intros [K0 K1 K2 K3] Ha. split; cbn; auto.
  - intros u i [H|H]; [apply K1; auto|]. unfold upd in H. destruct (Nat.eqb_spec u t); [congruence|apply K1; auto].
  - intros u i j H H'. unfold upd in H'. destruct (Nat.eqb_spec u t); [subst; eapply Ha; eauto|eauto].
Qed.
Lemma K_begin_act s t : K s -> once s = Free -> ts s <> Null -> act s t = Stopping -> handler s t = None -> K (set_act (set_once (set_req s) (Running t)) t (Joining 0)).
Proof.
  intros [K0 K1 K2 K3] Ho Ht Ha Hh. split; cbn; [congruence| | |].
  - intros u i [H|H].
    + unfold upd in H. destruct (Nat.eqb_spec u t).
      * injection H as <-. subst. split; [reflexivity|]. split; [intros; lia|auto].
      * apply (fun x => K1 _ _ (or_introl x)) in H as (H & _). congruence.
    + apply (fun x => K1 _ _ (or_intror x)) in H as (H & _). congruence.
  - intros u i j H H'. unfold upd in H. destruct (Nat.eqb_spec u t); [congruence|eauto].
  - intros u. unfold upd. destruct (Nat.eqb_spec u t); [subst|auto]. rewrite <- K3. split; congruence.
Qed.
Lemma K_begin_h s t : K s -> once s = Free -> ts s <> Null -> K (set_h (set_once (set_req s) (Running t)) t (Some (HJoin 0))).
Proof.
  intros [K0 K1 K2 K3] Ho Ht. split; cbn; [congruence| | |auto].
  - intros u i [H|H].
    + apply (fun x => K1 _ _ (or_introl x)) in H as (H & _). congruence.
    + unfold upd in H. destruct (Nat.eqb_spec u t).
      * injection H as <-. subst. split; [reflexivity|]. split; [intros; lia|auto].
      * apply (fun x => K1 _ _ (or_intror x)) in H as (H & _). congruence.
  - intros u i j H H'. apply (fun x => K1 _ _ (or_introl x)) in H as (H & _). congruence.
Qed.
Lemma K_next_act s t i : K s -> ts s = Up -> act s t = Joining i -> workers s i = WEnded -> K (set_act s t (Joining (S i))).
Proof.
  intros [K0 K1 K2 K3] Ht Ha Hw. split; cbn; [congruence| | |].
  - intros u j [H|H]; [|apply K1; auto]. unfold upd in H. destruct (Nat.eqb_spec u t); [|apply K1; auto].
    injection H as <-. subst. destruct (K1 t i (or_introl Ha)) as (H1 & H2 & _). split; [auto|]. split; [|congruence].
    intros j Hj. destruct (Nat.eq_dec j i); [congruence|]. apply H2. lia.
  - intros u j j' H H'. unfold upd in H. destruct (Nat.eqb_spec u t); [subst|eauto]. eapply K2; eauto.
  - intros u. unfold upd. destruct (Nat.eqb_spec u t); [subst|auto]. rewrite <- K3. split; congruence.
Qed.
Lemma K_next_h s t i : K s -> ts s = Up -> handler s t = Some (HJoin i) -> workers s i = WEnded -> K (set_h s t (Some (HJoin (S i)))).
Proof.
  intros [K0 K1 K2 K3] Ht Ha Hw. split; cbn; [congruence| | |auto].
  - intros u j [H|H]; [apply K1; auto|]. unfold upd in H. destruct (Nat.eqb_spec u t); [|apply K1; auto].
    injection H as <-. subst. destruct (K1 t i (or_intror Ha)) as (H1 & H2 & _). split; [auto|]. split; [|congruence].
    intros j Hj. destruct (Nat.eq_dec j i); [congruence|]. apply H2. lia.
  - intros u j j' H H'. unfold upd in H'. destruct (Nat.eqb_spec u t); [subst|eauto]. eapply K2; eauto.
Qed.
Lemma K_fin_act s t i : K s -> ts s <> Null -> act s t = Joining i -> K (set_act (set_once s Done) t Normal).
Proof.
  intros [K0 K1 K2 K3] Ht Ha. destruct (K1 t i (or_introl Ha)) as (Ho & _). split; cbn; [congruence| | |].
  - intros u j [H|H]; exfalso.
    + unfold upd in H. destruct (Nat.eqb_spec u t); [discriminate|]. apply (fun x => K1 _ _ (or_introl x)) in H as (H & _). congruence.
    + pose proof H as H'. apply (fun x => K1 _ _ (or_intror x)) in H as (H & _). assert (u = t) by congruence. subst. eapply K2; eauto.
  - intros u j j' H H'. unfold upd in H. destruct (Nat.eqb_spec u t); [discriminate|eauto].
  - intros u. unfold upd. destruct (Nat.eqb_spec u t); [subst|auto]. rewrite <- K3. split; congruence.
Qed.
Lemma K_fin_h s t i : K s -> ts s <> Null -> handler s t = Some (HJoin i) -> K (set_h (set_once s Done) t None).
Proof.
  intros [K0 K1 K2 K3] Ht Ha. destruct (K1 t i (or_intror Ha)) as (Ho & _). split; cbn; [congruence| | |auto].
  - intros u j [H|H]; exfalso.
    + pose proof H as H'. apply (fun x => K1 _ _ (or_introl x)) in H as (H & _). assert (u = t) by congruence. subst. eapply K2; eauto.
    + unfold upd in H. destruct (Nat.eqb_spec u t); [discriminate|]. apply (fun x => K1 _ _ (or_intror x)) in H as (H & _). congruence.
  - intros u j j' H H'. unfold upd in H'. destruct (Nat.eqb_spec u t); [discriminate|eauto].
Qed.

(** the two shared pieces of stop() *)
Lemma enter_inv s t j b s' : enter s t j b = Some s' ->
  s' = set_out s UB \/ (ts s <> Null /\ once s = Free /\ s' = j (set_once (set_req s) (Running t))) \/ (ts s <> Null /\ once s = Done /\ s' = b s).
Proof.
  unfold enter. destruct (ts s) eqn:Et; [intros E; injection E as <-; auto| |intros E; injection E as <-; auto|];
    (destruct (once s) eqn:Eo; intros E; [injection E as <-|discriminate|injection E as <-]; right; [left|right]; repeat split; congruence).
Qed.
Lemma join_inv n s t i j b s' : join_step n s t i j b = Some s' ->
  s' = set_out s UB \/ s' = set_out s Terminated /\ i = t /\ i < thrs n s \/
  (ts s <> Null /\ thrs n s <= i /\ s' = b (set_once s Done)) \/
  (ts s = Up /\ i < n /\ i <> t /\ workers s i = WEnded /\ s' = j (S i) s).
Proof.
  unfold join_step. destruct (ts s) eqn:Et; [intros E; injection E as <-; auto| |intros E; injection E as <-; auto|].
  - destruct (Nat.leb_spec (thrs n s) i) as [H|H]; [|unfold thrs in H; rewrite Et in H; lia]. intros E; injection E as <-. right. right. left. repeat split; auto; congruence.
  - destruct (Nat.leb_spec (thrs n s) i) as [H|H]; [intros E; injection E as <-; right; right; left; repeat split; auto; congruence|].
    destruct (Nat.eqb_spec i t); [intros E; injection E as <-; auto|]. destruct (workers s i) eqn:Ew; try discriminate. intros E; injection E as <-.
    unfold thrs in H. rewrite Et in H. right. right. right. repeat split; auto.
Qed.

Lemma K_step n m s e s' : K s -> step n m s e = Some s' -> K s'.
Proof.
  intros HK Hs. pose proof HK as [K0 K1 K2 K3]. unfold step in Hs. destruct (out s) eqn:Eo; try discriminate. destruct e.
  - destruct (free_to_act n m s n); [|discriminate]. injection Hs as <-. split; cbn; auto.
  - destruct (installed s && free_to_act n m s n); [|discriminate].
    assert (Hno : s' = St true Constructed (fun _ => WNot) false Free (called s) (sink s) (act s) (handler s) (out s) /\ (once s = Free \/ once s = Done)).
    { destruct (ts s) eqn:Et; try discriminate; [injection Hs as <-; rewrite Eo; auto|]. destruct (once s); try discriminate. injection Hs as <-. rewrite Eo; auto. }
    destruct Hno as [-> Ho]. split; cbn; auto; intros t i H; exfalso; apply K1 in H as (H & _); destruct Ho; congruence.
  - destruct (free_to_act n m s n); [|discriminate]. destruct (ts s) eqn:Et; try discriminate. injection Hs as <-. split; cbn; auto; try discriminate.
    intros t i H. apply K1 in H as (H1 & H2 & H3). repeat split; auto. intros _. apply H3. discriminate.
  - destruct (free_to_act n m s n); [|discriminate]. destruct (ts s) eqn:Et; try discriminate. injection Hs as <-. split; cbn; auto; try discriminate.
    intros t i H. apply K1 in H as (H1 & H2 & H3). rewrite (H3 ltac:(discriminate)). repeat split; auto. intros; lia.
  - destruct (free_to_act n m s t); [|discriminate]. destruct (act s t) eqn:Ea; try discriminate. destruct (sink s) eqn:Es; try discriminate. injection Hs as <-. split; cbn; auto.
    + intros u i [H|H]; [|apply K1; auto]. unfold upd in H. destruct (Nat.eqb_spec u t); [discriminate|]. apply K1; auto.
    + intros u i j H. unfold upd in H. destruct (Nat.eqb_spec u t); [discriminate|]. eapply K2; eauto.
    + intros u. unfold upd. destruct (Nat.eqb_spec u t); [subst; tauto|]. rewrite K3. split; congruence.
  - destruct (free_to_act n m s t); [|discriminate]. destruct (act s t) eqn:Ea; try discriminate. injection Hs as <-. split; cbn; auto.
    + intros u i [H|H]; [|apply K1; auto]. unfold upd in H. destruct (Nat.eqb_spec u t); [discriminate|]. apply K1; auto.
    + intros u i j H. unfold upd in H. destruct (Nat.eqb_spec u t); [discriminate|]. eapply K2; eauto.
    + intros u. apply K3 in Ea. unfold upd. destruct (Nat.eqb_spec u t); [split; discriminate|]. rewrite K3. split; congruence.
  - destruct (free_to_act n m s t); [|discriminate]. destruct (act s t) eqn:Ea; try discriminate. injection Hs as <-.
    apply K_set_act; auto; [right|left]; auto.
  - destruct (free_to_act n m s t) eqn:Ef; [|discriminate]. apply free_handler in Ef as (Eh & _). destruct (act s t) as [| | |i] eqn:Ea; try discriminate.
    + apply enter_inv in Hs as [->|[(H1 & H2 & ->)|(H1 & H2 & ->)]]; [now apply K_out|now apply K_begin_act|].
      apply K_set_act; auto; [left|right]; auto.
    + apply join_inv in Hs as [->|[(-> & _)|[(H1 & H2 & ->)|(H1 & H2 & H3 & H4 & ->)]]]; [now apply K_out|now apply K_out|eapply K_fin_act; eauto|now apply K_next_act].
  - destruct ((w <? n) && free_to_act n m s w && requested s); [|discriminate]. destruct (act s w); try discriminate. injection Hs as <-. split; cbn; auto.
    intros t i H. apply K1 in H as (H1 & H2 & H3). repeat split; auto. intros j Hj. unfold upd. destruct (Nat.eqb_spec j w); auto.
  - destruct (installed s && free_to_act n m s t); [|discriminate]. injection Hs as <-. apply K_set_h; auto. discriminate.
  - destruct (handler s t) as [[| | | | |i]|] eqn:Eh; try discriminate.
    + injection Hs as <-. apply K_set_h; auto. intros i. destruct (called s); discriminate.
    + injection Hs as <-. apply (K_set_h (set_called s)); [|discriminate]. split; cbn; auto.
    + destruct (sink s); [discriminate|]. injection Hs as <-. apply K_set_h; auto. discriminate.
    + destruct (sink s) eqn:Es; [discriminate|]. injection Hs as <-. now apply K_out.
    + apply enter_inv in Hs as [->|[(H1 & H2 & ->)|(H1 & H2 & ->)]]; [now apply K_out|now apply K_begin_h|]. apply K_set_h; auto. discriminate.
    + apply join_inv in Hs as [->|[(-> & _)|[(H1 & H2 & ->)|(H1 & H2 & H3 & H4 & ->)]]]; [now apply K_out|now apply K_out|eapply K_fin_h; eauto|now apply K_next_h].
Qed.
Lemma K_run n m l s : run (step n m) init l = Some s -> K s.
Proof. apply (run_inv _ K); [intros; eapply K_step; eauto|apply K_init]. Qed.

(** * C108: the first SIGINT after runtime_init() stops the runtime cleanly; the second one terminates the process. *)

(** ** where that fails *)

(** Delivered to a worker thread (the kernel may choose any thread): the handler joins the thread it runs on. It never returns: the
    process is brought down, or the handler is still in there. *)
Definition J (n w : nat) (s : state) : Prop :=
  K s /\ (out s <> Alive \/ handler s w <> None /\ workers s w = WRun /\ once s <> Done /\ ts s = Up).
Lemma J_step n m w s e s' : w < n -> J n w s -> step n m s e = Some s' -> J n w s'.
Proof.
  intros Hw (HK & HJ) Hs. split; [eapply K_step; eauto|]. destruct HJ as [HJ|(Hh & Hr & Ho & Ht)]; [unfold step in Hs; destruct (out s); [congruence|discriminate|discriminate]|].
  pose proof HK as [K0 K1 K2 K3]. unfold step in Hs. destruct (out s) eqn:Eo; try discriminate.
  assert (Hnf : forall t i, act s t = Joining i \/ handler s t = Some (HJoin i) -> i <= w).
  { intros t i H. apply K1 in H as (_ & H & _). destruct (Nat.le_gt_cases i w); auto. rewrite H in Hr by lia. discriminate. }
  assert (Hth : thrs n s = n) by (unfold thrs; now rewrite Ht).
  destruct e.
  - destruct (free_to_act n m s n); [|discriminate]. injection Hs as <-. cbn. auto.
  - destruct (installed s && free_to_act n m s n); [|discriminate]. rewrite Ht in Hs. destruct (once s); try discriminate. congruence.
  - destruct (free_to_act n m s n); [|discriminate]. rewrite Ht in Hs. discriminate.
  - destruct (free_to_act n m s n); [|discriminate]. rewrite Ht in Hs. discriminate.
  - destruct (free_to_act n m s t); [|discriminate]. destruct (act s t); try discriminate. destruct (sink s); try discriminate. injection Hs as <-. cbn. auto.
  - destruct (free_to_act n m s t); [|discriminate]. destruct (act s t); try discriminate. injection Hs as <-. cbn. auto.
  - destruct (free_to_act n m s t); [|discriminate]. destruct (act s t); try discriminate. injection Hs as <-. cbn. auto.
  - destruct (free_to_act n m s t); [|discriminate]. destruct (act s t) as [| | |i] eqn:Ea; try discriminate.
    + apply enter_inv in Hs as [->|[(H1 & H2 & ->)|(H1 & H2 & ->)]]; cbn; [left; discriminate| |congruence]. right. repeat split; auto. discriminate.
    + apply join_inv in Hs as [->|[(-> & _)|[(H1 & H2 & ->)|(H1 & H2 & H3 & H4 & ->)]]]; cbn; [left; discriminate|left; discriminate| |auto].
      rewrite Hth in H2. specialize (Hnf t i (or_introl Ea)). lia.
  - destruct (w0 <? n) eqn:El; [|discriminate]. destruct (free_to_act n m s w0) eqn:Ef; [|discriminate]. apply free_handler in Ef as (Ef & _). destruct (requested s); [|discriminate].
    cbn in Hs. destruct (act s w0); try discriminate. injection Hs as <-. cbn. right. repeat split; auto. unfold upd. destruct (Nat.eqb_spec w w0); [congruence|auto].
  - destruct (installed s && free_to_act n m s t); [|discriminate]. injection Hs as <-. cbn. right. repeat split; auto. unfold upd. destruct (Nat.eqb_spec w t); [discriminate|auto].
  - destruct (handler s t) as [[| | | | |i]|] eqn:Eh; try discriminate.
    + injection Hs as <-. cbn. right. repeat split; auto. unfold upd. destruct (Nat.eqb_spec w t); [discriminate|auto].
    + injection Hs as <-. cbn. right. repeat split; auto. unfold upd. destruct (Nat.eqb_spec w t); [discriminate|auto].
    + destruct (sink s); [discriminate|]. injection Hs as <-. cbn. right. repeat split; auto. unfold upd. destruct (Nat.eqb_spec w t); [discriminate|auto].
    + destruct (sink s); [discriminate|]. injection Hs as <-. cbn. left; discriminate.
    + apply enter_inv in Hs as [->|[(H1 & H2 & ->)|(H1 & H2 & ->)]]; cbn; [left; discriminate| |congruence]. right. repeat split; auto; [|discriminate].
      unfold upd. destruct (Nat.eqb_spec w t); [discriminate|auto].
    + apply join_inv in Hs as [->|[(-> & _)|[(H1 & H2 & ->)|(H1 & H2 & H3 & H4 & ->)]]]; cbn; [left; discriminate|left; discriminate| |].
      * rewrite Hth in H2. specialize (Hnf t i (or_intror Eh)). lia.
      * right. repeat split; auto. unfold upd. destruct (Nat.eqb_spec w t); [discriminate|auto].
Qed.
Theorem C108_on_a_worker_refuted : forall n m l s w l' s',
  run (step n m) init l = Some s -> ts s = Up -> once s <> Done -> w < n ->
  run (step n m) s (Sig w :: l') = Some s' -> out s' <> Alive \/ handler s' w <> None.
Proof.
  intros n m l s w l' s' Hr Ht Ho Hw Hr'. cbn in Hr'. destruct (step n m s (Sig w)) as [s1|] eqn:E; [|discriminate].
  assert (HJ : J n w s1).
  { pose proof (K_run _ _ _ _ Hr) as HK. split; [eapply K_step; eauto|]. unfold step in E. destruct (out s) eqn:Eo; try discriminate.
    destruct (installed s); [|discriminate]. cbn in E. destruct (free_to_act n m s w) eqn:Ef; [|discriminate]. apply free_handler in Ef as (_ & _ & Ef). injection E as <-. cbn. right.
    rewrite upd_same. repeat split; auto. discriminate. }
  assert (HJ' : J n w s') by (revert Hr'; apply (run_inv _ (J n w)); auto; intros; eapply J_step; eauto).
  destruct HJ' as (_ & [H|(H & _)]); auto.
Qed.
Print Assumptions C108_on_a_worker_refuted.
Example C108_worker_case : exists s, run (step 2 1) init [Install; Make; StartBegin; StartEnd; Sig 1; HStep 1; HStep 1; HStep 1; HStep 1; WEnd 0; HStep 1; HStep 1] = Some s /\ out s = Terminated.
Proof. apply run_proj_ok with (f := out). vm_compute. reflexivity. Qed.

(** Delivered to a thread that is writing a log line: the handler logs too, and waits for the thread it interrupted - for ever. *)
Definition JL (t : nat) (s : state) : Prop :=
  K s /\ act s t = Logging /\ exists h, handler s t = Some h /\ (h = HTest \/ h = HSet \/ h = HLog \/ h = HTermLog).
Lemma JL_step n m t s e s' : JL t s -> step n m s e = Some s' -> JL t s'.
Proof.
  intros (HK & Ha & h & Hh & Hp) Hs. split; [eapply K_step; eauto|]. pose proof HK as [K0 K1 K2 K3]. pose proof (proj1 (K3 t) Ha) as Hsk.
  assert (Hfr : forall t0, free_to_act n m s t0 = true -> t <> t0) by (intros t0 Hf ->; apply free_handler in Hf as (Hf & _); congruence).
  unfold step in Hs. destruct (out s) eqn:Eo; try discriminate. destruct e.
  - destruct (free_to_act n m s n); [|discriminate]. injection Hs as <-. cbn. eauto.
  - destruct (installed s && free_to_act n m s n); [|discriminate].
    destruct (ts s) eqn:Et; try discriminate; [injection Hs as <-; cbn; eauto|]. destruct (once s); try discriminate. injection Hs as <-. cbn. eauto.
  - destruct (free_to_act n m s n); [|discriminate]. destruct (ts s) eqn:Et; try discriminate. injection Hs as <-. cbn. eauto.
  - destruct (free_to_act n m s n); [|discriminate]. destruct (ts s) eqn:Et; try discriminate. injection Hs as <-. cbn. eauto.
  - destruct (free_to_act n m s t0); [|discriminate]. destruct (act s t0); try discriminate. rewrite Hsk in Hs. discriminate.
  - destruct (free_to_act n m s t0) eqn:Ef; [|discriminate]. apply Hfr in Ef. destruct (act s t0) eqn:E0; try discriminate. apply K3 in E0. congruence.
  - destruct (free_to_act n m s t0) eqn:Ef; [|discriminate]. apply Hfr in Ef. destruct (act s t0) eqn:E0; try discriminate. injection Hs as <-. cbn. rewrite upd_other by auto. eauto.
  - destruct (free_to_act n m s t0) eqn:Ef; [|discriminate]. apply Hfr in Ef. destruct (act s t0) eqn:E0; try discriminate.
    + apply enter_inv in Hs as [->|[(H1 & H2 & ->)|(H1 & H2 & ->)]]; cbn; rewrite ?upd_other by auto; eauto.
    + apply join_inv in Hs as [->|[(-> & _)|[(H1 & H2 & ->)|(H1 & H2 & H3 & H4 & ->)]]]; cbn; rewrite ?upd_other by auto; eauto.
  - destruct ((w <? n) && free_to_act n m s w && requested s); [|discriminate]. destruct (act s w); try discriminate. injection Hs as <-. cbn. eauto.
  - destruct (installed s); [|discriminate]. cbn in Hs. destruct (free_to_act n m s t0) eqn:Ef; [|discriminate]. apply Hfr in Ef. injection Hs as <-. cbn. rewrite upd_other by auto. eauto.
  - destruct (Nat.eq_dec t t0) as [<-|Hne].
    + rewrite Hh in Hs. destruct Hp as [->|[->|[->| ->]]].
      * injection Hs as <-. cbn. rewrite upd_same. split; auto. eexists; split; [reflexivity|]. destruct (called s); auto.
      * injection Hs as <-. cbn. rewrite upd_same. split; auto. eexists; split; [reflexivity|]. auto.
      * rewrite Hsk in Hs. discriminate.
      * rewrite Hsk in Hs. discriminate.
    + destruct (handler s t0) as [[| | | | |i]|] eqn:Eh; try discriminate.
      * injection Hs as <-. cbn. rewrite upd_other by auto. eauto.
      * injection Hs as <-. cbn. rewrite upd_other by auto. eauto.
      * rewrite Hsk in Hs. discriminate.
      * rewrite Hsk in Hs. discriminate.
      * apply enter_inv in Hs as [->|[(H1 & H2 & ->)|(H1 & H2 & ->)]]; cbn; rewrite ?upd_other by auto; eauto.
      * apply join_inv in Hs as [->|[(-> & _)|[(H1 & H2 & ->)|(H1 & H2 & H3 & H4 & ->)]]]; cbn; rewrite ?upd_other by auto; eauto.
Qed.
Theorem C108_while_logging_refuted : forall n m l s t l' s',
  run (step n m) init l = Some s -> act s t = Logging ->
  run (step n m) s (Sig t :: l') = Some s' -> handler s' t <> None.
Proof.
  intros n m l s t l' s' Hr Ha Hr'. cbn in Hr'. destruct (step n m s (Sig t)) as [s1|] eqn:E; [|discriminate].
  assert (HJ : JL t s1).
  { pose proof (K_run _ _ _ _ Hr) as HK. split; [eapply K_step; eauto|]. unfold step in E. destruct (out s) eqn:Eo; try discriminate.
    destruct (installed s); [|discriminate]. cbn in E. destruct (free_to_act n m s t) eqn:Ef; [|discriminate]. injection E as <-. cbn. rewrite upd_same. eauto. }
  assert (HJ' : JL t s') by (revert Hr'; apply (run_inv _ (JL t)); auto; intros; eapply JL_step; eauto).
  destruct HJ' as (_ & _ & h & Hh & _). congruence.
Qed.
Print Assumptions C108_while_logging_refuted.
Example C108_logging_case : exists s, run (step 2 1) init [Install; Make; StartBegin; StartEnd; LogBegin 2; Sig 2; HStep 2; HStep 2] = Some s /\
  (out s, handler s 2, step 2 1 s (HStep 2)) = (Alive, Some HLog, None).
Proof. apply run_proj_ok with (f := fun s => (out s, handler s 2, step 2 1 s (HStep 2))). vm_compute. reflexivity. Qed.

(** Delivered to the thread that is waiting in stop() or runtime_exit(): call_once waits for the thread it interrupted - for ever. *)
Definition JS (t : nat) (s : state) : Prop :=
  K s /\ (exists i, act s t = Joining i) /\ exists h, handler s t = Some h /\ (forall i, h <> HJoin i).
Lemma JS_step n m t s e s' : JS t s -> step n m s e = Some s' -> JS t s'.
Proof.
  intros (HK & (i & Ha) & h & Hh & Hp) Hs. split; [eapply K_step; eauto|]. pose proof HK as [K0 K1 K2 K3]. destruct (K1 t i (or_introl Ha)) as (Hon & _).
  assert (Hfr : forall t0, free_to_act n m s t0 = true -> t <> t0) by (intros t0 Hf ->; apply free_handler in Hf as (Hf & _); congruence).
  unfold step in Hs. destruct (out s) eqn:Eo; try discriminate. destruct e.
  - destruct (free_to_act n m s n); [|discriminate]. injection Hs as <-. cbn. eauto.
  - destruct (installed s && free_to_act n m s n); [|discriminate].
    destruct (ts s) eqn:Et; try discriminate; [injection Hs as <-; cbn; eauto|]. destruct (once s); try discriminate.
  - destruct (free_to_act n m s n); [|discriminate]. destruct (ts s) eqn:Et; try discriminate. injection Hs as <-. cbn. eauto.
  - destruct (free_to_act n m s n); [|discriminate]. destruct (ts s) eqn:Et; try discriminate. injection Hs as <-. cbn. eauto.
  - destruct (free_to_act n m s t0) eqn:Ef; [|discriminate]. apply Hfr in Ef. destruct (act s t0); try discriminate. destruct (sink s); [discriminate|].
    injection Hs as <-. cbn. rewrite upd_other by auto. eauto.
  - destruct (free_to_act n m s t0) eqn:Ef; [|discriminate]. apply Hfr in Ef. destruct (act s t0) eqn:E0; try discriminate. injection Hs as <-. cbn. rewrite upd_other by auto. eauto.
  - destruct (free_to_act n m s t0) eqn:Ef; [|discriminate]. apply Hfr in Ef. destruct (act s t0) eqn:E0; try discriminate. injection Hs as <-. cbn. rewrite upd_other by auto. eauto.
  - destruct (free_to_act n m s t0) eqn:Ef; [|discriminate]. apply Hfr in Ef. destruct (act s t0) eqn:E0; try discriminate.
    + apply enter_inv in Hs as [->|[(H1 & H2 & ->)|(H1 & H2 & ->)]]; cbn; rewrite ?upd_other by auto; eauto.
    + apply join_inv in Hs as [->|[(-> & _)|[(H1 & H2 & ->)|(H1 & H2 & H3 & H4 & ->)]]]; cbn; rewrite ?upd_other by auto; eauto.
  - destruct ((w <? n) && free_to_act n m s w && requested s); [|discriminate]. destruct (act s w); try discriminate. injection Hs as <-. cbn. eauto.
  - destruct (installed s); [|discriminate]. cbn in Hs. destruct (free_to_act n m s t0) eqn:Ef; [|discriminate]. apply Hfr in Ef. injection Hs as <-. cbn. rewrite upd_other by auto. eauto.
  - destruct (Nat.eq_dec t t0) as [<-|Hne].
    + rewrite Hh in Hs. destruct h as [| | | | |j].
      * injection Hs as <-. cbn. rewrite upd_same. split; eauto. eexists; split; [reflexivity|]. intros j. destruct (called s); discriminate.
      * injection Hs as <-. cbn. rewrite upd_same. split; eauto. eexists; split; [reflexivity|]. discriminate.
      * destruct (sink s); [discriminate|]. injection Hs as <-. cbn. rewrite upd_same. split; eauto. eexists; split; [reflexivity|]. discriminate.
      * destruct (sink s); [discriminate|]. injection Hs as <-. cbn. eauto.
      * apply enter_inv in Hs as [->|[(H1 & H2 & ->)|(H1 & H2 & ->)]]; cbn; [eauto|congruence|congruence].
      * exfalso. eapply Hp. reflexivity.
    + destruct (handler s t0) as [[| | | | |j]|] eqn:Eh; try discriminate.
      * injection Hs as <-. cbn. rewrite upd_other by auto. eauto.
      * injection Hs as <-. cbn. rewrite upd_other by auto. eauto.
      * destruct (sink s); [discriminate|]. injection Hs as <-. cbn. rewrite upd_other by auto. eauto.
      * destruct (sink s); [discriminate|]. injection Hs as <-. cbn. eauto.
      * apply enter_inv in Hs as [->|[(H1 & H2 & ->)|(H1 & H2 & ->)]]; cbn; rewrite ?upd_other by auto; eauto.
      * apply join_inv in Hs as [->|[(-> & _)|[(H1 & H2 & ->)|(H1 & H2 & H3 & H4 & ->)]]]; cbn; rewrite ?upd_other by auto; eauto.
Qed.
Theorem C108_while_stopping_refuted : forall n m l s t i l' s',
  run (step n m) init l = Some s -> act s t = Joining i ->
  run (step n m) s (Sig t :: l') = Some s' -> handler s' t <> None.
Proof.
  intros n m l s t i l' s' Hr Ha Hr'. cbn in Hr'. destruct (step n m s (Sig t)) as [s1|] eqn:E; [|discriminate].
  assert (HJ : JS t s1).
  { pose proof (K_run _ _ _ _ Hr) as HK. split; [eapply K_step; eauto|]. unfold step in E. destruct (out s) eqn:Eo; try discriminate.
    destruct (installed s); [|discriminate]. cbn in E. destruct (free_to_act n m s t) eqn:Ef; [|discriminate]. injection E as <-. cbn. rewrite upd_same. split; [eauto|].
    eexists; split; [reflexivity|discriminate]. }
  assert (HJ' : JS t s') by (revert Hr'; apply (run_inv _ (JS t)); auto; intros; eapply JS_step; eauto).
  destruct HJ' as (_ & _ & h & Hh & _). congruence.
Qed.
Print Assumptions C108_while_stopping_refuted.
Example C108_stopping_case : exists s, run (step 1 1) init [Install; Make; StartBegin; StartEnd; CallStop 1; StopStep 1; Sig 1; HStep 1; HStep 1; HStep 1; WEnd 0] = Some s /\
  (out s, handler s 1, act s 1, step 1 1 s (HStep 1)) = (Alive, Some HStop, Joining 0, None).
Proof. apply run_proj_ok with (f := fun s => (out s, handler s 1, act s 1, step 1 1 s (HStep 1))). vm_compute. reflexivity. Qed.

(** During runtime_init(): the handler is installed before there is a scheduler, and it uses the vector of threads while start() fills it. *)
Theorem C108_during_init_refuted : forall n m t, n <= t -> t < n + m -> 
  (exists s, run (step n m) init [Install; Sig t; HStep t; HStep t; HStep t; HStep t] = Some s /\ out s = UB) /\
  (t <> n -> exists s, run (step n m) init [Install; Make; StartBegin; Sig t; HStep t; HStep t; HStep t; HStep t] = Some s /\ out s = UB).
Proof.
  intros n m t H1 H2.
  assert (Hf : forall u s, n <= u -> u < n + m -> handler s u = None -> free_to_act n m s u = true).
  { intros u s Ha Hb Hc. unfold free_to_act, exists_thread. rewrite Hc. destruct (Nat.ltb_spec u (n + m)); [|lia]. destruct (Nat.ltb_spec u n); [lia|reflexivity]. }
  assert (Hf0 : forall s, handler s n = None -> free_to_act n m s n = true) by (intros; apply Hf; auto; lia).
  split.
  - eexists. cbn. rewrite Hf0 by reflexivity. cbn. rewrite Hf by auto. cbn. rewrite !upd_same. cbn. rewrite !upd_same. cbn. rewrite !upd_same. cbn. rewrite !upd_same. cbn. split; reflexivity.
  - intros Hne. eexists. cbn. rewrite Hf0 by reflexivity. cbn. rewrite Hf0 by reflexivity. cbn. rewrite Hf0 by reflexivity. cbn. rewrite Hf by auto. cbn. rewrite !upd_same. cbn. rewrite !upd_same. cbn. rewrite !upd_same. cbn. rewrite !upd_same. cbn. split; reflexivity.
Qed.
Print Assumptions C108_during_init_refuted.

(** The flag is never reset: in a second runtime the first SIGINT terminates the process. *)
Theorem C108_second_runtime_refuted : exists s,
  run (step 1 1) init [Install; Make; StartBegin; StartEnd; Sig 1; HStep 1; HStep 1; HStep 1; HStep 1; WEnd 0; HStep 1; HStep 1;
                       Install; Make; StartBegin; StartEnd; Sig 1; HStep 1; HStep 1] = Some s /\ out s = Terminated.
Proof. apply run_proj_ok with (f := out). vm_compute. reflexivity. Qed.
Print Assumptions C108_second_runtime_refuted.
