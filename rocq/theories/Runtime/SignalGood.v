(** C108, what holds: one SIGINT, delivered to a thread that is not a worker and is neither logging nor in stop(), while the runtime is up. *)
From Coq Require Import List Arith Bool Lia.
From Verif.Common Require Import TS Sum.
From Verif.Runtime Require Import Signal SignalProps.
Import ListNotations.

Section Good.
  Variables n m : nat.
  (** The conditions on the history: runtime_init() once; stop() only from other threads than the workers (C78) and after runtime_init(); one SIGINT. *)
  Definition good (s : state) (e : event) : Prop :=
    match e with
    | Make => ts s = Null
    | CallStop t => n <= t /\ ts s = Up
    | Sig t => n <= t /\ ts s = Up /\ act s t = Normal /\ called s = false /\ forall u, handler s u = None
    | _ => True
    end.

  Record G (s : state) : Prop := {
    g_k : K s;
    g_out : out s = Alive;
    g_ts : ts s <> Up -> requested s = false /\ once s = Free /\ called s = false /\ (forall t, handler s t = None /\ (act s t = Normal \/ act s t = Logging)) /\ forall w, workers s w = WNot;
    g_up : ts s = Up -> forall w, w < n -> workers s w = WRun \/ workers s w = WEnded;
    g_w : forall w, w < n -> handler s w = None /\ (act s w = Normal \/ act s w = Logging);
    g_lw : forall w, w < n -> act s w <> Normal -> workers s w = WRun;
    g_h : forall t, handler s t <> None -> act s t = Normal /\ t < n + m;
    g_a : forall t, act s t <> Normal -> t < n + m;
    g_req : once s <> Free -> requested s = true;
    g_run : forall t, once s = Running t -> exists i, i <= n /\ (act s t = Joining i \/ handler s t = Some (HJoin i));
    g_ji : forall t i, act s t = Joining i \/ handler s t = Some (HJoin i) -> i <= n;
    g_done : once s = Done -> forall w, w < n -> workers s w = WEnded;
    g_called : called s = true -> requested s = true \/ exists t, handler s t = Some HLog \/ handler s t = Some HStop;
    g_pc : forall t, handler s t <> Some HTermLog /\ (handler s t = Some HTest \/ handler s t = Some HSet -> called s = false);
    g_one : forall t u, handler s t <> None -> handler s u <> None -> t = u }.

  Lemma G_init : G init.
  Proof.
    split; cbn; auto; try discriminate; try congruence.
    - apply K_init.
    - intros _. repeat split; auto.
    - intros t i [H|H]; discriminate.
    - intros t. split; [discriminate|]. intros [H|H]; discriminate.
  Qed.

  Ltac start HG := pose proof HG as [G1 G2 G3 G4 G5 G6 G7 G8 G9 G10 G11 G12 G13 G14 G15].

  Lemma G_act s t a s' : G s -> s' = set_act s t a -> t < n + m -> handler s t = None -> K s' -> (t < n -> a = Normal) -> ts s = Up ->
    (forall i, a <> Joining i) -> (forall i, act s t <> Joining i) -> G s'.
  Proof.
    intros HG -> Ht Hh HK Hn Hup Ha Hp. start HG. split; cbn; auto; try congruence.
    - intros w Hw. split; [apply G5; auto|]. unfold upd. destruct (Nat.eqb_spec w t); [subst; left; auto|apply G5; auto].
    - intros w Hw. unfold upd. destruct (Nat.eqb_spec w t); [subst; rewrite Hn by auto; congruence|auto].
    - intros u Hu. split; [|apply G7; auto]. unfold upd. destruct (Nat.eqb_spec u t); [congruence|apply G7; auto].
    - intros u. unfold upd. destruct (Nat.eqb_spec u t); [subst; auto|auto].
    - intros u Hu. destruct (G10 u Hu) as (i & Hi & Hj). exists i. split; auto. unfold upd. destruct (Nat.eqb_spec u t); [subst|auto].
      destruct Hj as [Hj|Hj]; [exfalso; eapply Hp; eauto|auto].
    - intros u i [H|H]; [|eapply G11; eauto]. unfold upd in H. destruct (Nat.eqb_spec u t); [exfalso; eapply Ha; eauto|eapply G11; eauto].
  Qed.

  (** handler steps of thread t other than joining *)
  Lemma G_h s t h s' : G s -> s' = set_h s t (Some h) -> n <= t -> t < n + m -> act s t = Normal -> ts s = Up -> (forall u, handler s u <> None -> u = t) -> K s' ->
    h <> HTermLog -> (forall i, h <> HJoin i) -> (h = HTest \/ h = HSet -> called s = false) -> (forall i, handler s t <> Some (HJoin i)) ->
    (handler s t = Some HLog \/ handler s t = Some HStop -> h = HLog \/ h = HStop) -> G s'.
  Proof.
    intros HG -> Hn Ht Ha Hup Hone HK H1 H2 H3 H4 H5. start HG. split; cbn; auto; try congruence.
    - intros w Hw. split; [|apply G5; auto]. unfold upd. destruct (Nat.eqb_spec w t); [lia|apply G5; auto].
    - intros u. unfold upd. destruct (Nat.eqb_spec u t); [subst; auto|auto].
    - intros u Hu. destruct (G10 u Hu) as (i & Hi & Hj). exists i. split; auto. unfold upd. destruct (Nat.eqb_spec u t); [subst|auto].
      destruct Hj as [Hj|Hj]; [auto|exfalso; eapply H4; eauto].
    - intros u i [H|H]; [eapply G11; eauto|]. unfold upd in H. destruct (Nat.eqb_spec u t); [exfalso; apply (H2 i); congruence|eapply G11; eauto].
    - intros Hc. destruct (G13 Hc) as [H|(u & Hu)]; auto. assert (u = t) by (apply Hone; destruct Hu; congruence). subst. right. exists t. rewrite upd_same.
      destruct (H5 Hu); subst; auto.
    - intros u. unfold upd. destruct (Nat.eqb_spec u t); [subst|auto]. split; [congruence|]. intros [H|H]; apply H3; injection H; auto.
    - intros u v. unfold upd. destruct (Nat.eqb_spec u t); destruct (Nat.eqb_spec v t); subst; auto; intros Hu Hv; try (symmetry; now apply Hone); try (now apply Hone).
  Qed.

  Lemma enter_up s t j b s' : ts s = Up -> enter s t j b = Some s' ->
    (once s = Free /\ s' = j (set_once (set_req s) (Running t))) \/ (once s = Done /\ s' = b s).
  Proof. unfold enter. intros ->. destruct (once s); intros E; [injection E as <-; auto|discriminate|injection E as <-; auto]. Qed.
  Lemma join_up s t i j b s' : ts s = Up -> join_step n s t i j b = Some s' ->
    s' = set_out s Terminated /\ i = t /\ i < n \/ (n <= i /\ s' = b (set_once s Done)) \/ (i < n /\ i <> t /\ workers s i = WEnded /\ s' = j (S i) s).
  Proof.
    unfold join_step, thrs. intros ->. destruct (Nat.leb_spec n i); [intros E; injection E as <-; auto|].
    destruct (Nat.eqb_spec i t); [intros E; injection E as <-; auto|]. destruct (workers s i) eqn:Ew; try discriminate. intros E; injection E as <-. auto 6.
  Qed.
  Lemma busy_up s t : G s -> (handler s t <> None \/ (act s t <> Normal /\ act s t <> Logging)) -> ts s = Up.
  Proof. intros HG H. start HG. destruct (ts s) eqn:Et; auto; (destruct G3 as (_ & _ & _ & H0 & _); [discriminate|]; destruct (H0 t) as (H1 & H2); destruct H as [H|(H & H')]; [congruence|destruct H2; congruence]). Qed.
  Lemma busy_other s t : G s -> (handler s t <> None \/ (act s t <> Normal /\ act s t <> Logging)) -> n <= t.
  Proof. intros HG H. start HG. destruct (Nat.le_gt_cases n t) as [H0|H0]; auto. destruct (G5 t H0) as (H1 & H2). destruct H as [H|(H & H')]; [congruence|destruct H2; congruence]. Qed.

  Lemma G_step s e s' : G s -> good s e -> step n m s e = Some s' -> G s'.
  Proof.
    intros HG Hg Hs. assert (HK : K s') by (eapply K_step; [apply HG|exact Hs]). start HG. unfold step in Hs. rewrite G2 in Hs. destruct e; cbn in Hg.
    - destruct (free_to_act n m s n); [|discriminate]. injection Hs as <-. split; cbn; auto.
    - destruct (installed s && free_to_act n m s n); [|discriminate]. rewrite Hg in Hs. injection Hs as <-.
      destruct G3 as (H1 & H2 & H3 & H4 & H5); [congruence|]. split; cbn; auto; try congruence.
      intros w Hw Hne. pose proof (G6 w Hw Hne) as H. rewrite H5 in H. discriminate.
    - destruct (free_to_act n m s n); [|discriminate]. destruct (ts s) eqn:Et; try discriminate. injection Hs as <-. split; cbn; auto; try congruence.
      intros _. apply G3. discriminate.
    - destruct (free_to_act n m s n); [|discriminate]. destruct (ts s) eqn:Et; try discriminate. injection Hs as <-. destruct G3 as (H1 & H2 & H3 & H4 & H5); [discriminate|].
      assert (Hw0 : forall w, w < n -> (if w <? n then WRun else WNot) = WRun) by (intros w Hw; destruct (Nat.ltb_spec w n); [auto|lia]).
      split; cbn -[Nat.ltb]; auto; congruence.
    - destruct (free_to_act n m s t) eqn:Ef; [|discriminate]. apply free_handler in Ef as (Eh & El & Er). destruct (act s t) eqn:Ea; try discriminate. destruct (sink s) eqn:Es; try discriminate.
      injection Hs as <-. split; cbn; auto; try congruence.
      + intros Hu. destruct (G3 Hu) as (H1 & H2 & H3 & H4 & H5). repeat split; auto; [apply H4|]. unfold upd. destruct (Nat.eqb_spec t0 t); [auto|apply H4].
      + intros w Hw. split; [apply G5; auto|]. unfold upd. destruct (Nat.eqb_spec w t); [auto|apply G5; auto].
      + intros w Hw. unfold upd. destruct (Nat.eqb_spec w t); [subst; auto|auto].
      + intros u Hu. unfold upd. destruct (Nat.eqb_spec u t); [congruence|auto].
      + intros u. unfold upd. destruct (Nat.eqb_spec u t); [subst; auto|auto].
      + intros u Hu. destruct (G10 u Hu) as (i & Hi & Hj). exists i. split; auto. unfold upd. destruct (Nat.eqb_spec u t); [subst|auto]. destruct Hj as [Hj|Hj]; congruence.
      + intros u i [H|H]; [|eapply G11; eauto]. unfold upd in H. destruct (Nat.eqb_spec u t); [discriminate|eapply G11; eauto].
    - destruct (free_to_act n m s t) eqn:Ef; [|discriminate]. apply free_handler in Ef as (Eh & El & Er). destruct (act s t) eqn:Ea; try discriminate.
      injection Hs as <-. split; cbn; auto; try congruence.
      + intros Hu. destruct (G3 Hu) as (H1 & H2 & H3 & H4 & H5). repeat split; auto; [apply H4|]. unfold upd. destruct (Nat.eqb_spec t0 t); [auto|apply H4].
      + intros w Hw. split; [apply G5; auto|]. unfold upd. destruct (Nat.eqb_spec w t); [auto|apply G5; auto].
      + intros w Hw. unfold upd. destruct (Nat.eqb_spec w t); [subst; auto|auto].
      + intros u Hu. unfold upd. destruct (Nat.eqb_spec u t); [congruence|auto].
      + intros u. unfold upd. destruct (Nat.eqb_spec u t); [subst; auto|auto].
      + intros u Hu. destruct (G10 u Hu) as (i & Hi & Hj). exists i. split; auto. unfold upd. destruct (Nat.eqb_spec u t); [subst|auto]. destruct Hj as [Hj|Hj]; congruence.
      + intros u i [H|H]; [|eapply G11; eauto]. unfold upd in H. destruct (Nat.eqb_spec u t); [discriminate|eapply G11; eauto].
    - destruct (free_to_act n m s t) eqn:Ef; [|discriminate]. apply free_handler in Ef as (Eh & El & Er). destruct (act s t) eqn:Ea; try discriminate.
      injection Hs as <-. destruct Hg as [Hg1 Hg2]. eapply G_act; eauto; try congruence. lia.
    - destruct (free_to_act n m s t) eqn:Ef; [|discriminate]. apply free_handler in Ef as (Eh & El & Er).
      assert (Hb : act s t <> Normal /\ act s t <> Logging) by (destruct (act s t); try discriminate; split; discriminate).
      pose proof (busy_up s t HG (or_intror Hb)) as Ht. pose proof (busy_other s t HG (or_intror Hb)) as Hn. clear Hb.
      destruct (act s t) as [| | |i] eqn:Ea; try discriminate.
      + apply (enter_up _ _ _ _ _ Ht) in Hs as [(H2 & ->)|(H2 & ->)].
        * split; cbn; auto; try congruence.
          -- intros w Hw. unfold upd. destruct (Nat.eqb_spec w t); [lia|apply G5; auto].
          -- intros w Hw. unfold upd. destruct (Nat.eqb_spec w t); [lia|auto].
          -- intros u Hu. unfold upd. destruct (Nat.eqb_spec u t); [congruence|auto].
          -- intros u. unfold upd. destruct (Nat.eqb_spec u t); [subst; auto|auto].
          -- intros u Hu. injection Hu as <-. exists 0. rewrite upd_same. split; [lia|auto].
          -- intros u i [H|H]; [|eapply G11; eauto]. unfold upd in H. destruct (Nat.eqb_spec u t); [injection H as <-; lia|eapply G11; eauto].
        * eapply G_act; eauto; try congruence; lia.
      + pose proof (G11 t i (or_introl Ea)) as Hi. destruct (k_join _ G1 t i (or_introl Ea)) as (Ho & Hend & _).
        apply (join_up _ _ _ _ _ _ Ht) in Hs as [(-> & Hx & Hy)|[(H2 & ->)|(H2 & H3 & H4 & ->)]]; [lia| |].
        * split; cbn; auto; try congruence.
          -- intros w Hw. unfold upd. destruct (Nat.eqb_spec w t); [lia|apply G5; auto].
          -- intros w Hw. unfold upd. destruct (Nat.eqb_spec w t); [lia|auto].
          -- intros u Hu. unfold upd. destruct (Nat.eqb_spec u t); [congruence|auto].
          -- intros u. unfold upd. destruct (Nat.eqb_spec u t); [subst; auto|auto].
          -- intros _. apply G9. congruence.
          -- intros u j [H|H]; [|eapply G11; eauto]. unfold upd in H. destruct (Nat.eqb_spec u t); [discriminate|eapply G11; eauto].
          -- intros _ w Hw. apply Hend. lia.
        * split; cbn; auto; try congruence.
          -- intros w Hw. unfold upd. destruct (Nat.eqb_spec w t); [lia|apply G5; auto].
          -- intros w Hw. unfold upd. destruct (Nat.eqb_spec w t); [lia|auto].
          -- intros u Hu. unfold upd. destruct (Nat.eqb_spec u t); [congruence|auto].
          -- intros u. unfold upd. destruct (Nat.eqb_spec u t); [subst; auto|auto].
          -- intros u Hu. assert (u = t) by congruence. subst. exists (S i). rewrite upd_same. split; [lia|auto].
          -- intros u j [H|H]; [|eapply G11; eauto]. unfold upd in H. destruct (Nat.eqb_spec u t); [injection H as <-; lia|eapply G11; eauto].
    - destruct (Nat.ltb_spec w n); [|discriminate]. destruct (free_to_act n m s w) eqn:Ef; [|discriminate]. apply free_handler in Ef as (Eh & El & Er). destruct (requested s) eqn:Eq; [|discriminate].
      cbn in Hs. destruct (act s w) eqn:Ea; try discriminate. injection Hs as <-. split; cbn; auto; try congruence.
      + intros Hu. apply G3 in Hu. destruct Hu; congruence.
      + intros Hu v Hv. unfold upd. destruct (Nat.eqb_spec v w); auto.
      + intros v Hv Hne. unfold upd. destruct (Nat.eqb_spec v w); [congruence|auto].
      + intros Hd v Hv. unfold upd. destruct (Nat.eqb_spec v w); auto.
    - destruct (installed s); [|discriminate]. cbn in Hs. destruct (free_to_act n m s t) eqn:Ef; [|discriminate]. apply free_handler in Ef as (Eh & El & Er). injection Hs as <-.
      destruct Hg as (Hg1 & Hg2 & Hg3 & Hg4 & Hg5). eapply (G_h s t HTest); eauto; try congruence.
      rewrite Eh. intros [H|H]; discriminate.
    - destruct (handler s t) as [h|] eqn:Eh; [|discriminate].
      assert (Hb : handler s t <> None) by congruence.
      pose proof (busy_up s t HG (or_introl Hb)) as Ht. pose proof (busy_other s t HG (or_introl Hb)) as Hn. destruct (G7 t Hb) as (Ha & El).
      assert (Hone : forall u, handler s u <> None -> u = t) by (intros u Hu; apply G15; auto).
      destruct (G14 t) as (Hnt & Hpc). destruct h as [| | | | |i].
      + rewrite Hpc in Hs by auto. injection Hs as <-. eapply (G_h s t HSet); eauto; try congruence. rewrite Eh. intros [H|H]; discriminate.
      + injection Hs as <-. split; cbn; auto; try congruence.
        * intros w Hw. unfold upd. destruct (Nat.eqb_spec w t); [lia|apply G5; auto].
        * intros u. unfold upd. destruct (Nat.eqb_spec u t); [subst; auto|auto].
        * intros u Hu. destruct (G10 u Hu) as (i & Hi & Hj). exists i. split; auto. unfold upd. destruct (Nat.eqb_spec u t); [subst|auto]. destruct Hj as [Hj|Hj]; [auto|congruence].
        * intros u i [H|H]; [eapply G11; eauto|]. unfold upd in H. destruct (Nat.eqb_spec u t); [discriminate|eapply G11; eauto].
        * intros _. right. exists t. rewrite upd_same. auto.
        * intros u. unfold upd. destruct (Nat.eqb_spec u t); [subst; split; [discriminate|intros [H|H]; discriminate]|]. split; [apply G14|].
          intros H. exfalso. apply n0. apply Hone. destruct H; congruence.
        * intros u v. unfold upd. destruct (Nat.eqb_spec u t); destruct (Nat.eqb_spec v t); subst; auto; intros Hu Hv; try (symmetry; now apply Hone); now apply Hone.
      + destruct (sink s); [discriminate|]. injection Hs as <-. eapply (G_h s t HStop); eauto; try congruence. intros [H|H]; discriminate.
      + congruence.
      + apply (enter_up _ _ _ _ _ Ht) in Hs as [(H2 & ->)|(H2 & ->)].
        * split; cbn; auto; try congruence.
          -- intros w Hw. unfold upd. destruct (Nat.eqb_spec w t); [lia|apply G5; auto].
          -- intros u. unfold upd. destruct (Nat.eqb_spec u t); [subst; auto|auto].
          -- intros u Hu. injection Hu as <-. exists 0. rewrite upd_same. split; [lia|auto].
          -- intros u i [H|H]; [eapply G11; eauto|]. unfold upd in H. destruct (Nat.eqb_spec u t); [injection H as <-; lia|eapply G11; eauto].
          -- intros u. unfold upd. destruct (Nat.eqb_spec u t); [subst; split; [discriminate|intros [H|H]; discriminate]|apply G14].
          -- intros u v. unfold upd. destruct (Nat.eqb_spec u t); destruct (Nat.eqb_spec v t); subst; auto; intros Hu Hv; try (symmetry; now apply Hone); now apply Hone.
        * split; cbn; auto; try congruence.
          -- intros w Hw. unfold upd. destruct (Nat.eqb_spec w t); [lia|apply G5; auto].
          -- intros u. unfold upd. destruct (Nat.eqb_spec u t); [subst; auto|auto].
          -- intros u i [H|H]; [eapply G11; eauto|]. unfold upd in H. destruct (Nat.eqb_spec u t); [discriminate|eapply G11; eauto].
          -- intros Hc. left. apply G9. congruence.
          -- intros u. unfold upd. destruct (Nat.eqb_spec u t); [subst; split; [discriminate|intros [H|H]; discriminate]|apply G14].
          -- intros u v. unfold upd. destruct (Nat.eqb_spec u t); destruct (Nat.eqb_spec v t); subst; auto; intros Hu Hv; try (symmetry; now apply Hone); try now apply Hone.
      + pose proof (G11 t i (or_intror Eh)) as Hi. destruct (k_join _ G1 t i (or_intror Eh)) as (Ho & Hend & _).
        apply (join_up _ _ _ _ _ _ Ht) in Hs as [(-> & Hx & Hy)|[(H2 & ->)|(H2 & H3 & H4 & ->)]]; [lia| |].
        * split; cbn; auto; try congruence.
          -- intros w Hw. unfold upd. destruct (Nat.eqb_spec w t); [lia|apply G5; auto].
          -- intros u. unfold upd. destruct (Nat.eqb_spec u t); [subst; auto|auto].
          -- intros _. apply G9. congruence.
          -- intros u j [H|H]; [eapply G11; eauto|]. unfold upd in H. destruct (Nat.eqb_spec u t); [discriminate|eapply G11; eauto].
          -- intros _ w Hw. apply Hend. lia.
          -- intros Hc. left. apply G9. congruence.
          -- intros u. unfold upd. destruct (Nat.eqb_spec u t); [subst; split; [discriminate|intros [H|H]; discriminate]|apply G14].
          -- intros u v. unfold upd. destruct (Nat.eqb_spec u t); destruct (Nat.eqb_spec v t); subst; auto; intros Hu Hv; try (symmetry; now apply Hone); try now apply Hone.
        * split; cbn; auto; try congruence.
          -- intros w Hw. unfold upd. destruct (Nat.eqb_spec w t); [lia|apply G5; auto].
          -- intros u. unfold upd. destruct (Nat.eqb_spec u t); [subst; auto|auto].
          -- intros u Hu. assert (u = t) by congruence. subst. exists (S i). rewrite upd_same. split; [lia|auto].
          -- intros u j [H|H]; [eapply G11; eauto|]. unfold upd in H. destruct (Nat.eqb_spec u t); [injection H as <-; lia|eapply G11; eauto].
          -- intros Hc. left. apply G9. congruence.
          -- intros u. unfold upd. destruct (Nat.eqb_spec u t); [subst; split; [discriminate|intros [H|H]; discriminate]|apply G14].
          -- intros u v. unfold upd. destruct (Nat.eqb_spec u t); destruct (Nat.eqb_spec v t); subst; auto; intros Hu Hv; try (symmetry; now apply Hone); now apply Hone.
  Qed.

  (** ** progress *)
  Definition internal (e : event) : Prop := match e with LogEnd _ | StopStep _ | WEnd _ | HStep _ => True | _ => False end.
  Definition wcost (s : state) (t : nat) : nat := if t <? n then match workers s t with WRun => 1 | _ => 0 end else 0.
  Definition acost (a : activity) : nat := match a with Normal => 0 | Logging => 1 | Stopping => n + 2 | Joining i => n - i + 1 end.
  Definition hcost (h : option hpc) : nat :=
    match h with None => 0 | Some HTest => n + 5 | Some HSet => n + 4 | Some HLog => n + 3 | Some HTermLog => 1 | Some HStop => n + 2 | Some (HJoin i) => n - i + 1 end.
  Definition tcost (s : state) (t : nat) : nat := wcost s t + acost (act s t) + hcost (handler s t).
  (** an upper bound on the number of steps that what is in progress can still take *)
  Definition pending (s : state) : nat := sum_to (n + m) (tcost s).

  Lemma pending_one s s' t : t < n + m -> (forall u, u <> t -> tcost s' u = tcost s u) -> tcost s' t < tcost s t -> pending s' < pending s.
  Proof. intros Ht H Hl. unfold pending. pose proof (sum_to_one (n + m) (tcost s') (tcost s) t Ht H). lia. Qed.

  Lemma internal_dec s e s' : G s -> internal e -> step n m s e = Some s' -> pending s' < pending s.
  Proof.
    intros HG Hi Hs. start HG. unfold step in Hs. rewrite G2 in Hs. destruct e; try contradiction Hi.
    - destruct (free_to_act n m s t) eqn:Ef; [|discriminate]. apply free_handler in Ef as (Eh & El & Er). destruct (act s t) eqn:Ea; try discriminate. injection Hs as <-.
      apply (pending_one _ _ t El); unfold tcost, wcost; cbn -[Nat.ltb].
      + intros u Hu. now rewrite upd_other by auto.
      + rewrite upd_same, Ea. cbn. lia.
    - destruct (free_to_act n m s t) eqn:Ef; [|discriminate]. apply free_handler in Ef as (Eh & El & Er).
      assert (Hb : act s t <> Normal /\ act s t <> Logging) by (destruct (act s t); try discriminate; split; discriminate).
      pose proof (busy_up s t HG (or_intror Hb)) as Ht. pose proof (busy_other s t HG (or_intror Hb)) as Hn. clear Hb.
      destruct (act s t) as [| | |i] eqn:Ea; try discriminate.
      + apply (enter_up _ _ _ _ _ Ht) in Hs as [(H2 & ->)|(H2 & ->)]; (apply (pending_one _ _ t El); unfold tcost, wcost; cbn -[Nat.ltb];
          [intros u Hu; now rewrite upd_other by auto|rewrite upd_same, Ea; cbn [acost]; lia]).
      + pose proof (G11 t i (or_introl Ea)) as Hi'.
        apply (join_up _ _ _ _ _ _ Ht) in Hs as [(-> & Hx & Hy)|[(H2 & ->)|(H2 & H3 & H4 & ->)]]; [lia| |]; (apply (pending_one _ _ t El); unfold tcost, wcost; cbn -[Nat.ltb];
          [intros u Hu; now rewrite upd_other by auto|rewrite upd_same, Ea; cbn [acost]; lia]).
    - destruct (Nat.ltb_spec w n) as [Hw|]; [|discriminate]. destruct (free_to_act n m s w) eqn:Ef; [|discriminate]. apply free_handler in Ef as (Eh & El & Er). destruct (requested s) eqn:Eq; [|discriminate].
      cbn in Hs. destruct (act s w) eqn:Ea; try discriminate. injection Hs as <-.
      apply (pending_one _ _ w El); unfold tcost, wcost; cbn -[Nat.ltb].
      + intros u Hu. now rewrite upd_other by auto.
      + rewrite upd_same. destruct (Nat.ltb_spec w n); [|lia]. rewrite Er by auto. lia.
    - destruct (handler s t) as [h|] eqn:Eh; [|discriminate].
      assert (Hb : handler s t <> None) by congruence.
      pose proof (busy_up s t HG (or_introl Hb)) as Ht. pose proof (busy_other s t HG (or_introl Hb)) as Hn. destruct (G7 t Hb) as (Ha & El).
      destruct (G14 t) as (Hnt & Hpc). destruct h as [| | | | |i].
      + rewrite Hpc in Hs by auto. injection Hs as <-. apply (pending_one _ _ t El); unfold tcost, wcost; cbn -[Nat.ltb]; [intros u Hu; now rewrite upd_other by auto|rewrite upd_same, Eh; cbn [hcost]; lia].
      + injection Hs as <-. apply (pending_one _ _ t El); unfold tcost, wcost; cbn -[Nat.ltb]; [intros u Hu; now rewrite upd_other by auto|rewrite upd_same, Eh; cbn [hcost]; lia].
      + destruct (sink s); [discriminate|]. injection Hs as <-. apply (pending_one _ _ t El); unfold tcost, wcost; cbn -[Nat.ltb]; [intros u Hu; now rewrite upd_other by auto|rewrite upd_same, Eh; cbn [hcost]; lia].
      + congruence.
      + apply (enter_up _ _ _ _ _ Ht) in Hs as [(H2 & ->)|(H2 & ->)]; (apply (pending_one _ _ t El); unfold tcost, wcost; cbn -[Nat.ltb];
          [intros u Hu; now rewrite upd_other by auto|rewrite upd_same, Eh; cbn [hcost]; lia]).
      + pose proof (G11 t i (or_intror Eh)) as Hi'.
        apply (join_up _ _ _ _ _ _ Ht) in Hs as [(-> & Hx & Hy)|[(H2 & ->)|(H2 & H3 & H4 & ->)]]; [lia| |]; (apply (pending_one _ _ t El); unfold tcost, wcost; cbn -[Nat.ltb];
          [intros u Hu; now rewrite upd_other by auto|rewrite upd_same, Eh; cbn [hcost]; lia]).
  Qed.

  Definition stuck (s : state) : Prop := forall e, internal e -> step n m s e = None.

  Lemma free_ok s t : G s -> t < n + m -> handler s t = None -> (t < n -> workers s t = WRun) -> free_to_act n m s t = true.
  Proof.
    intros HG Ht Hh Hw. unfold free_to_act, exists_thread. rewrite Hh. destruct (Nat.ltb_spec t (n + m)); [|lia].
    destruct (Nat.ltb_spec t n); [rewrite Hw by auto; reflexivity|reflexivity].
  Qed.

  Lemma stuck_final s : G s -> stuck s ->
    (forall t, handler s t = None /\ act s t = Normal) /\ (requested s = true -> forall w, w < n -> workers s w = WEnded).
  Proof.
    intros HG Hst. start HG.
    assert (Hah : forall t, act s t <> Normal -> handler s t = None).
    { intros t Ha. destruct (handler s t) eqn:Eh; [|reflexivity]. destruct (G7 t) as (H & _); congruence. }
    assert (Hlog : forall t, act s t <> Logging).
    { intros t Ha. pose proof (Hst (LogEnd t) I) as H. unfold step in H. rewrite G2 in H.
      rewrite free_ok in H; auto; [rewrite Ha in H; discriminate|apply G8; congruence|apply Hah; congruence|intros Hl; apply G6; [auto|congruence]]. }
    assert (Hsink : sink s = None).
    { destruct (sink s) as [t|] eqn:E; auto. exfalso. apply (Hlog t). now apply (k_sink _ G1). }
    assert (Hended : requested s = true -> forall w, w < n -> workers s w = WEnded).
    { intros Hr w Hw. assert (Ht : ts s = Up). { destruct (ts s) eqn:E; auto; (destruct G3 as (H & _); [discriminate|congruence]). }
      destruct (G4 Ht w Hw) as [Hrun|]; auto. exfalso. pose proof (Hst (WEnd w) I) as H. unfold step in H. rewrite G2, Hr in H.
      destruct (G5 w Hw) as (H1 & [H2|H2]); [|now apply (Hlog w)]. rewrite free_ok in H; auto; [|lia]. destruct (Nat.ltb_spec w n); [|lia]. cbn in H. rewrite H2 in H. discriminate. }
    assert (Hj : forall t i j b, ts s = Up -> once s = Running t -> i <= n -> n <= t -> join_step n s t i j b <> None).
    { intros t i j b Ht Ho Hi Hn H. unfold join_step, thrs in H. rewrite Ht in H. destruct (Nat.leb_spec n i); [discriminate|]. destruct (Nat.eqb_spec i t); [lia|].
      rewrite Hended in H; [discriminate|apply G9; congruence|auto]. }
    assert (Hnr : forall t, once s <> Running t).
    { intros t Ho. destruct (G10 t Ho) as (i & Hi & [H|H]).
      - assert (Hb : act s t <> Normal /\ act s t <> Logging) by (split; congruence).
        pose proof (busy_up s t HG (or_intror Hb)) as Ht. pose proof (busy_other s t HG (or_intror Hb)) as Hn.
        pose proof (Hst (StopStep t) I) as Hs. unfold step in Hs. rewrite G2 in Hs. rewrite free_ok in Hs; auto; [|apply G8; congruence|apply Hah; congruence|lia]. rewrite H in Hs.
        eapply Hj; eauto.
      - assert (Hb : handler s t <> None) by congruence.
        pose proof (busy_up s t HG (or_introl Hb)) as Ht. pose proof (busy_other s t HG (or_introl Hb)) as Hn.
        pose proof (Hst (HStep t) I) as Hs. unfold step in Hs. rewrite G2, H in Hs. eapply Hj; eauto. }
    split; [|exact Hended]. intros t.
    assert (Hh : handler s t = None).
    { destruct (handler s t) as [h|] eqn:Eh; [|reflexivity]. exfalso. assert (Hb : handler s t <> None) by congruence.
      pose proof (busy_up s t HG (or_introl Hb)) as Ht. pose proof (Hst (HStep t) I) as Hs. unfold step in Hs. rewrite G2, Eh in Hs. destruct h as [| | | | |i]; try discriminate.
      - rewrite Hsink in Hs. discriminate.
      - rewrite Hsink in Hs. discriminate.
      - unfold enter in Hs. rewrite Ht in Hs. destruct (once s) eqn:Eo; try discriminate. eapply Hnr; eauto.
      - destruct (k_join _ G1 t i (or_intror Eh)) as (Ho & _). eapply Hnr; eauto. }
    split; auto. destruct (act s t) as [| | |i] eqn:Ea; auto; exfalso.
    - eapply Hlog; eauto.
    - assert (Hb : act s t <> Normal /\ act s t <> Logging) by (split; congruence).
      pose proof (busy_up s t HG (or_intror Hb)) as Ht. pose proof (busy_other s t HG (or_intror Hb)) as Hn.
      pose proof (Hst (StopStep t) I) as Hs. unfold step in Hs. rewrite G2 in Hs. rewrite free_ok in Hs; auto; [|apply G8; congruence|lia]. rewrite Ea in Hs.
      unfold enter in Hs. rewrite Ht in Hs. destruct (once s) eqn:Eo; try discriminate. eapply Hnr; eauto.
    - destruct (k_join _ G1 t i (or_introl Ea)) as (Ho & _). eapply Hnr; eauto.
  Qed.
End Good.

(** Nothing bad happens: *)
Theorem C108_no_harm_partial : forall n m l s,
  run_all (step n m) (good n) init l -> run (step n m) init l = Some s -> out s = Alive.
Proof.
  intros n m l s HA Hr. apply (g_out n m). revert HA Hr. apply (run_inv_cond _ _ (G n m)); [intros; eapply G_step; eauto|apply G_init].
Qed.
Print Assumptions C108_no_harm_partial.

(** and the handler, and every stop() and runtime_exit() called before, after or meanwhile, returns under every schedule with all workers
    ended: what is in progress takes at most [pending] further steps, and when nothing can move any more, it is over. *)
Theorem C108_stops_partial : forall n m l s l' s',
  run_all (step n m) (good n) init l -> run (step n m) init l = Some s ->
  Forall internal l' -> run (step n m) s l' = Some s' ->
  length l' <= pending n m s /\ out s' = Alive /\
  ((forall e, internal e -> step n m s' e = None) ->
     (forall t, handler s' t = None /\ act s' t = Normal) /\
     (called s' = true \/ once s' <> Free -> requested s' = true /\ forall w, w < n -> workers s' w = WEnded)).
Proof.
  intros n m l s l' s' HA Hr HF Hr'.
  assert (HG : G n m s) by (revert HA Hr; apply (run_inv_cond _ _ (G n m)); [intros; eapply G_step; eauto|apply G_init]).
  clear HA Hr l. revert s HG Hr'. induction HF as [|e l' He HF IH]; intros s HG Hr'; cbn in Hr'.
  - injection Hr' as <-. split; [cbn; lia|]. split; [apply HG|]. intros Hst. destruct (stuck_final n m s HG Hst) as (H1 & H2). split; [exact H1|].
    intros Hc. assert (Hq : requested s = true).
    { destruct Hc as [Hc|Hc]; [|now apply (g_req n m s HG)]. destruct (g_called n m s HG Hc) as [H|(t & H)]; [exact H|]. destruct (H1 t). destruct H; congruence. }
    auto.
  - destruct (step n m s e) as [s1|] eqn:Es; [|discriminate]. pose proof (internal_dec n m s e s1 HG He Es) as Hd.
    assert (HG1 : G n m s1) by (eapply G_step; eauto; destruct e; try contradiction He; exact I).
    destruct (IH s1 HG1 Hr') as (H1 & H2 & H3). split; [cbn; lia|auto].
Qed.
Print Assumptions C108_stops_partial.
Example C108_case : let l := [Install; Make; StartBegin; StartEnd; LogBegin 0; Sig 2; HStep 2; CallStop 3; HStep 2; LogEnd 0; HStep 2; HStep 2] in
  run_all (step 2 2) (good 2) init l /\
  exists s, run (step 2 2) init l = Some s /\
    (called s, handler s 2, act s 3, once s, pending 2 2 s) = (true, Some (HJoin 0), Stopping, Running 2, 9).
Proof.
  split; [|apply run_proj_ok with (f := fun s => (called s, handler s 2, act s 3, once s, pending 2 2 s)); vm_compute; reflexivity].
  repeat first [exact I|cbn [run_all good]; split;
    [first [exact I|reflexivity|repeat split; first [lia|reflexivity|intros; reflexivity]]|let E := fresh "E" in intros ? E; vm_compute in E; injection E as <-]].
Qed.

(** A second SIGINT terminates the process, as documented - if it does not find one of the situations above first. *)
Theorem C108_second_sigint_terminates : forall n m l s t,
  run (step n m) init l = Some s -> out s = Alive -> called s = true -> installed s = true -> free_to_act n m s t = true -> sink s = None ->
  exists s', run (step n m) s [Sig t; HStep t; HStep t] = Some s' /\ out s' = Terminated.
Proof.
  intros n m l s t _ Ho Hc Hi Hf Hs.
  assert (E1 : step n m s (Sig t) = Some (set_h s t (Some HTest))) by (unfold step; rewrite Ho, Hi, Hf; reflexivity).
  assert (E2 : step n m (set_h s t (Some HTest)) (HStep t) = Some (set_h (set_h s t (Some HTest)) t (Some HTermLog))).
  { unfold step. cbn [out set_h handler]. rewrite Ho, upd_same. cbn [called set_h]. rewrite Hc. reflexivity. }
  assert (E3 : step n m (set_h (set_h s t (Some HTest)) t (Some HTermLog)) (HStep t) = Some (set_out (set_h (set_h s t (Some HTest)) t (Some HTermLog)) Terminated)).
  { unfold step. cbn [out set_h handler]. rewrite Ho, upd_same. cbn [sink set_h]. rewrite Hs. reflexivity. }
  eexists. cbn [run]. rewrite E1, E2, E3. split; reflexivity.
Qed.
Print Assumptions C108_second_sigint_terminates.
