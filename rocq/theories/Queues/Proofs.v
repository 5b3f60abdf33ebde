From Coq Require Import List Arith Bool Lia.
From Verif.Common Require Import TS.
From Verif.Queues Require Import Model Spec.
Import ListNotations.
#[local] Arguments upd : simpl never.

Lemma q_ins_app a b : q_ins (a ++ b) = q_ins a ++ q_ins b.
Proof. induction a as [|[] a IH]; cbn; auto. now rewrite IH. Qed.
Lemma q_outs_app a b : q_outs (a ++ b) = q_outs a ++ q_outs b.
Proof. induction a as [|[x|[x|]|b'|n] a IH]; cbn; auto. now rewrite IH. Qed.

Lemma fifo : forall l q0 q1, run qnext q0 l = Some q1 ->
  q0 ++ q_ins (trace qnext qobserve q0 l) = q_outs (trace qnext qobserve q0 l) ++ q1.
Proof.
  induction l as [|e l IH]; intros q0 q1 Hr.
  - cbn in *. inversion Hr; subst. now rewrite app_nil_r.
  - destruct e; cbn [run trace qnext qobserve] in *; specialize (IH _ _ Hr); rewrite ?q_ins_app, ?q_outs_app; cbn.
    + rewrite <- IH. now rewrite <- app_assoc.
    + destruct q0; cbn in *; [exact IH|now rewrite IH].
    + exact IH.
    + exact IH.
Qed.

(** * local scheduler *)
Definition exec_body := fix go (b : list action) := match b with
   | [] => [] | Spawn t' :: b' => executed t' ++ go b' | Throw :: _ => [] end.
Lemma executed_eq i b : executed (Task i b) = i :: exec_body b.
Proof. reflexivity. Qed.

Fixpoint tsize (t : task) : nat :=
  match t with Task _ b => S ((fix go (b : list action) := match b with
     | [] => 1 | Spawn t' :: b' => S (S (tsize t')) + go b' | Throw :: _ => 1 end) b) end.
Definition bsize := fix go (b : list action) := match b with
     | [] => 1 | Spawn t' :: b' => S (S (tsize t')) + go b' | Throw :: _ => 1 end.

Lemma lrun_app a b s : lrun (a + b) s = lrun b (lrun a s).
Proof.
  revert s; induction a as [|a IH]; intros s; cbn; [reflexivity|]. destruct (lstep s) eqn:E; [apply IH|].
  destruct b; cbn; [reflexivity|now rewrite E].
Qed.

(** nested mutual induction on the tree, through its size *)
Lemma body_runs : forall m b st lg, bsize b <= m ->
  exists k, lrun k (LSt [] (FBody b :: st) lg) = LSt [] st (rev (exec_body b) ++ lg).
Proof.
  induction m as [|m IH]; intros b st lg Hm.
  - destruct b as [|[]]; cbn in Hm; lia.
  - destruct b as [|[t|] rest].
    + exists 1. reflexivity.
    + destruct t as [i b']. change (bsize (Spawn (Task i b') :: rest)) with (S (S (S (bsize b'))) + bsize rest) in Hm.
      (* spawn, loop takes the task *)
      destruct (IH b' (FLoop :: FBody rest :: st) (i :: lg) ltac:(lia)) as [k1 H1].
      destruct (IH rest st (rev (exec_body b') ++ i :: lg) ltac:(lia)) as [k2 H2].
      exists (1 + (1 + (k1 + (1 + k2)))). rewrite lrun_app. cbn [lrun lstep stack q log app]. rewrite lrun_app. cbn [lrun lstep stack q log tid tbody].
      rewrite lrun_app, H1. rewrite lrun_app. cbn [lrun lstep stack q log]. rewrite H2.
      f_equal. cbn [exec_body]. rewrite executed_eq, rev_app_distr. cbn. now rewrite <- !app_assoc.
    + exists 1. reflexivity.
Qed.
Lemma scheduler_runs t : exists k, lrun k (linit t) = LSt [] [] (rev (executed t)).
Proof.
  destruct t as [i b]. destruct (body_runs (bsize b) b [FLoop] [i] (le_n _)) as [k H].
  exists (1 + (k + 1)). rewrite lrun_app. cbn [lrun lstep linit stack q log tid tbody]. rewrite lrun_app, H. reflexivity.
Qed.

(** * wrapper *)
Record WInv (s : wstate) : Prop := {
  w_ub : wub s = false;
  w_own : forall i w, wraps s i = Some w -> (dtor w = true <-> storage w <> None) ;
  w_uniq : forall i j u v qu, wraps s i = Some u -> wraps s j = Some v -> storage u = Some qu -> storage v = Some qu -> i = j;
  w_alive : forall i u qu, wraps s i = Some u -> storage u = Some qu -> made s qu = true /\ wdestroys s qu = 0;
  w_dead : forall qu, made s qu = true -> (exists i u, wraps s i = Some u /\ storage u = Some qu) \/ wdestroys s qu = 1;
  w_fresh : forall qu, made s qu = false -> wdestroys s qu = 0;
  w_freed : forall qu, freed s qu = wdestroys s qu
}.
Lemma winv_init : WInv winit.
Proof. split; cbn; auto; try discriminate. Qed.
Lemma winv_next s e s' : (forall i, e = WUse i -> forall w, wraps s i = Some w -> storage w <> None) -> WInv s -> wnext s e = Some s' -> WInv s'.
Proof.
  intros HA H. unfold wnext. rewrite (w_ub _ H). destruct e.
  - destruct (wraps s i) eqn:Ei; [discriminate|]. destruct (made s qu) eqn:Em; [discriminate|]. cbn.
    intros E; inversion E; subst; clear E. destruct H. split; cbn; auto.
    + intros k w. unfold upd. destruct (Nat.eqb_spec k i); [|eauto]. intros E; inversion E; subst. cbn. split; [discriminate|auto].
    + intros a b u v g. unfold upd. destruct (Nat.eqb_spec a i), (Nat.eqb_spec b i); subst; auto.
      * intros E1 E2 E3 E4; inversion E1; subst; cbn in *. inversion E3; subst. destruct (w_alive0 _ _ _ E2 E4). congruence.
      * intros E1 E2 E3 E4; inversion E2; subst; cbn in *. inversion E4; subst. destruct (w_alive0 _ _ _ E1 E3). congruence.
      * eauto.
    + intros k u g. unfold upd. destruct (Nat.eqb_spec k i).
      * intros E1 E2. inversion E1; subst. cbn in E2. inversion E2; subst. rewrite Nat.eqb_refl. auto.
      * intros E1 E2. destruct (w_alive0 _ _ _ E1 E2) as [A B]. destruct (Nat.eqb g qu); auto.
    + intros g. unfold upd. destruct (Nat.eqb_spec g qu).
      * intros _. left. exists i, (W (Some qu) true). rewrite Nat.eqb_refl. subst. auto.
      * intros Hg. destruct (w_dead0 _ Hg) as [(k & u & E1 & E2)|]; [|auto]. left. exists k, u.
        destruct (Nat.eqb_spec k i); [congruence|auto].
    + intros g. unfold upd. destruct (Nat.eqb_spec g qu); [discriminate|auto].
  - destruct (wraps s i) eqn:Ei; [discriminate|]. cbn. destruct (wraps s j) as [w|] eqn:Ej; [|discriminate].
    intros E; inversion E; subst; clear E. assert (Hij : i <> j) by congruence. destruct H.
    assert (L : forall k u, upd (upd (wraps s) j (Some (W None false))) i (Some w) k = Some u ->
                (k = i /\ u = w) \/ (k = j /\ u = W None false) \/ (k <> i /\ k <> j /\ wraps s k = Some u)).
    { intros k u. unfold upd. destruct (Nat.eqb_spec k i); [intros E; inversion E; auto|].
      destruct (Nat.eqb_spec k j); [intros E; inversion E; auto|]. auto. }
    split; cbn; auto.
    + intros k u Hk. destruct (L _ _ Hk) as [[-> ->]|[[-> ->]|(? & ? & E)]]; eauto. cbn. split; [discriminate|easy].
    + intros a b u v g Ha Hb E1 E2.
      destruct (L _ _ Ha) as [[-> ->]|[[-> ->]|(? & ? & Ea)]]; destruct (L _ _ Hb) as [[-> ->]|[[-> ->]|(? & ? & Eb)]]; auto; try discriminate.
      * assert (b = j) by eauto. congruence.
      * assert (a = j) by eauto. congruence.
      * eauto.
    + intros k u g Hk E1. destruct (L _ _ Hk) as [[-> ->]|[[-> ->]|(? & ? & E)]]; eauto; discriminate.
    + intros g Hg. destruct (w_dead0 _ Hg) as [(k & u & E1 & E2)|]; [|auto]. left.
      destruct (Nat.eq_dec k j).
      * subst. exists i, w. rewrite upd_same. split; [auto|congruence].
      * exists k, u. rewrite !upd_other by congruence. auto.
  - destruct (wraps s i) as [[[qu|] d]|] eqn:Ei; try discriminate; intros E; inversion E; subst; clear E.
    + pose proof (proj2 (w_own _ H _ _ Ei) ltac:(cbn; discriminate)) as Ed. cbn in Ed. subst d.
      destruct (w_alive _ H _ _ _ Ei eq_refl) as [Hm Hd]. destruct H.
      assert (L : forall k u, upd (wraps s) i None k = Some u -> k <> i /\ wraps s k = Some u).
      { intros k u. unfold upd. destruct (Nat.eqb_spec k i); [discriminate|auto]. }
      split; cbn; auto.
      * intros k u Hk. destruct (L _ _ Hk). eauto.
      * intros a b u v g Ha Hb. destruct (L _ _ Ha), (L _ _ Hb). eauto.
      * intros k u g Hk E. destruct (L _ _ Hk) as [N Hk']. destruct (w_alive0 _ _ _ Hk' E). rewrite upd_other; [auto|].
        intros ->. apply N. eauto.
      * intros g Hg. destruct (Nat.eqb_spec g qu); [subst; right; rewrite upd_same; lia|]. rewrite (upd_other (wdestroys s)) by auto.
        destruct (w_dead0 _ Hg) as [(k & u & E1 & E2)|]; [|auto]. left. exists k, u. rewrite upd_other; [auto|]. intros ->. rewrite E1 in Ei. inversion Ei; subst. cbn in E2. congruence.
      * intros g Hg. rewrite upd_other; [auto|]. intros ->. congruence.
      * intros g. unfold upd. destruct (Nat.eqb_spec g qu); [subst; now rewrite w_freed0|auto].
    + destruct d; [exfalso; apply (proj1 (w_own _ H _ _ Ei)); reflexivity|].
      destruct H.
      assert (L : forall k u, upd (wraps s) i None k = Some u -> k <> i /\ wraps s k = Some u).
      { intros k u. unfold upd. destruct (Nat.eqb_spec k i); [discriminate|auto]. }
      split; cbn; auto.
      * intros k u Hk. destruct (L _ _ Hk). eauto.
      * intros a b u v g Ha Hb. destruct (L _ _ Ha), (L _ _ Hb). eauto.
      * intros k u g Hk E. destruct (L _ _ Hk). eauto.
      * intros g Hg. destruct (w_dead0 _ Hg) as [(k & u & E1 & E2)|]; [|auto]. left. exists k, u. rewrite upd_other; [auto|].
        intros ->. rewrite E1 in Ei. inversion Ei; subst. discriminate.
  - destruct (wraps s i) as [[[qu|] d]|] eqn:Ei; try discriminate; intros E; inversion E; subst; clear E; auto.
    exfalso. exact (HA i eq_refl _ Ei eq_refl).
Qed.
