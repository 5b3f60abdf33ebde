From Coq Require Import List Arith Bool Lia.
From Verif.Common Require Import TS.
From Verif.EventLoop Require Import Model Spec.
Import ListNotations.
#[local] Arguments upd : simpl never.

Lemma poll_from_polled {Wd} (lps : list (@loop Wd)) : forall i r p w,
  snd (fst (poll_from i lps r p w)) = p ++ seq i (length lps).
Proof.
  induction lps as [|lp lps IH]; intros; cbn; [now rewrite app_nil_r|]. destruct (lp w). rewrite IH, <- app_assoc. reflexivity.
Qed.

Lemma poll_from_result {Wd} (lps : list (@loop Wd)) : forall i r p w,
  fst (fst (poll_from i lps r p w)) = r || existsb (fun b => b) (answers lps w).
Proof.
  induction lps as [|lp lps IH]; intros; cbn; [now rewrite orb_false_r|]. destruct (lp w). rewrite IH. cbn. now rewrite orb_assoc.
Qed.

(** * sleep *)
Section Sleep.
  Variable k : nat.
  Variable pool : nat -> nat.
  Variable ans : nat -> nat -> nat.
  Notation snext := (snext k pool ans).
  (** a single pool: the lock owner is the only one with the vector *)
  Record SInv (p : nat) (s : sstate) : Prop := {
    s_idle : forall w, lock s p <> Some w -> spc s w = SIdle;
    s_busy : forall w, lock s p = Some w ->
      match spc s w with
      | SIdle => False
      | SLocked => True
      | SPush i => i <= k /\ duras s = map (fun j => ans j w) (seq 0 i)
      | SDone r => r = min_of (map (fun j => ans j w) (seq 0 k))
      end
  }.
  Lemma sinv_next p s e s' : (forall w, pool w = p) -> SInv p s -> snext s e = Some s' -> SInv p s'.
  Proof.
    intros HP H. destruct e; cbn [Model.snext]; rewrite ?HP; destruct (spc s w) eqn:Ew; try discriminate.
    - destruct (lock s p) eqn:El; [discriminate|]. intros E; inversion E; subst; clear E. destruct H. split; cbn.
      + intros v. rewrite upd_same. intros Hv. rewrite upd_other by congruence. apply s_idle0. congruence.
      + intros v. rewrite upd_same. intros E; inversion E; subst. now rewrite upd_same.
    - intros E; inversion E; subst; clear E. assert (El : lock s p = Some w).
      { destruct H. destruct (lock s p) as [v|] eqn:El; [|rewrite s_idle0 in Ew; [discriminate|congruence]].
        destruct (Nat.eq_dec v w); [now subst|]. rewrite s_idle0 in Ew; [discriminate|congruence]. }
      destruct H. split; cbn.
      + intros v Hv. rewrite upd_other by congruence. auto.
      + intros v Hv. assert (v = w) by congruence. subst. rewrite upd_same. cbn. split; [lia|reflexivity].
    - destruct (Nat.ltb_spec i k); [|discriminate]. intros E; inversion E; subst; clear E. assert (El : lock s p = Some w).
      { destruct H. destruct (lock s p) as [v|] eqn:El; [|rewrite s_idle0 in Ew; [discriminate|congruence]].
        destruct (Nat.eq_dec v w); [now subst|]. rewrite s_idle0 in Ew; [discriminate|congruence]. }
      destruct H. pose proof (s_busy0 w El) as B. rewrite Ew in B. split; cbn.
      + intros v Hv. rewrite upd_other by congruence. auto.
      + intros v Hv. assert (v = w) by congruence. subst. rewrite upd_same. split; [lia|].
        rewrite seq_S, map_app. destruct B as [_ ->]. reflexivity.
    - destruct (Nat.eqb_spec i k); [|discriminate]. intros E; inversion E; subst s'; clear E. assert (El : lock s p = Some w).
      { destruct H. destruct (lock s p) as [v|] eqn:El; [|rewrite s_idle0 in Ew; [discriminate|congruence]].
        destruct (Nat.eq_dec v w); [now subst|]. rewrite s_idle0 in Ew; [discriminate|congruence]. }
      destruct H. pose proof (s_busy0 w El) as B. rewrite Ew in B. split; cbn.
      + intros v Hv. rewrite upd_other by congruence. auto.
      + intros v Hv. assert (v = w) by congruence. subst v. rewrite upd_same. destruct B as [_ ->]. now subst i.
    - intros E; inversion E; subst; clear E. assert (El : lock s p = Some w).
      { destruct H. destruct (lock s p) as [v|] eqn:El; [|rewrite s_idle0 in Ew; [discriminate|congruence]].
        destruct (Nat.eq_dec v w); [now subst|]. rewrite s_idle0 in Ew; [discriminate|congruence]. }
      destruct H. split; cbn.
      + intros v _. destruct (Nat.eq_dec v w); [subst; now rewrite upd_same|]. rewrite upd_other by congruence. apply s_idle0. congruence.
      + intros v. rewrite upd_same. discriminate.
  Qed.
  Lemma sinv_init p : SInv p sinit.
  Proof. split; cbn; auto; discriminate. Qed.
End Sleep.

Lemma min_of_spec l m : min_of l = Some m <-> In m l /\ forall x, In x l -> m <= x.
Proof.
  revert m; induction l as [|a l IH]; intros m; cbn.
  - split; [discriminate|intros [[] _]].
  - destruct (min_of l) as [n|] eqn:E.
    + destruct (proj1 (IH n) eq_refl) as [H1 H2]. split.
      * intros E2; inversion E2; subst. split.
        -- destruct (Nat.min_dec a n) as [->| ->]; auto.
        -- intros x [<-|Hx]; [lia|]. specialize (H2 x Hx). lia.
      * intros [H3 H4]. f_equal. assert (m <= a) by auto. assert (m <= n) by auto.
        destruct H3 as [<-|H3]; [lia|]. specialize (H2 m H3). lia.
    + assert (L : l = []). { destruct l as [|b l]; [reflexivity|]. cbn in E. destruct (min_of l); discriminate. }
      subst l. cbn. split.
      * intros E2; inversion E2; subst. split; [auto|]. intros x [<-|[]]. lia.
      * intros [[<-|[]] _]. reflexivity.
Qed.
Lemma min_of_none l : min_of l = None <-> l = [].
Proof. destruct l as [|a l]; cbn; [easy|]. destruct (min_of l); easy. Qed.

Lemma user_max_sleep_spec l : user_max_sleep l <= ten_s /\ (forall a, In a l -> user_max_sleep l <= a) /\
  (In (user_max_sleep l) l \/ user_max_sleep l = ten_s).
Proof.
  unfold user_max_sleep. assert (K : forall l r, fold_left (fun r a => Nat.min a r) l r <= r /\
     (forall a, In a l -> fold_left (fun r a => Nat.min a r) l r <= a) /\ (In (fold_left (fun r a => Nat.min a r) l r) l \/ fold_left (fun r a => Nat.min a r) l r = r)).
  { clear. induction l as [|b l IH]; intros r; cbn [fold_left].
    - repeat split; auto; easy.
    - destruct (IH (Nat.min b r)) as (H1 & H2 & H3). repeat split.
      + lia.
      + intros a [<-|Ha]; [lia|auto].
      + destruct H3 as [H3|H3]; [left; now right|]. rewrite H3. destruct (Nat.min_dec b r) as [->| ->]; [left; now left|now right]. }
  apply K.
Qed.

(** * registration *)
Lemma memb_In i l : memb i l = true <-> In i l.
Proof.
  unfold memb. rewrite existsb_exists. split.
  - intros (x & Hx & E). apply Nat.eqb_eq in E. now subst.
  - intros H. exists i. split; [exact H|apply Nat.eqb_refl].
Qed.
Lemma memb_nIn i l : memb i l = false <-> ~ In i l.
Proof. rewrite <- memb_In. now destruct (memb i l). Qed.

#[local] Arguments cnt : simpl never.
#[local] Arguments memb : simpl never.
Lemma memb_cons x a l : memb x (a :: l) = Nat.eqb x a || memb x l. Proof. reflexivity. Qed.
Lemma cnt_app l t a b : cnt l t (a ++ b) = cnt l t a + cnt l t b.
Proof. unfold cnt. now rewrite filter_app, app_length. Qed.
Lemma cnt_cons l t x y p : cnt l t ((x, y) :: p) = (if Nat.eqb x l && Nat.eqb y t then 1 else 0) + cnt l t p.
Proof. unfold cnt. cbn. now destruct (Nat.eqb x l && Nat.eqb y t). Qed.
Lemma cnt_map1 l t t0 ls : NoDup ls -> cnt l t (map (fun x => (x, t0)) ls) = if Nat.eqb t t0 && memb l ls then 1 else 0.
Proof.
  induction ls as [|x ls IH]; intros Hn; cbn [map].
  - now rewrite andb_false_r.
  - inversion Hn; subst. rewrite cnt_cons, (IH H2), memb_cons. apply memb_nIn in H1.
    rewrite (Nat.eqb_sym x l), (Nat.eqb_sym t0 t). destruct (Nat.eqb_spec l x), (Nat.eqb_spec t t0); subst; cbn; rewrite ?H1; reflexivity.
Qed.
Lemma cnt_map2 l t l0 ts : NoDup ts -> cnt l t (map (fun x => (l0, x)) ts) = if Nat.eqb l l0 && memb t ts then 1 else 0.
Proof.
  induction ts as [|x ts IH]; intros Hn; cbn [map].
  - now rewrite andb_false_r.
  - inversion Hn; subst. rewrite cnt_cons, (IH H2), memb_cons. apply memb_nIn in H1.
    rewrite (Nat.eqb_sym x t), (Nat.eqb_sym l0 l). destruct (Nat.eqb_spec l l0), (Nat.eqb_spec t x); subst; cbn; rewrite ?H1; reflexivity.
Qed.

Record UInv (s : ustate) : Prop := {
  u_na : NoDup (attrs s);
  u_nl : NoDup (loops s);
  u_cnt : forall l t, cnt l t (prepared s) = if memb l (loops s) && memb t (attrs s) then 1 else 0
}.
Lemma memb_app x a b : memb x (a ++ b) = memb x a || memb x b.
Proof. unfold memb. apply existsb_app. Qed.
Lemma uinv_next s e s' : UInv s -> unext s e = Some s' -> UInv s'.
Proof.
  intros H. unfold unext. destruct (uub s); [discriminate|]. destruct e.
  - destruct (memb t (attrs s)) eqn:E1; [discriminate|]. intros E; inversion E; subst; clear E. destruct H. split; cbn; auto.
    + constructor; [now apply memb_nIn|auto].
    + intros l t'. rewrite cnt_app, cnt_map1, u_cnt0, memb_cons by auto. destruct (Nat.eqb_spec t' t); cbn.
      * subst. rewrite E1. destruct (memb l (loops s)); reflexivity.
      * destruct (memb l (loops s)); reflexivity.
  - destruct (memb l (loops s)) eqn:E1; [discriminate|]. intros E; inversion E; subst; clear E. destruct H. split; cbn; auto.
    + apply NoDup_snoc; [auto|now apply memb_nIn].
    + intros l' t. rewrite cnt_app, cnt_map2, u_cnt0, memb_app, memb_cons by auto. destruct (Nat.eqb_spec l' l); cbn.
      * subst. rewrite E1. cbn. destruct (memb t (attrs s)); reflexivity.
      * unfold memb at 3. cbn. rewrite orb_false_r. reflexivity.
  - intros E; inversion E; subst; clear E. destruct H. split; auto.
  - destruct (memb t (attrs s)) eqn:E1; [|discriminate]. intros E; inversion E; subst; clear E. destruct H. split; auto.
Qed.
