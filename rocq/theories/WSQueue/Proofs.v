From Coq Require Import List Arith Bool Lia Permutation.
From Verif.Common Require Import TS.
From Verif.WSQueue Require Import Model Spec.
Import ListNotations.

Lemma memb_In t l : memb t l = true <-> In t l.
Proof.
  unfold memb. rewrite existsb_exists. split.
  - intros (x & Hx & E). apply Nat.eqb_eq in E. now subst.
  - intros H. exists t. split; [assumption|apply Nat.eqb_refl].
Qed.
Lemma memb_nIn t l : memb t l = false <-> ~ In t l.
Proof. rewrite <- memb_In. destruct (memb t l); intuition congruence. Qed.

Lemma same_keys_In l o : same_keys l o = true -> forall t, In t o <-> In t l.
Proof.
  unfold same_keys. rewrite !andb_true_iff. intros [[_ H1] H2] t. rewrite forallb_forall in H1, H2.
  split; intros Ht; [apply memb_In; auto|apply memb_In; auto].
Qed.

Lemma contents_upd_notin l f t x : ~ In t l -> contents l (upd f t x) = contents l f.
Proof.
  induction l as [|a l IH]; cbn; intros H; [reflexivity|]. rewrite IH by tauto. rewrite upd_other by tauto. reflexivity.
Qed.
Lemma contents_upd l f t x : NoDup l -> In t l ->
  Permutation (contents l (upd f t x) ++ f t) (contents l f ++ x).
Proof.
  induction l as [|a l IH]; cbn; intros Hn Ht; [easy|]. inversion Hn; subst.
  destruct Ht as [->|Ht].
  - rewrite upd_same, contents_upd_notin by assumption.
    rewrite (Permutation_app_comm (x ++ contents l f)), <- app_assoc. apply Permutation_app_head. apply Permutation_app_comm.
  - rewrite upd_other by (intros ->; contradiction). rewrite <- !app_assoc. apply Permutation_app_head. auto.
Qed.

Record Inv (s : state) : Prop := {
  i_nd : NoDup (keys s);
  i_out : forall t, ~ In t (keys s) -> q s t = [];
  i_steal : forall t rest, at_ s t = Stealing rest -> incl rest (keys s)
}.
Lemma Inv_init : Inv init.
Proof. constructor; cbn; auto. constructor. discriminate. Qed.

Lemma try_spec s j k r s' : Inv s -> try_dequeue s j k = Some (r, s') ->
  Inv s' /\ keys s' = keys s /\ at_ s' = at_ s /\ ub s' = ub s /\
  match r with
  | None => s' = s /\ q s j = []
  | Some x => Permutation (contents (keys s) (q s)) (x :: contents (keys s') (q s'))
  end.
Proof.
  intros HI H. unfold try_dequeue in H. destruct (q s j) as [|y l] eqn:E.
  - inversion H; subst. repeat split; auto; apply HI.
  - destruct (take_nth k (y :: l)) as [[x r0]|] eqn:Et; inversion H; subst; clear H. cbn.
    assert (Hj : In j (keys s)).
    { destruct (in_dec Nat.eq_dec j (keys s)); [assumption|]. rewrite (i_out _ HI) in E by assumption. discriminate. }
    split; [constructor; cbn; try apply HI|].
    + intros t Ht. destruct (Nat.eq_dec t j) as [->|N]; [contradiction|]. rewrite upd_other by assumption. now apply (i_out _ HI).
    + repeat (split; [reflexivity|]).
      apply take_nth_spec in Et. destruct Et as (l1 & l2 & E1 & E2 & _).
      pose proof (contents_upd (keys s) (q s) j r0 (i_nd _ HI) Hj) as P. rewrite E, E1 in P. subst r0.
      assert (Q : Permutation (l1 ++ x :: l2) (x :: l1 ++ l2)) by (symmetry; apply Permutation_middle).
      rewrite Q in P.
      apply (Permutation_app_inv_r (l1 ++ l2)). rewrite <- P.
      cbn. rewrite <- Permutation_middle. reflexivity.
Qed.

Lemma upd_pc_steal s t p : Inv s -> (forall rest, p = Stealing rest -> incl rest (keys s)) -> Inv (set_pc s t p).
Proof.
  intros [A B C] H. constructor; cbn; auto. intros t' rest. destruct (Nat.eq_dec t' t) as [->|N].
  - rewrite upd_same. auto.
  - rewrite upd_other by assumption. apply C.
Qed.

Lemma step_spec s e s' o : Inv s -> step s e = Some (s', o) ->
  Inv s' /\ Permutation (contents (keys s) (q s) ++ ins o) (outs o ++ contents (keys s') (q s')).
Proof.
  intros HI Hs. unfold step in Hs. destruct (ub s); [discriminate|].
  assert (Enq : forall j x, In j (keys s) -> Inv (St (keys s) (upd (q s) j (q s j ++ [x])) (at_ s) false) /\
     Permutation (contents (keys s) (q s) ++ [x]) (contents (keys s) (upd (q s) j (q s j ++ [x])))).
  { intros j x Hj. split.
    - constructor; cbn; try apply HI. intros t Ht. destruct (Nat.eq_dec t j) as [->|N]; [contradiction|].
      rewrite upd_other by assumption. now apply (i_out _ HI).
    - pose proof (contents_upd (keys s) (q s) j (q s j ++ [x]) (i_nd _ HI) Hj) as P.
      apply (Permutation_app_inv_r (q s j)). rewrite P. rewrite <- app_assoc. apply Permutation_app_head. apply Permutation_app_comm. }
  destruct e as [t|a b x|t k order|t k].
  - destruct (memb t (keys s)) eqn:E; inversion Hs; subst; clear Hs; cbn.
    + split; [assumption|]. now rewrite app_nil_r.
    + apply memb_nIn in E. split.
      * destruct HI as [A B C]. constructor; cbn.
        -- now constructor.
        -- intros t' Ht'. rewrite upd_other by (intros ->; tauto). apply B. tauto.
        -- intros t' rest Hr. apply incl_tl. eauto.
      * rewrite upd_same, contents_upd_notin by assumption. cbn. now rewrite app_nil_r.
  - destruct (memb a (keys s)) eqn:Ea.
    + inversion Hs; subst; clear Hs. apply memb_In in Ea. exact (Enq a x Ea).
    + destruct (keys s) as [|k0 ks] eqn:Ek.
      * inversion Hs; subst; clear Hs. cbn. rewrite Ek. cbn. split; [|constructor].
        destruct HI. constructor; cbn; auto.
      * rewrite <- Ek in *. destruct (memb b (keys s)) eqn:Eb; inversion Hs; subst; clear Hs.
        apply memb_In in Eb. exact (Enq b x Eb).
  - destruct (at_ s t) eqn:Ea; try discriminate. destruct (memb t (keys s)).
    + destruct (same_keys (keys s) order) eqn:Ek; [|discriminate].
      destruct (try_dequeue s t k) as [[[x|] s1]|] eqn:Et; inversion Hs; subst; clear Hs.
      * destruct (try_spec _ _ _ _ _ HI Et) as (A & B & C & D & E). split; [assumption|]. cbn. rewrite app_nil_r. exact E.
      * destruct (try_spec _ _ _ _ _ HI Et) as (A & B & C & D & E & F). subst s1. split.
        -- apply upd_pc_steal; [assumption|]. intros rest Hr. inversion Hr; subst. intros j Hj.
           now apply (same_keys_In _ _ Ek).
        -- cbn. now rewrite app_nil_r.
    + inversion Hs; subst; clear Hs. cbn. rewrite app_nil_r. split; [|reflexivity]. destruct HI. constructor; cbn; auto.
  - destruct (at_ s t) as [|[|j rest]] eqn:Ea; try discriminate.
    + inversion Hs; subst; clear Hs. split; [|cbn; now rewrite app_nil_r]. apply upd_pc_steal; auto; discriminate.
    + pose proof (i_steal _ HI t (j :: rest) Ea) as Hincl.
      destruct (try_dequeue s j k) as [[[x|] s1]|] eqn:Et; inversion Hs; subst; clear Hs.
      * destruct (try_spec _ _ _ _ _ HI Et) as (A & B & C & D & E). split; [apply upd_pc_steal; auto; discriminate|].
        cbn. rewrite app_nil_r. exact E.
      * destruct (try_spec _ _ _ _ _ HI Et) as (A & B & C & D & E & F). subst s1. split; [|cbn; now rewrite app_nil_r].
        apply upd_pc_steal; auto. intros rest' Hr. inversion Hr; subst. intros x Hx. apply Hincl. now right.
Qed.

Lemma ins_app a b : ins (a ++ b) = ins a ++ ins b.
Proof. induction a as [|[|? [|]] a IH]; cbn; congruence. Qed.
Lemma outs_app a b : outs (a ++ b) = outs a ++ outs b.
Proof. induction a as [|[|? [|]] a IH]; cbn; congruence. Qed.

Lemma conservation_gen l : forall s s', Inv s -> run next s l = Some s' ->
  Inv s' /\ Permutation (contents (keys s) (q s) ++ ins (trace next observe s l)) (outs (trace next observe s l) ++ contents (keys s') (q s')).
Proof.
  induction l as [|e l IH]; cbn [run trace]; intros s s' HI Hr.
  - inversion Hr; subst. cbn. rewrite app_nil_r. auto.
  - destruct (next s e) as [s1|] eqn:En; [|discriminate].
    unfold next in En. unfold observe at 1 3. destruct (step s e) as [[s2 o]|] eqn:Es; [|discriminate].
    cbn in En. inversion En; subst s2; clear En.
    destruct (step_spec _ _ _ _ HI Es) as [HI1 P1]. destruct (IH _ _ HI1 Hr) as [HI' P2].
    split; [assumption|]. rewrite ins_app, outs_app, app_assoc, P1, <- !app_assoc. apply Permutation_app_head. exact P2.
Qed.

Lemma conservation l s : run next init l = Some s ->
  Permutation (ins (trace next observe init l)) (outs (trace next observe init l) ++ contents (keys s) (q s)).
Proof. intros Hr. apply (conservation_gen l init s Inv_init Hr). Qed.

Lemma size_contents s : size s = length (contents (keys s) (q s)).
Proof. unfold size. induction (keys s); cbn; [reflexivity|]. rewrite app_length. lia. Qed.

(** ** a dequeue with nothing else going on *)
Lemma steal_alone rest : forall s t,
  Inv s -> ub s = false -> at_ s t = Stealing rest ->
  (forall t', t' <> t -> at_ s t' = Idle) ->
  exists l s' r, run next s l = Some s' /\ trace next observe s l = [Out t r] /\ quiet s' /\
    match r with
    | Some x => True
    | None => forall j, In j rest -> q s j = []
    end.
Proof.
  induction rest as [|j rest IH]; intros s t HI Hu Ha Ho.
  - exists [EDeqSteal t 0], (set_pc s t Idle), None. cbn. unfold next, observe, step. rewrite Hu, Ha. cbn.
    repeat split; auto.
    + intros t'. cbn. destruct (Nat.eq_dec t' t) as [->|N]; [now rewrite upd_same|]. rewrite upd_other; auto.
    + intros j [].
  - destruct (q s j) as [|y ys] eqn:Ej.
    + set (s1 := set_pc s t (Stealing rest)).
      assert (HS : step s (EDeqSteal t 0) = Some (s1, [])).
      { unfold step. rewrite Hu, Ha. unfold try_dequeue. rewrite Ej. reflexivity. }
      destruct (IH s1 t) as (l & s' & r & R & T & Q & M); subst s1; cbn; auto.
      { apply upd_pc_steal; auto. intros ? E; inversion E; subst. intros x Hx. apply (i_steal _ HI t _ Ha). now right. }
      { now rewrite upd_same. } { intros t' N. rewrite upd_other; auto. }
      exists (EDeqSteal t 0 :: l), s', r. cbn [run trace].
      assert (HN : next s (EDeqSteal t 0) = Some (set_pc s t (Stealing rest))) by (unfold next; now rewrite HS).
      rewrite HN. unfold observe at 1. rewrite HS. cbn [app]. repeat split; auto.
      destruct r; [auto|]. intros j' [<-|Hj]; [assumption|]. exact (M j' Hj).
    + assert (HS : step s (EDeqSteal t 0) = Some (set_pc (St (keys s) (upd (q s) j ys) (at_ s) (ub s)) t Idle, [Out t (Some y)])).
      { unfold step. rewrite Hu, Ha. unfold try_dequeue. rewrite Ej. cbn. rewrite Hu. reflexivity. }
      exists [EDeqSteal t 0]. eexists. exists (Some y). cbn [run trace]. unfold next, observe. rewrite HS. cbn.
      repeat split; auto. intros t'. cbn. destruct (Nat.eq_dec t' t) as [->|N]; [now rewrite upd_same|]. rewrite upd_other; auto.
Qed.

Lemma same_keys_refl l : same_keys l l = true.
Proof.
  unfold same_keys. rewrite Nat.eqb_refl. cbn. rewrite !andb_true_iff.
  assert (H : forallb (fun t => memb t l) l = true) by (apply forallb_forall; intros; now apply memb_In). auto.
Qed.

Lemma dequeue_alone l s t :
  run next init l = Some s -> ub s = false -> quiet s -> In t (keys s) ->
  exists l' s' r, run next s l' = Some s' /\ trace next observe s l' = [Out t r] /\ quiet s' /\
    (r = None <-> size s = 0).
Proof.
  intros Hr Hu Hq Ht. destruct (conservation_gen l init s Inv_init Hr) as [HI _]. clear Hr.
  apply memb_In in Ht as Hm.
  destruct (q s t) as [|y ys] eqn:Eq.
  - set (s1 := set_pc s t (Stealing (keys s))).
    assert (HS : step s (EDeqOwn t 0 (keys s)) = Some (s1, [])).
    { unfold step. rewrite Hu, (Hq t), Hm, same_keys_refl. unfold try_dequeue. rewrite Eq. reflexivity. }
    destruct (steal_alone (keys s) s1 t) as (l' & s' & r & R & T & Q & M); subst s1; cbn; auto.
    { apply upd_pc_steal; auto. intros ? E; inversion E; subst. apply incl_refl. }
    { now rewrite upd_same. } { intros t' N. rewrite upd_other; auto. }
    exists (EDeqOwn t 0 (keys s) :: l'), s', r. cbn [run trace].
    assert (HN : next s (EDeqOwn t 0 (keys s)) = Some (set_pc s t (Stealing (keys s)))) by (unfold next; now rewrite HS).
    rewrite HN. unfold observe at 1. rewrite HS. cbn [app]. repeat split; auto.
    + intros ->. cbn in M. rewrite size_contents. replace (contents (keys s) (q s)) with (@nil nat); [reflexivity|].
      clear - M. induction (keys s) as [|a k IH]; cbn; [reflexivity|]. rewrite (M a); cbn; [apply IH|]; cbn in *; auto.
    + intros Hz. destruct r as [x|]; [|reflexivity]. exfalso.
      assert (HI1 : Inv (set_pc s t (Stealing (keys s)))).
      { apply upd_pc_steal; auto. intros ? E; inversion E; subst. apply incl_refl. }
      destruct (conservation_gen l' _ s' HI1 R) as [_ P]. rewrite T in P. cbn in P.
      rewrite size_contents in Hz. apply length_zero_iff_nil in Hz. rewrite Hz in P. cbn in P. apply Permutation_nil in P. discriminate.
  - assert (HS : step s (EDeqOwn t 0 (keys s)) = Some (St (keys s) (upd (q s) t ys) (at_ s) (ub s), [Out t (Some y)])).
    { unfold step. rewrite Hu, (Hq t), Hm, same_keys_refl. unfold try_dequeue. rewrite Eq. cbn. rewrite Hu. reflexivity. }
    exists [EDeqOwn t 0 (keys s)]. eexists. exists (Some y). cbn [run trace]. unfold next, observe. rewrite HS. cbn.
    repeat split; auto; [discriminate|]. intros Hz. exfalso. rewrite size_contents in Hz. apply length_zero_iff_nil in Hz.
    revert Hz Ht. clear - Eq. induction (keys s) as [|a k IH]; cbn; [tauto|]. intros Hz Ht. apply app_eq_nil in Hz. destruct Hz as [A B].
    destruct Ht as [->|Ht]; [congruence|auto].
Qed.

Lemma no_ub l s : run_all next proper_use init l -> run next init l = Some s -> ub s = false.
Proof.
  intros HP Hr. refine (run_inv_cond next proper_use (fun s => ub s = false) _ l init s eq_refl HP Hr).
  intros s0 e s1 Hu HU Hn. unfold next in Hn. destruct (step s0 e) as [[s2 o]|] eqn:Hs; [|discriminate].
  cbn in Hn. inversion Hn; subst s2; clear Hn. unfold step in Hs. rewrite Hu in Hs.
  assert (TU : forall j k r s', try_dequeue s0 j k = Some (r, s') -> ub s' = false).
  { intros j k r s' E. unfold try_dequeue in E. destruct (q s0 j); [inversion E; subst; assumption|].
    destruct (take_nth k (n :: l0)) as [[? ?]|]; inversion E; subst; assumption. }
  destruct e as [t|a b x|t k order|t k]; cbn in HU.
  - destruct (memb t (keys s0)); inversion Hs; subst; auto.
  - destruct (memb a (keys s0)); [inversion Hs; subst; auto|]. destruct (keys s0); [congruence|].
    destruct (memb b (t :: l0)); inversion Hs; subst; auto.
  - destruct (at_ s0 t); try discriminate. apply memb_In in HU. rewrite HU in Hs.
    destruct (same_keys (keys s0) order); [|discriminate].
    destruct (try_dequeue s0 t k) as [[[y|] s2]|] eqn:Et; inversion Hs; subst; cbn; eauto.
  - destruct (at_ s0 t) as [|[|j rest]]; try discriminate; [inversion Hs; subst; auto|].
    destruct (try_dequeue s0 j k) as [[[y|] s2]|] eqn:Et; inversion Hs; subst; cbn; eauto.
Qed.
