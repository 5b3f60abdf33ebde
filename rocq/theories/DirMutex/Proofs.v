From Coq Require Import List Arith Bool Permutation Lia.
From Verif.Common Require Import TS ListX.
From Verif.DirMutex Require Import Model Spec.
Import ListNotations.
#[local] Arguments upd : simpl never.

Record inv (s : state) : Prop := {
  i_file : file s = true <-> owner s <> None;
  i_c : forall c, (exists m, holds s c m) <-> owner s = Some (OwnC c);
  i_p : forall p, (exists m, nth_error (pollers s) p = Some (m, PCreated)) <-> owner s = Some (OwnP p);
  i_q : forall m c, In c (waitq s m) <-> pc s c = Queued m;
  i_qn : forall m, NoDup (waitq s m);
  i_b : forall m c, In c (betw s m) <-> pc s c = Between m;
  i_bn : forall m, NoDup (betw s m)
}.

Lemma inv_init : inv init.
Proof.
  split; cbn; try easy.
  - intros c. split; [intros (m & [?|?]); easy|easy].
  - intros p. split; [intros (m & H); destruct p; easy|easy].
  - intros m. constructor.
  - intros m. constructor.
Qed.

(** changing the position of a coroutine among {Idle, Trying, Between, Queued}/{Holding, Deleting} *)
Definition token (x : cpc) : bool := match x with Holding _ | Deleting _ => true | _ => false end.
Lemma holds_token s c : (exists m, holds s c m) <-> token (pc s c) = true.
Proof.
  split.
  - intros (m & [-> | ->]); reflexivity.
  - unfold holds. destruct (pc s c) as [| | | |m|m]; try discriminate; intros _; exists m; auto.
Qed.
Lemma holds_upd s s' c x : pc s' = upd (pc s) c x -> forall c', (exists m, holds s' c' m) <-> if c' =? c then token x = true else exists m, holds s c' m.
Proof.
  intros Hp c'. destruct (Nat.eqb_spec c' c) as [->|Hne]; rewrite !holds_token, Hp; [now rewrite upd_same|now rewrite upd_other].
Qed.

Lemma in_remove c x l : In x (remove_all c l) <-> In x l /\ x <> c.
Proof. unfold remove_all. rewrite filter_In. destruct (Nat.eqb_spec x c); cbn; intuition; discriminate. Qed.
Lemma NoDup_remove_all c l : NoDup l -> NoDup (remove_all c l).
Proof. apply NoDup_filter. Qed.
Lemma length_remove_all c l : NoDup l -> In c l -> S (length (remove_all c l)) = length l.
Proof.
  induction l as [|x l IH]; cbn; [easy|]. intros Hn Hin. inversion Hn; subst.
  destruct (Nat.eqb_spec x c) as [->|Hne]; cbn [negb length].
  - f_equal. clear -H1. induction l as [|y l IH]; cbn; [easy|]. destruct (Nat.eqb_spec y c) as [->|]; cbn [negb length]; [exfalso; apply H1; now left|].
    f_equal. apply IH. intros H; apply H1; now right.
  - f_equal. apply IH; [easy|]. destruct Hin as [->|Hin]; [easy|exact Hin].
Qed.

Lemma wake_inv s m k c s' : (forall m c', In c' (waitq s m) <-> pc s c' = Queued m) -> (forall m, NoDup (waitq s m)) ->
  (forall m c', In c' (betw s m) <-> pc s c' = Between m) -> (forall m, NoDup (betw s m)) ->
  file s = true -> (forall c', token (pc s c') = false) -> (forall p m', nth_error (pollers s) p <> Some (m', PCreated)) ->
  wake s m k = Some (c, s') -> inv s'.
Proof.
  intros Hq Hqn Hb Hbn Hf Ht Hp Hw. unfold wake in Hw. destruct (take_nth k (waitq s m)) as [[c0 rest]|] eqn:E; [|discriminate].
  inversion Hw; subst c0 s'; clear Hw. apply take_nth_spec in E. destruct E as (l1 & l2 & El & Er & _).
  assert (Hc : pc s c = Queued m) by (apply Hq; rewrite El; apply in_app_iff; right; now left).
  assert (Hnd : NoDup (l1 ++ c :: l2)) by (rewrite <- El; apply Hqn). apply NoDup_remove in Hnd. destruct Hnd as [Hnd Hni].
  split; cbn [file owner pc waitq betw pollers].
  - rewrite Hf. easy.
  - intros c'. rewrite holds_token. cbn [pc]. destruct (Nat.eq_dec c' c) as [->|Hne]; [rewrite upd_same; cbn; easy|].
    rewrite upd_other, Ht by easy. split; [discriminate|congruence].
  - intros p. split; [intros (m' & H); exfalso; eapply Hp; exact H|discriminate].
  - intros m' c'. destruct (Nat.eq_dec m' m) as [->|Hm].
    + rewrite upd_same, Er. destruct (Nat.eq_dec c' c) as [->|Hne]; [rewrite upd_same; split; [intros H; easy|discriminate]|].
      rewrite upd_other by easy. rewrite <- Hq, El, !in_app_iff. cbn. intuition congruence.
    + rewrite (upd_other _ m) by easy. destruct (Nat.eq_dec c' c) as [->|Hne].
      * rewrite upd_same. rewrite Hq, Hc. split; [intros E; inversion E; congruence|discriminate].
      * rewrite upd_other by easy. apply Hq.
  - intros m'. destruct (Nat.eq_dec m' m) as [->|Hm]; [rewrite upd_same, Er; exact Hnd|rewrite upd_other by easy; apply Hqn].
  - intros m' c'. rewrite Hb. destruct (Nat.eq_dec c' c) as [->|Hne]; [rewrite upd_same, Hc; split; discriminate|now rewrite upd_other].
  - exact Hbn.
Qed.

Lemma poller_upd s p m x y : nth_error (pollers s) p = Some (m, y) ->
  forall q m', nth_error (pollers (set_poller s p m x)) q = Some (m', PCreated) <-> if q =? p then (m' = m /\ x = PCreated) else nth_error (pollers s) q = Some (m', PCreated).
Proof.
  intros Hp q m'. cbn [set_poller pollers]. rewrite nth_error_set. destruct (Nat.eqb_spec q p) as [->|Hne]; [|easy].
  destruct (Nat.ltb_spec p (length (pollers s))) as [|Hge]; [|apply nth_error_lt in Hp; lia].
  split; [intros E; inversion E; auto|intros [-> ->]; reflexivity].
Qed.

Lemma inv_step s ev s' : inv s -> is_destroy ev = false -> next s ev = Some s' -> inv s'.
Proof.
  intros HI Hnd Hn. destruct HI as [If Ic Ip Iq Iqn Ib Ibn].
  destruct ev as [c m|c|c|p|p|p k|c k|c|m|m k]; cbn [next is_destroy] in *; try discriminate.
  - destruct (pc s c) eqn:Ec; try discriminate. inversion Hn; subst s'; clear Hn.
    split; cbn [set_pc file owner pc waitq betw pollers]; auto.
    + intros c'. rewrite (holds_upd s _ c (Trying m)) by reflexivity. destruct (Nat.eqb_spec c' c) as [->|Hne]; [|apply Ic].
      rewrite <- Ic, holds_token, Ec. cbn. easy.
    + intros m' c'. rewrite Iq. destruct (Nat.eq_dec c' c) as [->|Hne]; [rewrite upd_same, Ec; split; discriminate|now rewrite upd_other].
    + intros m' c'. rewrite Ib. destruct (Nat.eq_dec c' c) as [->|Hne]; [rewrite upd_same, Ec; split; discriminate|now rewrite upd_other].
  - destruct (pc s c) as [|m|m|m|m|m] eqn:Ec; try discriminate. destruct (file s) eqn:Ef; inversion Hn; subst s'; clear Hn.
    + split; cbn [file owner pc waitq betw pollers]; auto.
      * intros c'. rewrite (holds_upd s _ c (Between m)) by reflexivity. destruct (Nat.eqb_spec c' c) as [->|Hne]; [|apply Ic].
        rewrite <- Ic, holds_token, Ec. cbn. easy.
      * intros p. rewrite <- Ip. destruct (lt_dec p (length (pollers s))) as [Hl|Hl].
        -- rewrite nth_error_app1 by easy. easy.
        -- rewrite nth_error_app2 by lia. split; intros (m' & H); exfalso.
           ++ destruct (p - length (pollers s)) as [|[|]]; cbn in H; inversion H.
           ++ apply nth_error_lt in H. lia.
      * intros m' c'. rewrite Iq. destruct (Nat.eq_dec c' c) as [->|Hne]; [rewrite upd_same, Ec; split; discriminate|now rewrite upd_other].
      * intros m' c'. destruct (Nat.eq_dec m' m) as [->|Hm].
        -- rewrite upd_same, in_app_iff, Ib. destruct (Nat.eq_dec c' c) as [->|Hne]; [rewrite upd_same; cbn; intuition|rewrite upd_other by easy; cbn; intuition congruence].
        -- rewrite (upd_other _ m) by easy. rewrite Ib. destruct (Nat.eq_dec c' c) as [->|Hne]; [rewrite upd_same, Ec; split; [discriminate|intros E; inversion E; congruence]|now rewrite upd_other].
      * intros m'. destruct (Nat.eq_dec m' m) as [->|Hm]; [rewrite upd_same|rewrite upd_other by easy; auto]. apply NoDup_snoc; [auto|]. rewrite Ib, Ec. discriminate.
    + assert (Ho : owner s = None). { destruct (owner s) eqn:Eo; [|easy]. exfalso. assert (false = true) by (apply If; discriminate). discriminate. }
      split; cbn [set_file set_pc file owner pc waitq betw pollers]; auto.
      * easy.
      * intros c'. rewrite (holds_upd s _ c (Holding m)) by reflexivity. destruct (Nat.eqb_spec c' c) as [->|Hne]; [cbn; easy|].
        rewrite Ic, Ho. split; [discriminate|congruence].
      * intros p. rewrite Ip, Ho. split; discriminate.
      * intros m' c'. rewrite Iq. destruct (Nat.eq_dec c' c) as [->|Hne]; [rewrite upd_same, Ec; split; discriminate|now rewrite upd_other].
      * intros m' c'. rewrite Ib. destruct (Nat.eq_dec c' c) as [->|Hne]; [rewrite upd_same, Ec; split; discriminate|now rewrite upd_other].
  - destruct (pc s c) as [|m|m|m|m|m] eqn:Ec; try discriminate. inversion Hn; subst s'; clear Hn.
    split; cbn [file owner pc waitq betw pollers]; auto.
    + intros c'. rewrite (holds_upd s _ c (Queued m)) by reflexivity. destruct (Nat.eqb_spec c' c) as [->|Hne]; [|apply Ic].
      rewrite <- Ic, holds_token, Ec. cbn. easy.
    + intros m' c'. destruct (Nat.eq_dec m' m) as [->|Hm].
      * rewrite upd_same, in_app_iff, Iq. destruct (Nat.eq_dec c' c) as [->|Hne]; [rewrite upd_same; cbn; intuition|rewrite upd_other by easy; cbn; intuition congruence].
      * rewrite (upd_other _ m) by easy. rewrite Iq. destruct (Nat.eq_dec c' c) as [->|Hne]; [rewrite upd_same, Ec; split; [discriminate|intros E; inversion E; congruence]|now rewrite upd_other].
    + intros m'. destruct (Nat.eq_dec m' m) as [->|Hm]; [rewrite upd_same|rewrite upd_other by easy; auto]. apply NoDup_snoc; [auto|]. rewrite Iq, Ec. discriminate.
    + intros m' c'. destruct (Nat.eq_dec m' m) as [->|Hm].
      * rewrite upd_same, in_remove, Ib. destruct (Nat.eq_dec c' c) as [->|Hne]; [rewrite upd_same; split; [easy|discriminate]|rewrite upd_other by easy; intuition].
      * rewrite (upd_other _ m) by easy. rewrite Ib. destruct (Nat.eq_dec c' c) as [->|Hne]; [rewrite upd_same, Ec; split; [intros E; inversion E; congruence|discriminate]|now rewrite upd_other].
    + intros m'. destruct (Nat.eq_dec m' m) as [->|Hm]; [rewrite upd_same; now apply NoDup_remove_all|rewrite upd_other by easy; auto].
  - destruct (nth_error (pollers s) p) as [[m []]|] eqn:Ep; try discriminate. inversion Hn; subst s'; clear Hn.
    split; auto.
    intros q. rewrite <- Ip. split; intros (m' & H); exists m'; rewrite (poller_upd s p m _ _ Ep) in *; destruct (Nat.eqb_spec q p) as [->|Hne]; try easy;
      [destruct H as [_ H]; destruct (stopped s m); discriminate|congruence].
  - destruct (nth_error (pollers s) p) as [[m []]|] eqn:Ep; try discriminate. destruct (file s) eqn:Ef; inversion Hn; subst s'; clear Hn.
    + split; auto.
      * cbn [set_poller file owner]. rewrite Ef. exact If.
      * intros q. cbn [set_poller owner]. rewrite <- Ip. split; intros (m' & H); exists m'; rewrite (poller_upd s p m _ _ Ep) in *; destruct (Nat.eqb_spec q p) as [->|Hne]; try easy; congruence.
    + assert (Ho : owner s = None). { destruct (owner s) eqn:Eo; [|easy]. exfalso. assert (false = true) by (apply If; discriminate). discriminate. }
      split; auto.
      * cbn [set_file file owner]. easy.
      * intros c'. cbn [set_file owner]. change (exists m0, holds _ c' m0) with (exists m0, holds s c' m0). rewrite Ic, Ho. split; [discriminate|congruence].
      * intros q. cbn [set_file owner]. change (pollers (set_file (set_poller s p m PCreated) true (Some (OwnP p)))) with (pollers (set_poller s p m PCreated)).
        split.
        -- intros (m' & H). rewrite (poller_upd s p m _ _ Ep) in H. destruct (Nat.eqb_spec q p) as [->|Hne]; [easy|]. exfalso.
           assert (owner s = Some (OwnP q)) by (apply Ip; eauto). congruence.
        -- intros H. inversion H; subst q. exists m. rewrite (poller_upd s p m _ _ Ep), Nat.eqb_refl. easy.
  - destruct (nth_error (pollers s) p) as [[m []]|] eqn:Ep; try discriminate.
    assert (Ho : owner s = Some (OwnP p)) by (apply Ip; eauto).
    assert (Hf : file s = true) by (apply If; congruence).
    assert (Ht : forall c', token (pc s c') = false).
    { intros c'. destruct (token (pc s c')) eqn:Et; [|easy]. apply holds_token in Et. apply Ic in Et. congruence. }
    assert (Hpp : forall q m', nth_error (pollers (set_poller s p m PDone)) q <> Some (m', PCreated)).
    { intros q m' H. rewrite (poller_upd s p m _ _ Ep) in H. destruct (Nat.eqb_spec q p) as [->|Hne]; [easy|].
      assert (owner s = Some (OwnP q)) by (apply Ip; eauto). congruence. }
    destruct k as [i|].
    + destruct (wake s m i) as [[c s1]|] eqn:Ew; [|discriminate]. inversion Hn; subst s'; clear Hn.
      apply (wake_inv (set_poller s p m PDone) m i c); auto.
      unfold wake in *. cbn [set_poller waitq]. destruct (take_nth i (waitq s m)) as [[c0 rest]|]; [|discriminate]. inversion Ew. reflexivity.
    + inversion Hn; subst s'; clear Hn. split; auto.
      * cbn [set_file set_poller file owner]. rewrite Hf. easy.
      * intros c'. cbn [set_file owner]. rewrite holds_token. cbn [set_file set_poller pc]. rewrite Ht. split; discriminate.
      * intros q. cbn [set_file owner]. split; [intros (m' & H); exfalso; eapply Hpp; exact H|discriminate].
  - destruct (pc s c) as [|m|m|m|m|m] eqn:Ec; try discriminate.
    assert (Ho : owner s = Some (OwnC c)) by (apply Ic; exists m; now left).
    assert (Hf : file s = true) by (apply If; congruence).
    assert (Hpp : forall q m', nth_error (pollers s) q <> Some (m', PCreated)) by (intros q m' H; assert (owner s = Some (OwnP q)) by (apply Ip; eauto); congruence).
    destruct k as [i|].
    + destruct (wake (set_pc s c Idle) m i) as [[c1 s1]|] eqn:Ew; [|discriminate]. inversion Hn; subst s'; clear Hn.
      eapply wake_inv; [..|exact Ew]; cbn [set_pc waitq betw file pollers pc]; auto.
      * intros m' c'. rewrite Iq. destruct (Nat.eq_dec c' c) as [->|Hne]; [rewrite upd_same, Ec; split; discriminate|now rewrite upd_other].
      * intros m' c'. rewrite Ib. destruct (Nat.eq_dec c' c) as [->|Hne]; [rewrite upd_same, Ec; split; discriminate|now rewrite upd_other].
      * intros c'. destruct (Nat.eq_dec c' c) as [->|Hne]; [rewrite upd_same; reflexivity|rewrite upd_other by easy].
        destruct (token (pc s c')) eqn:Et; [|easy]. apply holds_token in Et. apply Ic in Et. congruence.
    + inversion Hn; subst s'; clear Hn. split; cbn [set_pc file owner pc waitq betw pollers]; auto.
      * intros c'. rewrite (holds_upd s _ c (Deleting m)) by reflexivity. destruct (Nat.eqb_spec c' c) as [->|Hne]; [|apply Ic]. cbn [token]. rewrite Ho. easy.
      * intros m' c'. rewrite Iq. destruct (Nat.eq_dec c' c) as [->|Hne]; [rewrite upd_same, Ec; split; discriminate|now rewrite upd_other].
      * intros m' c'. rewrite Ib. destruct (Nat.eq_dec c' c) as [->|Hne]; [rewrite upd_same, Ec; split; discriminate|now rewrite upd_other].
  - destruct (pc s c) as [|m|m|m|m|m] eqn:Ec; try discriminate. inversion Hn; subst s'; clear Hn.
    assert (Ho : owner s = Some (OwnC c)) by (apply Ic; exists m; now right).
    split; cbn [set_file set_pc file owner pc waitq betw pollers]; auto.
    + easy.
    + intros c'. rewrite (holds_upd s _ c Idle) by reflexivity. destruct (Nat.eqb_spec c' c) as [->|Hne]; [cbn; easy|].
      rewrite Ic, Ho. split; [congruence|discriminate].
    + intros p. rewrite Ip, Ho. split; discriminate.
    + intros m' c'. rewrite Iq. destruct (Nat.eq_dec c' c) as [->|Hne]; [rewrite upd_same, Ec; split; discriminate|now rewrite upd_other].
    + intros m' c'. rewrite Ib. destruct (Nat.eq_dec c' c) as [->|Hne]; [rewrite upd_same, Ec; split; discriminate|now rewrite upd_other].
  - inversion Hn; subst s'; clear Hn. split; auto.
Qed.

Lemma inv_run l : forall s s', inv s -> nobody_destroys l -> run next s l = Some s' -> inv s'.
Proof.
  induction l as [|e l IH]; cbn [run]; intros s s' HI Hd HR; [inversion HR; subst; easy|].
  destruct (next s e) as [s1|] eqn:E; [|discriminate]. eapply IH; [|intros ev Hev; apply Hd; now right|exact HR].
  eapply inv_step; [exact HI|apply Hd; now left|exact E].
Qed.

(** Orphaned = owner Orphan. *)
Lemma orphan_iff s : inv s -> (orphaned s <-> owner s = Some Orphan).
Proof.
  intros [If Ic Ip _ _ _ _]. unfold orphaned. split.
  - intros (Hf & Hc & Hp). apply If in Hf. destruct (owner s) as [[c|p|]|] eqn:E; [| |easy|easy]; exfalso.
    + destruct (proj2 (Ic c) eq_refl) as (m & H). eapply Hc; exact H.
    + destruct (proj2 (Ip p) eq_refl) as (m & H). eapply Hp; exact H.
  - intros H. rewrite H in *. split; [apply If; discriminate|]. split.
    + intros c m Hh. assert (Some Orphan = Some (OwnC c)) by (apply Ic; eauto). discriminate.
    + intros p m Hh. assert (Some Orphan = Some (OwnP p)) by (apply Ip; eauto). discriminate.
Qed.

Lemma orphan_step s ev s' : inv s -> owner s = Some Orphan -> is_destroy ev = false -> next s ev = Some s' -> owner s' = Some Orphan.
Proof.
  intros HI Ho Hd Hn. pose proof (proj2 (orphan_iff s HI) Ho) as (Hf & Hc & Hp).
  destruct ev as [c m|c|c|p|p|p k|c k|c|m|m k]; cbn [next is_destroy] in *; try discriminate.
  - destruct (pc s c); inversion Hn; subst; exact Ho.
  - destruct (pc s c); try discriminate. rewrite Hf in Hn. inversion Hn; subst; exact Ho.
  - destruct (pc s c); inversion Hn; subst; exact Ho.
  - destruct (nth_error (pollers s) p) as [[m []]|]; inversion Hn; subst; exact Ho.
  - destruct (nth_error (pollers s) p) as [[m []]|]; try discriminate. rewrite Hf in Hn. inversion Hn; subst; exact Ho.
  - destruct (nth_error (pollers s) p) as [[m []]|] eqn:E; try discriminate. exfalso. eapply Hp; exact E.
  - destruct (pc s c) as [| | | |m|m] eqn:E; try discriminate. exfalso. apply (Hc c m). now left.
  - destruct (pc s c) as [| | | |m|m] eqn:E; try discriminate. exfalso. apply (Hc c m). now right.
  - inversion Hn; subst; exact Ho.
Qed.

Lemma orphan_run l : forall s s', inv s -> owner s = Some Orphan -> nobody_destroys l -> run next s l = Some s' -> inv s' /\ owner s' = Some Orphan.
Proof.
  induction l as [|e l IH]; cbn [run]; intros s s' HI Ho Hd HR; [inversion HR; subst; easy|].
  destruct (next s e) as [s1|] eqn:E; [|discriminate]. assert (Hde : is_destroy e = false) by (apply Hd; now left).
  eapply IH; [eapply inv_step; eassumption|eapply orphan_step; eassumption|intros ev Hev; apply Hd; now right|exact HR].
Qed.

(** ** the partial progress result *)
Definition live1 (m : nat) (q : nat * ppc) : nat :=
  if fst q =? m then match snd q with PDone => 0 | _ => 1 end else 0.
Definition live (s : state) (m : nat) : nat := sumf (live1 m) (pollers s).
Definition waiters (s : state) (m : nat) : nat := length (waitq s m) + length (betw s m).

Record inv2 (s : state) : Prop := {
  j_inv : inv s;
  j_own : owner s <> Some Orphan;
  j_stop : forall m, stopped s m = false;
  j_live : forall m, waiters s m <= live s m
}.

Lemma live_set s p m x y m' : nth_error (pollers s) p = Some (m, y) ->
  sumf (live1 m') (set_nth p (m, x) (pollers s)) + live1 m' (m, y) = sumf (live1 m') (pollers s) + live1 m' (m, x).
Proof. intros H. apply sumf_set. exact H. Qed.

Lemma wake_waiters s m k c s' : wake s m k = Some (c, s') -> forall m', waiters s' m' + (if m' =? m then 1 else 0) = waiters s m'.
Proof.
  unfold wake. destruct (take_nth k (waitq s m)) as [[c0 rest]|] eqn:E; [|discriminate]. intros H; inversion H; subst; clear H.
  apply take_nth_spec in E. destruct E as (l1 & l2 & El & Er & _). intros m'. unfold waiters. cbn [waitq betw].
  destruct (Nat.eqb_spec m' m) as [->|Hm]; [rewrite upd_same, El, Er, !app_length; cbn [length]; lia|rewrite upd_other by easy; lia].
Qed.

Lemma inv2_step s ev s' : inv2 s -> pollers_find_a_waiter s ev -> next s ev = Some s' -> inv2 s'.
Proof.
  intros HJ HP Hn. pose proof HJ as [HI Ho Hst Hl].
  assert (Hd : is_destroy ev = false) by (destruct ev; cbn in *; easy).
  split; [eapply inv_step; eassumption| | |].
  - destruct ev as [c m|c|c|p|p|p k|c k|c|m|m k]; cbn [next pollers_find_a_waiter] in *; try contradiction.
    + destruct (pc s c); inversion Hn; subst; exact Ho.
    + destruct (pc s c); try discriminate. destruct (file s); inversion Hn; subst; cbn; [exact Ho|discriminate].
    + destruct (pc s c); inversion Hn; subst; exact Ho.
    + destruct (nth_error (pollers s) p) as [[m []]|]; inversion Hn; subst; exact Ho.
    + destruct (nth_error (pollers s) p) as [[m []]|]; try discriminate. destruct (file s); inversion Hn; subst; cbn; [exact Ho|discriminate].
    + destruct (nth_error (pollers s) p) as [[m []]|]; try discriminate. destruct k as [i|]; [|contradiction].
      unfold wake in Hn. destruct (take_nth i (waitq s m)) as [[c r]|]; inversion Hn; subst. cbn. discriminate.
    + destruct (pc s c) as [| | | |m|m]; try discriminate. destruct k as [i|]; [|inversion Hn; subst; exact Ho].
      unfold wake in Hn. cbn [set_pc waitq] in Hn. destruct (take_nth i (waitq s m)) as [[c1 r]|]; inversion Hn; subst. cbn. discriminate.
    + destruct (pc s c) as [| | | |m|m]; inversion Hn; subst; cbn; discriminate.
  - destruct ev as [c m|c|c|p|p|p k|c k|c|m|m k]; cbn [next pollers_find_a_waiter] in *; try contradiction.
    + destruct (pc s c); inversion Hn; subst; exact Hst.
    + destruct (pc s c); try discriminate. destruct (file s); inversion Hn; subst; exact Hst.
    + destruct (pc s c); inversion Hn; subst; exact Hst.
    + destruct (nth_error (pollers s) p) as [[m []]|]; inversion Hn; subst; exact Hst.
    + destruct (nth_error (pollers s) p) as [[m []]|]; try discriminate. destruct (file s); inversion Hn; subst; exact Hst.
    + destruct (nth_error (pollers s) p) as [[m []]|]; try discriminate. destruct k as [i|]; [|contradiction].
      unfold wake in Hn. destruct (take_nth i (waitq s m)) as [[c r]|]; inversion Hn; subst. exact Hst.
    + destruct (pc s c) as [| | | |m|m]; try discriminate. destruct k as [i|]; [|inversion Hn; subst; exact Hst].
      unfold wake in Hn. cbn [set_pc waitq] in Hn. destruct (take_nth i (waitq s m)) as [[c1 r]|]; inversion Hn; subst. exact Hst.
    + destruct (pc s c) as [| | | |m|m]; inversion Hn; subst; exact Hst.
  - intros m'. specialize (Hl m'). destruct HI as [If Ic Ip Iq Iqn Ib Ibn].
    destruct ev as [c m|c|c|p|p|p k|c k|c|m|m k]; cbn [next pollers_find_a_waiter] in *; try contradiction.
    + destruct (pc s c); inversion Hn; subst; exact Hl.
    + destruct (pc s c) as [|m|m|m|m|m]; try discriminate. destruct (file s); inversion Hn; subst; [|exact Hl].
      unfold waiters, live in *. cbn [waitq betw pollers]. rewrite sumf_app. cbn [sumf]. unfold live1 at 2. cbn [fst snd]. rewrite (Nat.eqb_sym m m').
      destruct (Nat.eqb_spec m' m) as [->|Hm]; [rewrite upd_same, app_length; cbn [length]; lia|rewrite upd_other by easy; lia].
    + destruct (pc s c) as [|m|m|m|m|m] eqn:Ec; try discriminate. inversion Hn; subst. unfold waiters, live in *. cbn [waitq betw pollers].
      destruct (Nat.eq_dec m' m) as [->|Hm]; [|rewrite !upd_other by easy; exact Hl]. rewrite !upd_same, app_length. cbn [length].
      assert (Hb : In c (betw s m)) by (now apply Ib). pose proof (length_remove_all c _ (Ibn m) Hb). lia.
    + destruct (nth_error (pollers s) p) as [[m []]|] eqn:Ep; try discriminate. inversion Hn; subst. rewrite Hst.
      unfold waiters, live in *. cbn [set_poller waitq betw pollers]. pose proof (live_set s p m PCheck PSleep m' Ep) as H. unfold live1 in H at 2 4. cbn [fst snd] in H. lia.
    + destruct (nth_error (pollers s) p) as [[m []]|] eqn:Ep; try discriminate. unfold waiters, live in *.
      destruct (file s); inversion Hn; subst; cbn [set_file set_poller waitq betw pollers].
      * pose proof (live_set s p m PSleep PCheck m' Ep) as H. unfold live1 in H at 2 4. cbn [fst snd] in H. lia.
      * pose proof (live_set s p m PCreated PCheck m' Ep) as H. unfold live1 in H at 2 4. cbn [fst snd] in H. lia.
    + destruct (nth_error (pollers s) p) as [[m []]|] eqn:Ep; try discriminate. destruct k as [i|]; [|contradiction].
      destruct (wake s m i) as [[c s1]|] eqn:Ew; [|discriminate]. inversion Hn; subst; clear Hn. pose proof (wake_waiters _ _ _ _ _ Ew m') as Hw.
      assert (Hps : pollers s1 = pollers s). { unfold wake in Ew. destruct (take_nth i (waitq s m)) as [[? ?]|]; inversion Ew; reflexivity. }
      change (waiters (set_poller s1 p m PDone) m') with (waiters s1 m'). unfold live in *. cbn [set_poller pollers]. rewrite Hps.
      pose proof (live_set s p m PDone PCreated m' Ep) as H. unfold live1 in H at 2 4. cbn [fst snd] in H. rewrite (Nat.eqb_sym m m') in H.
      destruct (Nat.eqb_spec m' m); lia.
    + destruct (pc s c) as [| | | |m|m]; try discriminate. destruct k as [i|]; [|inversion Hn; subst; exact Hl].
      destruct (wake (set_pc s c Idle) m i) as [[c1 s1]|] eqn:Ew; [|discriminate]. inversion Hn; subst; clear Hn. pose proof (wake_waiters _ _ _ _ _ Ew m') as Hw.
      change (waiters (set_pc s c Idle) m') with (waiters s m') in Hw.
      assert (Hps : pollers s' = pollers s). { unfold wake in Ew. cbn [set_pc waitq] in Ew. destruct (take_nth i (waitq s m)) as [[? ?]|]; inversion Ew; reflexivity. }
      unfold live in *. rewrite Hps. lia.
    + destruct (pc s c) as [| | | |m|m]; inversion Hn; subst; exact Hl.
Qed.

Lemma inv2_init : inv2 init.
Proof. split; [apply inv_init|discriminate|reflexivity|]. intros m. cbn. lia. Qed.
Lemma inv2_run l s : run_all next pollers_find_a_waiter init l -> run next init l = Some s -> inv2 s.
Proof. intros HP HR. eapply run_inv_cond; [|apply inv2_init|exact HP|exact HR]. intros; eapply inv2_step; eassumption. Qed.

Lemma live_exists s m : 0 < live s m -> exists p x, nth_error (pollers s) p = Some (m, x) /\ x <> PDone.
Proof.
  unfold live. induction (pollers s) as [|[m0 y] l IH]; cbn; [lia|]. intros H. unfold live1 in H at 1. cbn [fst snd] in H.
  assert (G : 0 < sumf (live1 m) l -> exists p x, nth_error ((m0, y) :: l) p = Some (m, x) /\ x <> PDone).
  { intros Hl. destruct (IH Hl) as (p & x & H1 & H2). exists (S p), x. now split. }
  destruct (Nat.eqb_spec m0 m) as [->|Hm]; [|apply G; lia].
  destruct y; try (apply G; lia); exists 0; eexists; split; try reflexivity; discriminate.
Qed.
