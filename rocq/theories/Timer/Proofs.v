From Coq Require Import List Arith ZArith Bool Permutation Lia Sorted.
From Verif.Common Require Import TS.
From Verif.Timer Require Import Model Spec.
Import ListNotations.
Open Scope Z_scope.

Lemma heap_front_min f l : is_heap (f :: l) -> forall e, In e (f :: l) -> timeout_tp f <= timeout_tp e.
Proof.
  intros Hh e He. apply In_nth_error in He. destruct He as [n Hn].
  revert e Hn. induction n as [n IH] using lt_wf_ind. intros e Hn.
  destruct n as [|n]; [cbn in Hn; inversion Hn; lia|].
  assert (Hlt : ((S n - 1) / 2 < S n)%nat).
  { apply Nat.div_lt_upper_bound; lia. }
  assert (exists p, nth_error (f :: l) ((S n - 1) / 2) = Some p) as [p Hp].
  { destruct (nth_error (f :: l) ((S n - 1) / 2)) eqn:E; [eauto|].
    apply nth_error_None in E. assert (S n < length (f :: l))%nat by (apply nth_error_Some; congruence). lia. }
  pose proof (IH _ Hlt _ Hp). pose proof (Hh (S n) e p ltac:(lia) Hn Hp). lia.
Qed.

Lemma filter_perm {A} (f : A -> bool) l l' : Permutation l l' -> Permutation (filter f l) (filter f l').
Proof.
  induction 1; cbn; auto.
  - destruct (f x); auto.
  - destruct (f x), (f y); auto. apply perm_swap.
  - eauto using perm_trans.
Qed.
Lemma filter_all {A} (f : A -> bool) l : (forall x, In x l -> f x = true) -> filter f l = l.
Proof. induction l as [|x l IH]; cbn; intros H; auto. rewrite (H x), IH; auto. Qed.
Lemma filter_none {A} (f : A -> bool) l : (forall x, In x l -> f x = false) -> filter f l = [].
Proof. induction l as [|x l IH]; cbn; intros H; auto. rewrite (H x), IH; auto. Qed.

Section WithHeap.
Variable H : heap_ops.
Hypothesis HH : std_heap H.

Lemma is_heap_nil : is_heap [].
Proof. intros i x p _ Hi. destruct i; discriminate. Qed.

(** the pop loop *)
Lemma pop_loop_spec fuel now : forall live exp,
  (length live <= fuel)%nat -> live <> [] -> is_heap live ->
  exists h l, pop_loop H fuel now live exp = Some (h, l ++ exp) /\ is_heap h /\
    Permutation h (filter (not_due now) live) /\ Permutation l (filter (due now) live) /\
    StronglySorted (fun a b => timeout_tp b <= timeout_tp a) l /\
    (forall a b, In a h -> In b l -> timeout_tp b <= timeout_tp a).
Proof.
  induction fuel as [|fuel IH]; intros live exp Hlen Hne Hh.
  - destruct live; [congruence|cbn in Hlen; lia].
  - destruct live as [|f live]; [congruence|]. cbn [pop_loop].
    pose proof (heap_front_min _ _ Hh) as Hmin.
    destruct (timeout_tp f <=? now) eqn:Ef.
    + destruct (pop_ok H HH f live Hh) as (l' & E1 & Hh' & Hp). rewrite E1, removelast_last, last_last.
      assert (Hdue : due now f = true) by exact Ef.
      destruct l' as [|g l'].
      * apply Permutation_nil in Hp. subst live. exists [], [f]. cbn. unfold not_due. rewrite Hdue. cbn.
        repeat split; auto using is_heap_nil. repeat constructor. intros a b [].
      * destruct (IH (g :: l') (f :: exp)) as (h & l & E2 & A & B & C & D & D2); auto.
        { apply Permutation_length in Hp. cbn in *. lia. } { discriminate. }
        exists h, (l ++ [f]). rewrite E2. rewrite <- app_assoc. split; [reflexivity|]. split; [assumption|].
        assert (Hnd : not_due now f = false) by (unfold not_due; now rewrite Hdue).
        cbn [filter]. rewrite Hdue, Hnd. split; [|split; [|split]].
        -- eapply perm_trans; [exact B|]. apply filter_perm. exact Hp.
        -- eapply perm_trans; [apply Permutation_app_comm|]. cbn. constructor.
           eapply perm_trans; [exact C|]. apply filter_perm. exact Hp.
        -- assert (Hall : forall x, In x l -> timeout_tp f <= timeout_tp x).
           { intros x Hx. apply Hmin. right. eapply Permutation_in; [exact Hp|].
             apply (Permutation_in _ C) in Hx. now apply filter_In in Hx. }
           clear - D Hall. induction l as [|x l IHl]; cbn; [repeat constructor|].
           apply StronglySorted_inv in D. destruct D as [D1 D2].
           constructor; [apply IHl; auto; intros; apply Hall; now right|].
           apply Forall_app. split; [assumption|]. constructor; [|constructor]. apply Hall. now left.
        -- intros a b Ha Hb. apply in_app_iff in Hb. destruct Hb as [Hb|[<-|[]]]; [auto|].
           apply Hmin. right. eapply Permutation_in; [exact Hp|]. apply (Permutation_in _ B) in Ha. now apply filter_In in Ha.
    + exists (f :: live), []. split; [reflexivity|]. split; [assumption|].
      assert (X : forall x, In x (f :: live) -> due now x = false).
      { intros x Hx. unfold due. apply Z.leb_gt. apply Z.leb_gt in Ef. pose proof (Hmin x Hx). lia. }
      rewrite (filter_none (due now)) by assumption.
      rewrite (filter_all (not_due now)) by (intros x Hx; unfold not_due; now rewrite X).
      repeat split; auto; try constructor; intros; contradiction.
Qed.

Lemma take_expired_spec now h :
  is_heap h -> exists h' l, take_expired H now h = Some (h', l) /\ is_heap h' /\
    Permutation h' (filter (not_due now) h) /\ Permutation l (filter (due now) h) /\
    StronglySorted (fun a b => timeout_tp b <= timeout_tp a) l.
Proof.
  intros Hh. unfold take_expired. destruct h as [|f h].
  - exists [], []. cbn. repeat split; auto. constructor.
  - destruct (pop_loop_spec (length (f :: h)) now (f :: h) []) as (h' & l & E & A & B & C & D & _); auto; [discriminate|].
    exists h', l. rewrite app_nil_r in E. auto.
Qed.

(** ** Refinement to the log specification *)
Definition contents (x : slot) : list timer_event := match x with Ptr i => m_timer_heap i | _ => [] end.
Definition pending (s : state) (t : nat) : list timer_event := contents (m_impl_ptrs s t).

Definition heaps_ok (s : state) : Prop := forall t, is_heap (pending s t).

Definition Rel (P : nat -> list timer_event) (s : state) : Prop := forall t, Permutation (P t) (pending s t).

Lemma front_not_due f h now : is_heap (f :: h) -> now < timeout_tp f ->
  filter (due now) (f :: h) = [] /\ filter (not_due now) (f :: h) = f :: h.
Proof.
  intros Hh Hn. pose proof (heap_front_min _ _ Hh) as Hmin.
  assert (X : forall x, In x (f :: h) -> due now x = false).
  { intros x Hx. unfold due. apply Z.leb_gt. pose proof (Hmin x Hx). lia. }
  split; [now apply filter_none|]. apply filter_all. intros x Hx. unfold not_due. now rewrite X.
Qed.

Lemma Rel_upd P s t x l : Rel P s -> Permutation l (contents x) -> Rel (upd P t l) (set_slot s t x).
Proof.
  intros HR Hl t'. unfold pending, set_slot. cbn.
  destruct (Nat.eq_dec t' t) as [->|Hn]; [now rewrite !upd_same|]. rewrite !upd_other by assumption. apply HR.
Qed.
Lemma heaps_set s t x : heaps_ok s -> is_heap (contents x) -> heaps_ok (set_slot s t x).
Proof.
  intros Hh Hx t'. unfold pending, set_slot. cbn.
  destruct (Nat.eq_dec t' t) as [->|Hn]; [now rewrite !upd_same|]. rewrite !upd_other by assumption. apply Hh.
Qed.
Lemma Rel_same P s t l : Rel P s -> Permutation l (pending s t) -> Rel (upd P t l) s.
Proof.
  intros HR Hl t'. destruct (Nat.eq_dec t' t) as [->|Hn]; [now rewrite !upd_same|]. rewrite !upd_other by assumption. apply HR.
Qed.

Lemma log_ok l : forall P s,
  Rel P s -> heaps_ok s -> stop_requested s = false -> run_all (next H) registered_use s l ->
  timer_ok P (trace (next H) (observe H) s l).
Proof.
  induction l as [|e l IH]; cbn [trace run_all]; intros P s HR Hh Hst HU; [exact I|].
  destruct HU as [HU1 HU2].
  destruct (next H s e) as [s'|] eqn:Hn; [|exact I].
  specialize (HU2 s' eq_refl).
  unfold next in Hn. unfold observe. destruct (step H s e) as [[s1 o]|] eqn:Hs; [|discriminate].
  cbn in Hn. inversion Hn; subst s1; clear Hn.
  unfold step in Hs. destruct (ub s); [discriminate|].
  destruct e as [t|t now dura x|t now|t|t now| |]; cbn [registered_use] in HU1.
  - destruct (m_impl_ptrs s t) eqn:Et; inversion Hs; subst; clear Hs; cbn [app timer_ok]; [|apply IH; assumption..].
    assert (E : P t = []) by (apply Permutation_nil; symmetry; rewrite (HR t); unfold pending; rewrite Et; apply perm_nil).
    split; [assumption|]. apply IH; auto.
    + intros t'. pose proof (Rel_upd P s t (Ptr (Impl [] None)) [] HR (perm_nil _) t') as X.
      destruct (Nat.eq_dec t' t) as [->|N]; [rewrite upd_same in X; now rewrite E|now rewrite upd_other in X].
    + apply heaps_set; auto. apply is_heap_nil.
  - rewrite Hst in Hs. destruct HU1 as [i Hi]. unfold deref in Hs. rewrite Hi in Hs. inversion Hs; subst; clear Hs.
    cbn [app timer_ok]. pose proof (HR t) as Ht. unfold pending in Ht. rewrite Hi in Ht. cbn in Ht.
    assert (Hhi : is_heap (m_timer_heap i)) by (pose proof (Hh t) as X; unfold pending in X; now rewrite Hi in X).
    destruct (push_ok H HH (m_timer_heap i) (Ev (now + dura) x) Hhi) as [Q1 Q2].
    apply IH; auto.
    + apply Rel_upd; [assumption|]. cbn. unfold add_event_impl. rewrite Q2. rewrite Ht. apply Permutation_cons_append.
    + apply heaps_set; auto.
  - destruct HU1 as [i Hi]. unfold deref in Hs. rewrite Hi, Hst in Hs.
    pose proof (HR t) as Ht. unfold pending in Ht. rewrite Hi in Ht. cbn in Ht.
    assert (Hhi : is_heap (m_timer_heap i)) by (pose proof (Hh t) as X; unfold pending in X; now rewrite Hi in X).
    destruct (m_timer_heap i) as [|f h] eqn:Ei; [|destruct (now <? timeout_tp f) eqn:Ef];
      inversion Hs; subst; clear Hs; cbn [app timer_ok].
    + symmetry in Ht. apply Permutation_nil in Ht. rewrite Ht. cbn. split; [constructor|]. apply IH; auto.
      apply Rel_same; auto. unfold pending. rewrite Hi. cbn. rewrite Ei. constructor.
    + apply Z.ltb_lt in Ef. destruct (front_not_due f h now Hhi Ef) as [F1 F2].
      split; [rewrite (filter_perm _ _ _ Ht), F1; constructor|]. apply IH; auto.
      apply Rel_same; auto. unfold pending. rewrite Hi. cbn. rewrite Ei. rewrite (filter_perm _ _ _ Ht), F2. reflexivity.
    + apply IH; auto.
      * intros t'. unfold pending, set_slot. cbn. destruct (Nat.eq_dec t' t) as [->|N].
        -- rewrite upd_same. cbn. assumption.
        -- rewrite upd_other by assumption. apply HR.
      * apply heaps_set; auto.
  - destruct (m_impl_ptrs s t) as [| |i] eqn:Hi; try discriminate. destruct (polling i) as [now|]; [|discriminate].
    pose proof (HR t) as Ht. unfold pending in Ht. rewrite Hi in Ht. cbn in Ht.
    assert (Hhi : is_heap (m_timer_heap i)) by (pose proof (Hh t) as X; unfold pending in X; now rewrite Hi in X).
    destruct (take_expired_spec now (m_timer_heap i) Hhi) as (h' & l' & E & A & B & C & D).
    rewrite E in Hs. inversion Hs; subst; clear Hs. cbn [app timer_ok]. split.
    + rewrite C. symmetry. now apply filter_perm.
    + apply IH; auto.
      * apply Rel_upd; auto. cbn. rewrite B. now apply filter_perm.
      * apply heaps_set; auto.
  - rewrite Hst in Hs. destruct HU1 as [i Hi]. unfold deref in Hs. rewrite Hi in Hs. inversion Hs; subst; clear Hs. cbn [app timer_ok].
    pose proof (HR t) as Ht. unfold pending in Ht. rewrite Hi in Ht. cbn in Ht.
    assert (Hhi : is_heap (m_timer_heap i)) by (pose proof (Hh t) as X; unfold pending in X; now rewrite Hi in X).
    split; [|apply IH; auto].
    unfold impl_max_sleep, earliest_distance. destruct (m_timer_heap i) as [|f h].
    + symmetry in Ht. now apply Permutation_nil in Ht.
    + pose proof (heap_front_min _ _ Hhi) as Hmin. split.
      * exists f. split; [eapply Permutation_in; [symmetry; exact Ht|now left]|lia].
      * intros e He. apply (Permutation_in _ Ht) in He. apply Hmin in He. lia.
  - inversion Hs; subst. cbn. exact I.
  - inversion Hs; subst. cbn. exact I.
Qed.

Lemma log_ok_init l : run_all (next H) registered_use init l ->
  timer_ok (fun _ => []) (trace (next H) (observe H) init l).
Proof.
  intros HU. apply log_ok; auto.
  - intros t. unfold pending. cbn. constructor.
  - intros t. apply is_heap_nil.
Qed.

(** ** Order inside one poll *)
Definition heaps_inv (s : state) : Prop := heaps_ok s.
Lemma heaps_step s e s' : heaps_ok s -> next H s e = Some s' -> heaps_ok s'.
Proof.
  intros Hh Hn. unfold next in Hn. destruct (step H s e) as [[s1 o]|] eqn:Hs; [|discriminate].
  cbn in Hn. inversion Hn; subst s1; clear Hn. unfold step in Hs. destruct (ub s); [discriminate|].
  assert (Hi : forall t i, m_impl_ptrs s t = Ptr i -> is_heap (m_timer_heap i)).
  { intros t i E. pose proof (Hh t) as X. unfold pending in X. now rewrite E in X. }
  assert (Hd : forall t k, (forall i, m_impl_ptrs s t = Ptr i -> heaps_ok (fst (k i))) -> heaps_ok (fst (deref s t k))).
  { intros t k Hk. unfold deref. destruct (m_impl_ptrs s t) eqn:E; [| |auto];
      intros t'; pose proof (heaps_set s t Null Hh is_heap_nil t') as X; exact X. }
  destruct e as [t|t now dura x|t now|t|t now| |].
  - destruct (m_impl_ptrs s t) eqn:Et; inversion Hs; subst; auto. apply heaps_set; auto. apply is_heap_nil.
  - destruct (stop_requested s); [inversion Hs; subst; assumption|]. 
    apply (f_equal (option_map fst)) in Hs. cbn in Hs. inversion Hs; subst. apply Hd. intros i E. cbn.
    apply heaps_set; auto. cbn. apply (push_ok H HH). eauto.
  - apply (f_equal (option_map fst)) in Hs. cbn in Hs. inversion Hs; subst. apply Hd. intros i E.
    destruct (stop_requested s); [assumption|]. destruct (m_timer_heap i) as [|f h] eqn:Ei; [assumption|].
    destruct (now <? timeout_tp f); [assumption|]. cbn. apply heaps_set; auto. cbn. rewrite <- Ei. eauto.
  - destruct (m_impl_ptrs s t) as [| |i] eqn:E; try discriminate. destruct (polling i) as [now|]; [|discriminate].
    destruct (take_expired_spec now (m_timer_heap i) (Hi t i E)) as (h' & l' & Et & A & B & C & D).
    rewrite Et in Hs. inversion Hs; subst. apply heaps_set; auto.
  - destruct (stop_requested s); [inversion Hs; subst; assumption|]. 
    apply (f_equal (option_map fst)) in Hs. cbn in Hs. inversion Hs; subst. apply Hd. intros i E. assumption.
  - inversion Hs; subst. exact Hh.
  - inversion Hs; subst. intros t. unfold pending. cbn. destruct (m_impl_ptrs s t); apply is_heap_nil.
Qed.

Lemma heaps_run l s : run (next H) init l = Some s -> heaps_ok s.
Proof.
  intros Hr. refine (run_inv (next H) heaps_ok heaps_step l init s _ Hr). intros t; apply is_heap_nil.
Qed.

Lemma poll_descending l s t s' now r :
  run (next H) init l = Some s -> step H s (EPoll2 t) = Some (s', [Resumed t now r]) ->
  StronglySorted (fun a b => timeout_tp b <= timeout_tp a) r.
Proof.
  intros Hr Hs. pose proof (heaps_run l s Hr) as Hh. unfold step in Hs. destruct (ub s); [discriminate|].
  destruct (m_impl_ptrs s t) as [| |i] eqn:E; try discriminate. destruct (polling i) as [now'|]; [|discriminate].
  assert (Hhi : is_heap (m_timer_heap i)) by (pose proof (Hh t) as X; unfold pending in X; now rewrite E in X).
  destruct (take_expired_spec now' (m_timer_heap i) Hhi) as (h' & l' & Et & A & B & C & D).
  rewrite Et in Hs. inversion Hs; subst. assumption.
Qed.

(** ** no undefined behaviour for registered threads *)
Lemma ub_step s e s' : heaps_ok s -> ub s = false -> registered_use s e -> next H s e = Some s' -> ub s' = false.
Proof.
  intros Hh Hu HU Hn. unfold next in Hn. destruct (step H s e) as [[s1 o]|] eqn:Hs; [|discriminate].
  cbn in Hn. inversion Hn; subst s1; clear Hn. unfold step in Hs. rewrite Hu in Hs.
  destruct e as [t|t now dura x|t now|t|t now| |]; cbn in HU; unfold deref in Hs.
  - destruct (m_impl_ptrs s t); inversion Hs; subst; auto.
  - destruct HU as [i Hi]. rewrite Hi in Hs. destruct (stop_requested s); inversion Hs; subst; auto.
  - destruct HU as [i Hi]. rewrite Hi in Hs. destruct (stop_requested s); [inversion Hs; subst; auto|].
    destruct (m_timer_heap i) as [|f h]; [inversion Hs; subst; auto|]. destruct (now <? timeout_tp f); inversion Hs; subst; auto.
  - destruct (m_impl_ptrs s t) as [| |i] eqn:E; try discriminate. destruct (polling i) as [now|]; [|discriminate].
    assert (Hhi : is_heap (m_timer_heap i)) by (pose proof (Hh t) as X; unfold pending in X; now rewrite E in X).
    destruct (take_expired_spec now (m_timer_heap i) Hhi) as (h' & l' & Et & A & B & C & D).
    rewrite Et in Hs. inversion Hs; subst; auto.
  - destruct HU as [i Hi]. rewrite Hi in Hs. destruct (stop_requested s); inversion Hs; subst; auto.
  - inversion Hs; subst; auto.
  - inversion Hs; subst; auto.
Qed.
Lemma no_ub l s : run_all (next H) registered_use init l -> run (next H) init l = Some s -> ub s = false.
Proof.
  intros HU Hr.
  refine (proj2 (run_inv_cond (next H) registered_use (fun s => heaps_ok s /\ ub s = false) _ l init s _ HU Hr)).
  - intros s0 e s1 [A B] C D. split; [eapply heaps_step; eauto|eapply ub_step; eauto].
  - split; [intros t; apply is_heap_nil|reflexivity].
Qed.

(** ** after stop() nothing is resumed any more (except by a poll that had begun) *)
Definition quiet (s : state) : Prop := stop_requested s = true /\ forall t i, m_impl_ptrs s t = Ptr i -> polling i = None.

Lemma stopped_quiet l : forall s, quiet s -> resumed (trace (next H) (observe H) s l) = [] .
Proof.
  induction l as [|e l IH]; cbn [trace]; intros s Hq; [reflexivity|].
  destruct (next H s e) as [s'|] eqn:Hn; [|reflexivity].
  unfold next in Hn. unfold observe. destruct (step H s e) as [[s1 o]|] eqn:Hs; [|discriminate].
  cbn in Hn. inversion Hn; subst s1; clear Hn. unfold step in Hs. destruct (ub s); [discriminate|].
  assert (Hb : forall t, quiet (boom (set_slot s t Null))).
  { intros t. split; [apply Hq|]. intros t' i. cbn. destruct (Nat.eq_dec t' t) as [->|N];
    [rewrite upd_same; discriminate|rewrite upd_other by assumption; apply Hq]. }
  destruct Hq as [Q1 Q2]. unfold deref in Hs. rewrite Q1 in Hs.
  destruct e as [t|t now dura x|t now|t|t now| |].
  - destruct (m_impl_ptrs s t) eqn:E; inversion Hs; subst; cbn [app resumed]; apply IH; try (split; assumption).
    split; [assumption|]. intros t' i. cbn. destruct (Nat.eq_dec t' t) as [->|N];
    [rewrite upd_same; intros X; inversion X; reflexivity|rewrite upd_other by assumption; apply Q2].
  - inversion Hs; subst. cbn [app resumed]. apply IH. split; assumption.
  - destruct (m_impl_ptrs s t) eqn:E; inversion Hs; subst; cbn [app resumed]; apply IH; first [apply Hb | split; assumption].
  - destruct (m_impl_ptrs s t) as [| |i] eqn:E; try discriminate. rewrite (Q2 t i E) in Hs. discriminate.
  - inversion Hs; subst. cbn [app resumed]. apply IH. split; assumption.
  - inversion Hs; subst. cbn [app resumed]. apply IH. split; [reflexivity|assumption].
  - inversion Hs; subst. cbn [app resumed]. apply IH. split; [reflexivity|]. intros t i. cbn.
    destruct (m_impl_ptrs s t) eqn:E; intros X; inversion X; subst. cbn. eauto.
Qed.

Lemma max_sleep_exact l s t now s' d :
  run (next H) init l = Some s -> stop_requested s = false ->
  step H s (EMaxSleep t now) = Some (s', [MaySleep t now d]) -> earliest_distance (pending s t) now d.
Proof.
  intros Hr Hst Hs. pose proof (heaps_run l s Hr) as Hh. unfold step in Hs. destruct (ub s); [discriminate|].
  rewrite Hst in Hs. unfold deref in Hs. pose proof (Hh t) as Hhi. unfold pending in *.
  destruct (m_impl_ptrs s t) as [| |i] eqn:E; inversion Hs; subst. cbn [contents] in *.
  unfold impl_max_sleep, earliest_distance. destruct (m_timer_heap i) as [|f h]; [reflexivity|].
  pose proof (heap_front_min _ _ Hhi) as Hmin. split.
  - exists f. split; [now left|lia].
  - intros e He. apply Hmin in He. lia.
Qed.

End WithHeap.

(** ** Consequences of the log specification *)
Lemma filter_split {A} (f : A -> bool) l : Permutation (filter f l ++ filter (fun x => negb (f x)) l) l.
Proof.
  induction l as [|x l IH]; cbn; [constructor|]. destruct (f x); cbn.
  - now constructor.
  - rewrite <- Permutation_middle. now constructor.
Qed.

(** ** An instance of the contract: keep the vector sorted. *)
Fixpoint insert (x : timer_event) (l : list timer_event) : list timer_event :=
  match l with
  | [] => [x]
  | y :: l' => if timeout_tp x <? timeout_tp y then x :: l else y :: insert x l'
  end.
Fixpoint isort (l : list timer_event) : list timer_event :=
  match l with [] => [] | x :: l' => insert x (isort l') end.
Definition sorted_ops : heap_ops :=
  {| push_heap := isort; pop_heap := fun l => match l with [] => [] | x :: l' => isort l' ++ [x] end |}.

Notation le_ev := (fun a b => timeout_tp a <= timeout_tp b).
Lemma insert_perm x l : Permutation (insert x l) (x :: l).
Proof.
  induction l as [|y l IH]; cbn; auto. destruct (timeout_tp x <? timeout_tp y); auto.
  rewrite IH. apply perm_swap.
Qed.
Lemma isort_perm l : Permutation (isort l) l.
Proof. induction l as [|x l IH]; cbn; auto. rewrite insert_perm. now constructor. Qed.
Lemma insert_sorted x l : StronglySorted le_ev l -> StronglySorted le_ev (insert x l).
Proof.
  induction l as [|y l IH]; cbn; intros Hs; [repeat constructor|].
  apply StronglySorted_inv in Hs. destruct Hs as [Hs Hf].
  destruct (timeout_tp x <? timeout_tp y) eqn:E.
  - apply Z.ltb_lt in E. constructor; [constructor; assumption|]. constructor; [lia|].
    eapply Forall_impl; [|exact Hf]. intros; cbn in *; lia.
  - apply Z.ltb_ge in E. constructor; [auto|]. eapply Permutation_Forall; [symmetry; apply insert_perm|].
    constructor; assumption.
Qed.
Lemma isort_sorted l : StronglySorted le_ev (isort l).
Proof. induction l; cbn; [constructor|]. now apply insert_sorted. Qed.
Lemma sorted_nth l : StronglySorted le_ev l -> forall i j x y, (i <= j)%nat -> nth_error l i = Some x -> nth_error l j = Some y -> timeout_tp x <= timeout_tp y.
Proof.
  induction 1 as [|a l Hs IH Hf]; intros i j x y Hij Hi Hj; [destruct i; discriminate|].
  destruct i, j; cbn in *; try lia.
  - inversion Hi; inversion Hj; subst; lia.
  - inversion Hi; subst. apply nth_error_In in Hj. rewrite Forall_forall in Hf. exact (Hf y Hj).
  - eapply IH; [|eassumption..]. lia.
Qed.
Lemma sorted_is_heap l : StronglySorted le_ev l -> is_heap l.
Proof.
  intros Hs i x p Hi Hx Hp. eapply sorted_nth; [exact Hs| |exact Hp|exact Hx]. 
  apply Nat.div_le_upper_bound; lia.
Qed.
Lemma sorted_ops_ok : std_heap sorted_ops.
Proof.
  constructor.
  - intros l x _. cbn. split; [apply sorted_is_heap, isort_sorted|apply isort_perm].
  - intros x l _. exists (isort l). cbn. repeat split; [apply sorted_is_heap, isort_sorted|apply isort_perm].
Qed.
