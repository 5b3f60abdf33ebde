From Coq Require Import List Arith Bool Lia.
From Verif.Common Require Import TS.
From Verif.Task Require Import Model Spec.
Import ListNotations.
#[local] Arguments upd : simpl never.

Definition hown (h : handle) : option nat := if holds h then m_h h else None.
Definition wf (h : handle) : Prop := holds h = true -> m_h h <> None.
(** an object: a queued closure can be called; a task still having its coroutine has its future *)
Definition wfo (o : obj) : Prop :=
  wf (handle_of o) /\
  match o with
  | OQueued h => hbool h = true
  | OTask eg h fut => holds h = true -> eg = false /\ fut = m_h h
  | OTof _ => True
  end.
Definition oown (o : option obj) : option nat := match o with Some o => hown (handle_of o) | None => None end.
Definition own (s : state) (i : nat) : option nat := oown (objs s i).

Lemma owns_own s i f : owns s i f <-> own s i = Some f.
Proof.
  unfold owns, own, oown, hown. split.
  - intros (o & -> & -> & E). exact E.
  - destruct (objs s i) as [o|]; [|discriminate]. destruct (holds (handle_of o)) eqn:E; [|discriminate]. eauto.
Qed.

Definition parked (x : option fstate) : Prop := x = Some FNew \/ x = Some FSusp.

(** [x]: the frame owned by a handle in flight (a by-value parameter) *)
Record Inv (s : state) (x : option nat) : Prop := {
  i_ub : ub s = false; i_term : terminated s = false; i_stop : stop_now s = false;
  i_uniq : forall i j f, own s i = Some f -> own s j = Some f -> i = j;
  i_uniqx : forall i f, own s i = Some f -> x <> Some f;
  i_park : forall i f, own s i = Some f -> parked (frames s f);
  i_parkx : forall f, x = Some f -> parked (frames s f);
  i_leak : forall f, parked (frames s f) -> x = Some f \/ exists i, own s i = Some f;
  i_wf : forall i o, objs s i = Some o -> wfo o;
  i_cnt : forall f, match frames s f with
                    | None => starts s f = 0 /\ destroys s f = 0
                    | Some FNew => starts s f = 0 /\ destroys s f = 0
                    | Some FRun | Some FSusp => starts s f = 1 /\ destroys s f = 0
                    | Some FGone => starts s f <= 1 /\ destroys s f = 1
                    end;
  i_res : forall f, result_set s f = true -> frames s f = Some FGone
}.

Lemma inv_init : Inv init None.
Proof. split; cbn; try discriminate; auto. intros f [?|?]; discriminate. Qed.

Lemma own_set s i o j : own (set_obj s i o) j = if Nat.eqb j i then oown o else own s j.
Proof. unfold own, set_obj, upd. cbn. now destruct (Nat.eqb j i). Qed.

(** replacing object i by one owning the same *)
Lemma inv_same s x i o : Inv s x -> own s i = oown o -> (forall o', o = Some o' -> wfo o') -> Inv (set_obj s i o) x.
Proof.
  intros H E W. assert (Eo : forall j, own (set_obj s i o) j = own s j).
  { intros j. rewrite own_set. destruct (Nat.eqb_spec j i); [now subst|reflexivity]. }
  destruct H. split; cbn [ub terminated stop_now frames starts destroys result_set set_obj objs]; auto.
  - intros a b g. rewrite !Eo. eauto.
  - intros a g. rewrite !Eo. eauto.
  - intros a g. rewrite !Eo. eauto.
  - intros f Hp. destruct (i_leak0 f Hp) as [?|[k Hk]]; [now left|right]. exists k. now rewrite Eo.
  - intros k o'. unfold upd. destruct (Nat.eqb_spec k i); eauto.
Qed.

(** taking the handle out of object i *)
Lemma inv_grab s i o : Inv s None -> oown o = None -> (forall o', o = Some o' -> wfo o') ->
  Inv (set_obj s i o) (own s i).
Proof.
  intros H E W. destruct H. split; cbn [ub terminated stop_now frames starts destroys result_set set_obj set_frame inc_start inc_resume inc_destroy set_result objs]; auto.
  - intros a b f. rewrite !own_set. destruct (Nat.eqb_spec a i), (Nat.eqb_spec b i); rewrite ?E; try discriminate. eauto.
  - intros a f. rewrite !own_set. destruct (Nat.eqb_spec a i); rewrite ?E; try discriminate. intros H1 H2. apply n. eauto.
  - intros a f. rewrite !own_set. destruct (Nat.eqb_spec a i); rewrite ?E; try discriminate. eauto.
  - intros f Hf. eauto.
  - intros f Hp. destruct (i_leak0 f Hp) as [?|[k Hk]]; [discriminate|].
    destruct (Nat.eqb_spec k i); [subst; now left|right]. exists k. rewrite own_set. destruct (Nat.eqb_spec k i); congruence.
  - intros k o'. unfold upd. destruct (Nat.eqb_spec k i); eauto.
Qed.

(** storing the handle in flight in a new object *)
Lemma inv_put s x i o : Inv s x -> own s i = None -> oown o = x -> (forall o', o = Some o' -> wfo o') ->
  Inv (set_obj s i o) None.
Proof.
  intros H E Ex W. destruct H. split; cbn [ub terminated stop_now frames starts destroys result_set set_obj set_frame inc_start inc_resume inc_destroy set_result objs]; auto.
  - intros a b f. rewrite !own_set. destruct (Nat.eqb_spec a i), (Nat.eqb_spec b i); rewrite ?Ex; intros H1 H2; subst; auto.
    + destruct (i_uniqx0 _ _ H2 H1).
    + destruct (i_uniqx0 _ _ H1 H2).
    + eauto.
  - discriminate.
  - intros a f. rewrite !own_set. destruct (Nat.eqb_spec a i); rewrite ?Ex; eauto.
  - discriminate.
  - intros f Hp. right. destruct (i_leak0 f Hp) as [?|[k Hk]].
    + exists i. rewrite own_set, Nat.eqb_refl. congruence.
    + exists k. rewrite own_set. destruct (Nat.eqb_spec k i); [congruence|exact Hk].
  - intros k o'. unfold upd. destruct (Nat.eqb_spec k i); eauto.
Qed.

Ltac frame_tac f0 := intros g; unfold upd; destruct (Nat.eqb_spec g f0); [subst g|].

Lemma inv_resume s f : Inv s (Some f) -> Inv (coro_resume s (Some f)) None.
Proof.
  intros H. pose proof (i_parkx _ _ H f eq_refl) as Hp. pose proof (i_cnt _ _ H f) as Hc.
  destruct H. unfold coro_resume.
  assert (K : forall i g, own s i = Some g -> g <> f). { intros i g Hi E. subst. now apply (i_uniqx0 _ _ Hi). }
  destruct Hp as [Hp|Hp]; rewrite Hp in *.
  all: split; cbn [ub terminated stop_now frames starts destroys result_set set_obj set_frame inc_start inc_resume inc_destroy set_result objs]; auto; try discriminate.
  all: try (intros i g Hi; change (own s i = Some g) in Hi; rewrite upd_other by eauto; eauto).
  all: try (frame_tac f; intros; [destruct H; discriminate|]; destruct (i_leak0 _ H) as [E|E]; [congruence|right; exact E]).
  all: try (intros g Hg; destruct (Nat.eqb_spec g f); [subst; rewrite (i_res0 _ Hg) in Hp; discriminate|rewrite upd_other; auto]).
  all: intros g; destruct (Nat.eqb_spec g f); [subst g; rewrite !upd_same; cbn in Hc |- *; lia|rewrite ?upd_other by assumption; apply i_cnt0].
Qed.

Lemma inv_destroy s f : Inv s (Some f) -> Inv (coro_destroy s (Some f)) None.
Proof.
  intros H. pose proof (i_parkx _ _ H f eq_refl) as Hp. pose proof (i_cnt _ _ H f) as Hc.
  destruct H. unfold coro_destroy.
  assert (K : forall i g, own s i = Some g -> g <> f). { intros i g Hi E. subst. now apply (i_uniqx0 _ _ Hi). }
  destruct Hp as [Hp|Hp]; rewrite Hp in *.
  all: split; cbn [ub terminated stop_now frames starts destroys result_set set_obj set_frame inc_start inc_resume inc_destroy set_result objs]; auto; try discriminate.
  all: try (intros i g Hi; change (own s i = Some g) in Hi; rewrite upd_other by eauto; eauto).
  all: try (frame_tac f; intros; [destruct H; discriminate|]; destruct (i_leak0 _ H) as [E|E]; [congruence|right; exact E]).
  all: try (intros g Hg; destruct (Nat.eqb_spec g f); [subst; now rewrite upd_same|rewrite upd_other; auto]).
  all: intros g; destruct (Nat.eqb_spec g f); [subst g; rewrite !upd_same; cbn in Hc |- *; lia|rewrite ?upd_other by assumption; apply i_cnt0].
Qed.

Lemma wf_moved h : wf (moved_from h). Proof. intros E; discriminate E. Qed.
Lemma wf_empty : wf empty_handle. Proof. intros E; discriminate E. Qed.
Lemma wf_fresh f : wf (fresh_handle f). Proof. intros _ E; discriminate E. Qed.
Lemma hbool_hown h : hbool h = true -> exists f, hown h = Some f /\ m_h h = Some f /\ holds h = true.
Proof. unfold hbool, hown. destruct (holds h), (m_h h); cbn; try discriminate. eauto. Qed.
Lemma hbool_false h : wf h -> hbool h = false -> holds h = false.
Proof. unfold wf, hbool. destruct (holds h), (m_h h); cbn; try discriminate; auto. intros W _. now destruct (W eq_refl). Qed.

Lemma inv_hdestroy s h : wf h -> Inv s (hown h) -> Inv (hdestroy s h) None.
Proof.
  unfold hdestroy, hown. intros W H. destruct (holds h) eqn:E; [|exact H].
  destruct (m_h h) as [f|] eqn:E2; [now apply inv_destroy|]. now destruct (W E).
Qed.

Lemma inv_call s h : hbool h = true -> Inv s (hown h) -> Inv (call s h) None.
Proof. intros Hb H. destruct (hbool_hown h Hb) as (f & E1 & E2 & _). unfold call. rewrite E1 in H. rewrite E2. now apply inv_resume. Qed.

Lemma inv_enqueue s h q : wf h -> own s q = None -> Inv s (hown h) -> Inv (enqueue s h q) None.
Proof.
  intros W Hq H. unfold enqueue. destruct (hbool h) eqn:Eb.
  - rewrite (i_stop _ _ H). apply (inv_put _ (hown h)); auto. intros o' E; inversion E; subst. now split.
  - now apply inv_hdestroy.
Qed.

Lemma hdestroy_set s h i o : set_obj (hdestroy s h) i o = hdestroy (set_obj s i o) h.
Proof.
  unfold hdestroy, coro_destroy. destruct (holds h); [|reflexivity]. destruct (m_h h) as [f|]; [|reflexivity]. cbn.
  destruct (frames s f) as [[]|]; reflexivity.
Qed.
Lemma hdestroy_objs s h : objs (hdestroy s h) = objs s.
Proof.
  unfold hdestroy, coro_destroy. destruct (holds h); [|reflexivity]. destruct (m_h h) as [f|]; [|reflexivity].
  destruct (frames s f) as [[]|]; reflexivity.
Qed.

Lemma is_none_eq {A} (o : option A) : is_none o = true -> o = None.
Proof. now destruct o. Qed.

Lemma inv_frame_new s i f st :
  Inv s None -> objs s i = None -> frames s f = None ->
  match st with
  | FNew => Inv (set_frame s f FNew) (Some f)
  | _ => Inv (inc_start (set_frame s f FRun) f) None
  end.
Proof.
  intros H Hi Hf. pose proof (i_cnt _ _ H f) as Hc. rewrite Hf in Hc.
  assert (K : forall j g, own s j = Some g -> g <> f).
  { intros j g Hj E. subst. destruct (i_park _ _ H _ _ Hj); congruence. }
  destruct H. destruct st.
  all: split; cbn [ub terminated stop_now frames starts destroys result_set set_obj set_frame inc_start inc_resume inc_destroy set_result objs]; auto; try discriminate.
  all: try (intros j g Hj; change (own s j = Some g) in Hj; try (intro E; inversion E; subst; now apply (K _ _ Hj));
            rewrite upd_other by eauto; eauto).
  all: try (intros g E; inversion E; subst; rewrite upd_same; now left).
  all: try (frame_tac f; intros; [first [now left|destruct H; discriminate]|]; destruct (i_leak0 _ H) as [E|E]; [congruence|right; exact E]).
  all: try (intros g Hg; destruct (Nat.eqb_spec g f); [subst; rewrite (i_res0 _ Hg) in Hf; discriminate|rewrite upd_other; auto]).
  all: intros g; destruct (Nat.eqb_spec g f); [subst g; rewrite !upd_same; cbn in Hc |- *; lia|rewrite ?upd_other by assumption; apply i_cnt0].
Qed.

Lemma inv_susp s f : Inv s None -> frames s f = Some FRun -> Inv (set_frame s f FSusp) (Some f).
Proof.
  intros H Hf. pose proof (i_cnt _ _ H f) as Hc. rewrite Hf in Hc.
  assert (K : forall j g, own s j = Some g -> g <> f).
  { intros j g Hj E. subst. destruct (i_park _ _ H _ _ Hj); congruence. }
  destruct H. split; cbn [ub terminated stop_now frames starts destroys result_set set_obj set_frame inc_start inc_resume inc_destroy set_result objs]; auto.
  - intros j g Hj E. inversion E; subst. now apply (K _ _ Hj).
  - intros j g Hj. change (own s j = Some g) in Hj. rewrite upd_other by eauto. eauto.
  - intros g E; inversion E; subst. rewrite upd_same. now right.
  - frame_tac f; intros; [now left|]. destruct (i_leak0 _ H) as [E|E]; [congruence|right; exact E].
  - intros g; destruct (Nat.eqb_spec g f); [subst g; rewrite !upd_same; cbn in Hc |- *; lia|rewrite ?upd_other by assumption; apply i_cnt0].
  - intros g Hg; destruct (Nat.eqb_spec g f); [subst; rewrite (i_res0 _ Hg) in Hf; discriminate|rewrite upd_other; auto].
Qed.

Lemma inv_finish s f : Inv s None -> frames s f = Some FRun -> Inv (set_result (inc_destroy (set_frame s f FGone) f) f) None.
Proof.
  intros H Hf. pose proof (i_cnt _ _ H f) as Hc. rewrite Hf in Hc.
  assert (K : forall j g, own s j = Some g -> g <> f).
  { intros j g Hj E. subst. destruct (i_park _ _ H _ _ Hj); congruence. }
  destruct H. split; cbn [ub terminated stop_now frames starts destroys result_set set_obj set_frame inc_start inc_resume inc_destroy set_result objs]; auto; try discriminate.
  - intros j g Hj. change (own s j = Some g) in Hj. rewrite upd_other by eauto. eauto.
  - frame_tac f; intros; [destruct H; discriminate|]. destruct (i_leak0 _ H) as [E|E]; [congruence|right; exact E].
  - intros g; destruct (Nat.eqb_spec g f); [subst g; rewrite !upd_same; cbn in Hc |- *; lia|rewrite ?upd_other by assumption; apply i_cnt0].
  - intros g; destruct (Nat.eqb_spec g f); [subst g; rewrite !upd_same; auto|rewrite ?upd_other by assumption; apply i_res0].
Qed.

Lemma own_eq s i o : objs s i = o -> own s i = oown o. Proof. unfold own. now intros ->. Qed.

Lemma wfo_tof h : wf h -> wfo (OTof h). Proof. now split. Qed.
Lemma wfo_task eg h fut : wf h -> (holds h = true -> eg = false /\ fut = m_h h) -> wfo (OTask eg h fut). Proof. now split. Qed.
Lemma wfo_queued h : hbool h = true -> wfo (OQueued h).
Proof. intros Hb. split; [|exact Hb]. unfold wf. cbn. unfold hbool in Hb. destruct (holds h), (m_h h); cbn in *; discriminate. Qed.
Ltac wft := intros ?o' ?E; inversion E; subst; cbn;
  auto using wf_moved, wf_empty, wf_fresh, wfo_tof, wfo_queued;
  try (apply wfo_task; cbn; auto using wf_moved, wf_empty, wf_fresh; discriminate).

(** move a handle from object j to the new object i *)
Lemma inv_transfer s i j oj oi : Inv s None -> objs s i = None -> own s j = oown oi -> j <> i -> oown oj = None ->
  (forall o', oj = Some o' -> wfo o') -> (forall o', oi = Some o' -> wfo o') ->
  Inv (set_obj (set_obj s j oj) i oi) None.
Proof.
  intros H Hi Ho Hn Hj Wj Wi. apply (inv_put _ (own s j)); auto.
  - now apply inv_grab.
  - rewrite own_set. destruct (Nat.eqb_spec i j); [congruence|]. unfold own. now rewrite Hi.
Qed.

(** take a handle from object j and pass it on by value *)
Lemma inv_pass s j o o' : Inv s None -> objs s j = Some o -> oown o' = None -> (forall o2, o' = Some o2 -> wfo o2) ->
  Inv (set_obj s j o') (hown (handle_of o)).
Proof.
  intros H Hj E W. replace (hown (handle_of o)) with (own s j) by (now rewrite (own_eq _ _ _ Hj)). now apply inv_grab.
Qed.

Lemma own_set_none s j o q oj : objs s q = None -> objs s j = Some oj -> own (set_obj s j o) q = None.
Proof. intros Hq Hj. rewrite own_set. destruct (Nat.eqb_spec q j); [congruence|]. unfold own. now rewrite Hq. Qed.

Ltac wfin W W0 E :=
  first [exact (W _ _ E) | exact (W0 _ _ E) | apply wfo_tof; exact (W _ _ E)
        | apply wfo_task; [exact (W _ _ E)|cbn; intros; apply (W0 _ _ E); assumption]].
Lemma inv_next s e s' : Inv s None -> allowed s e -> next s e = Some s' -> Inv s' None.
Proof.
  intros H HA. unfold next, step. rewrite (i_ub _ _ H), (i_term _ _ H). cbn [orb].
  assert (W0 : forall i o, objs s i = Some o -> wfo o) by exact (i_wf _ _ H).
  assert (W : forall i o, objs s i = Some o -> wf (handle_of o)) by (intros ? ? E0; apply (W0 _ _ E0)).
  destruct e; cbn [allowed] in HA.
  - destruct (is_none (objs s i)) eqn:E1; [|discriminate]. destruct (is_none (frames s f)) eqn:E2; [|discriminate].
    apply is_none_eq in E1, E2. cbn. intros E; inversion E; subst; clear E.
    apply (inv_put _ (Some f)); [exact (inv_frame_new s i f FNew H E1 E2)| |reflexivity|wft].
    unfold own. cbn. now rewrite E1.
  - destruct (is_none (objs s i)) eqn:E1; [|discriminate]. destruct (is_none (frames s f)) eqn:E2; [|discriminate].
    apply is_none_eq in E1, E2. cbn. intros E; inversion E; subst; clear E.
    apply (inv_put _ None); [exact (inv_frame_new s i f FRun H E1 E2)| |reflexivity|].
    + unfold own. cbn. now rewrite E1.
    + wft.
  - destruct (is_none (objs s i)) eqn:E1; [|discriminate]. apply is_none_eq in E1.
    destruct (objs s j) as [[h|h|eg h fut]|] eqn:Ej; cbn; try discriminate; intros E; inversion E; subst; clear E.
    all: assert (j <> i) by congruence.
    all: apply inv_transfer; auto; try (rewrite (own_eq _ _ _ Ej); reflexivity); try wft; wfin W W0 Ej.
  - destruct (objs s i) as [[hi|hi|]|] eqn:Ei; try discriminate.
    destruct (objs s j) as [[hj0|hj0|]|] eqn:Ej0; try discriminate. cbn zeta.
    rewrite hdestroy_set, !hdestroy_objs. cbn [objs set_obj].
    assert (H1 : Inv (hdestroy (set_obj s i (Some (OTof (moved_from hi)))) hi) None).
    { apply inv_hdestroy; [wfin W W0 Ei|]. apply (inv_pass s i (OTof hi)); auto. wft. }
    destruct (Nat.eqb_spec i j).
    + subst j. rewrite upd_same. cbn. intros E; inversion E; subst; clear E.
      apply inv_same; [apply inv_same; [exact H1| |wft]| |wft].
      * unfold own. rewrite hdestroy_objs. cbn. now rewrite upd_same.
      * rewrite own_set, Nat.eqb_refl. reflexivity.
    + rewrite upd_other by auto. rewrite Ej0. cbn. intros E; inversion E; subst; clear E.
      apply (inv_put _ (hown hj0)).
      * apply (inv_pass _ j (OTof hj0)); auto; [|wft]. rewrite hdestroy_objs. cbn. now rewrite upd_other by auto.
      * rewrite own_set. destruct (Nat.eqb_spec i j); [congruence|]. unfold own. rewrite hdestroy_objs. cbn. now rewrite upd_same.
      * reflexivity.
      * wft. wfin W W0 Ej0.
  - destruct (objs s i) as [o|] eqn:Ei; [|discriminate]. cbn. intros E; inversion E; subst; clear E.
    rewrite hdestroy_set. apply inv_hdestroy; [wfin W W0 Ei|]. apply (inv_pass s i o); auto. wft.
  - destruct (is_none (objs s i)) eqn:E1; [|discriminate]. apply is_none_eq in E1.
    destruct (objs s j) as [[h|h|eg h fut]|] eqn:Ej; cbn; try discriminate; intros E; inversion E; subst; clear E.
    assert (j <> i) by congruence.
    apply inv_transfer; auto; try (rewrite (own_eq _ _ _ Ej); reflexivity); try wft; wfin W W0 Ej.
  - destruct (is_none (objs s q)) eqn:E1; [|discriminate]. apply is_none_eq in E1.
    destruct (objs s j) as [[h|h|[|] h fut]|] eqn:Ej; cbn; try discriminate.
    + intros E; inversion E; now subst.
    + destruct (HA _ _ eq_refl) as (f & -> & Hb). destruct (result_set s f) eqn:Er; cbn.
      { intros E; inversion E; now subst. }
      destruct Hb as [Hb|Hb]; [|congruence]. rewrite Hb. cbn. intros E; inversion E; subst; clear E.
      apply inv_enqueue; [wfin W W0 Ej|eapply own_set_none; eauto|]. apply (inv_pass s j (OTask false h (Some f))); auto. wft.
  - destruct (is_none (objs s q)) eqn:E1; [|discriminate]. apply is_none_eq in E1.
    destruct (objs s j) as [[h|h|[|] h fut]|] eqn:Ej; cbn; try discriminate.
    + intros E; inversion E; subst; clear E. apply inv_same; auto; [now rewrite (own_eq _ _ _ Ej)|].
      intros o' E; inversion E; subst. apply wfo_task; [wfin W W0 Ej|]. intros Hh.
      destruct (W0 _ _ Ej) as [_ W1]. destruct (W1 Hh). discriminate.
    + destruct (hbool h) eqn:Hb; cbn; [|intros E; inversion E; now subst].
      destruct fut as [f|]; cbn.
      2:{ exfalso. destruct (W0 _ _ Ej) as [_ W1]. cbn in W1. destruct (hbool_hown h Hb) as (f & _ & E2 & E3).
          destruct (W1 E3). congruence. }
      destruct (result_set s f) eqn:Er; cbn; intros E; inversion E; subst; clear E.
      * exfalso. destruct (W0 _ _ Ej) as [_ W1]. cbn in W1. destruct (hbool_hown h Hb) as (f' & E2 & E3 & E4).
        destruct (W1 E4) as [_ E5]. assert (f' = f) by congruence. subst f'.
        assert (Ho : own s j = Some f) by (rewrite (own_eq _ _ _ Ej); exact E2).
        pose proof (i_park _ _ H _ _ Ho) as Hp. rewrite (i_res _ _ H _ Er) in Hp. destruct Hp; discriminate.
      * apply inv_enqueue; [wfin W W0 Ej|eapply own_set_none; eauto|]. apply (inv_pass s j (OTask false h (Some f))); auto. wft.
  - destruct (is_none (objs s q)) eqn:E1; [|discriminate]. apply is_none_eq in E1.
    destruct (objs s j) as [[h|h|eg h [f|]]|] eqn:Ej; cbn; try discriminate; intros E; inversion E; subst; clear E; auto.
    apply inv_enqueue; [wfin W W0 Ej|eapply own_set_none; eauto|]. apply (inv_pass s j (OTask eg h (Some f))); auto. wft.
  - destruct (objs s i) as [[h|h|]|] eqn:Ei; cbn; try discriminate. intros E; inversion E; subst; clear E.
    destruct HA as (o & Eo & Hb). inversion Eo; subst. apply inv_call; [exact Hb|]. apply (inv_pass s i (OTof h)); auto. wft.
  - destruct (is_none (objs s q)) eqn:E1; [|discriminate]. apply is_none_eq in E1.
    destruct (objs s i) as [[h|h|]|] eqn:Ei; cbn; try discriminate. intros E; inversion E; subst; clear E.
    apply inv_enqueue; [wfin W W0 Ei|eapply own_set_none; eauto|]. apply (inv_pass s i (OTof h)); auto. wft.
  - destruct (is_none (objs s q)) eqn:E1; [|discriminate]. apply is_none_eq in E1.
    destruct (objs s i) as [[h|h|]|] eqn:Ei; cbn; try discriminate.
    destruct HA as (o & Eo & Hb). inversion Eo; subst. cbn in Hb. rewrite Hb. cbn. intros E; inversion E; subst; clear E.
    apply inv_enqueue; [wfin W W0 Ei|eapply own_set_none; eauto|]. apply (inv_pass s i (OTof h)); auto. wft.
  - destruct (objs s q) as [[h|h|]|] eqn:Eq; cbn; try discriminate. rewrite (i_stop _ _ H). cbn.
    intros E; inversion E; subst; clear E. apply inv_call; [|apply (inv_pass s q (OQueued h)); auto; wft]. apply (W0 _ _ Eq).
  - destruct (is_none (objs s i)) eqn:E1; [|discriminate]. apply is_none_eq in E1.
    destruct (frames s f) as [[]|] eqn:Ef; cbn; try discriminate. intros E; inversion E; subst; clear E.
    apply (inv_put _ (Some f)); [now apply inv_susp| |reflexivity|wft]. unfold own. cbn. now rewrite E1.
  - destruct HA.
  - destruct (frames s f) as [[]|] eqn:Ef; cbn; try discriminate. intros E; inversion E; subst; clear E. now apply inv_finish.
  - destruct HA.
Qed.

Lemma inv_run l s : run_all next allowed init l -> run next init l = Some s -> Inv s None.
Proof. intros HA Hr. exact (run_inv_cond next allowed (fun s => Inv s None) inv_next l init s inv_init HA Hr). Qed.

Definition RInv (f : nat) (s : rstate) : Prop :=
  if valid s then slot s = fresh_handle f /\ forall c, pcs s c = RIdle
  else exists w, (forall c, c <> w -> pcs s c = RIdle \/ pcs s c = RDone None) /\
         ((pcs s w = RWon /\ slot s = fresh_handle f) \/ (pcs s w = RDone (Some f) /\ holds (slot s) = false)).
Lemma rinv_step f s e s' : RInv f s -> rstep s e = Some s' -> RInv f s'.
Proof.
  unfold RInv, rstep. destruct e as [c|c]; destruct (pcs s c) eqn:Ec; try discriminate.
  - destruct (valid s) eqn:Ev; intros H E; inversion E; subst; clear E; cbn.
    + destruct H as [Hs Hp]. exists c. split; [|left; rewrite upd_same; auto].
      intros d Hd. rewrite upd_other by auto. auto.
    + destruct H as (w & H1 & H2). exists w.
      assert (c <> w) by (intros ->; destruct H2 as [[H2 _]|[H2 _]]; congruence).
      rewrite upd_other by auto. split; [|exact H2]. intros d Hd. destruct (Nat.eqb_spec d c).
      * subst. rewrite upd_same. now right.
      * rewrite upd_other by auto. auto.
  - intros H E; inversion E; subst; clear E; cbn. destruct (valid s).
    + destruct H as [_ Hp]. rewrite Hp in Ec. discriminate.
    + destruct H as (w & H1 & H2). destruct (Nat.eqb_spec c w).
      * subst. exists w. split; [intros d Hd; rewrite upd_other by auto; auto|].
        right. rewrite upd_same. destruct H2 as [[_ ->]|[H2 _]]; [split; reflexivity|congruence].
      * destruct (H1 c n); congruence.
Qed.
Lemma rinv_run f l s : run rstep (rinit f) l = Some s -> RInv f s.
Proof.
  intros Hr. refine (run_inv rstep (RInv f) _ l (rinit f) s _ Hr).
  - intros; eapply rinv_step; eauto.
  - cbn. auto.
Qed.
