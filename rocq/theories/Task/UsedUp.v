(** C70: what a task that was already used says when it is used again (over Model.v; the undefined cases are in Props.v). *)
From Coq Require Import List Arith Bool Lia.
From Verif.Common Require Import TS.
From Verif.Task Require Import Model Spec Proofs.
Import ListNotations.
#[local] Arguments upd : simpl never.

(** [e] gives the coroutine of task object [j] away: run(), run_and_get_future(), co_await, conversion to task_on_the_fly, move *)
Definition gives_away (j : nat) (e : event) : bool :=
  match e with ERun i _ | ERunFuture i _ | EAwait i _ | ETake _ i | EMove _ i => Nat.eqb i j | _ => false end.
(** [e] takes the future out of task object [j]: run_and_get_future(), move *)
Definition takes_future (j : nat) (e : event) : bool :=
  match e with ERunFuture i _ | EMove _ i => Nat.eqb i j | _ => false end.
(** task object [j] is created by [c] *)
Definition creates (eager : bool) (j : nat) (c : event) : Prop := exists f, c = if eager then ENewEager j f else ENewLazy j f.

(** ** a task object keeps its kind, and what it lost it does not get back *)
Definition keeps (eg : bool) (h : handle) (fut : option nat) (o : option obj) : Prop :=
  exists h' fut', o = Some (OTask eg h' fut') /\ (hbool h = false -> hbool h' = false) /\ (fut = None -> fut' = None).
Lemma keeps_refl eg h fut : keeps eg h fut (Some (OTask eg h fut)).
Proof. exists h, fut. auto. Qed.
Lemma hbool_moved h : hbool (moved_from h) = false.
Proof. reflexivity. Qed.

Lemma resume_objs s h : objs (coro_resume s h) = objs s.
Proof. unfold coro_resume. destruct h as [f|]; [|reflexivity]. now destruct (frames s f) as [[]|]. Qed.
Lemma destroy_objs s h : objs (hdestroy s h) = objs s.
Proof. unfold hdestroy. destruct (holds h); [|reflexivity]. unfold coro_destroy. destruct (m_h h) as [f|]; [|reflexivity]. now destruct (frames s f) as [[]|]. Qed.
Lemma enqueue_objs s h q j : j <> q -> objs (enqueue s h q) j = objs s j.
Proof. intros N. unfold enqueue. destruct (hbool h); [destruct (stop_now s); [reflexivity|]; cbn; now apply upd_other|]. now rewrite destroy_objs. Qed.
Lemma set_objs s i o j : objs (set_obj s i o) j = if Nat.eqb j i then o else objs s j.
Proof. reflexivity. Qed.
#[local] Arguments set_obj : simpl never.

Lemma keeps_step s e s' j eg h fut : next s e = Some s' -> objs s j = Some (OTask eg h fut) -> e <> EKill j -> keeps eg h fut (objs s' j).
Proof.
  intros Hn Ho Hk. unfold next in Hn. destruct (step s e) as [[s1 o]|] eqn:Hs; [|discriminate]. cbn in Hn. injection Hn as ->. unfold step in Hs.
  destruct (ub s || terminated s); [discriminate|].
  assert (K : forall x, objs s x = None -> j <> x) by (intros x Ex ->; congruence).
  assert (S : keeps eg h fut (objs s j)) by (rewrite Ho; apply keeps_refl).
  destruct e; cbn [objs] in Hs.
  - destruct (objs s i) eqn:Ei; cbn [is_none andb] in Hs; [discriminate|]. destruct (is_none (frames s f)); [|discriminate]. injection Hs as <- _. rewrite set_objs.
    destruct (Nat.eqb_spec j i); [congruence|exact S].
  - destruct (objs s i) eqn:Ei; cbn [is_none andb] in Hs; [discriminate|]. destruct (is_none (frames s f)); [|discriminate]. injection Hs as <- _. rewrite set_objs.
    destruct (Nat.eqb_spec j i); [congruence|exact S].
  - destruct (objs s i) eqn:Ei; cbn [is_none] in Hs; [discriminate|]. specialize (K i Ei). destruct (objs s j0) as [[|h0|]|] eqn:Ej; try discriminate; injection Hs as <- _; rewrite !set_objs;
      (destruct (Nat.eqb_spec j i); [congruence|]); (destruct (Nat.eqb_spec j j0); [subst j0; rewrite Ho in Ej; try discriminate|exact S]).
    injection Ej as -> -> ->. eexists _, _. split; [reflexivity|]. auto.
  - destruct (objs s i) as [[hi| |]|] eqn:Ei; try discriminate. destruct (objs s j0) as [[hj0| |]|] eqn:Ej; try discriminate. cbv zeta in Hs. match type of Hs with context [match objs ?x j0 with _ => _ end] => destruct (objs x j0) as [[hj| |]|] end; try discriminate. injection Hs as <- _.
    rewrite !set_objs. destruct (Nat.eqb_spec j i); [congruence|]. destruct (Nat.eqb_spec j j0); [congruence|]. now rewrite destroy_objs.
  - destruct (objs s i) eqn:Ei; [|discriminate]. injection Hs as <- _. rewrite set_objs. destruct (Nat.eqb_spec j i); [congruence|]. now rewrite destroy_objs.
  - destruct (objs s i) eqn:Ei; cbn [is_none] in Hs; [discriminate|]. specialize (K i Ei). destruct (objs s j0) as [[|h0|]|] eqn:Ej; try discriminate. injection Hs as <- _. rewrite !set_objs.
    destruct (Nat.eqb_spec j i); [congruence|]. destruct (Nat.eqb_spec j j0); [subst j0; rewrite Ho in Ej|exact S]. injection Ej as -> -> ->. eexists _, _. split; [reflexivity|]. auto.
  - destruct (objs s q) eqn:Eq; cbn [is_none] in Hs; [discriminate|]. specialize (K q Eq). destruct (objs s j0) as [[| |[|] h0 [f|]]|] eqn:Ej; try discriminate; try (injection Hs as <- _; exact S).
    destruct (result_set s f); [injection Hs as <- _; exact S|]. destruct (hbool h0); injection Hs as <- _; [|exact S]. rewrite enqueue_objs by exact K. rewrite set_objs.
    destruct (Nat.eqb_spec j j0); [subst j0; rewrite Ho in Ej|exact S]. injection Ej as -> -> ->. eexists _, _. split; [reflexivity|]. auto.
  - destruct (objs s q) eqn:Eq; cbn [is_none] in Hs; [discriminate|]. specialize (K q Eq). destruct (objs s j0) as [[| |[|] h0 fu]|] eqn:Ej; try discriminate.
    + injection Hs as <- _. rewrite set_objs. destruct (Nat.eqb_spec j j0); [subst j0; rewrite Ho in Ej|exact S]. injection Ej as -> -> ->. eexists _, _. split; [reflexivity|]. auto.
    + destruct (hbool h0); [|injection Hs as <- _; exact S]. destruct fu as [f|]; [|injection Hs as <- _; exact S]. cbv zeta in Hs.
      destruct (result_set s f); injection Hs as <- _; [|rewrite enqueue_objs by exact K]; rewrite set_objs;
        (destruct (Nat.eqb_spec j j0); [subst j0; rewrite Ho in Ej|exact S]; injection Ej as -> -> ->; eexists _, _; split; [reflexivity|]; auto).
  - destruct (objs s q) eqn:Eq; cbn [is_none] in Hs; [discriminate|]. specialize (K q Eq). destruct (objs s j0) as [[| |eg0 h0 [f|]]|] eqn:Ej; try discriminate; injection Hs as <- _; [|exact S].
    rewrite enqueue_objs by exact K. rewrite set_objs. destruct (Nat.eqb_spec j j0); [subst j0; rewrite Ho in Ej|exact S]. injection Ej as -> -> ->. eexists _, _. split; [reflexivity|]. auto.
  - destruct (objs s i) as [[h0| |]|] eqn:Ei; try discriminate. injection Hs as <- _. unfold call. rewrite resume_objs, set_objs. destruct (Nat.eqb_spec j i); [congruence|exact S].
  - destruct (objs s q) eqn:Eq; cbn [is_none] in Hs; [discriminate|]. specialize (K q Eq). destruct (objs s i) as [[h0| |]|] eqn:Ei; try discriminate. injection Hs as <- _.
    rewrite enqueue_objs by exact K. rewrite set_objs. destruct (Nat.eqb_spec j i); [congruence|exact S].
  - destruct (objs s q) eqn:Eq; cbn [is_none] in Hs; [discriminate|]. specialize (K q Eq). destruct (objs s i) as [[h0| |]|] eqn:Ei; try discriminate. destruct (hbool h0); injection Hs as <- _; [|exact S].
    rewrite enqueue_objs by exact K. rewrite set_objs. destruct (Nat.eqb_spec j i); [congruence|exact S].
  - destruct (objs s q) as [[|h0|]|] eqn:Eq; try discriminate. destruct (stop_now s); [discriminate|]. injection Hs as <- _. unfold call. rewrite resume_objs, set_objs. destruct (Nat.eqb_spec j q); [congruence|exact S].
  - destruct (objs s i) eqn:Ei; cbn [is_none] in Hs; [discriminate|]. destruct (frames s f) as [[]|]; try discriminate. injection Hs as <- _. rewrite set_objs. destruct (Nat.eqb_spec j i); [congruence|exact S].
  - destruct (frames s f) as [[]|]; try discriminate. injection Hs as <- _. exact S.
  - destruct (frames s f) as [[]|]; try discriminate. injection Hs as <- _. exact S.
  - injection Hs as <- _. exact S.
Qed.
Lemma keeps_run l : forall s s' j eg h fut, run next s l = Some s' -> objs s j = Some (OTask eg h fut) -> ~ In (EKill j) l -> keeps eg h fut (objs s' j).
Proof.
  induction l as [|e l IH]; intros s s' j eg h fut Hr Ho Hk; cbn [run] in Hr; [injection Hr as <-; rewrite Ho; apply keeps_refl|].
  destruct (next s e) as [s1|] eqn:E; [|discriminate]. destruct (keeps_step _ _ _ _ _ _ _ E Ho) as (h1 & f1 & E1 & A & B); [intros ->; apply Hk; now left|].
  destruct (IH _ _ _ _ _ _ Hr E1) as (h2 & f2 & E2 & A2 & B2); [intros ?; apply Hk; now right|]. exists h2, f2. split; [exact E2|]. auto.
Qed.

(** ** a task object keeps what nothing takes from it *)
Definition intact (tk gv eg : bool) (h : handle) (fut : option nat) (o : option obj) : Prop :=
  exists h' fut', o = Some (OTask eg h' fut') /\ (tk = false -> fut' = fut) /\ (gv = false -> h' = h).
Lemma intact_refl tk gv eg h fut : intact tk gv eg h fut (Some (OTask eg h fut)).
Proof. exists h, fut. auto. Qed.
Lemma intact_step s e s' j eg h fut : next s e = Some s' -> objs s j = Some (OTask eg h fut) -> e <> EKill j -> intact (takes_future j e) (gives_away j e) eg h fut (objs s' j).
Proof.
  intros Hn Ho Hk. unfold next in Hn. destruct (step s e) as [[s1 o]|] eqn:Hs; [|discriminate]. cbn in Hn. injection Hn as ->. unfold step in Hs.
  destruct (ub s || terminated s); [discriminate|].
  assert (K : forall x, objs s x = None -> j <> x) by (intros x Ex ->; congruence).
  assert (S : intact (takes_future j e) (gives_away j e) eg h fut (objs s j)) by (rewrite Ho; apply intact_refl).
  destruct e; cbn [objs] in Hs.
  - destruct (objs s i) eqn:Ei; cbn [is_none andb] in Hs; [discriminate|]. destruct (is_none (frames s f)); [|discriminate]. injection Hs as <- _. rewrite set_objs.
    destruct (Nat.eqb_spec j i); [congruence|exact S].
  - destruct (objs s i) eqn:Ei; cbn [is_none andb] in Hs; [discriminate|]. destruct (is_none (frames s f)); [|discriminate]. injection Hs as <- _. rewrite set_objs.
    destruct (Nat.eqb_spec j i); [congruence|exact S].
  - destruct (objs s i) eqn:Ei; cbn [is_none] in Hs; [discriminate|]. specialize (K i Ei). destruct (objs s j0) as [[|h0|]|] eqn:Ej; try discriminate; injection Hs as <- _; rewrite !set_objs;
      (destruct (Nat.eqb_spec j i); [congruence|]); (destruct (Nat.eqb_spec j j0); [subst j0; rewrite Ho in Ej; try discriminate|exact S]).
    injection Ej as -> -> ->. eexists _, _. split; [reflexivity|]. cbn [takes_future gives_away]. rewrite Nat.eqb_refl. split; intros; try discriminate; reflexivity.
  - destruct (objs s i) as [[hi| |]|] eqn:Ei; try discriminate. destruct (objs s j0) as [[hj0| |]|] eqn:Ej; try discriminate. cbv zeta in Hs. match type of Hs with context [match objs ?x j0 with _ => _ end] => destruct (objs x j0) as [[hj| |]|] end; try discriminate. injection Hs as <- _.
    rewrite !set_objs. destruct (Nat.eqb_spec j i); [congruence|]. destruct (Nat.eqb_spec j j0); [congruence|]. now rewrite destroy_objs.
  - destruct (objs s i) eqn:Ei; [|discriminate]. injection Hs as <- _. rewrite set_objs. destruct (Nat.eqb_spec j i); [congruence|]. now rewrite destroy_objs.
  - destruct (objs s i) eqn:Ei; cbn [is_none] in Hs; [discriminate|]. specialize (K i Ei). destruct (objs s j0) as [[|h0|]|] eqn:Ej; try discriminate. injection Hs as <- _. rewrite !set_objs.
    destruct (Nat.eqb_spec j i); [congruence|]. destruct (Nat.eqb_spec j j0); [subst j0; rewrite Ho in Ej|exact S]. injection Ej as -> -> ->. eexists _, _. split; [reflexivity|]. cbn [takes_future gives_away]. rewrite Nat.eqb_refl. split; intros; try discriminate; reflexivity.
  - destruct (objs s q) eqn:Eq; cbn [is_none] in Hs; [discriminate|]. specialize (K q Eq). destruct (objs s j0) as [[| |[|] h0 [f|]]|] eqn:Ej; try discriminate; try (injection Hs as <- _; exact S).
    destruct (result_set s f); [injection Hs as <- _; exact S|]. destruct (hbool h0); injection Hs as <- _; [|exact S]. rewrite enqueue_objs by exact K. rewrite set_objs.
    destruct (Nat.eqb_spec j j0); [subst j0; rewrite Ho in Ej|exact S]. injection Ej as -> -> ->. eexists _, _. split; [reflexivity|]. cbn [takes_future gives_away]. rewrite Nat.eqb_refl. split; intros; try discriminate; reflexivity.
  - destruct (objs s q) eqn:Eq; cbn [is_none] in Hs; [discriminate|]. specialize (K q Eq). destruct (objs s j0) as [[| |[|] h0 fu]|] eqn:Ej; try discriminate.
    + injection Hs as <- _. rewrite set_objs. destruct (Nat.eqb_spec j j0); [subst j0; rewrite Ho in Ej|exact S]. injection Ej as -> -> ->. eexists _, _. split; [reflexivity|]. cbn [takes_future gives_away]. rewrite Nat.eqb_refl. split; intros; try discriminate; reflexivity.
    + destruct (hbool h0); [|injection Hs as <- _; exact S]. destruct fu as [f|]; [|injection Hs as <- _; exact S]. cbv zeta in Hs.
      destruct (result_set s f); injection Hs as <- _; [|rewrite enqueue_objs by exact K]; rewrite set_objs;
        (destruct (Nat.eqb_spec j j0); [subst j0; rewrite Ho in Ej|exact S]; injection Ej as -> -> ->; eexists _, _; split; [reflexivity|]; cbn [takes_future gives_away]; rewrite Nat.eqb_refl; split; intros; try discriminate; reflexivity).
  - destruct (objs s q) eqn:Eq; cbn [is_none] in Hs; [discriminate|]. specialize (K q Eq). destruct (objs s j0) as [[| |eg0 h0 [f|]]|] eqn:Ej; try discriminate; injection Hs as <- _; [|exact S].
    rewrite enqueue_objs by exact K. rewrite set_objs. destruct (Nat.eqb_spec j j0); [subst j0; rewrite Ho in Ej|exact S]. injection Ej as -> -> ->. eexists _, _. split; [reflexivity|]. cbn [takes_future gives_away]. rewrite Nat.eqb_refl. split; intros; try discriminate; reflexivity.
  - destruct (objs s i) as [[h0| |]|] eqn:Ei; try discriminate. injection Hs as <- _. unfold call. rewrite resume_objs, set_objs. destruct (Nat.eqb_spec j i); [congruence|exact S].
  - destruct (objs s q) eqn:Eq; cbn [is_none] in Hs; [discriminate|]. specialize (K q Eq). destruct (objs s i) as [[h0| |]|] eqn:Ei; try discriminate. injection Hs as <- _.
    rewrite enqueue_objs by exact K. rewrite set_objs. destruct (Nat.eqb_spec j i); [congruence|exact S].
  - destruct (objs s q) eqn:Eq; cbn [is_none] in Hs; [discriminate|]. specialize (K q Eq). destruct (objs s i) as [[h0| |]|] eqn:Ei; try discriminate. destruct (hbool h0); injection Hs as <- _; [|exact S].
    rewrite enqueue_objs by exact K. rewrite set_objs. destruct (Nat.eqb_spec j i); [congruence|exact S].
  - destruct (objs s q) as [[|h0|]|] eqn:Eq; try discriminate. destruct (stop_now s); [discriminate|]. injection Hs as <- _. unfold call. rewrite resume_objs, set_objs. destruct (Nat.eqb_spec j q); [congruence|exact S].
  - destruct (objs s i) eqn:Ei; cbn [is_none] in Hs; [discriminate|]. destruct (frames s f) as [[]|]; try discriminate. injection Hs as <- _. rewrite set_objs. destruct (Nat.eqb_spec j i); [congruence|exact S].
  - destruct (frames s f) as [[]|]; try discriminate. injection Hs as <- _. exact S.
  - destruct (frames s f) as [[]|]; try discriminate. injection Hs as <- _. exact S.
  - injection Hs as <- _. exact S.
Qed.
Lemma intact_run l : forall s s' j eg h fut, run next s l = Some s' -> objs s j = Some (OTask eg h fut) -> ~ In (EKill j) l ->
  exists h' fut', objs s' j = Some (OTask eg h' fut') /\ ((forall e, In e l -> takes_future j e = false) -> fut' = fut) /\ ((forall e, In e l -> gives_away j e = false) -> h' = h).
Proof.
  induction l as [|e l IH]; intros s s' j eg h fut Hr Ho Hk; cbn [run] in Hr; [injection Hr as <-; exists h, fut; auto|].
  destruct (next s e) as [s1|] eqn:E; [|discriminate]. destruct (intact_step _ _ _ _ _ _ _ E Ho) as (h1 & f1 & E1 & A & B); [intros ->; apply Hk; now left|].
  destruct (IH _ _ _ _ _ _ Hr E1) as (h2 & f2 & E2 & A2 & B2); [intros ?; apply Hk; now right|]. exists h2, f2. split; [exact E2|]. split; intros H.
  - rewrite A2, A by (intros; apply H; cbn; auto). reflexivity.
  - rewrite B2, B by (intros; apply H; cbn; auto). reflexivity.
Qed.

(** the event that gives the coroutine away really does *)
Lemma gives s e s' j eg h fut : Inv s None -> allowed s e -> next s e = Some s' -> objs s j = Some (OTask eg h fut) -> gives_away j e = true ->
  exists h' fut', objs s' j = Some (OTask eg h' fut') /\ (eg = false -> hbool h' = false) /\ (takes_future j e = true -> (eg = false -> hbool h = true \/ fut = None) -> fut' = None).
Proof.
  intros HI HA Hn Ho Hg. unfold next in Hn. destruct (step s e) as [[s1 o]|] eqn:Hs; [|discriminate]. cbn in Hn. injection Hn as ->. unfold step in Hs.
  destruct (ub s || terminated s); [discriminate|].
  assert (K : forall x, objs s x = None -> j <> x) by (intros x Ex ->; congruence).
  destruct e; try discriminate Hg; cbn in Hg; apply Nat.eqb_eq in Hg; subst; cbn [takes_future].
  - destruct (objs s i) eqn:Ei; cbn [is_none] in Hs; [discriminate|]. specialize (K i Ei). rewrite Ho in Hs. injection Hs as <- _. rewrite !set_objs.
    destruct (Nat.eqb_spec j i); [congruence|]. rewrite Nat.eqb_refl. eexists _, _. split; [reflexivity|]. auto.
  - destruct (objs s i) eqn:Ei; cbn [is_none] in Hs; [discriminate|]. specialize (K i Ei). rewrite Ho in Hs. injection Hs as <- _. rewrite !set_objs.
    destruct (Nat.eqb_spec j i); [congruence|]. rewrite Nat.eqb_refl. eexists _, _. split; [reflexivity|]. split; [auto|discriminate].
  - destruct (objs s q) eqn:Eq; cbn [is_none] in Hs; [discriminate|]. specialize (K q Eq). rewrite Ho in Hs. destruct eg.
    + injection Hs as <- _. rewrite Ho. eexists _, _. split; [reflexivity|]. split; discriminate.
    + destruct (HA h fut Ho) as (f & -> & Hf). destruct (result_set s f) eqn:Er.
      * injection Hs as <- _. rewrite Ho. eexists _, _. split; [reflexivity|]. split; [|discriminate]. intros _. destruct (hbool h) eqn:Eh; [|reflexivity]. exfalso.
        apply andb_true_iff in Eh as [Eh _]. destruct (i_wf _ _ HI _ _ Ho) as [_ W]. destruct (W Eh) as [_ W2].
        assert (Ow : own s j = Some f) by (unfold own, oown, hown; rewrite Ho; cbn; rewrite Eh; congruence).
        pose proof (i_park _ _ HI _ _ Ow) as Hp. rewrite (i_res _ _ HI _ Er) in Hp. destruct Hp; discriminate.
      * destruct Hf as [Eh|]; [|discriminate]. rewrite Eh in Hs. injection Hs as <- _. rewrite enqueue_objs by exact K. rewrite set_objs, Nat.eqb_refl. eexists _, _. split; [reflexivity|]. split; [reflexivity|discriminate].
  - destruct (objs s q) eqn:Eq; cbn [is_none] in Hs; [discriminate|]. specialize (K q Eq). rewrite Ho in Hs. destruct eg.
    + injection Hs as <- _. rewrite set_objs, Nat.eqb_refl. eexists _, _. split; [reflexivity|]. split; [discriminate|auto].
    + destruct (hbool h) eqn:Eh.
      * destruct (i_wf _ _ HI _ _ Ho) as [_ W]. assert (Eh' := Eh). apply andb_true_iff in Eh' as [Eh' _]. destruct (W Eh') as [_ W2].
        assert (Ow : exists f, m_h h = Some f) by (unfold hbool in Eh; destruct (m_h h); [eauto|rewrite andb_false_r in Eh; discriminate]). destruct Ow as [f Ef]. rewrite Ef in W2. subst fut. cbv zeta in Hs.
        destruct (result_set s f) eqn:Er.
        -- exfalso. assert (Ow : own s j = Some f) by (unfold own, oown, hown; rewrite Ho; cbn; rewrite Eh'; exact Ef).
           pose proof (i_park _ _ HI _ _ Ow) as Hp. rewrite (i_res _ _ HI _ Er) in Hp. destruct Hp; discriminate.
        -- injection Hs as <- _. rewrite enqueue_objs by exact K. rewrite set_objs, Nat.eqb_refl. eexists _, _. split; [reflexivity|]. auto.
      * injection Hs as <- _. rewrite Ho. eexists _, _. split; [reflexivity|]. split; [auto|]. intros _ H. destruct (H eq_refl); [discriminate|assumption].
  - destruct (objs s q) eqn:Eq; cbn [is_none] in Hs; [discriminate|]. specialize (K q Eq). rewrite Ho in Hs. destruct fut as [f|]; injection Hs as <- _.
    + rewrite enqueue_objs by exact K. rewrite set_objs, Nat.eqb_refl. eexists _, _. split; [reflexivity|]. split; [reflexivity|discriminate].
    + rewrite Ho. eexists _, _. split; [reflexivity|]. split; [|discriminate]. intros ->. destruct (hbool h) eqn:Eh; [|reflexivity]. exfalso.
      destruct (i_wf _ _ HI _ _ Ho) as [_ W]. unfold hbool in Eh. apply andb_true_iff in Eh as [Eh E2]. destruct (W Eh) as [_ W2]. cbn in W2. rewrite <- W2 in E2. discriminate.
Qed.

Lemma run_all_app l1 : forall l2 s s1, run_all next allowed s (l1 ++ l2) -> run next s l1 = Some s1 -> run_all next allowed s l1 /\ run_all next allowed s1 l2.
Proof.
  induction l1 as [|e l1 IH]; intros l2 s s1 H Hr; cbn [run run_all app] in *; [injection Hr as <-; now split|].
  destruct H as [Ha H]. destruct (next s e) as [s2|] eqn:E; [|discriminate]. destruct (IH _ _ _ (H _ eq_refl) Hr) as [A B]. split; [split; [exact Ha|]|exact B]. intros s' Es. injection Es as <-. exact A.
Qed.

(** the state of a task object after it was created, used and used again *)
Lemma after l0 c l1 e l2 s j eg : creates eg j c -> gives_away j e = true -> ~ In (EKill j) (l1 ++ l2) ->
  run_all next allowed init (l0 ++ [c] ++ l1 ++ [e] ++ l2) -> run next init (l0 ++ [c] ++ l1 ++ [e] ++ l2) = Some s ->
  exists h fut, objs s j = Some (OTask eg h fut) /\ (eg = false -> hbool h = false) /\ Inv s None.
Proof.
  intros [f Ec] Hg Hk HA Hr. pose proof (inv_run _ _ HA Hr) as HIs.
  destruct (run_app_inv _ _ _ _ _ Hr) as (s0 & R0 & Hr1). destruct (run_all_app _ _ _ _ HA R0) as [A0 HA1]. pose proof (inv_run _ _ A0 R0) as I0.
  cbn [app] in Hr1, HA1. cbn [run run_all] in Hr1, HA1. destruct HA1 as [_ HA1]. destruct (next s0 c) as [s1|] eqn:E1; [|discriminate].
  assert (O1 : exists h fut, objs s1 j = Some (OTask eg h fut)).
  { unfold next, step in E1. rewrite (i_ub _ _ I0), (i_term _ _ I0) in E1. cbn [orb] in E1. subst c. destruct eg; cbn [option_map] in E1; destruct (is_none (objs s0 j) && is_none (frames s0 f)); try discriminate E1;
      cbn in E1; injection E1 as <-; rewrite set_objs, Nat.eqb_refl; eauto. }
  destruct O1 as (h1 & f1 & O1). destruct (run_app_inv _ _ _ _ _ Hr1) as (s2 & R2 & Hr2).
  destruct (keeps_run _ _ _ _ _ _ _ R2 O1) as (h2 & f2 & O2 & _); [intros X; apply Hk, in_or_app; now left|].
  assert (Rp : run next init (l0 ++ [c] ++ l1) = Some s2) by (rewrite (run_app _ _ _ _ _ R0); cbn [app run]; rewrite E1; exact R2).
  assert (Ap : run_all next allowed init (l0 ++ [c] ++ l1) /\ run_all next allowed s2 ([e] ++ l2)).
  { apply run_all_app; [|exact Rp]. replace ((l0 ++ [c] ++ l1) ++ [e] ++ l2) with (l0 ++ [c] ++ l1 ++ [e] ++ l2) by (now rewrite <- !app_assoc). exact HA. }
  destruct Ap as [Ap Ae]. pose proof (inv_run _ _ Ap Rp) as I2. cbn [app run run_all] in Hr2, Ae. destruct Ae as [Ae _]. destruct (next s2 e) as [s3|] eqn:E3; [|discriminate].
  destruct (gives _ _ _ _ _ _ _ I2 Ae E3 O2 Hg) as (h3 & f3 & O3 & B3 & _).
  destruct (keeps_run _ _ _ _ _ _ _ Hr2 O3) as (h4 & f4 & O4 & C4 & _); [intros X; apply Hk, in_or_app; now right|].
  exists h4, f4. split; [exact O4|]. split; [|exact HIs]. auto.
Qed.
Lemma after_future l0 c l1 e l2 s j eg : creates eg j c -> takes_future j e = true -> ~ In (EKill j) (l1 ++ l2) -> (eg = false -> forall x, In x l1 -> gives_away j x = false) ->
  run_all next allowed init (l0 ++ [c] ++ l1 ++ [e] ++ l2) -> run next init (l0 ++ [c] ++ l1 ++ [e] ++ l2) = Some s ->
  exists h, objs s j = Some (OTask eg h None) /\ Inv s None.
Proof.
  intros [f Ec] Hg Hk Hfirst HA Hr. pose proof (inv_run _ _ HA Hr) as HIs.
  destruct (run_app_inv _ _ _ _ _ Hr) as (s0 & R0 & Hr1). destruct (run_all_app _ _ _ _ HA R0) as [A0 HA1]. pose proof (inv_run _ _ A0 R0) as I0.
  cbn [app] in Hr1, HA1. cbn [run run_all] in Hr1, HA1. destruct HA1 as [_ HA1]. destruct (next s0 c) as [s1|] eqn:E1; [|discriminate].
  assert (O1 : exists h fut, objs s1 j = Some (OTask eg h fut) /\ (eg = false -> hbool h = true)).
  { unfold next, step in E1. rewrite (i_ub _ _ I0), (i_term _ _ I0) in E1. cbn [orb] in E1. subst c. destruct eg; cbn [option_map] in E1; destruct (is_none (objs s0 j) && is_none (frames s0 f)); try discriminate E1;
      cbn in E1; injection E1 as <-; rewrite set_objs, Nat.eqb_refl; eexists _, _; (split; [reflexivity|]); [discriminate|reflexivity]. }
  destruct O1 as (h1 & f1 & O1 & B1). destruct (run_app_inv _ _ _ _ _ Hr1) as (s2 & R2 & Hr2).
  assert (O2 : exists h fut, objs s2 j = Some (OTask eg h fut) /\ (eg = false -> hbool h = true)).
  { assert (Hk1 : ~ In (EKill j) l1) by (intros X; apply Hk, in_or_app; now left). clear Hk Hr Hr1 Hr2 HA HA1 E1 HIs I0 R0 A0.
    revert s1 h1 f1 O1 B1 R2 Hfirst Hk1. induction l1 as [|x l1 IH]; intros s1 h1 f1 O1 B1 R2 Hfirst Hk1; cbn [run] in R2; [injection R2 as <-; eauto|].
    destruct (next s1 x) as [sx|] eqn:Ex; [|discriminate].
    assert (O : objs sx j = Some (OTask eg h1 f1) \/ (eg = true /\ exists h f, objs sx j = Some (OTask eg h f))).
    { destruct eg; [right; split; [reflexivity|]; destruct (keeps_step _ _ _ _ _ _ _ Ex O1) as (h & fu & Eo & _); [intros ->; apply Hk1; now left|eauto]|left].
      assert (Hx : gives_away j x = false) by (apply Hfirst; [reflexivity|now left]). assert (Hkx : x <> EKill j) by (intros ->; apply Hk1; now left).
      clear - Ex O1 Hx Hkx. unfold next in Ex. destruct (step s1 x) as [[sy o]|] eqn:Hs; [|discriminate]. cbn in Ex. injection Ex as ->. unfold step in Hs. destruct (ub s1 || terminated s1); [discriminate|].
      assert (K : forall y, objs s1 y = None -> j <> y) by (intros y Ey ->; congruence).
      destruct x; cbn in Hx; try apply Nat.eqb_neq in Hx.
      - destruct (objs s1 i) eqn:Ei; cbn [is_none andb] in Hs; [discriminate|]. destruct (is_none (frames s1 f)); [|discriminate]. injection Hs as <- _. rewrite set_objs. destruct (Nat.eqb_spec j i); [congruence|exact O1].
      - destruct (objs s1 i) eqn:Ei; cbn [is_none andb] in Hs; [discriminate|]. destruct (is_none (frames s1 f)); [|discriminate]. injection Hs as <- _. rewrite set_objs. destruct (Nat.eqb_spec j i); [congruence|exact O1].
      - destruct (objs s1 i) eqn:Ei; cbn [is_none] in Hs; [discriminate|]. specialize (K i Ei). destruct (objs s1 j0) as [[|h0|]|]; try discriminate; injection Hs as <- _; rewrite !set_objs;
          (destruct (Nat.eqb_spec j i); [congruence|]); (destruct (Nat.eqb_spec j j0); [congruence|exact O1]).
      - destruct (objs s1 i) as [[hi| |]|] eqn:Ei; try discriminate. destruct (objs s1 j0) as [[hj0| |]|] eqn:Ej; try discriminate. cbv zeta in Hs. match type of Hs with context [match objs ?x j0 with _ => _ end] => destruct (objs x j0) as [[hj| |]|] end; try discriminate. injection Hs as <- _.
        rewrite !set_objs. destruct (Nat.eqb_spec j i); [congruence|]. destruct (Nat.eqb_spec j j0); [congruence|]. now rewrite destroy_objs.
      - destruct (objs s1 i) eqn:Ei; [|discriminate]. injection Hs as <- _. rewrite set_objs. destruct (Nat.eqb_spec j i); [congruence|]. now rewrite destroy_objs.
      - destruct (objs s1 i) eqn:Ei; cbn [is_none] in Hs; [discriminate|]. specialize (K i Ei). destruct (objs s1 j0) as [[|h0|]|]; try discriminate. injection Hs as <- _. rewrite !set_objs.
        destruct (Nat.eqb_spec j i); [congruence|]. destruct (Nat.eqb_spec j j0); [congruence|exact O1].
      - destruct (objs s1 q) eqn:Eq; cbn [is_none] in Hs; [discriminate|]. specialize (K q Eq). destruct (objs s1 j0) as [[| |[|] h0 [g|]]|]; try discriminate; try (injection Hs as <- _; exact O1).
        destruct (result_set s1 g); [injection Hs as <- _; exact O1|]. destruct (hbool h0); injection Hs as <- _; [|exact O1]. rewrite enqueue_objs by exact K. rewrite set_objs. destruct (Nat.eqb_spec j j0); [congruence|exact O1].
      - destruct (objs s1 q) eqn:Eq; cbn [is_none] in Hs; [discriminate|]. specialize (K q Eq). destruct (objs s1 j0) as [[| |[|] h0 fu]|]; try discriminate.
        + injection Hs as <- _. rewrite set_objs. destruct (Nat.eqb_spec j j0); [congruence|exact O1].
        + destruct (hbool h0); [|injection Hs as <- _; exact O1]. destruct fu as [g|]; [|injection Hs as <- _; exact O1]. cbv zeta in Hs.
          destruct (result_set s1 g); injection Hs as <- _; [|rewrite enqueue_objs by exact K]; rewrite set_objs; (destruct (Nat.eqb_spec j j0); [congruence|exact O1]).
      - destruct (objs s1 q) eqn:Eq; cbn [is_none] in Hs; [discriminate|]. specialize (K q Eq). destruct (objs s1 j0) as [[| |eg0 h0 [g|]]|]; try discriminate; injection Hs as <- _; [|exact O1].
        rewrite enqueue_objs by exact K. rewrite set_objs. destruct (Nat.eqb_spec j j0); [congruence|exact O1].
      - destruct (objs s1 i) as [[h0| |]|] eqn:Ei; try discriminate. injection Hs as <- _. unfold call. rewrite resume_objs, set_objs. destruct (Nat.eqb_spec j i); [congruence|exact O1].
      - destruct (objs s1 q) eqn:Eq; cbn [is_none] in Hs; [discriminate|]. specialize (K q Eq). destruct (objs s1 i) as [[h0| |]|] eqn:Ei; try discriminate. injection Hs as <- _.
        rewrite enqueue_objs by exact K. rewrite set_objs. destruct (Nat.eqb_spec j i); [congruence|exact O1].
      - destruct (objs s1 q) eqn:Eq; cbn [is_none] in Hs; [discriminate|]. specialize (K q Eq). destruct (objs s1 i) as [[h0| |]|] eqn:Ei; try discriminate. destruct (hbool h0); injection Hs as <- _; [|exact O1].
        rewrite enqueue_objs by exact K. rewrite set_objs. destruct (Nat.eqb_spec j i); [congruence|exact O1].
      - destruct (objs s1 q) as [[|h0|]|] eqn:Eq; try discriminate. destruct (stop_now s1); [discriminate|]. injection Hs as <- _. unfold call. rewrite resume_objs, set_objs. destruct (Nat.eqb_spec j q); [congruence|exact O1].
      - destruct (objs s1 i) eqn:Ei; cbn [is_none] in Hs; [discriminate|]. destruct (frames s1 f) as [[]|]; try discriminate. injection Hs as <- _. rewrite set_objs. destruct (Nat.eqb_spec j i); [congruence|exact O1].
      - destruct (frames s1 f) as [[]|]; try discriminate. injection Hs as <- _. exact O1.
      - destruct (frames s1 f) as [[]|]; try discriminate. injection Hs as <- _. exact O1.
      - injection Hs as <- _. exact O1. }
    destruct O as [O|[-> (h & g & O)]].
    - apply (IH sx h1 f1 O B1 R2); [intros E y Hy; apply Hfirst; [exact E|now right]|intros X; apply Hk1; now right].
    - apply (IH sx h g O); [discriminate|exact R2|intros E; discriminate|intros X; apply Hk1; now right]. }
  destruct O2 as (h2 & f2 & O2 & B2).
  assert (Rp : run next init (l0 ++ [c] ++ l1) = Some s2) by (rewrite (run_app _ _ _ _ _ R0); cbn [app run]; rewrite E1; exact R2).
  assert (Ap : run_all next allowed init (l0 ++ [c] ++ l1) /\ run_all next allowed s2 ([e] ++ l2)).
  { apply run_all_app; [|exact Rp]. replace ((l0 ++ [c] ++ l1) ++ [e] ++ l2) with (l0 ++ [c] ++ l1 ++ [e] ++ l2) by (now rewrite <- !app_assoc). exact HA. }
  destruct Ap as [Ap Ae]. pose proof (inv_run _ _ Ap Rp) as I2. cbn [app run run_all] in Hr2, Ae. destruct Ae as [Ae _]. destruct (next s2 e) as [s3|] eqn:E3; [|discriminate].
  assert (Hg' : gives_away j e = true) by (destruct e; cbn in *; try discriminate; exact Hg).
  destruct (gives _ _ _ _ _ _ _ I2 Ae E3 O2 Hg') as (h3 & f3 & O3 & _ & C3).
  assert (f3 = None) as -> by (apply C3; [exact Hg|intros E; left; now apply B2]).
  destruct (keeps_run _ _ _ _ _ _ _ Hr2 O3) as (h4 & f4 & O4 & _ & C4); [intros X; apply Hk, in_or_app; now right|].
  rewrite (C4 eq_refl) in O4. eauto.
Qed.

(** C70: once the coroutine of a lazy task was given away (by run(), run_and_get_future(), co_await, a conversion or a move), run_and_get_future() reports an error and
    changes nothing, at any later time. *)
Theorem C70_used_up_task_reports : forall l0 f l1 e l2 s j q,
  run_all next allowed init (l0 ++ [ENewLazy j f] ++ l1 ++ [e] ++ l2) -> run next init (l0 ++ [ENewLazy j f] ++ l1 ++ [e] ++ l2) = Some s ->
  gives_away j e = true -> ~ In (EKill j) (l1 ++ l2) -> objs s q = None ->
  step s (ERunFuture j q) = Some (s, [LogicError j]).
Proof.
  intros l0 f l1 e l2 s j q HA Hr Hg Hk Hq. destruct (after l0 (ENewLazy j f) l1 e l2 s j false (ex_intro _ f eq_refl) Hg Hk HA Hr) as (h & fut & Ho & B & HI).
  unfold step. rewrite (i_ub _ _ HI), (i_term _ _ HI), Hq, Ho. cbn. now rewrite (B eq_refl).
Qed.
Print Assumptions C70_used_up_task_reports.

(** C70: once the future of a task was taken (the first use of a lazy task was run_and_get_future() or a move; an eager one at any time), awaiting the task reports an
    error and changes nothing. *)
Theorem C70_await_without_future_reports : forall eager l0 c l1 e l2 s j q,
  creates eager j c ->
  run_all next allowed init (l0 ++ [c] ++ l1 ++ [e] ++ l2) -> run next init (l0 ++ [c] ++ l1 ++ [e] ++ l2) = Some s ->
  takes_future j e = true -> (eager = false -> forall x, In x l1 -> gives_away j x = false) -> ~ In (EKill j) (l1 ++ l2) -> objs s q = None ->
  step s (EAwait j q) = Some (s, [LogicError j]).
Proof.
  intros eg l0 c l1 e l2 s j q Hc HA Hr Hg Hf Hk Hq. destruct (after_future l0 c l1 e l2 s j eg Hc Hg Hk Hf HA Hr) as (h & Ho & HI).
  unfold step. rewrite (i_ub _ _ HI), (i_term _ _ HI), Hq, Ho. reflexivity.
Qed.
Print Assumptions C70_await_without_future_reports.

(** C70: run() on an eager task never does anything. *)
Theorem C70_run_eager_harmless : forall l0 f l1 s j q,
  run_all next allowed init (l0 ++ [ENewEager j f] ++ l1) -> run next init (l0 ++ [ENewEager j f] ++ l1) = Some s -> ~ In (EKill j) l1 -> objs s q = None ->
  step s (ERun j q) = Some (s, []).
Proof.
  intros l0 f l1 s j q HA Hr Hk Hq. pose proof (inv_run _ _ HA Hr) as HI. destruct (run_app_inv _ _ _ _ _ Hr) as (s0 & R0 & Hr1). cbn [app run] in Hr1. destruct (next s0 (ENewEager j f)) as [s1|] eqn:E1; [|discriminate].
  assert (O1 : exists h fut, objs s1 j = Some (OTask true h fut)).
  { unfold next, step in E1. destruct (ub s0 || terminated s0); [discriminate|]. destruct (is_none (objs s0 j) && is_none (frames s0 f)); [|discriminate]. cbn in E1. injection E1 as <-. rewrite set_objs, Nat.eqb_refl. eauto. }
  destruct O1 as (h1 & f1 & O1). destruct (keeps_run _ _ _ _ _ _ _ Hr1 O1 Hk) as (h2 & f2 & O2 & _).
  unfold step. rewrite (i_ub _ _ HI), (i_term _ _ HI), Hq, O2. reflexivity.
Qed.
Print Assumptions C70_run_eager_harmless.

Definition used_case := [ENewLazy 0 0; ERunFuture 0 1; EWork 1; ENewEager 2 1; EMove 3 2; EFinish 1; EFinish 0].
Example C70_used_case : run_all next allowed init used_case /\
  trace next observe init (used_case ++ [ERunFuture 0 4; EAwait 0 4; EAwait 2 4; ERun 2 4]) = [LogicError 0; LogicError 0; LogicError 2].
Proof. split; [apply (run_allb_ok _ allowedb); [apply allowedb_ok|]; vm_compute; reflexivity|vm_compute; reflexivity]. Qed.

(** C70, the other way round: a task that was not used before does not complain, and does what is asked. A task whose future nobody took can be awaited;
    a lazy one nobody used at all is run by run_and_get_future(): its coroutine goes to the queue; an eager one starts nothing a second time. *)
Theorem C70_unused_task_works : forall eager l0 c l1 s j q, creates eager j c ->
  run next init (l0 ++ [c] ++ l1) = Some s -> ub s = false -> terminated s = false -> stop_now s = false ->
  ~ In (EKill j) l1 -> (forall e, In e l1 -> takes_future j e = false) -> objs s q = None ->
  (exists s', step s (EAwait j q) = Some (s', [])) /\
  ((forall e, In e l1 -> gives_away j e = false) ->
     (exists s', step s (ERunFuture j q) = Some (s', []) /\ (eager = true -> objs s' q = None) /\
        (eager = false -> exists f, c = ENewLazy j f /\ (result_set s f = false -> objs s' q = Some (OQueued (fresh_handle f)))))).
Proof.
  intros eager l0 c l1 s j q (f & Hc) Hr Hu Ht Hst Hk Htf Hq. destruct (run_app_inv _ _ _ _ _ Hr) as (s0 & R0 & Hr1). cbn [app run] in Hr1.
  destruct (next s0 c) as [s1|] eqn:E1; [|discriminate].
  assert (O1 : exists h, objs s1 j = Some (OTask eager h (Some f)) /\ (eager = false -> h = fresh_handle f)).
  { unfold next, step in E1. destruct (ub s0 || terminated s0); [discriminate|]. rewrite Hc in E1. destruct eager;
      (destruct (is_none (objs s0 j) && is_none (frames s0 f)); [|discriminate]); cbn [option_map fst] in E1; injection E1 as <-; rewrite set_objs, Nat.eqb_refl; eexists; split; try reflexivity; discriminate. }
  destruct O1 as (h & O1 & Hh). destruct (intact_run _ _ _ _ _ _ _ Hr1 O1 Hk) as (h' & fut' & O & A & B). rewrite (A Htf) in O.
  unfold step. rewrite Hu, Ht, Hq, O. cbn [orb is_none]. split; [eexists; reflexivity|]. intros Hg. rewrite (B Hg) in O. rewrite (B Hg) in *. destruct eager.
  - eexists. split; [reflexivity|]. split; [|discriminate]. intros _. rewrite set_objs. destruct (Nat.eqb_spec q j); [congruence|exact Hq].
  - rewrite (Hh eq_refl). change (hbool (fresh_handle f)) with true. cbv iota zeta. destruct (result_set s f) eqn:Er.
    + eexists. split; [reflexivity|]. split; [discriminate|]. intros _. exists f. split; [exact Hc|]. intros ?. congruence.
    + eexists. split; [reflexivity|]. split; [discriminate|]. intros _. exists f. split; [exact Hc|]. intros _. unfold enqueue. change (hbool (fresh_handle f)) with true. cbv iota.
      change (stop_now (set_obj s j (Some (OTask false empty_handle None)))) with (stop_now s). rewrite Hst. rewrite set_objs, Nat.eqb_refl. reflexivity.
Qed.
Print Assumptions C70_unused_task_works.
Example C70_unused_case : exists s, run next init [ENewLazy 0 5; ENewEager 1 6; EFinish 6; ENewLazy 2 7; EKill 2] = Some s /\ objs s 9 = None /\
  ub s = false /\ terminated s = false /\ stop_now s = false /\ objs s 1 = Some (OTask true (H (Some 6) false) (Some 6)).
Proof. eexists. split; [vm_compute; reflexivity|]. repeat split. Qed.
