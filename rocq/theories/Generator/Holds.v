(** What holds of C71, C72, C85 and C86, which are false in general. *)
From Coq Require Import List Arith Bool Lia.
From Verif.Common Require Import TS.
From Verif.Generator Require Import Model Spec Proofs Props.
Import ListNotations.

(** C71: what a body that ends by an exception yielded before arrives: the k-th answer is the k-th value, no call is ever answered by "no value" while the generator exists, and as long as not all
    values have arrived, a pending call can go on and returns after at most six steps. Missing: the call that gets the exception. *)
Theorem C71_values_before_the_exception_partial : forall V (vals : list V) l s, run (next true) (init vals) l = Some s ->
  (forall k, k < length (received s) -> nth_error (received s) k = Some (nth_error vals k)) /\
  (alive s = true -> forall k, nth_error (received s) k <> Some None) /\
  (cons s <> CIdle -> length (received s) < length vals -> exists e s', internal e = true /\ next true s e = Some s') /\
  (forall l' s', forallb internal l' = true -> run (next true) s l' = Some s' -> length l' <= 6).
Proof.
  intros V vals l s Hr. pose proof (inv_run vals true l s Hr) as H.
  assert (A1 : forall k, k < length (received s) -> nth_error (received s) k = Some (nth_error vals k)) by (intros k; exact (answers vals true l s k Hr)).
  split; [exact A1|]. split; [|split].
  - intros Al k E. assert (L : k < length (received s)) by (apply nth_error_Some; congruence). rewrite A1 in E by exact L.
    destruct (C71_exception_refuted V vals l s Hr) as [_ B]. specialize (B Al). injection E as E. apply nth_error_None in E. lia.
  - intros Hc HL. destruct H as [Hb (p & Hv & Ha & Hs)]. destruct s as [g c w sl fi re rc al bd]. cbn in *. subst bd.
    assert (NL : re = [] -> rc = map Some p -> False) by (intros -> ->; rewrite Hv, app_nil_r, map_length in HL; lia).
    destruct c; [congruence| | |]; destruct g; try contradiction Hs; repeat match goal with H : _ /\ _ |- _ => destruct H | H : exists _, _ |- _ => destruct H end; subst; try discriminate.
    + exists CWake. eexists. split; reflexivity.
    + exists GRun. eexists. split; reflexivity.
    + destruct re as [|v r]; [exfalso; now apply NL|]. exists GYield. eexists. split; reflexivity.
    + exists GPark. eexists. split; reflexivity.
    + exists GNotify. eexists. split; reflexivity.
    + exfalso; now apply NL.
    + exists CResume. eexists. split; reflexivity.
  - intros l' s' Hi Hr'. pose proof (internal_bounded vals true l' s s' H Hi Hr'). pose proof (rank_le s). lia.
Qed.
Print Assumptions C71_values_before_the_exception_partial.
Example C71_case : exists s, run (next true) (init [5; 6]) [CCall; CWake; GRun; GYield; GPark; GNotify; CResume; CCall; CWake; GRun] = Some s /\
  (cons s, received s, alive s) = (CWaiting, [Some 5], true).
Proof. apply run_proj_ok with (f := fun s => (cons s, received s, alive s)). vm_compute. reflexivity. Qed.

(** C72: without ties between the two inputs, merge(l, r) is std::merge(l, r). *)
Theorem C72_without_ties_partial : forall V (comp : V -> V -> bool) l r, strict_weak comp ->
  (forall x y, In x l -> In y r -> comp x y = true \/ comp y x = true) -> merge comp l r = std_merge comp l r.
Proof.
  intros V comp l r (I & T & _). revert r. induction l as [|x l IHl]; intros r; [intros _; rewrite merge_nil_l; now destruct r|].
  induction r as [|y r IHr]; intros N; [rewrite merge_nil_r; reflexivity|]. rewrite merge_cons, std_cons.
  assert (E : comp x y = negb (comp y x)).
  { destruct (comp x y) eqn:E1, (comp y x) eqn:E2; cbn; try reflexivity.
    - rewrite <- (I x). symmetry. now apply (T x y x).
    - destruct (N x y) as [B|B]; [now left|now left|congruence..]. }
  rewrite E. destruct (comp y x); cbn; f_equal; [apply IHr; intros a b A B; apply N; [exact A|now right]|apply IHl; intros a b A B; apply N; [now right|exact B]].
Qed.
Print Assumptions C72_without_ties_partial.
Example C72_case : merge by_key [(1,0);(4,0)] [(2,1);(3,1)] = std_merge by_key [(1,0);(4,0)] [(2,1);(3,1)].
Proof. apply C72_without_ties_partial; [exact C21_strict_weak_case|]. cbn. intros x y [<-|[<-|[]]] [<-|[<-|[]]]; cbn; auto. Qed.

(** C85: when the consumer has been told the end, nothing of the body is left but the destruction of its local variables, which is one step that
    nothing can prevent and that changes nothing for the consumer. Missing: that the step has been made. *)
Theorem C85_only_destruction_is_left_partial : forall V (vals : list V) throws l s k, run (next throws) (init vals) l = Some s -> nth_error (received s) k = Some None ->
  gen s = GGone \/ (gen s = GRet2 /\ exists s', next throws s GDone = Some s' /\ gen s' = GGone /\ cons s' = cons s /\ received s' = received s).
Proof.
  intros V vals throws l s k Hr Hk. destruct (inv_run vals throws l s Hr) as [Hb (p & Hv & Ha & Hs)]. destruct s as [g c w sl fi re rc al bd]. cbn in *. subst bd.
  assert (N : forall q : list V, rc = map Some q -> False). { intros q ->. rewrite nth_error_map in Hk. destruct (nth_error q k); discriminate. }
  destruct c, g; try contradiction Hs; repeat match goal with H : _ /\ _ |- _ => destruct H | H : exists _, _ |- _ => destruct H end; auto;
    try (exfalso; eapply N; eassumption); right; (split; [reflexivity|]); eexists; (split; [reflexivity|]); cbn; auto.
Qed.
Print Assumptions C85_only_destruction_is_left_partial.
Example C85_case : exists s, run (next false) (init [5]) [CCall; CWake; GRun; GYield; GPark; GNotify; CResume; CCall; CWake; GRun; GReturn; GRetNotify; CResume; GDone; CCall] = Some s /\
  (gen s, received s) = (GGone, [Some 5; None; None]).
Proof. apply run_proj_ok with (f := fun s => (gen s, received s)). vm_compute. reflexivity. Qed.

(** C86: assigning to a generator object that holds nothing moves the body: no frame is lost, and every living one is held by exactly one object. Missing: targets that hold a body. *)
Theorem C86_over_an_empty_generator_partial : forall l s s' i j, run_all onext empty_target oinit l -> run onext oinit l = Some s ->
  gobj s i = Some None -> onext s (OAssign i j) = Some s' ->
  gobj s' i = gobj s j /\ (forall f, falive s' f = falive s f) /\
  forall f, falive s' f = true -> exists k, gobj s' k = Some (Some f) /\ forall k', gobj s' k' = Some (Some f) -> k' = k.
Proof.
  intros l s s' i j HA Hr He Hn.
  assert (HA' : run_all onext empty_target oinit (l ++ [OAssign i j])).
  { clear - HA Hr He. revert HA Hr. generalize oinit. induction l as [|e l IH]; intros o HA Hr; cbn in *.
    - injection Hr as ->. split; [intros a b [= <- <-] _; exact He|auto].
    - destruct HA as [H1 H2]. split; [exact H1|]. intros o' E. rewrite E in Hr. now apply IH; [apply H2|]. }
  assert (Hr' : run onext oinit (l ++ [OAssign i j]) = Some s') by (rewrite (run_app _ _ _ _ _ Hr); cbn [run]; now rewrite Hn).
  split; [|split].
  - cbn in Hn. rewrite He in Hn. destruct (gobj s j) as [p|] eqn:E; [|discriminate]. destruct (Nat.eqb_spec i j) as [EE|NE]; injection Hn as <-; [subst j; congruence|]. cbn. now rewrite upd_same.
  - intros f. cbn in Hn. rewrite He in Hn. destruct (gobj s j); [|discriminate]. destruct (i =? j); injection Hn as <-; reflexivity.
  - intros f Hf. destruct (C57_no_leak _ _ HA' Hr' f) as [A B]. apply A in Hf as (k & Hk). exists k. split; [exact Hk|]. intros k' Hk'. now apply B.
Qed.
Print Assumptions C86_over_an_empty_generator_partial.
Example C86_case : exists s, run onext oinit [OMake 0 7; OMake 1 8; OMove 2 0; OAssign 0 1; OKill 0; OKill 1; OKill 2] = Some s /\ (falive s 7, falive s 8) = (false, false).
Proof. apply run_proj_ok with (f := fun s => (falive s 7, falive s 8)). vm_compute. reflexivity. Qed.
