From Coq Require Import List Arith Bool Lia Permutation.
From Verif.Common Require Import TS.
From Verif.Generator Require Import Model Spec Proofs.
Import ListNotations.

(** C19: under every interleaving, the k-th call of next_value_async returns the k-th value the body yields, and "no value" beyond
    the last. (Also for bodies that end by throwing, as far as calls return at all.) *)
Theorem C19_values_in_order : forall V (vals : list V) throws l s k,
  run (next throws) (init vals) l = Some s -> k < length (received s) -> nth_error (received s) k = Some (answer vals k).
Proof. intros V vals throws l s k. exact (answers vals throws l s k). Qed.
Print Assumptions C19_values_in_order.

(** C19: no assertion fails, no null handle is woken *)
Theorem C19_no_assertion_fails : forall V (vals : list V) throws l s,
  run (next throws) (init vals) l = Some s -> bad s = false.
Proof. intros V vals throws l s Hr. apply (inv_run vals throws l s Hr). Qed.
Print Assumptions C19_no_assertion_fails.

(** C19: on demand only: at most one value was yielded beyond those received, none while no call is pending. *)
Theorem C19_on_demand : forall V (vals : list V) throws l s,
  run (next throws) (init vals) l = Some s -> length vals <= S (length (rest s) + length (received s)) /\
  (cons s = CIdle -> finalized s = false -> length vals = length (rest s) + length (received s)).
Proof.
  intros V vals throws l s Hr. destruct (received_spec vals throws s (inv_run vals throws l s Hr)) as (p & n & r & E1 & E2 & E3 & E4 & E5).
  rewrite E1, app_length, map_length, repeat_length. split.
  - rewrite E2, app_length. lia.
  - intros Hc Hf. specialize (E5 Hc Hf). destruct n as [|n]; [rewrite E2, app_length; lia|].
    (* with a "no value" answer the generator is finalized *)
    destruct (inv_run vals throws l s Hr) as [_ (q & Hv & _ & Hs)]. rewrite Hc in Hs.
    destruct (gen s); try contradiction; try (destruct Hs as [Hs _]; congruence).
    destruct Hs as (_ & _ & Hs). assert (E : In (@None V) (map Some q)).
    { rewrite <- Hs, E1. apply in_or_app. right. cbn. now left. }
    apply in_map_iff in E as (x & E & _). discriminate.
Qed.
Print Assumptions C19_on_demand.

(** C19: a call always returns when the body does not throw: while a call is pending some step of the runtime is possible, and at
    most six such steps are possible before it has returned, in any order. *)
Theorem C19_call_returns : forall V (vals : list V) l s,
  run (next false) (init vals) l = Some s ->
  (cons s <> CIdle -> exists e s', internal e = true /\ next false s e = Some s') /\
  (forall l' s', forallb internal l' = true -> run (next false) s l' = Some s' -> length l' <= 6).
Proof.
  intros V vals l s Hr. pose proof (inv_run vals false l s Hr) as H. split.
  - exact (enabled vals false s H eq_refl).
  - intros l' s' Hi Hr'. pose proof (internal_bounded vals false l' s s' H Hi Hr'). pose proof (rank_le s). lia.
Qed.
Print Assumptions C19_call_returns.

(** C19: as many answers as calls, but for the one that is pending; and a call is possible whenever the consumer is not inside one and the
    generator object exists, that is, until the consumer destroys it. *)
Definition calls (l : list event) : nat := length (filter (fun e => match e with CCall => true | _ => false end) l).
Theorem C19_every_call_answered : forall V (vals : list V) throws l s, run (next throws) (init vals) l = Some s ->
  calls l = length (received s) + match cons s with CIdle => 0 | _ => 1 end /\
  (cons s = CIdle -> ~ In ODestroy l -> exists s', next throws s CCall = Some s').
Proof.
  intros V vals throws l s Hr. pose proof (inv_run vals throws l s Hr) as [Hb _].
  assert (G : forall l s, run (next throws) (init vals) l = Some s -> calls l = length (received s) + match cons s with CIdle => 0 | _ => 1 end /\ (~ In ODestroy l -> alive s = true)).
  { clear l s Hr Hb. intros l. induction l as [|e l IH] using rev_ind; intros s Hr; [injection Hr as <-; split; reflexivity|].
    apply run_app_inv in Hr. destruct Hr as (s1 & H1 & H2). cbn [run] in H2. destruct (next throws s1 e) as [s2|] eqn:E; [|discriminate]. injection H2 as <-.
    destruct (IH s1 H1) as [IHc IHa]. pose proof (inv_next vals throws _ _ _ (inv_run vals throws l s1 H1) E) as [Hb2 HI2].
    pose proof (inv_run vals throws l s1 H1) as [Hb1 (p1 & _ & _ & HI1)].
    unfold calls in *. rewrite filter_app, app_length, IHc.
    split; [|intros Hn; rewrite in_app_iff in Hn; unfold next in E; rewrite Hb1 in E].
    - unfold next in E. rewrite Hb1 in E. destruct e; cbn [filter length]; repeat (match type of E with context[match ?x with _ => _ end] => destruct x eqn:? end; try discriminate);
        injection E as <-; cbn [received cons bad] in *; rewrite ?app_length; cbn [length]; try discriminate; try lia; try contradiction; try (destruct HI1; discriminate); destruct (cons s1); try contradiction; cbn; lia.
    - destruct e; try (exfalso; apply Hn; right; now left); repeat (match type of E with context[match ?x with _ => _ end] => destruct x eqn:? end; try discriminate);
        injection E as <-; cbn [alive]; auto. }
  destruct (G l s Hr) as [G1 G2]. split; [exact G1|]. intros Hc Hn. unfold next. rewrite Hb, Hc, (G2 Hn). destruct (finalized s); [eauto|]. destruct (waiting s); eauto.
Qed.
Print Assumptions C19_every_call_answered.

(** C19 refuted when the body throws: the call that makes it throw never returns; neither a value nor an exception arrives. *)
Theorem C71_exception_refuted : forall V (vals : list V) l s,
  run (next true) (init vals) l = Some s ->
  (gen s = GThrown -> cons s = CWaiting /\ forall l' s', run (next true) s l' = Some s' -> s' = s /\ l' = []) /\
  (alive s = true -> length (received s) <= length vals).
Proof.
  intros V vals l s Hr. pose proof (inv_run vals true l s Hr) as H. destruct H as [Hb (p & Hv & Ha & Hs)]. split.
  - intros Hg. rewrite Hg in Hs. destruct (cons s) eqn:Hc; try contradiction. split; [reflexivity|]. intros l' s'. now apply thrown_stuck.
  - intros Hal. assert (L : length p <= length vals) by (rewrite Hv, app_length; lia).
    assert (K : received s = map Some p -> length (received s) <= length vals) by (intros ->; rewrite map_length; exact L).
    assert (K2 : (exists p' v, p = p' ++ [v] /\ received s = map Some p' /\ slot s = Some v) -> length (received s) <= length vals).
    { intros (p' & v & -> & -> & _). rewrite app_length in L. rewrite map_length. lia. }
    destruct (cons s), (gen s); try contradiction; repeat match goal with H : _ /\ _ |- _ => destruct H end;
      try discriminate; try (apply K; assumption); try (apply K2; assumption).
    + destruct (H2 Hal); discriminate.
    + destruct (H2 Hal); discriminate.
Qed.
Print Assumptions C71_exception_refuted.
Example C19_exception_case : exists s,
  run (next true) (init [5]) [CCall; CWake; GRun; GYield; GPark; GNotify; CResume; CCall; CWake; GRun; GThrow] = Some s /\
  (gen s, cons s, received s) = (GThrown, CWaiting, [Some 5]).
Proof. apply run_proj_ok with (f := fun s => (gen s, cons s, received s)). vm_compute. reflexivity. Qed.
Example C19_case : exists s,
  run (next false) (init [5; 6]) [CCall; CWake; GRun; GYield; GPark; GNotify; CResume; CCall; CWake; GRun; GYield; GPark; GNotify; CResume;
     CCall; CWake; GRun; GReturn; GRetNotify; CResume; CCall; GDone; CCall; ODestroy] = Some s /\
  (gen s, received s) = (GGone, [Some 5; Some 6; None; None; None]).
Proof. apply run_proj_ok with (f := fun s => (gen s, received s)). vm_compute. reflexivity. Qed.

(** C85 refuted: the consumer can learn that the generator ended while the body's local variables still exist (GRet2). *)
Theorem C85_end_seen_before_locals_destroyed_refuted : exists s,
  run (next false) (init (@nil nat)) [CCall; CWake; GRun; GReturn; GRetNotify; CResume] = Some s /\ (gen s, received s) = (GRet2, [None]).
Proof. apply run_proj_ok with (f := fun s => (gen s, received s)). vm_compute. reflexivity. Qed.
Print Assumptions C85_end_seen_before_locals_destroyed_refuted.
(** C56: if instead the generator object is destroyed while suspended, the frame is gone when the destructor returns. *)
Theorem C56_destructor_destroys_suspended : forall V (vals : list V) throws l s s',
  run (next throws) (init vals) l = Some s -> gen s = GParked -> next throws s ODestroy = Some s' -> gen s' = GGone /\ bad s' = false.
Proof.
  intros V vals throws l s s' Hr Hg Hn. pose proof (inv_next vals throws _ _ _ (inv_run vals throws l s Hr) Hn) as [Hb _]. split; [|exact Hb].
  revert Hn. unfold next. destruct (bad s); [discriminate|]. destruct (cons s); try discriminate. destruct (alive s); try discriminate.
  rewrite Hg. intros E; inversion E; reflexivity.
Qed.
Print Assumptions C56_destructor_destroys_suspended.

(** C56: once the generator object has been destroyed, the body runs no more code: it is gone, or it had already returned and is
    destroying its local variables. *)
Theorem C56_body_does_not_outlive_the_object : forall V (vals : list V) throws l s,
  run (next throws) (init vals) l = Some s -> alive s = false -> gen s = GGone \/ gen s = GRet2.
Proof.
  intros V vals throws l s Hr Ha. destruct (inv_run vals throws l s Hr) as [_ (p & _ & H1 & H2)]. destruct (H1 Ha) as [Hc Hf].
  rewrite Hc in H2. destruct (gen s); auto; try contradiction; destruct H2; congruence.
Qed.
Print Assumptions C56_body_does_not_outlive_the_object.
(** a generator of three values destroyed after the first *)
Example C56_case : exists s s', run (next false) (init [5; 6; 7]) [CCall; CWake; GRun; GYield; GPark; GNotify; CResume] = Some s /\
  (gen s, received s) = (GParked, [Some 5]) /\ next false s ODestroy = Some s' /\ (gen s', alive s') = (GGone, false).
Proof. do 2 eexists. split; [vm_compute; reflexivity|]. repeat split; vm_compute; reflexivity. Qed.
(** C20: unique() yields the heads of the maximal runs of equivalent consecutive values. *)
Theorem C20_unique : forall V (equal : V -> V -> bool) src,
  exists runs, src = concat runs /\ is_runs equal runs /\ unique_impl equal src = heads runs.
Proof.
  intros V equal [|c src].
  - exists []. cbn. auto.
  - destruct (unique_loop_runs equal src c) as (runs & H1 & H2 & H3 & _). exists runs. auto.
Qed.
Print Assumptions C20_unique.
(** hence no two neighbours in the output are equivalent *)
Theorem C20_no_equal_neighbours : forall V (equal : V -> V -> bool) src a b x y,
  unique_impl equal src = a ++ x :: y :: b -> equal x y = false.
Proof.
  intros V equal src a b x y H. destruct (C20_unique V equal src) as (runs & _ & Hr & E). rewrite E in H. clear E src. revert a H.
  induction runs as [|r runs IH]; intros a H; [destruct a; discriminate|]. destruct Hr as [H1 H2]. destruct r as [|z zs]; [destruct H1|]. cbn in H.
  destruct a as [|w a]; cbn in H; inversion H; subst; [|eauto].
  destruct H1 as [_ H1]. destruct runs as [|[|u us] runs]; cbn in *; try discriminate; [destruct H2 as [[] _]|]. inversion H4; subst. exact H1.
Qed.
Print Assumptions C20_no_equal_neighbours.
Example C20_case : unique_impl Nat.eqb [1;1;2;2;2;1;3;3] = [1;2;1;3]. Proof. reflexivity. Qed.

(** C21: merge() of two generators: every value of both inputs exactly once, each input in its own order ... *)
Theorem C21_interleaving : forall V (comp : V -> V -> bool) l r, interleaving l r (merge comp l r).
Proof. intros V comp l r. exact (merge_interleaving comp l r). Qed.
Print Assumptions C21_interleaving.
Theorem C21_permutation : forall V (comp : V -> V -> bool) l r, Permutation (merge comp l r) (l ++ r).
Proof. intros. apply inter_perm, merge_interleaving. Qed.
Print Assumptions C21_permutation.
(** ... sorted if both inputs are *)
Theorem C21_sorted : forall V (comp : V -> V -> bool), strict_weak comp ->
  forall l r, sorted comp l -> sorted comp r -> sorted comp (merge comp l r).
Proof. intros V comp. exact (merge_sorted comp). Qed.
Print Assumptions C21_sorted.
(** C21 refuted: on ties the second input comes first; koios' merge(l, r) is std::merge(r, l). *)
Theorem C72_ties_refuted : forall V (comp : V -> V -> bool) l r, merge comp l r = std_merge comp r l.
Proof. intros V comp. exact (merge_std comp). Qed.
Print Assumptions C72_ties_refuted.
Definition by_key (a b : nat * nat) : bool := fst a <? fst b.
Example C21_case : merge by_key [(1,0);(2,0);(4,0)] [(2,1);(3,1)] = [(1,0);(2,1);(2,0);(3,1);(4,0)] /\
  std_merge by_key [(1,0);(2,0);(4,0)] [(2,1);(3,1)] = [(1,0);(2,0);(2,1);(3,1);(4,0)].
Proof. split; reflexivity. Qed.
Example C21_strict_weak_case : strict_weak by_key.
Proof.
  unfold strict_weak, by_key. repeat split; intros; repeat match goal with
    | H : (_ <? _) = true |- _ => apply Nat.ltb_lt in H | H : (_ <? _) = false |- _ => apply Nat.ltb_ge in H
    | |- (_ <? _) = true => apply Nat.ltb_lt | |- (_ <? _) = false => apply Nat.ltb_ge end; lia.
Qed.

(** C57 refuted: move-assigning to a generator leaks the one it held. *)
Theorem C86_move_assign_leaks_refuted : exists s,
  run onext oinit [OMake 0 7; OMake 1 8; OAssign 0 1; OKill 0; OKill 1] = Some s /\
  (gobj s 0, gobj s 1, falive s 7, falive s 8) = (None, None, true, false).
Proof. apply run_proj_ok with (f := fun s => (gobj s 0, gobj s 1, falive s 7, falive s 8)). vm_compute. reflexivity. Qed.
Print Assumptions C86_move_assign_leaks_refuted.
(** C57: without that, generators never leak: every living frame is held by exactly one object. *)
Theorem C57_no_leak : forall l s, run_all onext empty_target oinit l -> run onext oinit l = Some s ->
  forall f, (falive s f = true <-> exists i, gobj s i = Some (Some f)) /\
            (forall i j, gobj s i = Some (Some f) -> gobj s j = Some (Some f) -> i = j).
Proof.
  intros l s HA Hr f. assert (H : OInv s).
  { refine (run_inv_cond onext empty_target OInv _ l oinit s _ HA Hr).
    - intros; eapply oinv_next; eauto.
    - split; cbn; intros; discriminate. }
  destruct H. repeat split; eauto. intros [i Hi]. apply (o_made _ _ Hi).
Qed.
Print Assumptions C57_no_leak.
Example C57_case : exists s, run onext oinit [OMake 0 7; OMove 1 0; OKill 0; OMake 2 8; OKill 1] = Some s /\ (falive s 7, falive s 8) = (false, true).
Proof. apply run_proj_ok with (f := fun s => (falive s 7, falive s 8)). vm_compute. reflexivity. Qed.
