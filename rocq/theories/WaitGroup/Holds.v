(** What holds of C92 (done(0)) and C80 (guards that are overwritten). *)
From Coq Require Import List Arith NArith Bool Lia.
From Verif.Common Require Import TS ListX.
From Verif.WaitGroup Require Import Model Spec Proofs.
From Verif.WaitGroup Require Guard GuardProofs.
Import ListNotations.

Section C92.
Local Open Scope N_scope.

Lemma add64_lt a b : add64 a b < size_max1. Proof. apply N.mod_lt. discriminate. Qed.
Lemma sub64_lt a b : sub64 a b < size_max1. Proof. apply N.mod_lt. discriminate. Qed.
Lemma count_lt : forall l s, run step init l = Some s -> count s < size_max1.
Proof.
  intros l s Hr. refine (run_inv step (fun s => count s < size_max1) _ l init s _ Hr); [|reflexivity].
  intros s0 e s1 H Hs. destruct e as [i n|i n|i k|i|i|i|i]; cbn [step] in Hs; destruct (at_ s0 i); try discriminate.
  - injection Hs as <-. apply add64_lt.
  - injection Hs as <-. destruct (count s0 =? 1); apply sub64_lt.
  - destruct (take_nth k (waitings s0)) as [[w rest]|]; [|discriminate]. injection Hs as <-. exact H.
  - destruct (waitings s0); [|discriminate]. injection Hs as <-. exact H.
  - injection Hs as <-. exact H.
  - injection Hs as <-. exact H.
  - injection Hs as <-. exact H.
Qed.
Lemma sub64_0 a : a < size_max1 -> sub64 a 0 = a.
Proof.
  intros H. unfold sub64. rewrite N.mod_0_l by discriminate. rewrite N.sub_0_r.
  rewrite <- (N.mod_small a size_max1 H) at 2. replace (a + size_max1) with (a + 1 * size_max1) by lia. apply N.mod_add. discriminate.
Qed.

(** Whatever happened before: done(0) leaves the counter alone; unless the counter is exactly 1 it changes nothing at all
    (nobody is resumed, nobody's place changes), so that the rest of the execution is one of the program without that call. *)
Theorem C92_done_zero_otherwise_harmless_partial : forall l1 s i l2 s',
  run step init l1 = Some s -> count s <> 1 ->
  run step init (l1 ++ EDone i 0 :: l2) = Some s' ->
  run step init (l1 ++ l2) = Some s' /\
  trace step observe init (l1 ++ EDone i 0 :: l2) = trace step observe init l1 ++ observe s (EDone i 0) s ++ trace step observe s l2.
Proof.
  intros l1 s i l2 s' H1 Hc Hr. rewrite (run_app step init l1 _ s H1) in Hr. rewrite (run_app step init l1 _ s H1). cbn [run] in Hr.
  assert (E : forall x, step s (EDone i 0) = Some x -> x = s).
  { intros x Hx. cbn [step] in Hx. destruct (at_ s i); try discriminate. apply N.eqb_neq in Hc. rewrite Hc in Hx.
    rewrite sub64_0 in Hx by (eapply count_lt; eauto). injection Hx as <-. destruct s; reflexivity. }
  destruct (step s (EDone i 0)) as [x|] eqn:Ex; [|discriminate]. specialize (E x eq_refl). subst x. split; [exact Hr|].
  rewrite (trace_app step observe init l1 _ s H1). f_equal. cbn [trace]. now rewrite Ex.
Qed.
Theorem C92_done_zero_keeps_counter_partial : forall l s i s',
  run step init l = Some s -> step s (EDone i 0) = Some s' -> count s' = count s /\ waitings s' = waitings s.
Proof.
  intros l s i s' Hr Hs. cbn [step] in Hs. destruct (at_ s i); try discriminate.
  pose proof (sub64_0 _ (count_lt _ _ Hr)) as E. injection Hs as <-. destruct (count s =? 1); cbn; auto.
Qed.
(** two waits pending at counter 2: done(0) wakes neither *)
Example C92_case : exists s s', run step init [EAdd 0 2; EWait 1; EEnqueue 1] = Some s /\ count s <> 1 /\
  run step init ([EAdd 0 2; EWait 1; EEnqueue 1] ++ EDone 2 0 :: [EDone 2 1; EDone 2 1; EDrain 2 0; EResume 1]) = Some s' /\ waitings s' = [].
Proof. eexists. eexists. split; [vm_compute; reflexivity|]. split; [discriminate|]. split; vm_compute; reflexivity. Qed.
End C92.
Print Assumptions C92_done_zero_otherwise_harmless_partial.
Print Assumptions C92_done_zero_keeps_counter_partial.

Import Guard GuardProofs.

(** What one operation throws away: the registration of a guard that is assigned over or cleared while it has one. *)
Definition thrown_away (g : nat) (s : state) (o : op) : nat :=
  match o with
  | OMoveAssign dst _ => registered_of g (get s dst)
  | OClear h => registered_of g (get s h)
  | _ => 0
  end.
Fixpoint lost (g : nat) (s : state) (l : list op) : nat :=
  match l with
  | [] => 0
  | o :: l' => match step s o with Some s' => thrown_away g s o + lost g s' l' | None => 0 end
  end.

Lemma step_exact g s o s' : step s o = Some s' ->
  added g (log s') + undone g (log s) + registered g s = added g (log s) + undone g (log s') + registered g s' + thrown_away g s o.
Proof.
  intros Hs. destruct o as [|g' n|src|dst src|h|h]; cbn [step] in Hs; cbn [thrown_away].
  - inversion Hs; subst. unfold registered, new in *; cbn [guards log]. rewrite sumf_app. cbn [sumf registered_of]. lia.
  - inversion Hs; subst. unfold registered, new, emit, added, undone in *; cbn [guards log].
    rewrite !sumf_app. cbn [sumf is_add is_done registered_of]. destruct (Nat.eqb g g'); lia.
  - destruct (get s src) as [x|] eqn:Gs; [|discriminate]. inversion Hs; subst.
    unfold clear. rewrite Gs.
    pose proof (registered_put g s src (Some {| m_parent := None; m_count := m_count x |}) _ Gs) as P.
    rewrite reg_none in P.
    unfold new in *. cbn [log put]. unfold registered at 2. cbn [guards].
    rewrite sumf_app. fold (registered g (put s src (Some {| m_parent := None; m_count := m_count x |}))).
    cbn [sumf]. lia.
  - destruct (get s dst) as [xd|] eqn:Gd; [|discriminate].
    destruct (get s src) as [xs|] eqn:Gs; [|discriminate]. inversion Hs; subst; clear Hs.
    destruct (Nat.eq_dec dst src) as [->|Hne].
    + destruct (move_assign_self s src _ Gd) as (s' & -> & _ & Hl & Hr & _).
      rewrite Hl. specialize (Hr g). lia.
    + rewrite (move_assign_eq _ _ _ _ _ Gd Gs Hne). cbn [m_count m_parent].
      set (s1 := put s dst _).
      assert (G1d : get s1 dst = Some {| m_parent := None; m_count := m_count xd |}) by (eapply get_put_same; eauto).
      assert (G1s : get s1 src = Some xs) by (unfold s1; rewrite get_put_other; auto).
      set (s2 := put s1 src _).
      assert (G2d : get s2 dst = Some {| m_parent := None; m_count := m_count xd |}) by (unfold s2; rewrite get_put_other; auto).
      set (s3 := put s2 dst _).
      assert (G3d : get s3 dst = Some {| m_parent := m_parent xs; m_count := m_count xd |}) by (eapply get_put_same; eauto).
      pose proof (registered_put g s dst (Some {| m_parent := None; m_count := m_count xd |}) _ Gd) as P1.
      pose proof (registered_put g s1 src (Some {| m_parent := None; m_count := m_count xs |}) _ G1s) as P2.
      pose proof (registered_put g s2 dst (Some {| m_parent := m_parent xs; m_count := m_count xd |}) _ G2d) as P3.
      pose proof (registered_put g s3 dst (Some {| m_parent := m_parent xs; m_count := m_count xs |}) _ G3d) as P4.
      fold s1 in P1. fold s2 in P2. fold s3 in P3. rewrite !reg_none in *.
      change (log (put s3 dst (Some {| m_parent := m_parent xs; m_count := m_count xs |}))) with (log s).
      destruct xs as [[px|] cs]; cbn [m_parent m_count registered_of] in *; lia.
  - destruct (get s h) as [x|] eqn:Gh; [|discriminate]. inversion Hs; subst; clear Hs.
    unfold clear. rewrite Gh.
    pose proof (registered_put g s h (Some {| m_parent := None; m_count := m_count x |}) _ Gh) as P.
    rewrite !reg_none in P. cbn [m_count log put]. lia.
  - destruct (get s h) as [x|] eqn:Gh; [|discriminate]. destruct x as [[g'|] c]; cbn [m_parent m_count] in Hs; inversion Hs; subst; clear Hs.
    + pose proof (registered_put g (emit s (Done g' c)) h None _ Gh) as P.
      change (registered g (emit s (Done g' c))) with (registered g s) in P. cbn [registered_of] in P.
      unfold added, undone in *. cbn [log put emit]. rewrite !sumf_app. cbn [sumf is_add is_done].
      destruct (Nat.eqb g g'); lia.
    + pose proof (registered_put g s h None _ Gh) as P. cbn [registered_of] in P. cbn [log put]. lia.
Qed.
Lemma run_exact g : forall l s s', run step s l = Some s' ->
  added g (log s') + undone g (log s) + registered g s = added g (log s) + undone g (log s') + registered g s' + lost g s l.
Proof.
  induction l as [|o l IH]; cbn [run lost]; intros s s' Hr; [injection Hr as <-; lia|].
  destruct (step s o) as [s1|] eqn:E; [|discriminate]. pose proof (step_exact g s o s1 E). pose proof (IH _ _ Hr). lia.
Qed.

(** For every program over guards, once all are destroyed: exactly the registrations that were assigned over or cleared while
    live have not been undone; in particular nothing else is ever leaked. *)
Theorem C80_only_overwritten_is_leaked_partial : forall g l s, run step init l = Some s -> all_gone s ->
  added g (log s) = undone g (log s) + lost g init l.
Proof.
  intros g l s Hr Ha. pose proof (run_exact g _ _ _ Hr) as E. rewrite (registered_gone g s Ha) in E. cbn in E. lia.
Qed.
Print Assumptions C80_only_overwritten_is_leaked_partial.
(** Assigning over a guard without a registration moves the registration, and the source has none any more. *)
Theorem C80_assign_over_empty_partial : forall l s dst src s' x, run step init l = Some s -> step s (OMoveAssign dst src) = Some s' ->
  dst <> src -> get s src = Some x -> get s' dst = Some x /\ log s' = log s /\ get s' src = Some (G None (m_count x)).
Proof.
  intros l s dst src s' x _ Hs Hne Gs. cbn [step] in Hs. destruct (get s dst) as [xd|] eqn:Gd; [|discriminate]. rewrite Gs in Hs.
  injection Hs as <-. rewrite (move_assign_eq _ _ _ _ _ Gd Gs Hne). cbn [m_count m_parent].
  set (s1 := put s dst _). set (s2 := put s1 src _). set (s3 := put s2 dst _).
  assert (G1s : get s1 src = Some x) by (unfold s1; rewrite get_put_other; auto).
  assert (G2s : get s2 src = Some (G None (m_count x))) by (eapply get_put_same; eauto).
  assert (G2d : get s2 dst = Some (G None (m_count xd))) by (unfold s2; rewrite get_put_other by auto; eapply get_put_same; eauto).
  assert (G3d : get s3 dst = Some (G (m_parent x) (m_count xd))) by (eapply get_put_same; eauto).
  split; [|split].
  - rewrite (get_put_same s3 dst _ _ G3d). destruct x; reflexivity.
  - reflexivity.
  - rewrite get_put_other by auto. unfold s3. rewrite get_put_other by auto. exact G2s.
Qed.
Print Assumptions C80_assign_over_empty_partial.
Example C80_case : exists s, run step init [ONew 0 2; ONew 0 3; ODefault; OMoveAssign 2 0; OMoveAssign 2 1; ODestroy 0; ODestroy 1; ODestroy 2] = Some s /\
  added 0 (log s) = 5 /\ undone 0 (log s) = 3 /\ lost 0 init [ONew 0 2; ONew 0 3; ODefault; OMoveAssign 2 0; OMoveAssign 2 1; ODestroy 0; ODestroy 1; ODestroy 2] = 2.
Proof. eexists. split; [reflexivity|]. vm_compute. auto. Qed.
