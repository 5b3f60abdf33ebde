From Coq Require Import List Arith Bool Lia.
From Verif.Common Require Import TS ListX.
From Verif.WaitGroup Require Import Guard.
Import ListNotations.

Definition bal (g : nat) (s : state) : Prop :=
  added g (log s) = undone g (log s) + registered g s.

Lemma get_nth s h x : get s h = Some x -> nth_error (guards s) h = Some (Some x).
Proof. unfold get. destruct (nth_error (guards s) h) as [[y|]|]; congruence. Qed.
Lemma get_put_same s h x y : get s h = Some y -> get (put s h (Some x)) h = Some x.
Proof.
  intros Hg. apply get_nth, nth_error_lt in Hg. unfold get, put; cbn.
  now rewrite nth_error_set_same.
Qed.
Lemma get_put_other s h j x : j <> h -> get (put s h x) j = get s j.
Proof. intros Hj. unfold get, put; cbn. now rewrite nth_error_set_other. Qed.
Lemma registered_put g s h x y :
  get s h = Some y ->
  registered g (put s h x) + registered_of g (Some y) = registered g s + registered_of g x.
Proof. intros Hg. apply (sumf_set (registered_of g) h x (Some y)). now apply get_nth. Qed.

Lemma reg_none g n : registered_of g (Some {| m_parent := None; m_count := n |}) = 0.
Proof. reflexivity. Qed.

Lemma move_assign_eq s dst src xd xs :
  get s dst = Some xd -> get s src = Some xs -> dst <> src ->
  move_assign s dst src =
    put (put (put (put s dst (Some {| m_parent := None; m_count := m_count xd |}))
             src (Some {| m_parent := None; m_count := m_count xs |}))
             dst (Some {| m_parent := m_parent xs; m_count := m_count xd |}))
             dst (Some {| m_parent := m_parent xs; m_count := m_count xs |}).
Proof.
  intros Gd Gs Hne. unfold move_assign, clear. rewrite Gd.
  rewrite (get_put_other s dst src) by auto. rewrite Gs.
  rewrite (get_put_other _ src dst) by auto. rewrite (get_put_same s dst _ _ Gd).
  cbn [m_count].
  set (s1 := put s dst _).
  assert (G1d : get s1 dst = Some {| m_parent := None; m_count := m_count xd |}) by (eapply get_put_same; eauto).
  assert (G1s : get s1 src = Some xs) by (unfold s1; rewrite get_put_other; auto).
  set (s2 := put s1 src _).
  assert (G2d : get s2 dst = Some {| m_parent := None; m_count := m_count xd |}) by (unfold s2; rewrite get_put_other; auto).
  assert (G2s : get s2 src = Some {| m_parent := None; m_count := m_count xs |}) by (eapply get_put_same; eauto).
  rewrite (get_put_same s2 dst _ _ G2d).
  rewrite (get_put_other s2 dst src) by auto. rewrite G2s. reflexivity.
Qed.

Lemma move_assign_self s h x :
  get s h = Some x -> exists s', move_assign s h h = s' /\
    get s' h = Some {| m_parent := None; m_count := m_count x |} /\ log s' = log s /\
    (forall g, registered g s' + registered_of g (Some x) = registered g s) /\
    (forall j, j <> h -> get s' j = get s j).
Proof.
  intros Gx. eexists; split; [reflexivity|]. unfold move_assign, clear. rewrite Gx.
  rewrite (get_put_same s h _ _ Gx). cbn [m_parent m_count].
  set (s1 := put s h _).
  assert (G1 : get s1 h = Some {| m_parent := None; m_count := m_count x |}) by (eapply get_put_same; eauto).
  rewrite (get_put_same s1 h _ _ G1). cbn [m_count].
  set (s2 := put s1 h _).
  assert (G2 : get s2 h = Some {| m_parent := None; m_count := m_count x |}) by (eapply get_put_same; eauto).
  rewrite (get_put_same s2 h _ _ G2). cbn [m_parent m_count].
  set (s3 := put s2 h _).
  assert (G3 : get s3 h = Some {| m_parent := None; m_count := m_count x |}) by (eapply get_put_same; eauto).
  split; [eapply get_put_same; eauto|]. split; [reflexivity|]. split.
  - intros g.
    pose proof (registered_put g s h (Some {| m_parent := None; m_count := m_count x |}) _ Gx) as P1.
    pose proof (registered_put g s1 h (Some {| m_parent := None; m_count := m_count x |}) _ G1) as P2.
    pose proof (registered_put g s2 h (Some {| m_parent := None; m_count := m_count x |}) _ G2) as P3.
    pose proof (registered_put g s3 h (Some {| m_parent := None; m_count := m_count x |}) _ G3) as P4.
    fold s1 in P1. fold s2 in P2. fold s3 in P3. rewrite !reg_none in *. lia.
  - intros j Hj. unfold s3, s2, s1. now rewrite !get_put_other by assumption.
Qed.

Lemma step_bal g s o s' : bal g s -> no_overwrite s o -> step s o = Some s' -> bal g s'.
Proof.
  intros B HP Hs. destruct o as [|g' n|src|dst src|h|h]; cbn in Hs, HP.
  - inversion Hs; subst. unfold bal, registered, new in *; cbn [guards log]. rewrite sumf_app. cbn [sumf registered_of]. lia.
  - inversion Hs; subst. unfold bal, registered, new, emit, added, undone in *; cbn [guards log].
    rewrite !sumf_app. cbn [sumf is_add is_done registered_of]. destruct (Nat.eqb g g'); lia.
  - destruct (get s src) as [x|] eqn:Gs; [|discriminate]. inversion Hs; subst.
    unfold clear. rewrite Gs.
    pose proof (registered_put g s src (Some {| m_parent := None; m_count := m_count x |}) _ Gs) as P.
    rewrite reg_none in P.
    unfold bal, new in *. cbn [log put]. unfold registered at 1. cbn [guards].
    rewrite sumf_app. fold (registered g (put s src (Some {| m_parent := None; m_count := m_count x |}))).
    cbn [sumf]. lia.
  - destruct (get s dst) as [xd|] eqn:Gd; [|discriminate].
    destruct (get s src) as [xs|] eqn:Gs; [|discriminate]. inversion Hs; subst; clear Hs.
    specialize (HP _ eq_refl). destruct xd as [pd cd]; cbn in HP; subst pd.
    destruct (Nat.eq_dec dst src) as [->|Hne].
    + destruct (move_assign_self s src _ Gd) as (s' & -> & _ & Hl & Hr & _).
      unfold bal in *. rewrite Hl. specialize (Hr g). cbn in Hr. lia.
    + rewrite (move_assign_eq _ _ _ _ _ Gd Gs Hne). cbn [m_count m_parent].
      set (s1 := put s dst _).
      assert (G1d : get s1 dst = Some {| m_parent := None; m_count := cd |}) by (eapply get_put_same; eauto).
      assert (G1s : get s1 src = Some xs) by (unfold s1; rewrite get_put_other; auto).
      set (s2 := put s1 src _).
      assert (G2d : get s2 dst = Some {| m_parent := None; m_count := cd |}) by (unfold s2; rewrite get_put_other; auto).
      set (s3 := put s2 dst _).
      assert (G3d : get s3 dst = Some {| m_parent := m_parent xs; m_count := cd |}) by (eapply get_put_same; eauto).
      pose proof (registered_put g s dst (Some {| m_parent := None; m_count := cd |}) _ Gd) as P1.
      pose proof (registered_put g s1 src (Some {| m_parent := None; m_count := m_count xs |}) _ G1s) as P2.
      pose proof (registered_put g s2 dst (Some {| m_parent := m_parent xs; m_count := cd |}) _ G2d) as P3.
      pose proof (registered_put g s3 dst (Some {| m_parent := m_parent xs; m_count := m_count xs |}) _ G3d) as P4.
      fold s1 in P1. fold s2 in P2. fold s3 in P3. rewrite !reg_none in *.
      unfold bal in *. change (log (put s3 dst (Some {| m_parent := m_parent xs; m_count := m_count xs |}))) with (log s).
      destruct xs as [ps cs]; cbn [m_parent m_count] in *. lia.
  - destruct (get s h) as [x|] eqn:Gh; [|discriminate]. inversion Hs; subst; clear Hs.
    unfold clear. rewrite Gh. specialize (HP _ eq_refl). destruct x as [p c]; cbn in HP; subst p.
    pose proof (registered_put g s h (Some {| m_parent := None; m_count := c |}) _ Gh) as P.
    rewrite !reg_none in P. unfold bal in *. cbn [m_count log put]. lia.
  - destruct (get s h) as [x|] eqn:Gh; [|discriminate]. destruct x as [[g'|] c]; cbn in Hs; inversion Hs; subst; clear Hs.
    + pose proof (registered_put g (emit s (Done g' c)) h None _ Gh) as P.
      change (registered g (emit s (Done g' c))) with (registered g s) in P. cbn [registered_of] in P.
      unfold bal, added, undone in *. cbn [log put emit]. rewrite !sumf_app. cbn [sumf is_add is_done].
      destruct (Nat.eqb g g'); lia.
    + pose proof (registered_put g s h None _ Gh) as P. cbn [registered_of] in P.
      unfold bal in *. cbn [log put]. lia.
Qed.

Lemma registered_gone g s : all_gone s -> registered g s = 0.
Proof.
  intros Ha. apply sumf_zero. intros x Hx. apply In_nth_error in Hx. destruct Hx as [h Hh].
  specialize (Ha h). unfold get in Ha. rewrite Hh in Ha. destruct x; [discriminate|reflexivity].
Qed.

Lemma bal_run g l s : run_all step no_overwrite init l -> run step init l = Some s -> bal g s.
Proof.
  intros HP Hr. refine (run_inv_cond step no_overwrite (bal g) _ l init s _ HP Hr); [|reflexivity].
  intros; eapply step_bal; eauto.
Qed.

Lemma guard_balanced g l s :
  run_all step no_overwrite init l -> run step init l = Some s -> all_gone s ->
  added g (log s) = undone g (log s).
Proof.
  intros HP Hr Ha. pose proof (bal_run g _ _ HP Hr) as B. unfold bal in B.
  rewrite registered_gone in B by assumption. lia.
Qed.

(** never undone more than added, in every program (also with overwriting). *)
Definition le_bal (g : nat) (s : state) : Prop := undone g (log s) + registered g s <= added g (log s).

Lemma step_le g s o s' : le_bal g s -> step s o = Some s' -> le_bal g s'.
Proof.
  intros B Hs. destruct o as [|g' n|src|dst src|h|h]; cbn in Hs.
  - inversion Hs; subst. unfold le_bal, registered, new in *; cbn [guards log]. rewrite sumf_app. cbn [sumf registered_of]. lia.
  - inversion Hs; subst. unfold le_bal, registered, new, emit, added, undone in *; cbn [guards log].
    rewrite !sumf_app. cbn [sumf is_add is_done registered_of]. destruct (Nat.eqb g g'); lia.
  - destruct (get s src) as [x|] eqn:Gs; [|discriminate]. inversion Hs; subst.
    unfold clear. rewrite Gs.
    pose proof (registered_put g s src (Some {| m_parent := None; m_count := m_count x |}) _ Gs) as P.
    rewrite reg_none in P.
    unfold le_bal, new in *. cbn [log put]. unfold registered at 1. cbn [guards].
    rewrite sumf_app. fold (registered g (put s src (Some {| m_parent := None; m_count := m_count x |}))).
    cbn [sumf]. lia.
  - destruct (get s dst) as [xd|] eqn:Gd; [|discriminate].
    destruct (get s src) as [xs|] eqn:Gs; [|discriminate]. inversion Hs; subst; clear Hs.
    destruct (Nat.eq_dec dst src) as [->|Hne].
    + destruct (move_assign_self s src _ Gd) as (s' & -> & _ & Hl & Hr & _).
      unfold le_bal in *. rewrite Hl. specialize (Hr g). lia.
    + rewrite (move_assign_eq _ _ _ _ _ Gd Gs Hne). cbn [m_count m_parent].
      set (s1 := put s dst _).
      assert (G1d : get s1 dst = Some {| m_parent := None; m_count := m_count xd |}) by (eapply get_put_same; eauto).
      assert (G1s : get s1 src = Some xs) by (unfold s1; rewrite get_put_other; auto).
      set (s2 := put s1 src _).
      assert (G2d : get s2 dst = Some {| m_parent := None; m_count := m_count xd |}) by (unfold s2; rewrite get_put_other; auto).
      set (s3 := put s2 dst _).
      assert (G3d : get s3 dst = Some {| m_parent := m_parent xs; m_count := m_count xd |}) by (eapply get_put_same; eauto).
      pose proof (registered_put g s dst (Some {| m_parent := None; m_count := m_count xd |}) _ Gd) as P1.
      pose proof (registered_put g s1 src (Some {| m_parent := None; m_count := m_count xs |}) _ G1s) as P2.
      pose proof (registered_put g s2 dst (Some {| m_parent := m_parent xs; m_count := m_count xd |}) _ G2d) as P3.
      pose proof (registered_put g s3 dst (Some {| m_parent := m_parent xs; m_count := m_count xs |}) _ G3d) as P4.
      fold s1 in P1. fold s2 in P2. fold s3 in P3. rewrite !reg_none in *.
      unfold le_bal in *. change (log (put s3 dst (Some {| m_parent := m_parent xs; m_count := m_count xs |}))) with (log s).
      destruct xs as [ps cs]; cbn [m_parent m_count] in *. lia.
  - destruct (get s h) as [x|] eqn:Gh; [|discriminate]. inversion Hs; subst; clear Hs.
    unfold clear. rewrite Gh.
    pose proof (registered_put g s h (Some {| m_parent := None; m_count := m_count x |}) _ Gh) as P.
    rewrite !reg_none in P. unfold le_bal in *. cbn [m_count log put]. lia.
  - destruct (get s h) as [x|] eqn:Gh; [|discriminate]. destruct x as [[g'|] c]; cbn in Hs; inversion Hs; subst; clear Hs.
    + pose proof (registered_put g (emit s (Done g' c)) h None _ Gh) as P.
      change (registered g (emit s (Done g' c))) with (registered g s) in P. cbn [registered_of] in P.
      unfold le_bal, added, undone in *. cbn [log put emit]. rewrite !sumf_app. cbn [sumf is_add is_done].
      destruct (Nat.eqb g g'); lia.
    + pose proof (registered_put g s h None _ Gh) as P. cbn [registered_of] in P.
      unfold le_bal in *. cbn [log put]. lia.
Qed.

Lemma never_over_undone g l s : run step init l = Some s -> undone g (log s) <= added g (log s).
Proof.
  intros Hr. assert (B : le_bal g s); [|unfold le_bal in B; lia].
  refine (run_inv step (le_bal g) _ l init s _ Hr); [|unfold le_bal; cbn; lia].
  intros; eapply step_le; eauto.
Qed.

Lemma move_assign_leaks :
  exists l s, run step init l = Some s /\ all_gone s /\ added 0 (log s) = 2 /\ undone 0 (log s) = 1.
Proof.
  exists [ONew 0 1; ONew 0 1; OMoveAssign 0 1; ODestroy 0; ODestroy 1]. eexists.
  split; [vm_compute; reflexivity|]. split; [|split; reflexivity].
  intros h. do 2 (destruct h as [|h]; [reflexivity|]). destruct h; reflexivity.
Qed.

Lemma self_assign_leaks :
  exists l s, run step init l = Some s /\ all_gone s /\ added 0 (log s) = 1 /\ undone 0 (log s) = 0.
Proof.
  exists [ONew 0 1; OMoveAssign 0 0; ODestroy 0]. eexists.
  split; [vm_compute; reflexivity|]. split; [|split; reflexivity].
  intros h. do 1 (destruct h as [|h]; [reflexivity|]). destruct h; reflexivity.
Qed.
