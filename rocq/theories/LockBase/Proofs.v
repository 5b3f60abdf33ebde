From Coq Require Import List Arith Bool Lia.
From Verif.Common Require Import TS ListX.
From Verif.LockBase Require Import Model Spec.
Import ListNotations.

Definition bal (m : nat) (s : state) : Prop :=
  acquired m (log s) = released m (log s) + holders m s.

Lemma get_nth s h x : get s h = Some x -> nth_error (handles s) h = Some (Some x).
Proof. unfold get. destruct (nth_error (handles s) h) as [[y|]|]; congruence. Qed.

Lemma get_put_same s h x y : get s h = Some y -> get (put s h (Some x)) h = Some x.
Proof.
  intros G. apply get_nth, nth_error_lt in G. unfold get, put; cbn.
  now rewrite nth_error_set_same.
Qed.
Lemma get_put_other s h j x : j <> h -> get (put s h x) j = get s j.
Proof. intros G. unfold get, put; cbn. now rewrite nth_error_set_other. Qed.

Lemma holders_put m s h x y :
  get s h = Some y -> holders m (put s h x) + holds m (Some y) = holders m s + holds m x.
Proof. intros G. unfold holders, put; cbn [handles]. apply (sumf_set (holds m) h x (Some y)). now apply get_nth. Qed.

Lemma acquired_snoc m l a : acquired m (l ++ [a]) = acquired m l + is_acq m a.
Proof. unfold acquired. rewrite sumf_app. cbn. lia. Qed.
Lemma released_snoc m l a : released m (l ++ [a]) = released m l + is_rel m a.
Proof. unfold released. rewrite sumf_app. cbn. lia. Qed.

Lemma unlock_bal m s h x : get s h = Some x -> bal m s -> bal m (unlock s h x).
Proof.
  intros G B. unfold unlock. destruct x as [[m'|] [|]]; cbn; try exact B.
  unfold bal in *. cbn [log put emit].
  pose proof (holders_put m (emit s (Rel m')) h (Some {| m_mutex := Some m'; m_owns := false |}) _ G) as P.
  change (holders m (emit s (Rel m'))) with (holders m s) in P. cbn [holds] in P.
  rewrite acquired_snoc, released_snoc. cbn [is_acq is_rel].
  destruct (Nat.eqb m m'); cbn in *; lia.
Qed.

Lemma unlock_get s h x :
  get s h = Some x ->
  exists y, get (unlock s h x) h = Some y /\ m_mutex y = m_mutex x /\ (forall m, holds m (Some y) = 0) /\
            (m_mutex y <> None -> m_owns y = false).
Proof.
  intros G. unfold unlock. destruct x as [[m'|] [|]]; cbn.
  - eexists. split; [eapply get_put_same; exact G|]. repeat split; auto.
  - eexists. split; [exact G|]. repeat split; auto.
  - eexists. split; [exact G|]. repeat split; auto. cbn. congruence.
  - eexists. split; [exact G|]. repeat split; auto.
Qed.
Lemma unlock_get_other s h x j : j <> h -> get (unlock s h x) j = get s j.
Proof.
  intros Hj. unfold unlock. destruct x as [[m'|] [|]]; cbn; auto.
  now rewrite get_put_other.
Qed.

Lemma move_assign_bal m s dst src xd xs :
  get s dst = Some xd -> get s src = Some xs -> bal m s -> bal m (move_assign s dst src xd).
Proof.
  intros Gd Gs B. unfold move_assign.
  pose proof (unlock_bal m _ _ _ Gd B) as B1.
  destruct (unlock_get _ _ _ Gd) as (yd & Gd1 & Em & Hh & Ho).
  set (s1 := unlock s dst xd) in *.
  destruct (Nat.eq_dec src dst) as [->|Hne].
  - (* self assignment *)
    unfold mutex_of, set_mutex. rewrite Gd1.
    rewrite (get_put_same _ _ _ _ Gd1). cbn.
    set (s2 := put s1 dst _).
    assert (G2 : get s2 dst = Some {| m_mutex := None; m_owns := m_owns yd |})
      by (eapply get_put_same; exact Gd1).
    set (s3 := put s2 dst _).
    assert (G3 : get s3 dst = Some {| m_mutex := m_mutex yd; m_owns := m_owns yd |})
      by (eapply get_put_same; exact G2).
    unfold owns_of, set_owns. rewrite G3. cbn.
    set (s4 := put s3 dst (Some {| m_mutex := m_mutex yd; m_owns := false |})).
    assert (G4 : get s4 dst = Some {| m_mutex := m_mutex yd; m_owns := false |})
      by (eapply get_put_same; exact G3).
    rewrite G4. cbn.
    pose proof (holders_put m s1 dst (Some {| m_mutex := None; m_owns := m_owns yd |}) _ Gd1) as P1.
    pose proof (holders_put m s2 dst (Some {| m_mutex := m_mutex yd; m_owns := m_owns yd |}) _ G2) as P2.
    pose proof (holders_put m s3 dst (Some {| m_mutex := m_mutex yd; m_owns := false |}) _ G3) as P3.
    pose proof (holders_put m s4 dst (Some {| m_mutex := m_mutex yd; m_owns := m_owns yd |}) _ G4) as P4.
    fold s2 in P1. fold s3 in P2. fold s4 in P3.
    unfold bal in *.
    change (log (put s4 dst (Some {| m_mutex := m_mutex yd; m_owns := m_owns yd |}))) with (log s1).
    specialize (Hh m). destruct yd as [my oy]; cbn [m_mutex m_owns] in *. lia.
  - assert (Gs1 : get s1 src = Some xs) by (unfold s1; now rewrite unlock_get_other).
    unfold mutex_of, set_mutex. rewrite Gs1. cbn.
    set (s2 := put s1 src _).
    assert (Gd2 : get s2 dst = Some yd) by (unfold s2; rewrite get_put_other; auto).
    assert (Gs2 : get s2 src = Some {| m_mutex := None; m_owns := m_owns xs |})
      by (eapply get_put_same; exact Gs1).
    rewrite Gd2.
    set (s3 := put s2 dst _).
    assert (Gd3 : get s3 dst = Some {| m_mutex := m_mutex xs; m_owns := m_owns yd |})
      by (eapply get_put_same; exact Gd2).
    assert (Gs3 : get s3 src = Some {| m_mutex := None; m_owns := m_owns xs |})
      by (unfold s3; rewrite get_put_other; auto).
    unfold owns_of, set_owns. rewrite Gs3. cbn.
    set (s4 := put s3 src _).
    assert (Gd4 : get s4 dst = Some {| m_mutex := m_mutex xs; m_owns := m_owns yd |})
      by (unfold s4; rewrite get_put_other; auto).
    rewrite Gd4. cbn.
    pose proof (holders_put m s1 src (Some {| m_mutex := None; m_owns := m_owns xs |}) _ Gs1) as P1.
    pose proof (holders_put m s2 dst (Some {| m_mutex := m_mutex xs; m_owns := m_owns yd |}) _ Gd2) as P2.
    pose proof (holders_put m s3 src (Some {| m_mutex := None; m_owns := false |}) _ Gs3) as P3.
    pose proof (holders_put m s4 dst (Some {| m_mutex := m_mutex xs; m_owns := m_owns xs |}) _ Gd4) as P4.
    fold s2 in P1. fold s3 in P2. fold s4 in P3.
    unfold bal in *.
    change (log (put s4 dst (Some {| m_mutex := m_mutex xs; m_owns := m_owns xs |}))) with (log s1).
    specialize (Hh m). destruct xs as [ms os]; cbn [m_mutex m_owns] in *.
    assert (Z : forall b, holds m (Some {| m_mutex := None; m_owns := b |}) = 0) by reflexivity.
    rewrite !Z in *. lia.
Qed.

Lemma step_bal m s o s' : bal m s -> step s o = Some s' -> bal m s'.
Proof.
  intros B Hs. unfold step in Hs. destruct (aborted s); [discriminate|].
  assert (relock : forall h x m', get s h = Some x -> m_mutex x = Some m' -> m_owns x = false ->
     bal m (put (emit s (Acq m')) h (Some {| m_mutex := Some m'; m_owns := true |}))).
  { intros h x m' G E1 E2. destruct x as [mx ox]; cbn in E1, E2; subst.
    pose proof (holders_put m (emit s (Acq m')) h (Some {| m_mutex := Some m'; m_owns := true |}) _ G) as P.
    change (holders m (emit s (Acq m'))) with (holders m s) in P.
    unfold bal in *. cbn [log put emit]. rewrite acquired_snoc, released_snoc.
    cbn [holds is_acq is_rel] in *. destruct (Nat.eqb m m'); lia. }
  destruct o as [m'| |src|dst src|h|h|h g|h].
  - inversion Hs; subst; clear Hs. unfold bal in *. cbn [new emit log].
    rewrite acquired_snoc, released_snoc. unfold holders in *. cbn [new emit handles].
    rewrite sumf_app. cbn. destruct (Nat.eqb m m'); lia.
  - inversion Hs; subst; clear Hs. unfold bal in *. cbn [new log]. unfold holders in *. cbn [new handles].
    rewrite sumf_app. cbn. lia.
  - destruct (get s src) as [x|] eqn:G; [|discriminate]. inversion Hs; subst; clear Hs.
    pose proof (holders_put m s src (Some {| m_mutex := None; m_owns := false |}) _ G) as P.
    unfold bal in *. cbn [new put log]. unfold holders in *. cbn [new handles].
    rewrite sumf_app. cbn [sumf holds] in *. lia.
  - destruct (get s dst) as [xd|] eqn:Gd; [|discriminate].
    destruct (get s src) as [xs|] eqn:Gs; [|discriminate].
    inversion Hs; subst. eapply move_assign_bal; eauto.
  - destruct (get s h) as [x|] eqn:G; [|discriminate]. inversion Hs; subst.
    now apply unlock_bal.
  - destruct (get s h) as [x|] eqn:G; [|discriminate].
    destruct (m_mutex x) as [m'|] eqn:E1; [|now inversion Hs; subst].
    destruct (m_owns x) eqn:E2; inversion Hs; subst; [exact B|]. eapply relock; eauto.
  - destruct (get s h) as [x|] eqn:G; [|discriminate].
    destruct (m_mutex x) as [m'|] eqn:E1; [|now inversion Hs; subst].
    destruct (m_owns x) eqn:E2; [inversion Hs; subst; exact B|].
    destruct g; inversion Hs; subst; [eapply relock; eauto|exact B].
  - destruct (get s h) as [x|] eqn:G; [|discriminate]. inversion Hs; subst; clear Hs.
    pose proof (unlock_bal m _ _ _ G B) as B1.
    destruct (unlock_get _ _ _ G) as (y & G1 & _ & Hh & _).
    pose proof (holders_put m _ h None _ G1) as P. specialize (Hh m).
    unfold bal in *. change (holds m None) with 0 in P.
    change (log (put (unlock s h x) h None)) with (log (unlock s h x)). lia.
Qed.

Lemma bal_run l s m : run step init l = Some s -> bal m s.
Proof.
  intros Hr. refine (run_inv step (bal m) _ l init s _ Hr); [|reflexivity].
  intros; eapply step_bal; eauto.
Qed.

Lemma holders_gone m s : all_gone s -> holders m s = 0.
Proof.
  intros Ha. apply sumf_zero. intros x Hx. apply In_nth_error in Hx. destruct Hx as [h Hh].
  specialize (Ha h). unfold get in Ha. rewrite Hh in Ha. destruct x; [discriminate|reflexivity].
Qed.

Lemma balanced_at_end l s m :
  run step init l = Some s -> all_gone s -> acquired m (log s) = released m (log s).
Proof.
  intros Hr Ha. pose proof (bal_run _ _ m Hr) as B. unfold bal in B.
  rewrite (holders_gone m s Ha) in B. lia.
Qed.

(** The log only grows: every prefix of the final log was the log of an earlier state, or lies
    inside one operation; operations emit at most one action, so every prefix is a state's log. *)
Lemma step_log s o s' : step s o = Some s' -> log s' = log s \/ exists a, log s' = log s ++ [a].
Proof.
  assert (Hu : forall h x, log (unlock s h x) = log s \/ exists a, log (unlock s h x) = log s ++ [a]).
  { intros h x. unfold unlock. destruct x as [[m|] [|]]; cbn; eauto. }
  assert (Hsm : forall t h m, log (set_mutex t h m) = log t)
    by (intros; unfold set_mutex; destruct (get t h); reflexivity).
  assert (Hso : forall t h b, log (set_owns t h b) = log t)
    by (intros; unfold set_owns; destruct (get t h); reflexivity).
  unfold step. destruct (aborted s); [discriminate|].
  destruct o as [m'| |src|dst src|h|h|h g|h]; intros E.
  - inversion E; subst; cbn; eauto.
  - inversion E; subst; cbn; eauto.
  - destruct (get s src); inversion E; subst; cbn; eauto.
  - destruct (get s dst); [|discriminate]. destruct (get s src); inversion E; subst.
    unfold move_assign. rewrite Hso, Hso, Hsm, Hsm. apply Hu.
  - destruct (get s h); inversion E; subst; auto.
  - destruct (get s h) as [x|]; [|discriminate].
    destruct (m_mutex x); [|inversion E; subst; auto].
    destruct (m_owns x); inversion E; subst; cbn; eauto.
  - destruct (get s h) as [x|]; [|discriminate].
    destruct (m_mutex x); [|inversion E; subst; auto].
    destruct (m_owns x); [inversion E; subst; cbn; eauto|].
    destruct g; inversion E; subst; cbn; eauto.
  - destruct (get s h); inversion E; subst. cbn. apply Hu.
Qed.

Lemma release_never_exceeds l s m p q :
  run step init l = Some s -> log s = p ++ q -> released m p <= acquired m p.
Proof.
  revert s p q. induction l as [|o l IH] using rev_ind; intros s p q Hr E.
  - inversion Hr; subst. cbn in E. destruct p; [cbn; lia|discriminate].
  - apply run_app_inv in Hr. destruct Hr as (s1 & H1 & H2). cbn in H2.
    destruct (step s1 o) as [s2|] eqn:Es; [|discriminate]. inversion H2; subst s2; clear H2.
    destruct (step_log _ _ _ Es) as [El|[a El]].
    + rewrite El in E. eapply IH; eauto.
    + destruct q as [|b q'] using rev_ind.
      * rewrite app_nil_r in E. subst p.
        assert (B : bal m s) by (apply (step_bal m s1 o s); [eapply bal_run; eauto|assumption]).
        unfold bal in B. lia.
      * clear IHq'. rewrite El, app_assoc in E. apply app_inj_tail in E. destruct E as [E _].
        eapply IH; eauto.
Qed.

(** Each handle: a release() call is made only on behalf of a handle that owned the lock. *)
Lemma unlock_only_if_owned s h s' m :
  step s (OUnlock h) = Some s' -> log s' = log s ++ [Rel m] ->
  get s h = Some {| m_mutex := Some m; m_owns := true |} /\
  get s' h = Some {| m_mutex := Some m; m_owns := false |}.
Proof.
  unfold step. destruct (aborted s); [discriminate|].
  destruct (get s h) as [[[m'|] [|]]|] eqn:G; intros E El; inversion E; subst; clear E; cbn in El.
  - apply app_inv_head in El. inversion El; subst. split; [reflexivity|].
    eapply get_put_same. exact G.
  - exfalso. apply (f_equal (@length act)) in El. rewrite app_length in El. cbn in El. lia.
  - exfalso. apply (f_equal (@length act)) in El. rewrite app_length in El. cbn in El. lia.
  - exfalso. apply (f_equal (@length act)) in El. rewrite app_length in El. cbn in El. lia.
Qed.

Lemma unlock_idempotent s h s1 s2 :
  step s (OUnlock h) = Some s1 -> step s1 (OUnlock h) = Some s2 -> log s2 = log s1 /\ get s2 h = get s1 h.
Proof.
  unfold step. destruct (aborted s); [discriminate|].
  destruct (get s h) as [x|] eqn:G; [|discriminate]. intros E1; inversion E1; subst; clear E1.
  destruct (aborted (unlock s h x)); [discriminate|].
  destruct (unlock_get _ _ _ G) as (y & Gy & Em & Hh & Ho). rewrite Gy.
  intros E2; inversion E2; subst; clear E2.
  unfold unlock at 1 3. destruct y as [[m|] [|]]; cbn; try (split; [reflexivity|exact Gy]).
  exfalso. cbn in Ho. assert (true = false) by (apply Ho; discriminate). discriminate.
Qed.

(** [owns_lock()] and the mutex pointer after a move: the source owns nothing. *)
Lemma move_ctor_source s src s' :
  step s (OMoveCtor src) = Some s' ->
  get s' src = Some {| m_mutex := None; m_owns := false |} /\
  get s' (length (handles s)) = get s src /\ log s' = log s.
Proof.
  unfold step. destruct (aborted s); [discriminate|].
  destruct (get s src) as [x|] eqn:G; [|discriminate]. intros E; inversion E; subst; clear E.
  pose proof (nth_error_lt _ _ _ (get_nth _ _ _ G)) as L.
  unfold get; cbn. rewrite !nth_error_app1, nth_error_set_same by (rewrite ?set_nth_length; lia).
  rewrite nth_error_app2 by (rewrite set_nth_length; lia).
  rewrite set_nth_length, Nat.sub_diag. cbn. auto.
Qed.

(** Exact effect of move assignment, self-assignment included. *)
Lemma move_assign_effect s dst src s' xd xs :
  step s (OMoveAssign dst src) = Some s' -> get s dst = Some xd -> get s src = Some xs ->
  dst <> src ->
  get s' dst = Some xs /\ get s' src = Some {| m_mutex := None; m_owns := false |} /\
  log s' = log s ++ match xd with {| m_mutex := Some m; m_owns := true |} => [Rel m] | _ => [] end.
Proof.
  unfold step. destruct (aborted s); [discriminate|]. intros E Gd Gs Hne. rewrite Gd, Gs in E.
  inversion E; subst; clear E. unfold move_assign.
  destruct (unlock_get _ _ _ Gd) as (yd & Gd1 & Em & Hh & Ho).
  assert (Ll : log (unlock s dst xd) = log s ++ match xd with {| m_mutex := Some m; m_owns := true |} => [Rel m] | _ => [] end).
  { unfold unlock. destruct xd as [[m|] [|]]; cbn; rewrite ?app_nil_r; reflexivity. }
  set (s1 := unlock s dst xd) in *.
  assert (Gs1 : get s1 src = Some xs) by (unfold s1; now rewrite unlock_get_other by auto).
  unfold mutex_of, set_mutex. rewrite Gs1. cbn.
  set (s2 := put s1 src _).
  assert (Gd2 : get s2 dst = Some yd) by (unfold s2; rewrite get_put_other; auto).
  assert (Gs2 : get s2 src = Some {| m_mutex := None; m_owns := m_owns xs |})
    by (eapply get_put_same; exact Gs1).
  rewrite Gd2.
  set (s3 := put s2 dst _).
  assert (Gd3 : get s3 dst = Some {| m_mutex := m_mutex xs; m_owns := m_owns yd |})
    by (eapply get_put_same; exact Gd2).
  assert (Gs3 : get s3 src = Some {| m_mutex := None; m_owns := m_owns xs |})
    by (unfold s3; rewrite get_put_other; auto).
  unfold owns_of, set_owns. rewrite Gs3. cbn.
  set (s4 := put s3 src _).
  assert (Gd4 : get s4 dst = Some {| m_mutex := m_mutex xs; m_owns := m_owns yd |})
    by (unfold s4; rewrite get_put_other; auto).
  assert (Gs4 : get s4 src = Some {| m_mutex := None; m_owns := false |})
    by (eapply get_put_same; exact Gs3).
  rewrite Gd4. cbn [m_mutex].
  split; [|split].
  - erewrite get_put_same by exact Gd4. now destruct xs.
  - rewrite get_put_other by auto. exact Gs4.
  - exact Ll.
Qed.

Lemma owns_lock_lies :
  exists l s x, run step init l = Some s /\ get s 0 = Some x /\ m_owns x = true /\ m_mutex x = None /\ log s = [].
Proof. exists [ODefault]. eexists. eexists. split; [reflexivity|]. split; [reflexivity|]. auto. Qed.

(** owns_lock() is truthful for every handle that has a mutex. *)
Lemma owns_lock_truthful l s h x m :
  run step init l = Some s -> get s h = Some x -> m_mutex x = Some m -> m_owns x = true ->
  released m (log s) < acquired m (log s).
Proof.
  intros Hr G E1 E2. pose proof (bal_run _ _ m Hr) as B. unfold bal in B.
  assert (1 <= holders m s); [|lia].
  pose proof (sumf_ge (holds m) h _ _ (get_nth _ _ _ G)) as P.
  destruct x as [mx ox]; cbn in *; subst. rewrite Nat.eqb_refl in P. exact P.
Qed.
