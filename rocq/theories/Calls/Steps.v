(** Proofs for C146: one step. *)
From Coq Require Import List Arith Bool Lia Permutation.
From Verif.Common Require Import TS Sum.
From Verif.Calls Require Import Spec Model Proofs.
Import ListNotations.

Section S.
  Variable n : nat.
  Notation Inv := (Inv n). Notation Thr := (Thr n). Notation weight := (weight n). Notation moved := (moved n).
  Ltac fields := cbn [frames depth thr got ret exited out st locals slot] in *.
  Lemma here s t a l : Inv s -> thr s t = a :: l -> t <= n.
  Proof. intros HI E. destruct (Nat.le_gt_cases t n) as [|X]; auto. rewrite (t_out _ _ _ _ (i_thr _ _ HI) t X) in E. discriminate. Qed.
  Lemma busy s t a l : Inv s -> thr s t = a :: l -> exited s = false /\ (ret s <> None -> t <> n).
  Proof.
    intros HI E. split.
    - destruct (exited s) eqn:X; auto. destruct (i_exit _ _ HI X) as [_ Y]. rewrite Y in E. discriminate.
    - intros X ->. destruct (ret s) as [r|] eqn:R; [|congruence]. destruct (i_ret _ _ HI r R) as [_ Y]. congruence.
  Qed.
  Lemma top_of s t i l c : Inv s -> thr s t = Run i :: l -> st (frames s i) = Active c -> depth s = S i /\ got s = None /\ slot (frames s i) = None.
  Proof.
    intros HI E A. assert (Hi : In (Run i) (thr s t)) by (rewrite E; now left). destruct (t_on _ _ _ _ (i_thr _ _ HI) t i Hi) as [L _].
    assert (D : depth s = S i). { destruct (Nat.eq_dec (depth s) (S i)) as [|N]; auto. destruct (i_low _ _ HI i ltac:(lia)) as [X _]. rewrite A in X. contradiction. }
    split; [exact D|]. split; [destruct (got s) eqn:G; auto; assert (depth s = 0) by (apply (i_got _ _ HI); congruence); lia|]. pose proof (i_top _ _ HI i D) as X. unfold topstate in X. now rewrite A in X.
  Qed.
  (** the weights of the threads, when one of them changes *)
  Lemma threads_lt s (th' : nat -> list act) t w : t <= n -> (forall u, u <> t -> th' u = thr s u) -> pw (th' t) + w <= pw (thr s t) -> sum_to (S n) (fun u => pw (th' u)) + w <= sum_to (S n) (fun u => pw (thr s u)).
  Proof. intros Ht H L. pose proof (sum_to_one (S n) (fun u => pw (th' u)) (fun u => pw (thr s u)) t ltac:(lia) ltac:(intros i Hi; cbn beta; now rewrite H)) as X. cbn beta in X. lia. Qed.
  Lemma threads_up s (th' : nat -> list act) t w : t <= n -> (forall u, u <> t -> th' u = thr s u) -> pw (th' t) <= pw (thr s t) + w -> sum_to (S n) (fun u => pw (th' u)) <= sum_to (S n) (fun u => pw (thr s u)) + w.
  Proof. intros Ht H L. pose proof (sum_to_one (S n) (fun u => pw (th' u)) (fun u => pw (thr s u)) t ltac:(lia) ltac:(intros i Hi; cbn beta; now rewrite H)) as X. cbn beta in X. lia. Qed.
  (** nothing that matters later has changed *)
  Lemma rest_like s s' : depth s' = depth s -> got s' = got s -> (forall j, j < depth s -> alike (frames s j) (frames s' j)) -> (forall d, depth s = S d -> code_of (frames s' d) = code_of (frames s d)) -> rest s' = rest s /\ rest_cost s' = rest_cost s.
  Proof.
    intros A B C D. unfold rest, rest_cost. rewrite A, B. destruct (depth s) as [|d]; [now split|]. rewrite (D d eq_refl). apply body_like; [apply (C d); lia|]. intros j Hj. apply C. lia.
  Qed.
  Lemma invariant_low s s' : Inv s -> depth s' = depth s -> (forall j, slot (frames s' j) = slot (frames s j) /\ (waitlike (st (frames s j)) -> slot (frames s j) = None -> waitlike (st (frames s' j)))) ->
    forall j, S j < depth s' -> waitlike (st (frames s' j)) /\ slot (frames s' j) = None.
  Proof. intros HI D H j Hj. rewrite D in Hj. destruct (i_low _ _ HI j Hj) as [X Y]. destruct (H j) as [A B]. rewrite A. auto. Qed.

  Lemma dtor_step s t d ds l s' : Inv s -> thr s t = Dying (d :: ds) :: l -> s' = St (frames s) (depth s) (upd (thr s) t (Dying ds :: l)) (got s) (ret s) (exited s) (out s ++ [Dtor d]) -> Inv s' /\ moved s s' /\ weight s' < weight s.
  Proof.
    intros HI E ->. pose proof (here _ _ _ _ HI E) as Ht. destruct (busy _ _ _ _ HI E) as [Ex Hn]. pose proof (i_thr _ _ HI) as HT. pose proof (t_shape _ _ _ _ HT t) as Sh. rewrite E in Sh. split; [|split].
    - split; fields; try apply HI.
      + apply (Thr_upd n (frames s) (depth s) (thr s) _ _ t (Dying ds :: l) _ HT Ht).
        * intros u. apply updE.
        * auto.
        * exact Sh.
        * pose proof (t_nd _ _ _ _ HT t) as Nd. rewrite E in Nd. inversion Nd; subst. constructor; [exact (shape_nodying _ _ _ _ Sh)|auto].
        * intros j [X|Hj]; [discriminate|]. assert (Hi : In (Run j) (thr s t)) by (rewrite E; now right). destruct (t_on _ _ _ _ HT t j Hi) as [A B]. auto.
        * intros j Hj X. destruct (in_dec act_eq_dec (Run j) (thr s t)) as [Y|Y]; auto. left. rewrite E in Y. destruct Y as [Y|Y]; [discriminate|now right].
      + intros r R. destruct (i_ret _ _ HI r R) as [A B]. split; [exact A|]. rewrite upd_other; [exact B|]. intros ->. apply Hn; congruence.
      + congruence.
    - apply (mv_dtor n s _ t d); fields; auto; [rewrite E, upd_same; reflexivity|intros u Hu; now apply upd_other].
    - unfold weight, levels, rest_cost. fields. pose proof (threads_lt s (upd (thr s) t (Dying ds :: l)) t 1 Ht (fun u Hu => upd_other _ _ _ _ Hu)) as X. rewrite upd_same, E in X. cbn [pw length] in X. specialize (X ltac:(lia)). lia.
  Qed.
  (** a thread goes back to what it did before *)
  Lemma pop_step s t a l gs : Inv s -> thr s t = a :: l ->
    (forall j, (a = Run j -> onthread (st (gs j)) = false) /\ (a <> Run j -> gs j = frames s j)) ->
    (forall j, alike (frames s j) (gs j) /\ slot (gs j) = slot (frames s j) /\ (waitlike (st (frames s j)) -> slot (frames s j) = None -> waitlike (st (gs j)))) ->
    (forall d, depth s = S d -> topstate (gs d)) -> forall s', s' = St (back gs l) (depth s) (upd (thr s) t l) (got s) (ret s) (exited s) (out s) -> Inv s' /\ (forall u, u <> t -> thr s' u = thr s u) /\ pd (thr s' t) = [].
  Proof.
    intros HI E Hg Hs Ht s' ->. destruct (busy _ _ _ _ HI E) as [Ex Hn]. pose proof (i_thr _ _ HI) as HT. pose proof (t_shape _ _ _ _ HT t) as Sh. rewrite E in Sh. destruct Sh as [_ Sh]. split; [|split].
    - split; fields; try apply HI.
      + apply (Thr_pop n (frames s) (depth s) (thr s) gs _ t a l HT E); [|intros u; apply updE]. intros j. split; [apply Hg|]. intros N. now rewrite (proj2 (Hg j) N).
      + intros j Hj. destruct (i_low _ _ HI j Hj) as [X Y]. destruct (Hs j) as (_ & A & B). destruct (back_like gs l j) as (_ & C & _). rewrite C, A. split; [|exact Y]. apply back_wait. auto.
      + intros d Hd. apply back_wait. auto.
      + intros r R. destruct (i_ret _ _ HI r R) as [A B]. split; [exact A|]. rewrite upd_other; [exact B|]. intros ->. apply Hn; congruence.
      + congruence.
    - fields. intros u Hu. now apply upd_other.
    - fields. rewrite upd_same. exact (proj1 (inside_pd _ _ Sh)).
  Qed.
  Lemma levels_le s s' : depth s' = depth s -> (forall j, wst (st (frames s' j)) <= wst (st (frames s j))) -> levels s' <= levels s.
  Proof. intros D H. unfold levels. rewrite D. apply sum_le. auto. Qed.
  Lemma levels_lt s s' i : depth s' = depth s -> (forall j, wst (st (frames s' j)) <= wst (st (frames s j))) -> i < depth s -> wst (st (frames s' i)) < wst (st (frames s i)) -> levels s' < levels s.
  Proof. intros D H Hi L. unfold levels. rewrite D. apply (sum_lt _ _ _ i); auto. Qed.

  Lemma gone_step s t l s' : Inv s -> thr s t = Dying [] :: l -> s' = St (back (frames s) l) (depth s) (upd (thr s) t l) (got s) (ret s) (exited s) (out s) -> Inv s' /\ moved s s' /\ weight s' < weight s.
  Proof.
    intros HI E Es. pose proof (here _ _ _ _ HI E) as Ht. destruct (pop_step s t _ l (frames s) HI E) with (s' := s') as (HI' & Ho & Hp); auto.
    - intros j. split; [discriminate|auto].
    - intros j. split; [apply alike_refl|auto].
    - apply (i_top _ _ HI).
    - destruct (rest_like s s') as [R1 R2]; [now subst s'|now subst s'|intros j _; subst s'; fields; apply back_like|intros d _; subst s'; fields; apply back_like|]. split; [exact HI'|]. split.
      + apply (quiet n s s' t); auto; [now subst s'|]. rewrite Hp, E. pose proof (t_shape _ _ _ _ (i_thr _ _ HI) t) as Sh. rewrite E in Sh. destruct Sh as [_ Sh]. cbn. now rewrite (proj1 (inside_pd _ _ Sh)).
      + pose proof (levels_le s s') as L. specialize (L ltac:(now subst s') ltac:(intros j; subst s'; fields; apply back_like)). pose proof (threads_lt s (thr s') t 1 Ht Ho) as X.
        assert (T : thr s' t = l) by (subst s'; fields; apply upd_same). rewrite T, E in X. cbn [pw length] in X. specialize (X ltac:(lia)). unfold weight. rewrite R2. replace (ret s') with (ret s) by now subst s'. replace (exited s') with (exited s) by now subst s'. lia.
  Qed.
  (** frame [i] at the top of thread [t] changes, the threads do not *)
  Lemma same_step s t i l f o s' : Inv s -> thr s t = Run i :: l -> running (st f) -> depth s = S i -> slot f = None -> (exists c, st f = Active c) ->
    s' = St (upd (frames s) i f) (depth s) (thr s) (got s) (ret s) (exited s) o -> Inv s'.
  Proof.
    intros HI E Hr Hd Hs [c Hc] ->. split; fields; try apply HI.
    - apply (Thr_same n _ _ _ f t i l (i_thr _ _ HI) E Hr).
    - intros j Hj. rewrite upd_other by lia. now apply (i_low _ _ HI).
    - intros d Hd'. assert (d = i) as -> by lia. rewrite upd_same. unfold topstate. now rewrite Hc.
  Qed.
  Lemma below fs i f : forall j, j < i -> alike (fs j) (upd fs i f j).
  Proof. intros j Hj. rewrite upd_other by lia. apply alike_refl. Qed.
  Lemma same_weight s i f o s' : depth s = S i -> s' = St (upd (frames s) i f) (depth s) (thr s) (got s) (ret s) (exited s) o ->
    wst (st f) <= wst (st (frames s i)) -> body_cost (upd (frames s) i f) i (code_of f) + wst (st f) < body_cost (frames s) i (code_of (frames s i)) + wst (st (frames s i)) -> weight s' < weight s.
  Proof.
    intros Hd -> Hw Hb. unfold weight, levels, rest_cost. fields. rewrite Hd. cbn [sum_to]. rewrite !upd_same. rewrite (sum_to_ext i (fun j => wst (st (upd (frames s) i f j))) (fun j => wst (st (frames s j)))); [lia|]. intros j Hj. cbn beta. now rewrite upd_other by lia.
  Qed.
  Lemma body_upd fs i f c : body (upd fs i f) i c = (fst (meaning c) ++ map Dtor (locals f) ++ fst (after fs i (snd (meaning c))), snd (after fs i (snd (meaning c)))) /\
    body_cost (upd fs i f) i c = cost c + length (locals f) + 2 + after_cost fs i (snd (meaning c)).
  Proof. unfold body, body_cost. rewrite upd_same. destruct (after_like fs (upd fs i f) i (below fs i f) (snd (meaning c))) as [A B]. now rewrite A, B. Qed.

  Lemma emit_step s t i l o c s' : Inv s -> thr s t = Run i :: l -> st (frames s i) = Active (Emit o c) ->
    s' = St (upd (frames s) i (Fr (Active c) (locals (frames s i)) (slot (frames s i)))) (depth s) (thr s) (got s) (ret s) (exited s) (out s ++ [Eff o]) -> Inv s' /\ moved s s' /\ weight s' < weight s.
  Proof.
    intros HI E A Es. destruct (top_of _ _ _ _ _ HI E A) as (D & G & Sl). split; [|split].
    - eapply (same_step s t i l); try exact Es; auto; [exact I|eexists; reflexivity].
    - apply (mv_emit n s s' (Eff o) t i l); [now subst s'|exact E| |subst s'; reflexivity]. unfold rest. subst s'. fields. rewrite D, upd_same. unfold code_of. fields. rewrite A. rewrite (proj1 (body_upd _ _ _ c)). reflexivity.
    - eapply same_weight; [exact D|exact Es|rewrite A; cbn; lia|]. rewrite (proj2 (body_upd _ _ _ _)). unfold code_of, body_cost. fields. rewrite A. cbn. lia.
  Qed.
  Lemma throw_step s t i l x d ds s' : Inv s -> thr s t = Run i :: l -> st (frames s i) = Active (Throw x) -> locals (frames s i) = d :: ds ->
    s' = St (upd (frames s) i (Fr (st (frames s i)) ds (slot (frames s i)))) (depth s) (thr s) (got s) (ret s) (exited s) (out s ++ [Dtor d]) -> Inv s' /\ moved s s' /\ weight s' < weight s.
  Proof.
    intros HI E A L Es. destruct (top_of _ _ _ _ _ HI E A) as (D & G & Sl). rewrite A in Es. split; [|split].
    - eapply (same_step s t i l); try exact Es; auto; [exact I|eexists; reflexivity].
    - apply (mv_emit n s s' (Dtor d) t i l); [now subst s'|exact E| |subst s'; reflexivity]. unfold rest. subst s'. fields. rewrite D, upd_same. unfold code_of. fields. rewrite A. rewrite (proj1 (body_upd _ _ _ _)). unfold body. fields. rewrite L. reflexivity.
    - eapply same_weight; [exact D|exact Es|rewrite A; cbn; lia|]. rewrite (proj2 (body_upd _ _ _ _)). unfold code_of, body_cost. fields. rewrite A, L. cbn. lia.
  Qed.
  Lemma ready_step s t i l k r s' : Inv s -> thr s t = Run i :: l -> st (frames s i) = Ready k -> slot (frames s i) = Some r ->
    s' = St (upd (frames s) i (Fr (Active (k r)) (locals (frames s i)) None)) (depth s) (thr s) (got s) (ret s) (exited s) (out s) -> Inv s' /\ moved s s' /\ weight s' < weight s.
  Proof.
    intros HI E A Sl Es. assert (Hi : In (Run i) (thr s t)) by (rewrite E; now left). destruct (t_on _ _ _ _ (i_thr _ _ HI) t i Hi) as [L _].
    assert (D : depth s = S i). { destruct (Nat.eq_dec (depth s) (S i)) as [|N]; auto. destruct (i_low _ _ HI i ltac:(lia)) as [_ X]. congruence. }
    split; [|split].
    - eapply (same_step s t i l); try exact Es; auto; [exact I|eexists; reflexivity].
    - apply (quiet n s s' t); [exact (here _ _ _ _ HI E)|now subst s'| |now subst s'|now subst s']. unfold rest. subst s'. fields. rewrite D, upd_same. unfold code_of. fields. rewrite A, Sl. rewrite (proj1 (body_upd _ _ _ _)). unfold body, cont. now rewrite A.
    - eapply same_weight; [exact D|exact Es|rewrite A; cbn; lia|]. rewrite (proj2 (body_upd _ _ _ _)). unfold code_of, body_cost, cont. fields. rewrite A, Sl. cbn. lia.
  Qed.
  Lemma unready_step s t i l k s' : Inv s -> thr s t = Run i :: l -> st (frames s i) = Ready k -> slot (frames s i) = None ->
    s' = St (upd (frames s) i (Fr (Suspending k) (locals (frames s i)) (slot (frames s i)))) (depth s) (thr s) (got s) (ret s) (exited s) (out s) -> Inv s' /\ moved s s' /\ weight s' < weight s.
  Proof.
    intros HI E A Sl Es. assert (Hi : In (Run i) (thr s t)) by (rewrite E; now left). destruct (t_on _ _ _ _ (i_thr _ _ HI) t i Hi) as [L _].
    assert (D : depth s <> S i). { intros D. pose proof (i_top _ _ HI i D) as X. unfold topstate in X. rewrite A in X. congruence. }
    destruct (rest_like s s') as [R1 R2]; [now subst s'|now subst s'| | |].
    - intros j _. subst s'. fields. rewrite updE. destruct (Nat.eqb_spec j i) as [->|]; [|apply alike_refl]. unfold alike, cont. fields. now rewrite A.
    - intros d Hd. subst s'. fields. rewrite upd_other by congruence. reflexivity.
    - split; [|split].
      + subst s'. split; fields; try apply HI.
        * apply (Thr_same n _ _ _ _ t i l (i_thr _ _ HI) E). exact I.
        * intros j Hj. rewrite updE. destruct (Nat.eqb_spec j i) as [->|]; [|now apply (i_low _ _ HI)]. split; [exact I|exact Sl].
        * intros d Hd. rewrite upd_other by congruence. now apply (i_top _ _ HI).
      + apply (quiet n s s' t); auto; [exact (here _ _ _ _ HI E)|now subst s'|now subst s'|now subst s'].
      + pose proof (levels_lt s s' i) as X. specialize (X ltac:(now subst s')). assert (W : forall j, wst (st (frames s' j)) <= wst (st (frames s j))) by (intros j; subst s'; fields; rewrite updE; destruct (Nat.eqb_spec j i) as [->|]; [rewrite A; cbn; lia|lia]).
        specialize (X W L). assert (wst (st (frames s' i)) < wst (st (frames s i))) by (subst s'; fields; rewrite upd_same, A; cbn; lia). specialize (X H). unfold weight. rewrite R2. subst s'. fields. lia.
  Qed.
  Lemma sleep_step s t i l c s' : Inv s -> thr s t = Run i :: l -> st (frames s i) = Active (Suspend c) ->
    s' = St (back (upd (frames s) i (Fr (Asleep c) (locals (frames s i)) (slot (frames s i)))) l) (depth s) (upd (thr s) t l) (got s) (ret s) (exited s) (out s) -> Inv s' /\ moved s s' /\ weight s' < weight s.
  Proof.
    intros HI E A Es. pose proof (here _ _ _ _ HI E) as Ht. destruct (top_of _ _ _ _ _ HI E A) as (D & G & Sl). set (gs := upd (frames s) i (Fr (Asleep c) (locals (frames s i)) (slot (frames s i)))) in *.
    assert (Al : forall j, alike (frames s j) (gs j)) by (intros j; unfold gs; rewrite updE; destruct (Nat.eqb_spec j i) as [->|]; [unfold alike, cont; fields; now rewrite A|apply alike_refl]).
    destruct (pop_step s t _ l gs HI E) with (s' := s') as (HI' & Ho & Hp); auto.
    - intros j. unfold gs. split; [intros X; injection X as <-; now rewrite upd_same|intros N; apply upd_other; congruence].
    - intros j. split; [apply Al|]. unfold gs. rewrite updE. destruct (Nat.eqb_spec j i) as [->|]; [|auto]. split; [reflexivity|]. rewrite A. contradiction.
    - intros d Hd. assert (d = i) as -> by lia. unfold gs. rewrite upd_same. exact Sl.
    - assert (Rs : rest s' = rest s /\ rest_cost s' + 3 = rest_cost s).
      { unfold rest, rest_cost. subst s'. fields. rewrite D. destruct (back_like gs l i) as ((B1 & _) & _ & B2 & _). rewrite B2. replace (code_of (gs i)) with c by (unfold gs; now rewrite upd_same). replace (code_of (frames s i)) with (Suspend c) by (unfold code_of; now rewrite A).
        destruct (body_like (frames s) (back gs l) i c) as [X Y]; [rewrite B1; apply Al| |]. { intros j Hj. destruct (back_like gs l j) as ((C1 & C2) & _). destruct (Al j) as [C3 C4]. split; congruence. }
        rewrite X, Y. split; [reflexivity|]. unfold body_cost. cbn. lia. }
      destruct Rs as [R1 R2]. split; [exact HI'|]. split.
      + apply (quiet n s s' t); auto; [now subst s'|]. rewrite Hp, E. pose proof (t_shape _ _ _ _ (i_thr _ _ HI) t) as Sh. rewrite E in Sh. destruct Sh as [_ Sh]. cbn. now rewrite (proj1 (inside_pd _ _ Sh)).
      + pose proof (threads_up s (thr s') t 0 Ht Ho) as X. assert (T : thr s' t = l) by (subst s'; fields; apply upd_same). rewrite T, E in X. cbn [pw] in X. specialize (X ltac:(lia)).
        assert (L : levels s' <= levels s + 2). { unfold levels. subst s'. fields. rewrite D. cbn [sum_to]. destruct (back_like gs l i) as (_ & _ & _ & B & _). replace (wst (st (gs i))) with 2 in B by (unfold gs; now rewrite upd_same).
          assert (sum_to i (fun j => wst (st (back gs l j))) <= sum_to i (fun j => wst (st (frames s j)))); [|lia]. apply sum_le. intros j Hj. destruct (back_like gs l j) as (_ & _ & _ & B' & _). replace (gs j) with (frames s j) in B' by (unfold gs; rewrite upd_other by lia; reflexivity). exact B'. }
        unfold weight. replace (ret s') with (ret s) by now subst s'. replace (exited s') with (exited s) by now subst s'. lia.
  Qed.
  Lemma suspend_step s t i l k s' : Inv s -> thr s t = Run i :: l -> st (frames s i) = Suspending k ->
    s' = St (back (upd (frames s) i (Fr (match slot (frames s i) with Some _ => Woken k | None => Waiting k end) (locals (frames s i)) (slot (frames s i)))) l) (depth s) (upd (thr s) t l) (got s) (ret s) (exited s) (out s) -> Inv s' /\ moved s s' /\ weight s' < weight s.
  Proof.
    intros HI E A Es. pose proof (here _ _ _ _ HI E) as Ht. assert (Hi : In (Run i) (thr s t)) by (rewrite E; now left). destruct (t_on _ _ _ _ (i_thr _ _ HI) t i Hi) as [L _].
    set (gs := upd (frames s) i (Fr (match slot (frames s i) with Some _ => Woken k | None => Waiting k end) (locals (frames s i)) (slot (frames s i)))) in *.
    assert (Gi : cont (gs i) = cont (frames s i) /\ locals (gs i) = locals (frames s i) /\ slot (gs i) = slot (frames s i) /\ code_of (gs i) = code_of (frames s i) /\ wst (st (gs i)) = 1 /\ onthread (st (gs i)) = false).
    { unfold gs. rewrite upd_same. unfold code_of, cont. fields. rewrite A. destruct (slot (frames s i)); fields; repeat split; reflexivity. }
    destruct Gi as (G1 & G2 & G3 & G4 & G5 & G6). assert (Go : forall j, j <> i -> gs j = frames s j) by (intros j Hj; unfold gs; now apply upd_other).
    assert (Al : forall j, alike (frames s j) (gs j)) by (intros j; destruct (Nat.eq_dec j i) as [->|N]; [now split|rewrite (Go j N); apply alike_refl]).
    destruct (pop_step s t _ l gs HI E) with (s' := s') as (HI' & Ho & Hp); auto.
    - intros j. split; [intros X; injection X as <-; exact G6|intros N; apply Go; congruence].
    - intros j. split; [apply Al|]. destruct (Nat.eq_dec j i) as [->|N]; [|rewrite (Go j N); auto]. split; [exact G3|]. intros _ X. unfold gs. rewrite upd_same. fields. now rewrite X.
    - intros d Hd. pose proof (i_top _ _ HI d Hd) as X. destruct (Nat.eq_dec d i) as [->|N]; [|now rewrite (Go d N)]. unfold topstate in *. rewrite A in X. unfold gs. rewrite upd_same. fields. destruct (slot (frames s i)); [exact X|congruence].
    - destruct (rest_like s s') as [R1 R2]; [now subst s'|now subst s'| | |].
      + intros j _. subst s'. fields. destruct (back_like gs l j) as ((C1 & C2) & _). destruct (Al j) as [C3 C4]. split; congruence.
      + intros d _. subst s'. fields. destruct (back_like gs l d) as (_ & _ & -> & _). destruct (Nat.eq_dec d i) as [->|N]; [exact G4|now rewrite (Go d N)].
      + split; [exact HI'|]. split.
        * apply (quiet n s s' t); auto; [now subst s'|]. rewrite Hp, E. pose proof (t_shape _ _ _ _ (i_thr _ _ HI) t) as Sh. rewrite E in Sh. destruct Sh as [_ Sh]. cbn. now rewrite (proj1 (inside_pd _ _ Sh)).
        * pose proof (threads_up s (thr s') t 0 Ht Ho) as X. assert (T : thr s' t = l) by (subst s'; fields; apply upd_same). rewrite T, E in X. cbn [pw] in X. specialize (X ltac:(lia)).
          assert (W : forall j, wst (st (frames s' j)) <= wst (st (frames s j)) /\ (j = i -> wst (st (frames s' j)) < wst (st (frames s j)))).
          { intros j. subst s'. fields. destruct (back_like gs l j) as (_ & _ & _ & B & _). destruct (Nat.eq_dec j i) as [->|N]; [rewrite G5 in B; rewrite A; cbn; split; [lia|intros _; lia]|]. rewrite (Go j N) in B. split; [exact B|congruence]. }
          pose proof (levels_lt s s' i ltac:(now subst s') (fun j => proj1 (W j)) L (proj2 (W i) eq_refl)). unfold weight. rewrite R2. replace (ret s') with (ret s) by now subst s'. replace (exited s') with (exited s) by now subst s'. lia.
  Qed.
End S.
