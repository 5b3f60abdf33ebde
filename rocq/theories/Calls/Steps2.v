(** Proofs for C146: the other steps, runs, and that something can always happen. *)
From Coq Require Import List Arith Bool Lia Permutation.
From Verif.Common Require Import TS Sum.
From Verif.Calls Require Import Spec Model Proofs Steps.
Import ListNotations.

Section S.
  Variable n : nat.
  Notation Inv := (Inv n). Notation Thr := (Thr n). Notation weight := (weight n). Notation moved := (moved n).
  Ltac fields := cbn [frames depth thr got ret exited out st locals slot] in *.
  Lemma is_top s i : Inv s -> i < depth s -> (waitlike (st (frames s i)) -> slot (frames s i) <> None) -> depth s = S i /\ got s = None.
  Proof.
    intros HI L H. split; [|destruct (got s) eqn:G; auto; assert (depth s = 0) by (apply (i_got _ _ HI); congruence); lia].
    destruct (Nat.eq_dec (depth s) (S i)) as [|N]; auto. destruct (i_low _ _ HI i ltac:(lia)) as [X Y]. destruct (H X Y).
  Qed.
  (** a call, eager or lazy *)
  Lemma call_rest s i x ds c k e f s' : depth s = S i -> st (frames s i) = Active (Call e c ds k) -> cont f = k -> locals f = locals (frames s i) -> x = Active c \/ x = Queued c ->
    frames s' = upd (upd (frames s) i f) (S i) (Fr x ds None) -> depth s' = S (S i) -> rest s' = rest s /\ rest_cost s' + 6 = rest_cost s.
  Proof.
    intros D A Hk Hl Hx Ef Ed. unfold rest, rest_cost. rewrite D, Ed, Ef. rewrite upd_same. replace (code_of (Fr x ds None)) with c by (destruct Hx; subst x; reflexivity). replace (code_of (frames s i)) with (Call e c ds k) by (unfold code_of; now rewrite A).
    rewrite (proj1 (body_upd _ (S i) _ c)), (proj2 (body_upd _ (S i) _ c)). fields. rewrite after_S. unfold body, body_cost. rewrite upd_same. cbn [after_cost]. rewrite upd_same, Hk, Hl.
    destruct (after_like (frames s) (upd (frames s) i f) i (below _ _ _) (snd (meaning (k (snd (meaning c)))))) as [B C]. rewrite B, C. cbn [meaning fst snd cost]. split; [|lia].
    f_equal. now rewrite !app_assoc.
  Qed.
  Lemma call_levels s i f g s' w : depth s = S i -> frames s' = upd (upd (frames s) i f) (S i) g -> depth s' = S (S i) -> wst (st f) + wst (st g) <= w -> levels s' <= levels s + w.
  Proof.
    intros D Ef Ed W. unfold levels. rewrite D, Ed, Ef. cbn [sum_to]. rewrite upd_same, upd_other, upd_same by lia.
    rewrite (sum_to_ext i _ (fun j => wst (st (frames s j)))); [lia|]. intros j Hj. cbn beta. now rewrite !upd_other by lia.
  Qed.
  Lemma eager_step s t i l c ds k s' : Inv s -> thr s t = Run i :: l -> st (frames s i) = Active (Call true c ds k) ->
    s' = St (upd (upd (frames s) i (Fr (Inside k) (locals (frames s i)) (slot (frames s i)))) (S i) (Fr (Active c) ds None)) (S (S i)) (upd (thr s) t (Run (S i) :: Run i :: l)) (got s) (ret s) (exited s) (out s) -> Inv s' /\ moved s s' /\ weight s' < weight s.
  Proof.
    intros HI E A Es. pose proof (here _ _ _ _ _ HI E) as Ht. destruct (top_of _ _ _ _ _ _ HI E A) as (D & G & Sl). destruct (busy _ _ _ _ _ HI E) as [Ex Hn].
    destruct (call_rest s i (Active c) ds c k true (Fr (Inside k) (locals (frames s i)) (slot (frames s i))) s' D A eq_refl eq_refl ltac:(auto) ltac:(now subst s') ltac:(now subst s')) as [R1 R2].
    split; [|split].
    - subst s'. split; fields.
      + apply (Thr_eager n (frames s) (thr s) _ t i l); [rewrite <- D; apply HI|exact E|eexists; reflexivity|exact I|intros u; apply updE].
      + intros j Hj. rewrite upd_other by lia. rewrite updE. destruct (Nat.eqb_spec j i) as [->|N]; [split; [exact I|exact Sl]|]. apply (i_low _ _ HI). lia.
      + intros d Hd. injection Hd as <-. rewrite upd_same. reflexivity.
      + split; [discriminate|congruence].
      + intros r R. destruct (i_ret _ _ HI r R) as [X _]. congruence.
      + congruence.
    - apply (quiet n s s' t); auto; subst s'; fields; auto; [rewrite upd_same, E; reflexivity|intros u Hu; now apply upd_other].
    - pose proof (call_levels s i _ _ s' 4 D ltac:(subst s'; reflexivity) ltac:(now subst s') ltac:(cbn; lia)). pose proof (threads_up n s (thr s') t 0 Ht) as X. specialize (X ltac:(intros u Hu; subst s'; now apply upd_other)).
      assert (T : pw (thr s' t) <= pw (thr s t) + 0) by (subst s'; fields; rewrite upd_same, E; cbn; lia). specialize (X T). unfold weight. replace (ret s') with (ret s) by now subst s'. replace (exited s') with (exited s) by now subst s'. lia.
  Qed.
  Lemma lazy_step s t i l c ds k s' : Inv s -> thr s t = Run i :: l -> st (frames s i) = Active (Call false c ds k) ->
    s' = St (upd (upd (frames s) i (Fr (Ready k) (locals (frames s i)) (slot (frames s i)))) (S i) (Fr (Queued c) ds None)) (S (S i)) (thr s) (got s) (ret s) (exited s) (out s) -> Inv s' /\ moved s s' /\ weight s' < weight s.
  Proof.
    intros HI E A Es. pose proof (here _ _ _ _ _ HI E) as Ht. destruct (top_of _ _ _ _ _ _ HI E A) as (D & G & Sl). destruct (busy _ _ _ _ _ HI E) as [Ex Hn].
    destruct (call_rest s i (Queued c) ds c k false (Fr (Ready k) (locals (frames s i)) (slot (frames s i))) s' D A eq_refl eq_refl ltac:(auto) ltac:(now subst s') ltac:(now subst s')) as [R1 R2].
    split; [|split].
    - subst s'. split; fields.
      + apply (Thr_lazy n (frames s) (thr s) t i l); [rewrite <- D; apply HI|exact E|exact I|reflexivity].
      + intros j Hj. rewrite upd_other by lia. rewrite updE. destruct (Nat.eqb_spec j i) as [->|N]; [split; [exact I|exact Sl]|]. apply (i_low _ _ HI). lia.
      + intros d Hd. injection Hd as <-. rewrite upd_same. reflexivity.
      + split; [discriminate|congruence].
      + intros r R. destruct (i_ret _ _ HI r R) as [X _]. congruence.
      + congruence.
    - apply (quiet n s s' t); auto; subst s'; fields; auto.
    - pose proof (call_levels s i _ _ s' 4 D ltac:(subst s'; reflexivity) ltac:(now subst s') ltac:(cbn; lia)). unfold weight. replace (thr s') with (thr s) by now subst s'. replace (ret s') with (ret s) by now subst s'. replace (exited s') with (exited s) by now subst s'. lia.
  Qed.
  (** a coroutine ends *)
  Lemma finish_step s t i l c r s' : Inv s -> thr s t = Run i :: l -> st (frames s i) = Active c -> meaning c = ([], r) -> s' = finish s t i l (locals (frames s i)) r -> Inv s' /\ moved s s' /\ weight s' < weight s.
  Proof.
    intros HI E A Hc Es. pose proof (here _ _ _ _ _ HI E) as Ht. destruct (top_of _ _ _ _ _ _ HI E A) as (D & G & Sl). destruct (busy _ _ _ _ _ HI E) as [Ex Hn].
    assert (Hr : ret s = None). { destruct (ret s) as [r'|] eqn:R; auto. destruct (i_ret _ _ HI r' R) as [X _]. congruence. }
    assert (Hthr : thr s' = upd (thr s) t (Dying (locals (frames s i)) :: l)) by (subst s'; unfold finish; destruct i; reflexivity).
    assert (Hout : out s' = out s) by (subst s'; unfold finish; destruct i; reflexivity).
    pose proof (t_shape _ _ _ _ (i_thr _ _ HI) t) as Sh. rewrite E in Sh. destruct Sh as [_ Sh]. destruct (inside_pd _ _ Sh) as [P1 P2]. pose proof (cost_pos c) as Cp.
    assert (Wt : sum_to (S n) (fun u => pw (thr s' u)) <= sum_to (S n) (fun u => pw (thr s u)) + (1 + length (locals (frames s i)))). { apply (threads_up n s (thr s') t _ Ht); [intros u Hu; rewrite Hthr; now apply upd_other|]. rewrite Hthr, upd_same, E. cbn. lia. }
    assert (Mv : rest s = (map Dtor (locals (frames s i)) ++ fst (rest s'), snd (rest s')) -> moved s s').
    { intros X. apply (mv_quiet n s s' t (locals (frames s i))); auto; [right; exists i, l; exact E|rewrite Hthr, upd_same, E; cbn; now rewrite P1|intros u Hu; rewrite Hthr; now apply upd_other]. }
    assert (Rs : rest s = (map Dtor (locals (frames s i)) ++ fst (after (frames s) i r), snd (after (frames s) i r))). { unfold rest. rewrite D. unfold code_of. rewrite A. unfold body. now rewrite Hc. }
    assert (Rc : rest_cost s = cost c + length (locals (frames s i)) + 2 + after_cost (frames s) i r). { unfold rest_cost. rewrite D. unfold code_of. rewrite A. unfold body_cost. now rewrite Hc. }
    destruct i as [|j].
    - subst s'. unfold finish in *. fields. split; [|split].
      + split; fields; try discriminate.
        * apply (Thr_finish n (frames s) (thr s) _ t 0 l (locals (frames s 0))); [rewrite <- D; apply HI|exact E|lia|intros u; apply updE].
        * lia.
        * split; [discriminate|reflexivity].
        * intros r' R. congruence.
        * congruence.
      + apply Mv. rewrite Rs. reflexivity.
      + unfold weight, levels. fields. rewrite Rc. unfold rest_cost. fields. rewrite Hr, Ex. cbn [sum_to]. cbn [sum_to] in Wt. lia.
    - set (f := deliver (frames s j) r) in *. assert (Hf : frames s' = upd (frames s) j f) by (subst s'; reflexivity). assert (Hd : depth s' = S j) by (subst s'; reflexivity).
      destruct (i_low _ _ HI j ltac:(lia)) as [Lw Ls].
      assert (F : locals f = locals (frames s j) /\ code_of f = cont (frames s j) r /\ topstate f /\ wst (st f) = wst (st (frames s j)) /\ onthread (st f) = onthread (st (frames s j)) /\ (onthread (st (frames s j)) = true -> st f = st (frames s j))).
      { unfold f, deliver, code_of, topstate, cont. fields. destruct (st (frames s j)); try contradiction; fields; repeat split; auto; discriminate. }
      destruct F as (F1 & F2 & F3 & F4 & F5 & F6).
      assert (Rst : rest s' = after (frames s) (S j) r /\ rest_cost s' = after_cost (frames s) (S j) r).
      { unfold rest, rest_cost. rewrite Hd, Hf, upd_same, F2. rewrite (proj1 (body_upd _ _ _ _)), (proj2 (body_upd _ _ _ _)). rewrite F1. split; reflexivity. }
      destruct Rst as [R1 R2]. split; [|split].
      + split.
        * rewrite Hf, Hd, Hthr. apply (Thr_finish n (frames s) (thr s) _ t (S j) l (locals (frames s (S j)))); [rewrite <- D; apply HI|exact E| |intros u; apply updE].
          intros m Hm. rewrite updE. destruct (Nat.eqb_spec m j) as [->|]; auto.
        * intros m Hm. rewrite Hd in Hm. rewrite Hf, upd_other by lia. apply (i_low _ _ HI). lia.
        * intros d X. rewrite Hd in X. injection X as <-. rewrite Hf, upd_same. exact F3.
        * rewrite Hd. replace (got s') with (got s) by (subst s'; reflexivity). rewrite G. split; [discriminate|congruence].
        * replace (ret s') with (ret s) by (subst s'; reflexivity). congruence.
        * replace (exited s') with (exited s) by (subst s'; reflexivity). congruence.
      + apply Mv. rewrite R1. exact Rs.
      + assert (L : levels s' <= levels s). { unfold levels. rewrite D, Hd, Hf. cbn [sum_to]. rewrite upd_same, F4. rewrite (sum_to_ext j _ (fun m => wst (st (frames s m)))); [lia|]. intros m Hm. cbn beta. now rewrite upd_other by lia. }
        unfold weight. rewrite R2, Rc. replace (ret s') with (ret s) by (subst s'; reflexivity). replace (exited s') with (exited s) by (subst s'; reflexivity). lia.
  Qed.
  (** the frame on top of the tree leaves or enters the queue *)
  Lemma shift_step s i f th' s' : Inv s -> i < depth s -> (waitlike (st (frames s i)) -> slot (frames s i) <> None) ->
    match st f with Active _ | Queued _ => True | _ => False end -> slot f = None -> locals f = locals (frames s i) -> code_of f = code_of (frames s i) -> wst (st f) < wst (st (frames s i)) ->
    exited s = false -> Thr (upd (frames s) i f) (depth s) th' -> (forall u, u <= n -> pd (th' u) = pd (thr s u) /\ pw (th' u) = pw (thr s u)) ->
    s' = St (upd (frames s) i f) (depth s) th' (got s) (ret s) (exited s) (out s) -> Inv s' /\ rest s' = rest s /\ weight s' < weight s.
  Proof.
    intros HI L T Fs Sf Lf Cf Wf Ex HT Hth Es. destruct (is_top s i HI L T) as [D G].
    assert (R : rest s' = rest s /\ rest_cost s' = rest_cost s).
    { unfold rest, rest_cost. subst s'. fields. rewrite D, upd_same, Cf. apply body_like; [now rewrite upd_same|apply below]. }
    destruct R as [R1 R2]. split; [|split; [exact R1|]].
    - subst s'. split; fields; try apply HI.
      + exact HT.
      + intros j Hj. rewrite upd_other by lia. now apply (i_low _ _ HI).
      + intros d Hd. assert (d = i) as -> by lia. rewrite upd_same. unfold topstate. destruct (st f); try contradiction; exact Sf.
      + intros r Rr. destruct (i_ret _ _ HI r Rr) as [X _]. congruence.
      + congruence.
    - unfold weight. rewrite R2. subst s'. fields. unfold levels. fields. rewrite D. cbn [sum_to]. rewrite upd_same. rewrite (sum_to_ext i _ (fun j => wst (st (frames s j)))) by (intros j Hj; cbn beta; now rewrite upd_other by lia).
      assert (X : sum_to n (fun t => pw (th' t)) = sum_to n (fun t => pw (thr s t))) by (apply sum_to_ext; intros u Hu; apply Hth; lia). cbn beta. rewrite (proj2 (Hth n (le_n n))). lia.
  Qed.
  Lemma take_step s t i f s' : Inv s -> t < n -> i < depth s -> thr s t = [] -> onthread (st (frames s i)) = false -> (waitlike (st (frames s i)) -> slot (frames s i) <> None) -> (exists c, st f = Active c) -> slot f = None -> locals f = locals (frames s i) -> code_of f = code_of (frames s i) -> wst (st f) < wst (st (frames s i)) ->
    s' = St (upd (frames s) i f) (depth s) (upd (thr s) t [Run i]) (got s) (ret s) (exited s) (out s) -> Inv s' /\ moved s s' /\ weight s' < weight s.
  Proof.
    intros HI Ht L E On T [c Hc] Sf Lf Cf Wf Es. destruct (is_top s i HI L T) as [D G].
    assert (Ex : exited s = false). { destruct (exited s) eqn:X; auto. destruct (i_exit _ _ HI X) as [Y _]. destruct (ret s) as [r|] eqn:R; [|congruence]. destruct (i_ret _ _ HI r R). congruence. }
    destruct (shift_step s i f (upd (thr s) t [Run i]) s' HI L T) as (A & B & C); auto.
    - now rewrite Hc.
    - apply (Thr_take n (frames s) (depth s) (thr s) _ t i f (i_thr _ _ HI)); auto; try lia; try (now rewrite Hc); intros u; apply updE.
    - intros u Hu. rewrite updE. destruct (Nat.eqb_spec u t) as [->|]; [rewrite E; now split|now split].
    - split; [exact A|]. split; [|exact C]. apply (quiet n s s' t); auto; try lia; [now subst s'|subst s'; fields; rewrite upd_same, E; reflexivity|subst s'; fields; intros u Hu; now apply upd_other].
  Qed.
  Lemma wake_step s i c s' : Inv s -> i < depth s -> st (frames s i) = Asleep c -> s' = St (upd (frames s) i (Fr (Queued c) (locals (frames s i)) (slot (frames s i)))) (depth s) (thr s) (got s) (ret s) (exited s) (out s) -> Inv s' /\ moved s s' /\ weight s' < weight s.
  Proof.
    intros HI L A Es. assert (T : waitlike (st (frames s i)) -> slot (frames s i) <> None) by (rewrite A; contradiction). destruct (is_top s i HI L T) as [D G].
    assert (Ex : exited s = false). { destruct (exited s) eqn:X; auto. destruct (i_exit _ _ HI X) as [Y _]. destruct (ret s) as [r|] eqn:R; [|congruence]. destruct (i_ret _ _ HI r R). congruence. }
    assert (Sl : slot (frames s i) = None) by (pose proof (i_top _ _ HI i D) as X; unfold topstate in X; now rewrite A in X).
    destruct (shift_step s i (Fr (Queued c) (locals (frames s i)) (slot (frames s i))) (thr s) s' HI L T) as (P & Q & R); auto; fields; auto.
    - unfold code_of. fields. now rewrite A.
    - rewrite A. cbn. lia.
    - apply Thr_off; [apply HI|now rewrite A|reflexivity].
    - split; [exact P|]. split; [|exact R]. apply (quiet n s s' n); auto; subst s'; fields; auto.
  Qed.

  Lemma step_good s e s' : Inv s -> step n s e = Some s' -> Inv s' /\ moved s s' /\ weight s' < weight s.
  Proof.
    intros HI H. destruct e as [t|t i|i| |]; cbn [step] in H.
    - destruct (thr s t) as [|[i|[|d ds]] l] eqn:E; [discriminate| | |].
      + destruct (st (frames s i)) as [c|c|c|k|k|k|k|k] eqn:A; try discriminate.
        * destruct c as [v|x|o c|c|e c ds k].
          -- injection H as H. eapply finish_step; eauto. reflexivity.
          -- destruct (locals (frames s i)) as [|d ds] eqn:L; injection H as H; [|eapply throw_step; eauto; rewrite A; now rewrite <- H]. eapply (finish_step s t i l (Throw x) (Exn x)); eauto. now rewrite L.
          -- injection H as H. eapply emit_step; eauto.
          -- injection H as H. eapply sleep_step; eauto.
          -- destruct e; injection H as H; [eapply eager_step|eapply lazy_step]; eauto.
        * destruct (slot (frames s i)) as [r|] eqn:Sl; injection H as H; [eapply ready_step|eapply unready_step]; eauto. now rewrite Sl.
        * injection H as H. eapply suspend_step; eauto.
      + injection H as H. eapply gone_step; eauto.
      + injection H as H. eapply dtor_step; eauto.
    - destruct ((t <? n) && (i <? depth s)) eqn:B; [|discriminate]. apply andb_prop in B as [B1 B2]. apply Nat.ltb_lt in B1, B2.
      destruct (thr s t) as [|a l] eqn:E; [|discriminate]. destruct (st (frames s i)) as [c|c|c|k|k|k|k|k] eqn:A; try discriminate.
      + injection H as H. destruct (is_top s i HI B2) as [D _]; [rewrite A; contradiction|]. assert (Sl : slot (frames s i) = None) by (pose proof (i_top _ _ HI i D) as X; unfold topstate in X; now rewrite A in X).
        apply (take_step s t i (Fr (Active c) (locals (frames s i)) (slot (frames s i)))); auto; try (rewrite A; cbn; auto; contradiction); [eexists; reflexivity|unfold code_of; cbn; now rewrite A].
      + destruct (slot (frames s i)) as [r|] eqn:Sl; [|discriminate]. injection H as H.
        apply (take_step s t i (Fr (Active (k r)) (locals (frames s i)) None)); auto; try (rewrite A; cbn; auto; contradiction); [eexists; reflexivity|unfold code_of, cont; cbn; now rewrite A, Sl].
    - destruct (i <? depth s) eqn:B; [|discriminate]. apply Nat.ltb_lt in B. destruct (st (frames s i)) eqn:A; try discriminate. injection H as H. eapply wake_step; eauto.
    - destruct (thr s n) eqn:E; [|discriminate]. destruct (got s) as [r|] eqn:G; [|discriminate]. destruct (ret s) eqn:R; [discriminate|]. injection H as <-. split; [|split].
      + assert (Ex : exited s = false) by (destruct (exited s) eqn:X; auto; destruct (i_exit _ _ HI X); congruence). split; fields; try apply HI; [split; [discriminate|intros _; apply (i_got _ _ HI); congruence]|intros r' X; injection X as <-; split; [reflexivity|exact E]|congruence].
      + apply (quiet n s _ n); auto. unfold rest. fields. now rewrite G.
      + unfold weight, levels, rest_cost. fields. rewrite R. lia.
    - destruct (forallb _ _ && negb (exited s)) eqn:B; [|discriminate]. destruct (ret s) as [r|] eqn:R; [|discriminate]. injection H as <-. apply andb_prop in B as [B1 B2]. destruct (exited s) eqn:Ex; [discriminate|]. rewrite forallb_forall in B1. destruct (i_ret _ _ HI r R) as [Gr Tn]. split; [|split].
      + split; fields; try apply HI.
        * intros r' X. rewrite <- R in X. now apply (i_ret _ _ HI).
        * intros _. split; [discriminate|]. intros t. destruct (Nat.lt_trichotomy t n) as [X|[->|X]]; [|exact Tn|now apply (t_out _ _ _ _ (i_thr _ _ HI))]. specialize (B1 t ltac:(apply in_seq; lia)). cbn beta in B1. destruct (thr s t); [reflexivity|discriminate].
      + apply (quiet n s _ n); auto.
      + unfold weight, levels, rest_cost. fields. rewrite R, Ex. lia.
  Qed.
End S.
