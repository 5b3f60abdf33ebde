(** C58: how false it is. A batch that is executed again while it holds as many results as it has entries. *)
From Coq Require Import List Arith ZArith Bool Lia.
From Verif.Common Require Import TS.
From Verif.IoUring Require Import Model Spec Proofs Props Props2.
Import ListNotations.
#[local] Arguments upd : simpl never.

(** executions are numbered; those under way or done have a smaller number than the next one *)
Definition numbered (s : state) : Prop :=
  (forall w r e, m_impl s w = Some r -> In e (m_opreps r) -> e_x e < next_x s) /\ (forall x v, In (x, v) (resumed s) -> x < next_x s).
(** execution [x] can only be one of batch [b], which has at least as many results as entries *)
Definition stuck (x b : nat) (s : state) : Prop :=
  x < next_x s /\ (forall w r e, m_impl s w = Some r -> In e (m_opreps r) -> e_x e = x -> e_b e = b) /\
  length (m_sqes (reps s b)) <= length (m_rets (reps s b)) /\ (forall v, ~ In (x, v) (resumed s)).

Lemma find_key_in k l e : find_key k l = Some e -> In e l.
Proof. induction l as [|y l IH]; cbn; [discriminate|]. destruct (e_key y =? k); [intros E; injection E as ->; now left|auto]. Qed.
Lemma erase_in k l e : In e (erase_key k l) -> In e l.
Proof. unfold erase_key. rewrite filter_In. tauto. Qed.
Lemma arm_len r ud r' : arm r ud = Some r' -> length (m_sqes r') = length (m_sqes r) /\ m_rets r' = m_rets r.
Proof.
  unfold arm. intros E. destruct (rev (map (fun q => Sqe (q_op q) (q_link q) ud) (m_sqes r))) as [|x p] eqn:R; [discriminate|]. injection E as <-. cbn [m_sqes m_rets]. split; [|reflexivity].
  rewrite app_length, rev_length. cbn. apply (f_equal (@length _)) in R. rewrite rev_length, map_length in R. cbn in R. lia.
Qed.
(** what happens to the rings' entries and to the numbering in one step *)
Lemma entries_step s e s' : next s e = Some s' -> next_x s <= next_x s' /\
  (forall w r y, m_impl s' w = Some r -> In y (m_opreps r) -> (exists w0 r0, m_impl s w0 = Some r0 /\ In y (m_opreps r0)) \/ (e_x y = next_x s /\ next_x s' = S (next_x s) /\ exists w0 a k, e = EExec w0 a (e_b y) k)) /\
  (resumed s' = resumed s \/ exists w r y bt, m_impl s w = Some r /\ In y (m_opreps r) /\ resumed s' = resumed s ++ [(e_x y, (e_key y, m_rets bt))] /\
     length (m_rets bt) = length (m_rets (reps s (e_b y))) + 1 /\ length (m_rets bt) = length (m_sqes (reps s (e_b y)))).
Proof.
  intros E. unfold next in E. destruct (fault s); [discriminate|]. destruct e as [w|b c|b|w a b k|w i v|w|w| |t g].
  - destruct (m_impl s w) eqn:Em; [discriminate|]. injection E as <-. cbn. split; [lia|]. split; [|now left]. intros w' r y. unfold upd. destruct (w' =? w); [intros H; injection H as <-; contradiction|eauto].
  - destruct (do_call (reps s b) c); injection E as <-; (split; [cbn; lia|]; split; [cbn; eauto|now left]).
  - injection E as <-. cbn. split; [lia|]. split; [eauto|now left].
  - destruct (susp s a); [discriminate|]. destruct (m_impl s w) as [r|] eqn:Em; [|injection E as <-; cbn; split; [lia|]; split; [eauto|now left]]. destruct (polling r =? 0); [|discriminate].
    destruct (arm (reps s b) a) as [bt|]; [|injection E as <-; cbn; split; [lia|]; split; [eauto|now left]]. unfold add_event in E. destruct (m_stoped r); [injection E as <-; cbn; split; [lia|]; split; [eauto|now left]|].
    destruct (find_key a (m_opreps r)); [injection E as <-; cbn; split; [lia|]; split; [eauto|now left]|]. destruct (sq_entries <? _); [injection E as <-; cbn; split; [lia|]; split; [eauto|now left]|]. destruct (k <=? _); [|discriminate]. injection E as <-.
    cbn [next_x m_impl resumed]. split; [lia|]. split; [|now left]. intros w' r' y. unfold upd. destruct (w' =? w); [|eauto]. intros H. injection H as <-. cbn [m_opreps]. rewrite in_app_iff. intros [H|[<-|[]]]; [left; eauto|right]. cbn [e_x e_b]. eauto 6.
  - destruct (m_impl s w) as [r|] eqn:Em; [|discriminate]. destruct (take_nth i (inflight r)) as [[it rest]|]; [|discriminate]. injection E as <-. cbn. split; [lia|]. split; [|now left].
    intros w' r' y. unfold upd. destruct (w' =? w); [|eauto]. intros H. injection H as <-. cbn. eauto.
  - destruct (m_impl s w) as [r|] eqn:Em; [|injection E as <-; cbn; split; [lia|]; split; [eauto|now left]]. destruct (polling r =? 0); [|discriminate]. destruct (m_stoped r); [injection E as <-; split; [lia|]; split; [eauto|now left]|].
    destruct (cq r); injection E as <-; cbn; (split; [lia|]; split; [|now left]); intros w' r' y; unfold upd; (destruct (w' =? w); [|eauto]); intros H; injection H as <-; cbn; eauto.
  - destruct (m_impl s w) as [r|] eqn:Em; [|discriminate]. destruct (polling r); [discriminate|]. destruct (cq r) as [|c q]; injection E as <-.
    + cbn. split; [lia|]. split; [|now left]. intros w' r' y. unfold upd. destruct (w' =? w); [|eauto]. intros H. injection H as <-. cbn. eauto.
    + unfold dealwith_cqe. cbn [m_opreps]. destruct (find_key (c_ud c) (m_opreps r)) as [y|] eqn:Ef; [|cbn; split; [lia|]; split; [eauto|now left]]. apply find_key_in in Ef.
      destruct (has_enough_ret (add_ret (reps s (e_b y)) (Ret (c_val c) (c_op c)))) eqn:Eh.
      * cbn [next_x m_impl resumed]. split; [lia|]. split.
        -- intros w' r' z. unfold upd. destruct (w' =? w); [|eauto]. intros H. injection H as <-. cbn [m_opreps]. intros H. apply erase_in in H. eauto.
        -- right. exists w, r, y, (add_ret (reps s (e_b y)) (Ret (c_val c) (c_op c))). split; [exact Em|]. split; [exact Ef|]. split; [reflexivity|]. unfold has_enough_ret in Eh. apply Nat.eqb_eq in Eh. cbn in Eh |- *. rewrite Eh. rewrite app_length in Eh. cbn in Eh. lia.
      * cbn. split; [lia|]. split; [|now left]. intros w' r' z. unfold upd. destruct (w' =? w); [|eauto]. intros H. injection H as <-. cbn. eauto.
  - destruct (runq s); [discriminate|]. injection E as <-. cbn. split; [lia|]. split; [eauto|now left].
  - destruct (m_impl s t) as [r|] eqn:Em; [|injection E as <-; cbn; split; [lia|]; split; [eauto|now left]]. destruct (polling r =? 0); [|discriminate]. injection E as <-. cbn. split; [lia|]. split; [|now left].
    intros w' r' y. unfold upd. destruct (w' =? t); [|eauto]. intros H. injection H as <-. cbn. eauto.
Qed.
(** the results of a batch on which no call is made and which is not reconstructed only become more *)
Lemma rep_step s e s' b : next s e = Some s' -> (forall c, e <> ECall b c) -> e <> ENew b ->
  length (m_sqes (reps s' b)) = length (m_sqes (reps s b)) /\ length (m_rets (reps s b)) <= length (m_rets (reps s' b)).
Proof.
  intros E N1 N2. assert (AL : forall bt b1 a, arm (reps s b1) a = Some bt -> length (m_sqes (upd (reps s) b1 bt b)) = length (m_sqes (reps s b)) /\ length (m_rets (reps s b)) <= length (m_rets (upd (reps s) b1 bt b))).
  { intros bt b1 a Ha. apply arm_len in Ha. destruct Ha as (A1 & A2). unfold upd. destruct (Nat.eqb_spec b b1) as [G|G]; [subst b1; rewrite A1, A2|]; split; lia. }
  unfold next in E. destruct (fault s); [discriminate|]. destruct e as [w|b0 c|b0|w a b0 k|w i v|w|w| |t g].
  - destruct (m_impl s w); [discriminate|]. injection E as <-. cbn. lia.
  - assert (b <> b0) by (intros ->; eapply N1; eauto). destruct (do_call (reps s b0) c); injection E as <-; cbn [set_rep set_fault reps]; rewrite ?upd_other by auto; lia.
  - assert (b <> b0) by congruence. injection E as <-. cbn [set_rep reps]. rewrite upd_other by auto. lia.
  - destruct (susp s a); [discriminate|]. destruct (m_impl s w) as [r|]; [|injection E as <-; cbn; lia]. destruct (polling r =? 0); [|discriminate].
    destruct (arm (reps s b0) a) as [bt|] eqn:Ea; [|injection E as <-; cbn; lia]. unfold add_event in E. destruct (m_stoped r); [injection E as <-; cbn [reps]; eauto|].
    destruct (find_key a (m_opreps r)); [injection E as <-; cbn; lia|]. destruct (sq_entries <? _); [injection E as <-; cbn; lia|]. destruct (k <=? _); [|discriminate]. injection E as <-. cbn [reps]. eauto.
  - destruct (m_impl s w) as [r|]; [|discriminate]. destruct (take_nth i (inflight r)) as [[it rest]|]; [|discriminate]. injection E as <-. cbn. lia.
  - destruct (m_impl s w) as [r|]; [|injection E as <-; cbn; lia]. destruct (polling r =? 0); [|discriminate]. destruct (m_stoped r); [injection E as <-; lia|]. destruct (cq r); injection E as <-; cbn; lia.
  - destruct (m_impl s w) as [r|]; [|discriminate]. destruct (polling r); [discriminate|]. destruct (cq r) as [|c q]; injection E as <-; [cbn; lia|].
    unfold dealwith_cqe. cbn [m_opreps]. destruct (find_key (c_ud c) (m_opreps r)) as [y|]; [|cbn; lia].
    destruct (has_enough_ret _); cbn [reps set_rep set_ring]; unfold upd; destruct (b =? e_b y) eqn:Eb; try lia; apply Nat.eqb_eq in Eb; subst b; cbn; rewrite app_length; lia.
  - destruct (runq s); [discriminate|]. injection E as <-. cbn. lia.
  - destruct (m_impl s t) as [r|]; [|injection E as <-; cbn; lia]. destruct (polling r =? 0); [|discriminate]. injection E as <-. cbn. lia.
Qed.
Lemma numbered_run l s : run next init l = Some s -> numbered s.
Proof.
  apply (run_inv next numbered); [|split; cbn; [discriminate|contradiction]]. intros s0 e s1 (N1 & N2) E. destruct (entries_step _ _ _ E) as (A & B & C). split.
  - intros w r y Hr Hy. destruct (B w r y Hr Hy) as [(w0 & r0 & H1 & H2)|(H1 & H2 & _)]; [specialize (N1 _ _ _ H1 H2)|]; lia.
  - destruct C as [->|(w & r & y & bt & H1 & H2 & -> & _)]; intros x v Hi; [specialize (N2 _ _ Hi); lia|]. apply in_app_iff in Hi. destruct Hi as [Hi|[Hi|[]]]; [specialize (N2 _ _ Hi); lia|]. injection Hi as <- _. specialize (N1 _ _ _ H1 H2). lia.
Qed.
Lemma stuck_step x b s e s' : stuck x b s -> (forall c, e <> ECall b c) -> e <> ENew b -> next s e = Some s' -> stuck x b s'.
Proof.
  intros (S1 & S2 & S3 & S4) N1 N2 E. destruct (entries_step _ _ _ E) as (A & B & C). destruct (rep_step _ _ _ b E N1 N2) as (R1 & R2). split; [lia|]. split; [|split; [lia|]].
  - intros w r y Hr Hy Hx. destruct (B w r y Hr Hy) as [(w0 & r0 & H1 & H2)|(H1 & H2 & _)]; [eauto|lia].
  - destruct C as [->|(w & r & y & bt & H1 & H2 & -> & H3 & H4)]; [exact S4|]. intros v Hi. apply in_app_iff in Hi. destruct Hi as [Hi|[Hi|[]]]; [exact (S4 _ Hi)|]. injection Hi as Hx _.
    pose proof (S2 _ _ _ H1 H2 Hx) as Hb. rewrite Hb in *. lia.
Qed.
(** C58, refuted for every history: a batch that holds at least as many results as it has entries (all batches that were executed and answered, unless entries were added; all those that
    were then cleared and given no more entries than before) is executed again: as long as the program makes no further call on it, this execution is never resumed, whatever happens. *)
Theorem C58_again_never_resumes_refuted : forall l s w a b k s1, run next init l = Some s -> length (m_sqes (reps s b)) <= length (m_rets (reps s b)) ->
  next s (EExec w a b k) = Some s1 -> In (next_x s) (map fst (submitted s1)) ->
  forall l' s', (forall c, ~ In (ECall b c) l') -> ~ In (ENew b) l' -> run next s1 l' = Some s' -> ~ In (next_x s) (map fst (resumed s')).
Proof.
  intros l s w a b k s1 R Hl E Hsub l' s' H1 H2 R' Hin. destruct (numbered_run l s R) as (N1 & N2). destruct (entries_step _ _ _ E) as (A & B & C).
  destruct (rep_step _ _ _ b E) as (R1 & R2); try discriminate.
  assert (NX : next_x s1 = S (next_x s) \/ submitted s1 = submitted s).
  { unfold next in E. destruct (fault s); [discriminate|]. destruct (susp s a); [discriminate|]. destruct (m_impl s w) as [r|]; [|injection E as <-; now right]. destruct (polling r =? 0); [|discriminate].
    destruct (arm (reps s b) a) as [bt|]; [|injection E as <-; now right]. unfold add_event in E. destruct (m_stoped r); [injection E as <-; now right|].
    destruct (find_key a (m_opreps r)); [injection E as <-; now right|]. destruct (sq_entries <? _); [injection E as <-; now right|]. destruct (k <=? _); [|discriminate]. injection E as <-. now left. }
  assert (SB : forall z, In z (map fst (submitted s)) -> z < next_x s).
  { clear - R. revert R. apply (run_inv next (fun s => forall z, In z (map fst (submitted s)) -> z < next_x s)); [|cbn; contradiction]. intros s0 e s1 IH E.
    assert (G : submitted s1 = submitted s0 /\ next_x s0 <= next_x s1 \/ exists v, submitted s1 = submitted s0 ++ [(next_x s0, v)] /\ next_x s1 = S (next_x s0)).
    { destruct (entries_step _ _ _ E) as (A & _). unfold next in E. destruct (fault s0); [discriminate|]. destruct e as [w|b c|b|w a b k|w i v|w|w| |t g].
      - destruct (m_impl s0 w); [discriminate|]. injection E as <-. left; auto.
      - destruct (do_call (reps s0 b) c); injection E as <-; left; auto.
      - injection E as <-. left; auto.
      - destruct (susp s0 a); [discriminate|]. destruct (m_impl s0 w) as [r|]; [|injection E as <-; left; auto]. destruct (polling r =? 0); [|discriminate].
        destruct (arm (reps s0 b) a) as [bt|]; [|injection E as <-; left; auto]. unfold add_event in E. destruct (m_stoped r); [injection E as <-; left; auto|].
        destruct (find_key a (m_opreps r)); [injection E as <-; left; auto|]. destruct (sq_entries <? _); [injection E as <-; left; auto|]. destruct (k <=? _); [|discriminate]. injection E as <-. right. eexists. split; reflexivity.
      - destruct (m_impl s0 w) as [r|]; [|discriminate]. destruct (take_nth i (inflight r)) as [[it rest]|]; [|discriminate]. injection E as <-. left; auto.
      - destruct (m_impl s0 w) as [r|]; [|injection E as <-; left; auto]. destruct (polling r =? 0); [|discriminate]. destruct (m_stoped r); [injection E as <-; left; auto|]. destruct (cq r); injection E as <-; left; auto.
      - destruct (m_impl s0 w) as [r|]; [|discriminate]. destruct (polling r); [discriminate|]. destruct (cq r) as [|c q]; injection E as <-; [left; auto|]. left. split; [|exact A].
        unfold dealwith_cqe. cbn [m_opreps]. destruct (find_key (c_ud c) (m_opreps r)) as [y|]; [|reflexivity]. destruct (has_enough_ret _); reflexivity.
      - destruct (runq s0); [discriminate|]. injection E as <-. left; auto.
      - destruct (m_impl s0 t) as [r|]; [|injection E as <-; left; auto]. destruct (polling r =? 0); [|discriminate]. injection E as <-. left; auto. }
    destruct G as [(-> & G)|(v & -> & G)]; intros z Hz; [specialize (IH z Hz); lia|]. rewrite map_app, in_app_iff in Hz. destruct Hz as [Hz|[<-|[]]]; [specialize (IH z Hz); lia|cbn; lia]. }
  assert (NX' : next_x s1 = S (next_x s)) by (destruct NX as [NX|NX]; [exact NX|rewrite NX in Hsub; specialize (SB _ Hsub); lia]).
  assert (ST : stuck (next_x s) b s1).
  { split; [lia|]. split; [|split; [lia|]].
    - intros w' r y Hr Hy Hx. destruct (B w' r y Hr Hy) as [(w0 & r0 & G1 & G2)|(_ & _ & w0 & a0 & k0 & G)]; [specialize (N1 _ _ _ G1 G2); lia|]. now injection G as _ _ <- _.
    - intros v Hi. destruct C as [C|(w' & r & y & bt & G1 & G2 & C & _)]; rewrite C in Hi; [specialize (N2 _ _ Hi); lia|]. apply in_app_iff in Hi. destruct Hi as [Hi|[Hi|[]]]; [specialize (N2 _ _ Hi); lia|].
      injection Hi as Hx _. specialize (N1 _ _ _ G1 G2). lia. }
  assert (ST' : stuck (next_x s) b s').
  { clear - ST H1 H2 R'. revert s1 ST R'. induction l' as [|e l' IH]; intros s1 ST R'; cbn in R'; [injection R' as <-; exact ST|]. destruct (next s1 e) as [s2|] eqn:E; [|discriminate].
    apply (IH (fun c G => H1 c (or_intror G)) (fun G => H2 (or_intror G)) s2); [|exact R']. eapply stuck_step; eauto; [intros c ->; apply (H1 c); now left|intros ->; apply H2; now left]. }
  destruct ST' as (_ & _ & _ & ST'). apply in_map_iff in Hin. destruct Hin as ((z & v) & Hz & Hin). cbn in Hz. subst z. exact (ST' v Hin).
Qed.
Print Assumptions C58_again_never_resumes_refuted.
(** a batch with one operation, executed, answered and executed again *)
Example C58_again_case : let l := [EPrepare 0; ECall 1 (Prep 10); EExec 0 50 1 1; EComplete 0 0 5%Z; EPollBegin 0; EPollStep 0; EResume] in exists s s1,
  run next init l = Some s /\ length (m_sqes (reps s 1)) = 1 /\ length (m_rets (reps s 1)) = 1 /\ next s (EExec 0 50 1 1) = Some s1 /\ map fst (submitted s1) = [0; 1] /\ next_x s = 1.
Proof.
  intros l. destruct (run_proj_ok next (fun s => (length (m_sqes (reps s 1)), length (m_rets (reps s 1)), option_map (fun s1 => map fst (submitted s1)) (next s (EExec 0 50 1 1)), next_x s)) init l
    (1, 1, Some [0; 1], 1)) as (s & Hr & Hp); [vm_compute; reflexivity|]. exists s. assert (P1 := f_equal (fun x => fst (fst (fst x))) Hp). assert (P2 := f_equal (fun x => snd (fst (fst x))) Hp). assert (P3 := f_equal (fun x => snd (fst x)) Hp). assert (P4 := f_equal snd Hp).
  cbn [fst snd] in P1, P2, P3, P4. destruct (next s (EExec 0 50 1 1)) as [s1|]; [|discriminate]. exists s1. injection P3 as P3. auto 10.
Qed.
