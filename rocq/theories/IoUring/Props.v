From Coq Require Import List Arith ZArith Bool Permutation Lia.
From Verif.Common Require Import TS.
From Verif.IoUring Require Import Model Spec Proofs.
Import ListNotations.
#[local] Arguments upd : simpl never.

(** * C22 *)

(** C22: however executions, completions, polls, resumptions and stops interleave on any number of threads, a coroutine
    is put back on the scheduler's queue at most once per execution of a batch; when it is, its return slots are exactly
    the completions the kernel produced for that execution - all of them, in the order it produced them, none of another
    batch - one for every operation submitted. No assertion fails. *)
Theorem C22_resumed_once_with_its_own_results : forall l s,
  run_all next proper init l -> run next init l = Some s ->
  fault s = false /\ NoDup (map fst (resumed s)) /\ NoDup (map fst (submitted s)) /\
  forall x a rs, In (x, (a, rs)) (resumed s) ->
    rs = completions s x /\ exists w ops, In (x, (w, a, ops)) (submitted s) /\ Permutation ops (map r_op rs).
Proof.
  intros l s HP HR. destruct (inv_run l s HP HR) as [I1 I2 I3 I4 I5 I6 I7 I8 I9].
  split; [exact I9|]. split; [exact I6|]. split; [apply I4|]. intros x a rs Hin. destruct (I7 x a rs Hin) as (H1 & H2). now split.
Qed.
Print Assumptions C22_resumed_once_with_its_own_results.

(** C22: a coroutine that was not resumed yet is suspended, and something of its batch is still on its way: an entry not
    yet taken by the kernel, an entry the kernel has not completed, or a completion not yet looked at by its thread. *)
Definition on_its_way (s : state) (w x : nat) : Prop :=
  exists r, m_impl s w = Some r /\
    ((exists i, In i (sq r) /\ i_x i = x) \/ (exists i, In i (inflight r) /\ i_x i = x) \/ (exists c, In c (cq r) /\ c_x c = x)).
Lemma out_entry s w r e : inv s -> m_impl s w = Some r -> In e (m_opreps r) -> exists t, In t (out r) /\ t_x t = e_x e.
Proof.
  intros HI Hr Hin. destruct (iv_ring s HI w r Hr) as [_ _ K3 _]. destruct (K3 e Hin) as (_ & _ & _ & L4 & L5 & _).
  destruct (of_x (e_x e) (out r)) as [|t tl] eqn:Eo.
  { exfalso. cbn [map] in L4. rewrite app_nil_r in L4. apply Permutation_length in L4. rewrite !map_length in L4. lia. }
  assert (Ht : In t (of_x (e_x e) (out r))) by (rewrite Eo; now left). apply filter_In in Ht. destruct Ht as [Ht1 Ht2]. apply Nat.eqb_eq in Ht2. eauto.
Qed.
Theorem C22_not_resumed_means_not_complete : forall l s x w a ops,
  run_all next proper init l -> run next init l = Some s ->
  outstanding s x w a ops -> susp s a = true /\ ~ In a (runq s) /\ on_its_way s w x.
Proof.
  intros l s x w a ops HP HR [Hin Hnr]. pose proof (inv_run l s HP HR) as HI. pose proof HI as [I1 I2 I3 I4 I5 I6 I7 I8 I9].
  destruct (I5 _ _ _ _ Hin) as [?|(e & (r & Hr & He) & Hx & Ha & Hops)]; [easy|]. subst x a.
  destruct (I1 w r Hr) as [K1 K2 K3 K4]. destruct (K3 e He) as (L1 & L2 & _). split; [easy|]. split; [easy|].
  exists r. split; [easy|]. destruct (out_entry s w r e HI Hr He) as (t & Ht & Hx).
  unfold out in Ht. apply in_app_iff in Ht. destruct Ht as [Ht|Ht]; [left|apply in_app_iff in Ht; destruct Ht as [Ht|Ht]; right; [left|right]];
    apply in_map_iff in Ht; destruct Ht as (i & Hi & Hin'); exists i; (split; [easy|]); subst t; cbn in Hx; easy.
Qed.
Print Assumptions C22_not_resumed_means_not_complete.

(** C22, nothing is lost: once the kernel has taken and completed every entry of a thread, that thread's own polling (it
    was not stopped) puts every coroutine that executed a batch on this thread back on the queue. *)
Definition poll_event (w : nat) (ev : event) : Prop := ev = EPollBegin w \/ ev = EPollStep w.

Lemma poll_proper s w : m_impl s w <> None -> proper s (EPollBegin w) /\ proper s (EPollStep w).
Proof. now split. Qed.

Lemma step_shape s w r n c rest : inv s -> m_impl s w = Some r -> polling r = S n -> cq r = c :: rest ->
  exists s' r', next s (EPollStep w) = Some s' /\ m_impl s' w = Some r' /\ polling r' = n /\ cq r' = rest /\
    sq r' = sq r /\ inflight r' = inflight r /\ m_stoped r' = m_stoped r /\ submitted s' = submitted s.
Proof.
  intros HI Hr Hp Hc. unfold next. rewrite (iv_fault s HI), Hr, Hp, Hc.
  assert (Hnf : exists e, find_key (c_ud c) (m_opreps r) = Some e).
  { destruct (iv_ring s HI w r Hr) as [_ K2 _ _]. destruct (K2 (ctag c)) as (e & He & Hk & _).
    { unfold out. apply in_app_iff. right. apply in_app_iff. right. rewrite Hc. now left. }
    destruct (find_key (c_ud c) (m_opreps r)) eqn:E; [eauto|]. exfalso. eapply find_key_None; [exact E|exact He|exact Hk]. }
  destruct Hnf as (e & He). unfold dealwith_cqe. cbn [m_opreps]. rewrite He.
  destruct (has_enough_ret _); eexists; eexists; (split; [reflexivity|]).
  - cbn [m_impl]. rewrite upd_same. split; [reflexivity|]. cbn [polling cq sq inflight m_stoped submitted]. easy.
  - cbn [m_impl set_rep set_ring]. rewrite upd_same. split; [reflexivity|]. cbn [polling cq sq inflight m_stoped submitted]. easy.
Qed.

Lemma drain n : forall s w r, inv s -> m_impl s w = Some r -> polling r = n ->
  exists l s' r', run next s l = Some s' /\ inv s' /\ (forall e, In e l -> poll_event w e) /\
    m_impl s' w = Some r' /\ polling r' = 0 /\ cq r' = skipn n (cq r) /\
    sq r' = sq r /\ inflight r' = inflight r /\ m_stoped r' = m_stoped r /\ submitted s' = submitted s.
Proof.
  induction n as [|n IH]; intros s w r HI Hr Hp.
  - exists [], s, r. cbn [run skipn]. split; [easy|]. split; [easy|]. split; [intros e []|]. easy.
  - destruct (cq r) as [|c rest] eqn:Ec. { destruct (iv_ring s HI w r Hr) as [_ _ _ K4]. rewrite Ec, Hp in K4. cbn [length] in K4. lia. }
    destruct (step_shape s w r n c rest HI Hr Hp Ec) as (s1 & r1 & Hn & Hr1 & Hp1 & Hc1 & Hq1 & Hf1 & Hs1 & Hsub1).
    assert (HI1 : inv s1) by (eapply inv_step; [exact HI| |exact Hn]; exact I).
    destruct (IH s1 w r1 HI1 Hr1 Hp1) as (l & s2 & r2 & A1 & A2 & A3 & A4 & A5 & A6 & A7 & A8 & A9 & A10).
    exists (EPollStep w :: l), s2, r2. cbn [run skipn]. rewrite Hn. split; [easy|]. split; [easy|]. split; [intros e [<-|He]; [now right|auto]|].
    repeat split; congruence.
Qed.

Theorem C22_completed_batches_are_resumed : forall l s w r,
  run_all next proper init l -> run next init l = Some s -> m_impl s w = Some r ->
  m_stoped r = false -> sq r = [] -> inflight r = [] ->
  exists l' s', (forall e, In e l' -> poll_event w e) /\ run next s l' = Some s' /\
    forall x a ops, In (x, (w, a, ops)) (submitted s) -> In x (map fst (resumed s')).
Proof.
  intros l s w r HP HR Hr Hst Hq Hf. pose proof (inv_run l s HP HR) as HI.
  destruct (drain (polling r) s w r HI Hr eq_refl) as (l1 & s1 & r1 & A1 & A2 & A3 & A4 & A5 & A6 & A7 & A8 & A9 & A10).
  (* a second poll, from an idle loop, looks at everything *)
  assert (HB : exists s2 r2, next s1 (EPollBegin w) = Some s2 /\ inv s2 /\ m_impl s2 w = Some r2 /\ polling r2 = length (cq r2) /\
     sq r2 = [] /\ inflight r2 = [] /\ submitted s2 = submitted s1).
  { destruct (next s1 (EPollBegin w)) as [s2|] eqn:En.
    - assert (HI2 : inv s2) by (eapply inv_step; [exact A2| |exact En]; cbn [proper]; congruence).
      exists s2. unfold next in En. rewrite (iv_fault s1 A2), A4, A5 in En. cbn [Nat.eqb] in En. rewrite A9, Hst in En.
      destruct (cq r1) eqn:Ec; inversion En; subst s2; eexists; (split; [reflexivity|]); (split; [exact HI2|]); cbn [m_impl set_ring]; rewrite upd_same;
        (split; [reflexivity|]); cbn [polling cq sq inflight submitted set_ring length]; repeat split; congruence.
    - exfalso. unfold next in En. rewrite (iv_fault s1 A2), A4, A5 in En. cbn [Nat.eqb] in En. destruct (m_stoped r1); [discriminate|]. destruct (cq r1); discriminate. }
  destruct HB as (s2 & r2 & B1 & B2 & B3 & B4 & B5 & B6 & B7).
  destruct (drain (length (cq r2)) s2 w r2 B2 B3 B4) as (l3 & s3 & r3 & C1 & C2 & C3 & C4 & C5 & C6 & C7 & C8 & C9 & C10).
  exists (l1 ++ EPollBegin w :: l3), s3. split; [|split].
  - intros e He. apply in_app_iff in He. destruct He as [He|[<-|He]]; [auto|now left|auto].
  - rewrite (run_app next s l1 _ s1 A1). cbn [run]. rewrite B1. exact C1.
  - intros x a ops Hin. rewrite <- A10, <- B7, <- C10 in Hin.
    destruct (iv_sub2 s3 C2 _ _ _ _ Hin) as [?|(e & (p & Hp & He) & _)]; [easy|]. exfalso.
    rewrite C4 in Hp. inversion Hp; subst p. destruct (out_entry s3 w r3 e C2 C4 He) as (t & Ht & _).
    unfold out in Ht. rewrite C6, C7, C8, B5, B6, skipn_all in Ht. easy.
Qed.
Print Assumptions C22_completed_batches_are_resumed.

(** A decidable sufficient condition for [proper], for programs with at most two threads (used for examples only). *)
Definition free2 (s : state) (b : nat) : bool :=
  forallb (fun w => match m_impl s w with Some r => forallb (fun e => negb (e_b e =? b)) (m_opreps r) | None => true end) [0;1].
Definition proper2 (s : state) (ev : event) : bool :=
  match ev with
  | ECall b c => free2 s b && match do_call (reps s b) c with Some _ => true | None => false end
  | ENew b => free2 s b
  | EExec w a b k => free2 s b && match m_impl s w with Some r => length (sq r) + length (m_sqes (reps s b)) <=? sq_entries | None => false end
                     && match m_rets (reps s b) with [] => true | _ => false end && match m_sqes (reps s b) with [] => false | _ => true end
  | EPollBegin w => match m_impl s w with Some _ => true | None => false end
  | EPrepare w => w <? 2
  | _ => true
  end.
Definition two_threads (s : state) : Prop := forall w, 2 <= w -> m_impl s w = None.
Lemma free2_ok s b : two_threads s -> free2 s b = true -> ~ registered_batch s b.
Proof.
  intros HT Hf (w & r & e & Hr & He & Hb). destruct (le_lt_dec 2 w) as [Hw|Hw]; [rewrite (HT w Hw) in Hr; discriminate|].
  unfold free2 in Hf. rewrite forallb_forall in Hf. specialize (Hf w). rewrite Hr in Hf.
  assert (Hin : In w [0;1]) by (destruct w as [|[|w]]; cbn; auto; lia). specialize (Hf Hin).
  rewrite forallb_forall in Hf. specialize (Hf e He). rewrite Hb, Nat.eqb_refl in Hf. discriminate.
Qed.
Lemma proper_two_threads l : run_allb next proper2 init l = true -> run_all next proper init l.
Proof.
  apply (run_allb_inv_ok next two_threads); [| |easy].
  - intros s ev HT. destruct ev as [w|b c|b|w a b k|w i v|w|w| |t g]; cbn [proper2 proper]; try easy.
    + intros H. apply andb_true_iff in H. destruct H as [H1 H2]. split; [now apply free2_ok|]. now destruct (do_call (reps s b) c).
    + now apply free2_ok.
    + intros H. apply andb_true_iff in H. destruct H as [H H4]. apply andb_true_iff in H. destruct H as [H H3]. apply andb_true_iff in H. destruct H as [H1 H2].
      unfold fits. destruct (m_impl s w) as [r|]; [|discriminate]. split; [easy|]. split; [now apply free2_ok|].
      split; [now destruct (m_rets (reps s b))|]. split; [now destruct (m_sqes (reps s b))|].
      intros r0 Hr0. inversion Hr0; subst. now apply Nat.leb_le.
    + now destruct (m_impl s w).
  - intros s ev s' HT Hp Hn u Hu. unfold next in Hn. destruct (fault s); [discriminate|].
    destruct ev as [w|b c|b|w a b k|w i v|w|w| |t g]; cbn [proper2] in Hp.
    + destruct (m_impl s w); [discriminate|]. inversion Hn. cbn [set_ring m_impl]. apply Nat.ltb_lt in Hp. rewrite upd_other by lia. auto.
    + destruct (do_call (reps s b) c); inversion Hn; cbn [set_rep set_fault m_impl]; auto.
    + inversion Hn; cbn [set_rep m_impl]; auto.
    + destruct (susp s a); [discriminate|]. destruct (m_impl s w) as [r|] eqn:Er; [|inversion Hn; cbn; auto].
      assert (Hne : u <> w) by (intros ->; rewrite (HT w Hu) in Er; discriminate).
      destruct (polling r =? 0); [|discriminate]. destruct (arm (reps s b) a); [|inversion Hn; cbn; auto]. unfold add_event in Hn.
      destruct (m_stoped r); [inversion Hn; cbn; auto|]. destruct (find_key a (m_opreps r)); [inversion Hn; cbn; auto|].
      destruct (sq_entries <? _); [inversion Hn; cbn; auto|]. destruct (k <=? _); [|discriminate]. inversion Hn. cbn [m_impl]. rewrite upd_other by easy. auto.
    + destruct (m_impl s w) as [r|] eqn:Er; [|discriminate]. assert (Hne : u <> w) by (intros ->; rewrite (HT w Hu) in Er; discriminate).
      destruct (take_nth i (inflight r)) as [[? ?]|]; [|discriminate]. inversion Hn. cbn [set_ring m_impl]. rewrite upd_other by easy. auto.
    + destruct (m_impl s w) as [r|] eqn:Er; [|discriminate]. assert (Hne : u <> w) by (intros ->; rewrite (HT w Hu) in Er; discriminate).
      destruct (polling r =? 0); [|discriminate]. destruct (m_stoped r); [inversion Hn; subst; auto|].
      destruct (cq r); inversion Hn; cbn [set_ring m_impl]; rewrite upd_other by easy; auto.
    + destruct (m_impl s w) as [r|] eqn:Er; [|discriminate]. assert (Hne : u <> w) by (intros ->; rewrite (HT w Hu) in Er; discriminate).
      destruct (polling r); [discriminate|]. destruct (cq r); inversion Hn; clear Hn.
      * cbn [set_ring m_impl]. rewrite upd_other by easy. auto.
      * unfold dealwith_cqe. destruct (find_key _ _); [|cbn; auto]. destruct (has_enough_ret _); cbn [m_impl set_rep set_ring]; rewrite upd_other by easy; auto.
    + destruct (runq s); [discriminate|]. inversion Hn; cbn; auto.
    + destruct (m_impl s t) as [r|] eqn:Er; [|inversion Hn; cbn; auto]. assert (Hne : u <> t) by (intros ->; rewrite (HT t Hu) in Er; discriminate).
      destruct (polling r =? 0); [|discriminate]. inversion Hn. cbn [m_impl]. rewrite upd_other by easy. auto.
Qed.

(** Non-vacuity: two threads; coroutine 50 runs a batch of two operations and a deadline on thread 0, coroutine 51 a batch
    on the same thread and coroutine 52 one on thread 1; completions arrive out of order, part of the entries are taken
    late by the kernel; 50 executes again, now on thread 1. *)
Definition demo : list event :=
  [EPrepare 0; EPrepare 1;
   ECall 1 (Prep 10); ECall 1 (Timeout (Some 500%Z)); ECall 1 (Prep 11);
   ECall 2 (Prep 20); ECall 3 (Prep 30);
   EExec 0 50 1 2; EExec 0 51 2 2; EExec 1 52 3 1;
   EComplete 0 1 (-125)%Z; EPollBegin 0; EComplete 0 2 7%Z; EPollStep 0;
   EPollBegin 0; EPollStep 0 (* 51 is resumed *);
   EComplete 0 0 4%Z; EComplete 0 0 (-125)%Z; EPollBegin 0; EPollStep 0; EPollStep 0 (* 50 is resumed *);
   EResume; EResume; ENew 4; ECall 4 (Prep 40); EExec 1 50 4 1; EComplete 1 1 0%Z; EComplete 1 0 9%Z; EPollBegin 1; EPollStep 1; EPollStep 1].
Example C22_case : exists s, run next init demo = Some s /\ run_all next proper init demo /\
  resumed s = [(1, (51, [Ret 7 (Oper 20)]));
               (0, (50, [Ret (-125) (Oper 11); Ret 4 (Oper 10); Ret (-125) (LinkTimeout 500)]));
               (3, (50, [Ret 0 (Oper 40)])); (2, (52, [Ret 9 (Oper 30)]))].
Proof.
  destruct (run_proj_ok next resumed init demo
    [(1, (51, [Ret 7 (Oper 20)]));
     (0, (50, [Ret (-125) (Oper 11); Ret 4 (Oper 10); Ret (-125) (LinkTimeout 500)]));
     (3, (50, [Ret 0 (Oper 40)])); (2, (52, [Ret 9 (Oper 30)]))]) as (s & Hr & Hp); [vm_compute; reflexivity|].
  exists s. split; [exact Hr|]. split; [|exact Hp]. clear.
  apply proper_two_threads. vm_compute. reflexivity.
Qed.
