From Coq Require Import List Arith ZArith Bool Permutation Lia.
From Verif.Common Require Import TS.
From Verif.IoUring Require Import Model Spec Proofs Props.
Import ListNotations.
#[local] Arguments upd : simpl never.

(** * C23 *)

(** C23: for every sequence of prep and timeout calls on a new batch (in any order, any number of timeouts), no call goes
    wrong, and what co_await execute() hands to the ring is: the operations in the order they were added, then - if a
    deadline was given - one link-timeout entry with the most recent deadline; each entry is linked to the next and the last
    one is not; every entry carries the awaiting coroutine's address. *)
Theorem C23_submission_order : forall calls a, no_clear calls -> wanted calls <> [] ->
  exists r r', do_calls rep0 calls = Some r /\ arm r a = Some r' /\
    map q_op (m_sqes r') = wanted calls /\ linked_all_but_last (m_sqes r') /\ (forall q, In q (m_sqes r') -> q_ud q = a) /\ m_rets r' = [].
Proof.
  intros calls a Hc Hw. destruct (calls_shape calls Hc) as (r & Hr & _).
  destruct (batch_submission calls a r Hc Hr Hw) as (r' & H). exists r, r'. now split.
Qed.
Print Assumptions C23_submission_order.
Example C23_case :
  let calls := [Prep 1; Timeout (Some 100%Z); Prep 2; Timeout None; Timeout (Some 70%Z); Prep 3] in
  no_clear calls /\ wanted calls = [Oper 1; Oper 2; Oper 3; LinkTimeout 70] /\
  option_map m_sqes (match do_calls rep0 calls with Some r => arm r 9 | None => None end) =
    Some [Sqe (Oper 1) true 9; Sqe (Oper 2) true 9; Sqe (Oper 3) true 9; Sqe (LinkTimeout 70) false 9].
Proof. split; [intros H; cbn in H; intuition discriminate|]. split; reflexivity. Qed.

(** ... and this is what the kernel gets: right after co_await execute() the entries handed to the ring are the batch's, in
    that order, behind those not yet taken. *)
Theorem C23_handed_to_the_ring : forall s w a b k r s', fault s = false -> susp s a = false -> m_impl s w = Some r -> polling r = 0 ->
  m_stoped r = false -> (forall e, In e (m_opreps r) -> e_key e <> a) ->
  length (sq r) + length (m_sqes (reps s b)) <= sq_entries -> m_sqes (reps s b) <> [] ->
  next s (EExec w a b k) = Some s' ->
  exists r' bt, m_impl s' w = Some r' /\ arm (reps s b) a = Some bt /\
    inflight r' ++ sq r' = inflight r ++ sq r ++ map (fun q => Item q (next_x s)) (m_sqes bt) /\
    length (inflight r') = length (inflight r) + k.
Proof.
  intros s w a b k r s' Hf Hs Hr Hp Hst Hk Hfit Hne Hn. unfold next in Hn. rewrite Hf, Hs, Hr, Hp in Hn. cbn [Nat.eqb] in Hn.
  destruct (arm_Some (reps s b) a Hne) as (bt & Hbt). rewrite Hbt in Hn. unfold add_event in Hn. rewrite Hst in Hn.
  destruct (find_key a (m_opreps r)) eqn:Ef. { apply find_key_In in Ef. destruct Ef as [H1 H2]. exfalso. eapply Hk; eassumption. }
  destruct (arm_spec _ _ _ Hbt) as (A1 & _). assert (Hl : length (m_sqes bt) = length (m_sqes (reps s b))) by (rewrite <- (map_length q_op), A1, map_length; reflexivity).
  destruct (Nat.ltb_spec sq_entries (length (sq r) + length (m_sqes bt))) as [|_]; [lia|].
  set (q := sq r ++ map (fun e => Item e (next_x s)) (m_sqes bt)) in *.
  destruct (Nat.leb_spec k (length q)); [|discriminate]. inversion Hn; subst s'; clear Hn. cbn [m_impl]. rewrite upd_same.
  eexists. exists bt. split; [reflexivity|]. split; [exact Hbt|]. cbn [inflight sq]. split.
  - rewrite <- app_assoc, firstn_skipn. reflexivity.
  - rewrite app_length, firstn_length, Nat.min_l by easy. reflexivity.
Qed.
Print Assumptions C23_handed_to_the_ring.

(** * C24 *)

(** C24 holds of a batch whose entries the kernel completes in submission order: then the k-th slot is the k-th
    operation's completion. *)
Theorem C24_slots_in_order_partial : forall l s x a rs w ops,
  run_all next proper init l -> run next init l = Some s ->
  In (x, (a, rs)) (resumed s) -> In (x, (w, a, ops)) (submitted s) ->
  map r_op (completions s x) = ops ->
  forall k op, nth_error ops k = Some op -> exists v, nth_error rs k = Some (Ret v op) /\ nth_error (completions s x) k = Some (Ret v op).
Proof.
  intros l s x a rs w ops HP HR Hin Hsub Hord k op Hk.
  destruct (C22_resumed_once_with_its_own_results l s HP HR) as (_ & _ & _ & H). destruct (H x a rs Hin) as (-> & _).
  rewrite <- Hord, nth_error_map in Hk. destruct (nth_error (completions s x) k) as [[v o]|]; inversion Hk. now exists v.
Qed.
Print Assumptions C24_slots_in_order_partial.

(** C24 is false in general: the slots are in completion order. Operation 10 with a deadline; the deadline passes and the
    kernel completes the timeout entry first. Slot 0 is then the timeout's completion; op_batch::is_timeout() says "no",
    all_success() looks at the wrong slot, and a single-operation awaitable returns the timeout entry's result. *)
Definition tmo_demo : list event :=
  [EPrepare 0; ECall 1 (Prep 10); ECall 1 (Timeout (Some 500%Z)); EExec 0 50 1 2;
   EComplete 0 1 (-62)%Z; EComplete 0 0 (-125)%Z; EPollBegin 0; EPollStep 0; EPollStep 0].
Theorem C24_slots_in_order_refuted : exists s, run_all next proper init tmo_demo /\ run next init tmo_demo = Some s /\
  submitted s = [(0, (0, 50, [Oper 10; LinkTimeout 500]))] /\
  resumed s = [(0, (50, [Ret (-62) (LinkTimeout 500); Ret (-125) (Oper 10)]))] /\
  is_timeout (reps s 1) = Some false /\ single_result (reps s 1) = Some (Ret (-62) (LinkTimeout 500)).
Proof.
  destruct (run_proj_ok next (fun s => (submitted s, resumed s, is_timeout (reps s 1), single_result (reps s 1))) init tmo_demo
    ([(0, (0, 50, [Oper 10; LinkTimeout 500]))], [(0, (50, [Ret (-62) (LinkTimeout 500); Ret (-125) (Oper 10)]))],
     Some false, Some (Ret (-62) (LinkTimeout 500)))) as (s & Hr & Hp); [vm_compute; reflexivity|].
  exists s. split; [apply proper_two_threads; vm_compute; reflexivity|]. split; [exact Hr|]. inversion Hp. auto.
Qed.
Print Assumptions C24_slots_in_order_refuted.

(** With in-order completions the status functions are right: is_timeout() tells whether the timeout entry ended with
    anything but ECANCELED, and all_success() whether every operation succeeded. *)
Theorem C24_status_in_order_partial : forall r ops d vs v,
  m_was_timeout_set r = true -> length vs = length ops ->
  m_rets r = map (fun p => Ret (fst p) (Oper (snd p))) (combine vs ops) ++ [Ret v (LinkTimeout d)] ->
  (is_timeout r = Some true <-> v <> (-125)%Z (* -ECANCELED *)) /\ (all_success r = true <-> forall v', In v' vs -> (0 <= v')%Z).
Proof.
  intros r ops d vs v Ht Hl Hr. unfold is_timeout, all_success. rewrite Ht, Hr. split.
  - rewrite rev_app_distr. cbn [rev app]. unfold err. cbn [r_val].
    destruct (Z.ltb_spec v 0) as [Hv|Hv].
    + destruct (Z.eqb_spec (- v) ECANCELED) as [E|E]; cbn [negb]; unfold ECANCELED in *; (split; [intros H; try discriminate; lia|intros H; try lia; reflexivity]).
    + destruct (Z.eqb_spec 0 ECANCELED) as [E|E]; unfold ECANCELED in *; [lia|]. cbn [negb]. split; [intros _; lia|reflexivity].
  - rewrite app_length. cbn [length]. rewrite Nat.add_sub, firstn_app, firstn_all, Nat.sub_diag. cbn [firstn]. rewrite app_nil_r.
    rewrite forallb_forall. split.
    + intros H v' Hv'. destruct (In_nth_error _ _ Hv') as (i & Hi).
      destruct (nth_error ops i) as [o|] eqn:Eo. 2:{ apply nth_error_None in Eo. assert (i < length vs) by (apply nth_error_Some; congruence). lia. }
      assert (Hin : In (v', o) (combine vs ops)).
      { clear -Hi Eo. revert ops i Hi Eo. induction vs as [|y vs IH]; intros [|z ops] [|i] Hi Eo; cbn in *; try discriminate.
        - inversion Hi; inversion Eo; subst. now left.
        - right. eapply IH; eassumption. }
      specialize (H (Ret v' (Oper o))). rewrite in_map_iff in H. specialize (H (ex_intro _ (v', o) (conj eq_refl Hin))).
      unfold err in H. cbn [r_val] in H. destruct (Z.ltb_spec v' 0); [apply Z.eqb_eq in H; lia|lia].
    + intros H x Hx. apply in_map_iff in Hx. destruct Hx as ([v' o] & <- & Hc). apply in_combine_l in Hc. specialize (H v' Hc).
      unfold err. cbn [r_val fst]. destruct (Z.ltb_spec v' 0); [lia|reflexivity].
Qed.
Print Assumptions C24_status_in_order_partial.
Example C24_status_case :
  let r := Rep [] [Ret 5 (Oper 10); Ret (-125) (LinkTimeout 9)] true in is_timeout r = Some false /\ all_success r = true.
Proof. now split. Qed.

(** A batch that was never given a deadline (any calls but Clear, any number of preps and of timeouts of time_point::max()) never reports a timeout,
    and all_success() tells whether every result is a success, whatever the results and their order. *)
Theorem C24_status_without_deadline : forall calls r xs, no_clear calls -> deadline calls None = None -> do_calls rep0 calls = Some r ->
  let r' := fold_left add_ret xs r in is_timeout r' = Some false /\ (all_success r' = true <-> forall x, In x xs -> (0 <= r_val x)%Z).
Proof.
  intros calls r xs Hc Hd Hr. destruct (calls_shape calls Hc) as (r0 & Hr0 & _ & Ht & Hre). rewrite Hr in Hr0. injection Hr0 as <-. rewrite Hd in Ht. cbn [is_some] in Ht.
  assert (F : forall ys z, m_was_timeout_set (fold_left add_ret ys z) = m_was_timeout_set z /\ m_rets (fold_left add_ret ys z) = m_rets z ++ ys).
  { induction ys as [|y ys IH]; intros z; cbn [fold_left]; [now rewrite app_nil_r|]. destruct (IH (add_ret z y)) as [A B]. rewrite A, B. cbn [add_ret m_was_timeout_set m_rets]. now rewrite <- app_assoc. }
  destruct (F xs r) as [A B]. cbv zeta. unfold is_timeout, all_success. rewrite A, B, Ht, Hre. cbn [app]. split; [reflexivity|]. rewrite Nat.sub_0_r, firstn_all, forallb_forall. split.
  - intros H x Hx. specialize (H x Hx). unfold err in H. destruct (Z.ltb_spec (r_val x) 0); [apply Z.eqb_eq in H; lia|lia].
  - intros H x Hx. specialize (H x Hx). unfold err. destruct (Z.ltb_spec (r_val x) 0); [lia|reflexivity].
Qed.
Print Assumptions C24_status_without_deadline.
Example C24_status_without_deadline_case : let calls := [Prep 1; Timeout None; Prep 2] in
  no_clear calls /\ deadline calls None = None /\ exists r, do_calls rep0 calls = Some r /\ length (m_sqes r) = 2.
Proof. split; [intros H; cbn in H; intuition discriminate|]. split; [reflexivity|]. eexists. split; reflexivity. Qed.

(** * C42 *)

(** C42: the idle time is between 0 and 200 ms in every reachable state (any miss counter), as long as the loop was not
    told to stop gracefully; and it is 0 on every thread where a batch is outstanding. *)
Definition no_graceful_stop (l : list event) : Prop := forall t, ~ In (EStop t true) l.
Lemma not_cleaning l : forall s, no_graceful_stop l -> run next init l = Some s -> m_cleaning s = false.
Proof.
  induction l as [|e l IH] using rev_ind; intros s Hn Hr; [injection Hr as <-; reflexivity|]. apply run_app_inv in Hr. destruct Hr as (s0 & H0 & H1).
  assert (C : m_cleaning s0 = false) by (apply IH; [intros t Hi; apply (Hn t); apply in_app_iff; now left|exact H0]). clear IH H0.
  cbn [run] in H1. destruct (next s0 e) as [s1|] eqn:E; [|discriminate]. injection H1 as ->. unfold next in E. destruct (fault s0); [discriminate|].
  destruct e as [w|b c|b|w a b k|w i v|w|w| |t g].
  - destruct (m_impl s0 w); [discriminate|]. injection E as <-. exact C.
  - destruct (do_call _ _); injection E as <-; exact C.
  - injection E as <-. exact C.
  - destruct (susp s0 a); [discriminate|]. destruct (m_impl s0 w) as [r|]; [|injection E as <-; exact C]. destruct (polling r =? 0); [|discriminate].
    destruct (arm _ _); [|injection E as <-; exact C]. unfold add_event in E. destruct (m_stoped r); [injection E as <-; exact C|]. destruct (find_key _ _); [injection E as <-; exact C|].
    destruct (sq_entries <? _); [injection E as <-; exact C|]. destruct (k <=? _); [|discriminate]. injection E as <-. exact C.
  - destruct (m_impl s0 w) as [r|]; [|discriminate]. destruct (take_nth _ _) as [[? ?]|]; [|discriminate]. injection E as <-. exact C.
  - destruct (m_impl s0 w) as [r|]; [|injection E as <-; exact C]. destruct (polling r =? 0); [|discriminate]. destruct (m_stoped r); [injection E as <-; exact C|]. destruct (cq r); injection E as <-; exact C.
  - destruct (m_impl s0 w) as [r|]; [|discriminate]. destruct (polling r); [discriminate|]. destruct (cq r) as [|c q]; injection E as <-; [exact C|]. unfold dealwith_cqe.
    destruct (find_key _ _); [|exact C]. destruct (has_enough_ret _); exact C.
  - destruct (runq s0); [discriminate|]. injection E as <-. exact C.
  - assert (Hg : g = false) by (destruct g; [exfalso; apply (Hn t); apply in_app_iff; right; now left|reflexivity]). subst g. rewrite C in E. cbn [orb] in E.
    destruct (m_impl s0 t) as [r|]; [|injection E as <-; reflexivity]. destruct (polling r =? 0); [|discriminate]. injection E as <-. reflexivity.
Qed.
Theorem C42_idle_time_bounded : forall l s w r, run next init l = Some s -> no_graceful_stop l -> m_impl s w = Some r ->
  exists d, max_sleep_duration s w = Some d /\ (0 <= d <= 200)%Z.
Proof.
  intros l s w r HR Hc Hr. apply (not_cleaning l s) in Hc; [|exact HR]. unfold max_sleep_duration. rewrite Hc, Hr. eexists. split; [reflexivity|].
  unfold perthr_max_sleep, mis_shot_indicator. pose proof (Z.mod_pos_bound (m_num_mis_shot r - 1) (2 ^ 32) eq_refl).
  destruct (m_opreps r); [|lia]. set (z := ((m_num_mis_shot r - 1) mod 2 ^ 32)%Z) in *. clearbody z. lia.
Qed.
Print Assumptions C42_idle_time_bounded.

Theorem C42_no_idling_while_outstanding : forall l s w x a ops,
  run_all next proper init l -> run next init l = Some s -> no_graceful_stop l ->
  outstanding s x w a ops -> max_sleep_duration s w = Some 0%Z.
Proof.
  intros l s w x a ops HP HR Hc [Hin Hnr]. apply (not_cleaning l s) in Hc; [|exact HR]. destruct (inv_run l s HP HR) as [I1 I2 I3 I4 I5 I6 I7 I8 I9].
  destruct (I5 _ _ _ _ Hin) as [?|(e & (r & Hr & He) & _)]; [easy|]. unfold max_sleep_duration. rewrite Hc, Hr. unfold perthr_max_sleep.
  destruct (m_opreps r); [easy|]. reflexivity.
Qed.
Print Assumptions C42_no_idling_while_outstanding.

(** The back-off itself: after k consecutive polls without a completion on an idle thread it is min(200, (2^k - 1) * 25) ms,
    for every k, although the 32 bit counter wraps to 0 after 32 misses. *)
Fixpoint misses (k : nat) (m : Z) : Z := match k with O => m | S k' => mis_shot (misses k' m) end.
Theorem C42_back_off : forall k, Z.min 200 (mis_shot_indicator (misses k 1) * 25) = Z.min 200 ((2 ^ Z.of_nat k - 1) * 25).
Proof.
  assert (Hv : forall k, misses k 1 = (2 ^ Z.of_nat k mod 2 ^ 32)%Z).
  { induction k as [|k IH]; [reflexivity|]. cbn [misses]. rewrite IH. unfold mis_shot. rewrite Z.mul_mod_idemp_r by lia.
    f_equal. rewrite Nat2Z.inj_succ, Z.pow_succ_r by lia. reflexivity. }
  intros k. rewrite Hv. unfold mis_shot_indicator. destruct (le_lt_dec 32 k) as [Hk|Hk].
  - assert (Hm : (2 ^ Z.of_nat k mod 2 ^ 32 = 0)%Z).
    { replace (Z.of_nat k) with (32 + (Z.of_nat k - 32))%Z by lia. rewrite Z.pow_add_r by lia. rewrite Z.mul_comm. apply Z.mod_mul. lia. }
    rewrite Hm. assert (Hb : (2 ^ 32 <= 2 ^ Z.of_nat k)%Z) by (apply Z.pow_le_mono_r; lia).
    change ((0 - 1) mod 2 ^ 32)%Z with 4294967295%Z. change (2 ^ 32)%Z with 4294967296%Z in Hb. lia.
  - assert (Hb : (1 <= 2 ^ Z.of_nat k < 2 ^ 32)%Z). { split; [change 1%Z with (2 ^ 0)%Z; apply Z.pow_le_mono_r; lia|apply Z.pow_lt_mono_r; lia]. }
    rewrite (Z.mod_small (2 ^ Z.of_nat k)) by lia. rewrite Z.mod_small by lia. reflexivity.
Qed.
Print Assumptions C42_back_off.
Example C42_back_off_case : map (fun k => Z.min 200 (mis_shot_indicator (misses k 1) * 25)) [0;1;2;3;4;32;33] = [0;25;75;175;200;200;200]%Z.
Proof. vm_compute. reflexivity. Qed.

(** A poll that finds nothing is one miss, one that finds something resets the counter, and so does an execution. *)
Theorem C42_polls_drive_the_back_off : forall s w r s', fault s = false -> m_impl s w = Some r -> polling r = 0 -> m_stoped r = false ->
  next s (EPollBegin w) = Some s' -> exists r', m_impl s' w = Some r' /\ m_opreps r' = m_opreps r /\
    m_num_mis_shot r' = match cq r with [] => mis_shot (m_num_mis_shot r) | _ => 1%Z end.
Proof.
  intros s w r s' Hf Hr Hp Hst Hn. unfold next in Hn. rewrite Hf, Hr, Hp, Hst in Hn. cbn [Nat.eqb] in Hn.
  destruct (cq r); inversion Hn; subst s'; cbn [set_ring m_impl]; rewrite upd_same; eexists; repeat split.
Qed.
Print Assumptions C42_polls_drive_the_back_off.

(** C42, over whole histories: how long an idle worker may sleep is decided by the number of polls it made in vain since it was prepared, since
    its last execution of a batch and since its last successful poll ([vain_polls], counted along the history; a stopped ring counts nothing). *)
Fixpoint vain_polls (w : nat) (s : state) (l : list event) (k : nat) : nat :=
  match l with
  | [] => k
  | e :: l' =>
      match next s e with
      | None => k
      | Some s' =>
          let stopped := match m_impl s w with Some r => m_stoped r | None => false end in
          let nothing := match m_impl s w with Some r => match cq r with [] => true | _ => false end | None => true end in
          vain_polls w s' l'
            match e with
            | EPrepare w' => if w' =? w then 0 else k
            | EExec w' _ _ _ => if w' =? w then if stopped then k else 0 else k
            | EPollBegin w' => if w' =? w then if stopped then k else if nothing then S k else 0 else k
            | _ => k
            end
      end
  end.
Lemma dealwith_cqe_shot s w r c w' r' : fault (dealwith_cqe s w r c) = false -> m_impl (dealwith_cqe s w r c) w' = Some r' -> 
  (w' <> w /\ m_impl s w' = Some r') \/ (w' = w /\ m_num_mis_shot r' = m_num_mis_shot r).
Proof.
  unfold dealwith_cqe. destruct (find_key _ _); [|discriminate]. destruct (has_enough_ret _); cbn [m_impl set_rep set_ring]; intros _ H;
    (destruct (Nat.eq_dec w' w) as [->|Hn]; [rewrite upd_same in H; injection H as <-; right; auto|rewrite upd_other in H by auto; left; auto]).
Qed.
Lemma vain_polls_ok w l : forall s0 s k, run next s0 l = Some s ->
  (forall r, m_impl s0 w = Some r -> fault s0 = true \/ m_num_mis_shot r = misses k 1) ->
  forall r, m_impl s w = Some r -> fault s = true \/ m_num_mis_shot r = misses (vain_polls w s0 l k) 1.
Proof.
  induction l as [|e l IH]; intros s0 s k HR H r Hr; cbn [run] in HR; [injection HR as ->; cbn [vain_polls]; exact (H r Hr)|].
  cbn [vain_polls]. destruct (next s0 e) as [s1|] eqn:E; [|discriminate]. refine (IH s1 s _ HR _ r Hr). clear IH HR Hr r s. intros r Hr.
  unfold next in E. destruct (fault s0) eqn:Ef; [discriminate|].
  assert (H' : forall r, m_impl s0 w = Some r -> m_num_mis_shot r = misses k 1) by (intros r0 H0; destruct (H r0 H0); congruence). clear H.
  destruct (fault s1) eqn:Ef1; [now left|right].
  destruct e as [w'|b c|b|w' a b n|w' i v|w'|w'| |w' g].
  - destruct (m_impl s0 w') eqn:Ei; [discriminate|]. injection E as <-. cbn [m_impl set_ring] in Hr. destruct (Nat.eqb_spec w' w) as [->|Hn].
    + rewrite upd_same in Hr. injection Hr as <-. reflexivity.
    + rewrite upd_other in Hr by auto. auto.
  - destruct (do_call _ _); injection E as <-; auto.
  - injection E as <-. auto.
  - destruct (susp s0 a); [discriminate|]. destruct (m_impl s0 w') as [r1|] eqn:Ei; [|injection E as <-; discriminate].
    destruct (polling r1 =? 0); [|discriminate]. destruct (arm _ _) as [bt|]; [|injection E as <-; discriminate]. unfold add_event in E.
    destruct (m_stoped r1) eqn:Es.
    { injection E as <-. cbn [m_impl] in Hr. destruct (Nat.eqb_spec w' w) as [->|]; [rewrite Ei, Es|]; auto. }
    destruct (find_key _ _); [injection E as <-; discriminate|]. destruct (sq_entries <? _); [injection E as <-; discriminate|].
    destruct (n <=? _); [|discriminate]. injection E as <-. cbn [m_impl] in Hr. destruct (Nat.eqb_spec w' w) as [->|Hn].
    + rewrite upd_same in Hr. injection Hr as <-. rewrite Ei, Es. reflexivity.
    + rewrite upd_other in Hr by auto. auto.
  - destruct (m_impl s0 w') as [r1|] eqn:Ei; [|discriminate]. destruct (take_nth i (inflight r1)) as [[it rest]|]; [|discriminate]. injection E as <-.
    cbn [m_impl set_ring] in Hr. destruct (Nat.eq_dec w' w) as [->|Hn].
    + rewrite upd_same in Hr. injection Hr as <-. cbn. auto.
    + rewrite upd_other in Hr by auto. auto.
  - destruct (m_impl s0 w') as [r1|] eqn:Ei; [|injection E as <-; discriminate]. destruct (polling r1 =? 0); [|discriminate].
    destruct (m_stoped r1) eqn:Es; [injection E as <-|]. { destruct (Nat.eqb_spec w' w) as [->|]; [rewrite Ei, Es|]; auto. }
    destruct (cq r1) as [|c q] eqn:Ec; injection E as <-; cbn [m_impl set_ring] in Hr; (destruct (Nat.eqb_spec w' w) as [->|Hn];
      [rewrite upd_same in Hr; injection Hr as <-; rewrite Ei, Es, Ec; cbn; try rewrite (H' _ Ei); reflexivity|rewrite upd_other in Hr by auto; auto]).
  - destruct (m_impl s0 w') as [r1|] eqn:Ei; [|discriminate]. destruct (polling r1); [discriminate|]. destruct (cq r1) as [|c q] eqn:Ec; injection E as <-.
    + cbn [m_impl set_ring] in Hr. destruct (Nat.eq_dec w' w) as [->|Hn]; [rewrite upd_same in Hr; injection Hr as <-; cbn; auto|rewrite upd_other in Hr by auto; auto].
    + destruct (dealwith_cqe_shot _ _ _ _ _ _ Ef1 Hr) as [[_ H1]|[-> H1]]; [auto|]. rewrite H1. cbn. auto.
  - destruct (runq s0); [discriminate|]. injection E as <-. auto.
  - destruct (m_impl s0 w') as [r1|] eqn:Ei; [|injection E as <-; auto]. destruct (polling r1 =? 0); [|discriminate]. injection E as <-. cbn [m_impl] in Hr.
    destruct (Nat.eq_dec w' w) as [->|Hn]; [rewrite upd_same in Hr; injection Hr as <-; cbn; auto|rewrite upd_other in Hr by auto; auto].
Qed.
Theorem C42_idle_time : forall l s w r, run next init l = Some s -> fault s = false -> no_graceful_stop l ->
  m_impl s w = Some r -> m_opreps r = [] ->
  max_sleep_duration s w = Some (Z.min 200 ((2 ^ Z.of_nat (vain_polls w init l 0) - 1) * 25)).
Proof.
  intros l s w r HR Hf Hc Hr Ho. apply (not_cleaning l s) in Hc; [|exact HR]. unfold max_sleep_duration. rewrite Hc, Hr. f_equal.
  unfold perthr_max_sleep. rewrite Ho. destruct (vain_polls_ok w l init s 0 HR) with (r := r) as [?|E]; [|exact Hr|congruence|].
  - intros r0 H0. discriminate.
  - rewrite E. apply C42_back_off.
Qed.
Print Assumptions C42_idle_time.
Example C42_idle_case : exists s, run next init [EPrepare 0; EPollBegin 0; EPollBegin 0; EPollBegin 0] = Some s /\ max_sleep_duration s 0 = Some 175%Z /\
  vain_polls 0 init [EPrepare 0; EPollBegin 0; EPollBegin 0; EPollBegin 0] 0 = 3.
Proof. eexists. split; [vm_compute; reflexivity|]. split; vm_compute; reflexivity. Qed.

(** C42 after a graceful stop is false: 10 s are offered, even with a batch outstanding on the calling thread. *)
Theorem C77_after_stop_refuted : exists l s, run_all next proper init l /\ run next init l = Some s /\
  submitted s = [(0, (0, 50, [Oper 10]))] /\ resumed s = [] /\ option_map m_stoped (m_impl s 0) = Some false /\
  max_sleep_duration s 0 = Some 10000%Z.
Proof.
  set (l := [EPrepare 0; ECall 1 (Prep 10); EExec 0 50 1 1; EStop 9 true]).
  destruct (run_proj_ok next (fun s => (submitted s, resumed s, option_map m_stoped (m_impl s 0), max_sleep_duration s 0)) init l
    ([(0, (0, 50, [Oper 10]))], [], Some false, Some 10000%Z)) as (s & Hr & Hp); [vm_compute; reflexivity|].
  exists l, s. split; [apply proper_two_threads; vm_compute; reflexivity|]. split; [exact Hr|]. inversion Hp. auto.
Qed.
Print Assumptions C77_after_stop_refuted.

(** * C58: an op_batch can be cleared and executed again *)

(** false: (a) after clear() of a batch that had a deadline, the next prep or timeout call is undefined behaviour;
    (b) clear() of a batch never executed fails an assertion; *)
Theorem C58_clear_refuted : forall qs rs tset c,
  (rs = [] -> clear (Rep qs rs tset) = None) /\
  (rs <> [] -> tset = true -> (forall d, c = Prep d \/ c = Timeout (Some (Z.of_nat d)) -> exists r, clear (Rep qs rs tset) = Some r /\ do_call r c = None)).
Proof.
  intros qs rs tset c. split; [now intros ->|]. intros Hne -> d Hc. unfold clear. cbn [m_rets m_was_timeout_set]. destruct rs; [easy|].
  eexists. split; [reflexivity|]. destruct Hc as [-> | ->]; reflexivity.
Qed.
Print Assumptions C58_clear_refuted.

(** (c) executing again without clear(), or after clear() with no more operations than before: every completion is received
    and processed, and the coroutine stays suspended, in no queue; *)
Theorem C58_second_execution_never_resumes_refuted : forall second, second = [] \/ second = [ECall 1 Clear; ECall 1 (Prep 11)] ->
  exists s r, run next init
    ([EPrepare 0; ECall 1 (Prep 10); EExec 0 50 1 1; EComplete 0 0 5%Z; EPollBegin 0; EPollStep 0; EResume] ++ second ++
     [EExec 0 50 1 1; EComplete 0 0 6%Z; EPollBegin 0; EPollStep 0]) = Some s /\
  m_impl s 0 = Some r /\ sq r = [] /\ inflight r = [] /\ cq r = [] /\ polling r = 0 /\
  susp s 50 = true /\ runq s = [] /\ map fst (submitted s) = [0; 1] /\ map fst (resumed s) = [0].
Proof.
  intros second Hs.
  match goal with |- exists s r, run next init ?l = _ /\ _ =>
    destruct (run_proj_ok next (fun s => (option_map (fun r => (sq r, inflight r, cq r, polling r)) (m_impl s 0), susp s 50, runq s, map fst (submitted s), map fst (resumed s))) init l
      (Some ([], [], [], 0), true, [], [0;1], [0])) as (s & Hr & Hp); [destruct Hs as [-> | ->]; vm_compute; reflexivity|] end.
  exists s. destruct (m_impl s 0) as [r|]; [|cbn in Hp; discriminate]. exists r. cbn [option_map] in Hp. injection Hp. intros. repeat (split; [assumption || reflexivity|]). assumption.
Qed.
Print Assumptions C58_second_execution_never_resumes_refuted.

(** (d) with more operations than before: it is resumed before all of them completed, with results of the first
    execution, and the later completion then fails an assertion. *)
Definition reuse : list event :=
  [EPrepare 0; ECall 1 (Prep 10); EExec 0 50 1 1; EComplete 0 0 5%Z; EPollBegin 0; EPollStep 0; EResume;
   ECall 1 Clear; ECall 1 (Prep 11); ECall 1 (Prep 12); EExec 0 50 1 2; EComplete 0 0 6%Z; EPollBegin 0; EPollStep 0].
Theorem C58_second_execution_resumes_early_refuted : exists s, run next init reuse = Some s /\
  resumed s = [(0, (50, [Ret 5 (Oper 10)])); (1, (50, [Ret 5 (Oper 10); Ret 6 (Oper 11)]))] /\
  exists s', run next s [EComplete 0 0 7%Z; EPollBegin 0; EPollStep 0] = Some s' /\ fault s' = true.
Proof.
  destruct (run_proj_ok next (fun s => (resumed s, option_map fault (run next s [EComplete 0 0 7%Z; EPollBegin 0; EPollStep 0]))) init reuse
    ([(0, (50, [Ret 5 (Oper 10)])); (1, (50, [Ret 5 (Oper 10); Ret 6 (Oper 11)]))], Some true)) as (s & Hr & Hp); [vm_compute; reflexivity|].
  exists s. split; [exact Hr|]. assert (H1 := f_equal fst Hp). assert (H2 := f_equal snd Hp). cbn [fst snd] in H1, H2. split; [exact H1|].
  destruct (run next s _) as [s'|]; [|discriminate]. exists s'. split; [reflexivity|]. now inversion H2.
Qed.
Print Assumptions C58_second_execution_resumes_early_refuted.

(** * C59: a batch of any size can be executed *)

(** false: a batch with more entries than the submission queue holds always dereferences a null pointer, on every ring. *)
Theorem C59_large_batch_refuted : forall s w a b k r, fault s = false -> susp s a = false -> m_impl s w = Some r -> polling r = 0 ->
  m_stoped r = false -> sq_entries < length (m_sqes (reps s b)) -> exists s', next s (EExec w a b k) = Some s' /\ fault s' = true.
Proof.
  intros s w a b k r Hf Hs Hr Hp Hst Hb. unfold next. rewrite Hf, Hs, Hr, Hp. cbn [Nat.eqb].
  destruct (arm_Some (reps s b) a) as (bt & Hbt). { intros E. rewrite E in Hb. cbn [length] in Hb. lia. } rewrite Hbt.
  unfold add_event. rewrite Hst. destruct (find_key a (m_opreps r)); [eexists; split; reflexivity|].
  destruct (arm_spec _ _ _ Hbt) as (A1 & _). assert (Hl : length (m_sqes bt) = length (m_sqes (reps s b))) by (rewrite <- (map_length q_op), A1, map_length; reflexivity).
  destruct (Nat.ltb_spec sq_entries (length (sq r) + length (m_sqes bt))); [|lia]. eexists; split; reflexivity.
Qed.
Print Assumptions C59_large_batch_refuted.
Lemma many_calls n : exists r, do_calls rep0 (repeat (Prep 1) n) = Some r /\ length (m_sqes r) = n.
Proof.
  destruct (calls_shape (repeat (Prep 1) n)) as (r & Hr & Hs & _). { intros H. apply repeat_spec in H. discriminate. }
  exists r. split; [easy|]. rewrite Hs. assert (Hd : forall m a, deadline (repeat (Prep 1) m) a = a) by (induction m; cbn; auto). rewrite Hd. cbn [tmo_entry].
  rewrite app_nil_r, map_length. clear. induction n; cbn; auto.
Qed.
(** such a batch is reachable through the interface *)
Example C59_case : exists r, do_calls rep0 (repeat (Prep 1) (S sq_entries)) = Some r /\ sq_entries < length (m_sqes r).
Proof. destruct (many_calls (S sq_entries)) as (r & H1 & H2). exists r. split; [exact H1|]. rewrite H2. apply Nat.lt_succ_diag_r. Qed.

(** and a batch that fits, on a ring whose entries were all taken, is accepted (partial: fits = at most 1024 entries). *)
Theorem C59_batch_that_fits_partial : forall l s w a b r, run_all next proper init l -> run next init l = Some s ->
  m_impl s w = Some r -> polling r = 0 -> m_stoped r = false -> sq r = [] -> susp s a = false ->
  m_sqes (reps s b) <> [] -> length (m_sqes (reps s b)) <= sq_entries ->
  exists s', next s (EExec w a b (length (m_sqes (reps s b)))) = Some s' /\ fault s' = false /\ susp s' a = true.
Proof.
  intros l s w a b r HP HR Hr Hp Hst Hq Hs Hne Hle. pose proof (inv_run l s HP HR) as HI. destruct HI as [I1 I2 I3 I4 I5 I6 I7 I8 I9].
  unfold next. rewrite I9, Hs, Hr, Hp. cbn [Nat.eqb]. destruct (arm_Some (reps s b) a Hne) as (bt & Hbt). rewrite Hbt. unfold add_event. rewrite Hst.
  destruct (find_key a (m_opreps r)) as [e|] eqn:Ef.
  { exfalso. apply find_key_In in Ef. destruct Ef as [H1 H2]. destruct (I1 w r Hr) as [_ _ K3 _]. destruct (K3 e H1) as (L1 & _). congruence. }
  destruct (arm_spec _ _ _ Hbt) as (A1 & _). assert (Hl : length (m_sqes bt) = length (m_sqes (reps s b))) by (rewrite <- (map_length q_op), A1, map_length; reflexivity).
  rewrite Hq. cbn [length app Nat.add]. destruct (Nat.ltb_spec sq_entries (length (m_sqes bt))); [lia|].
  rewrite map_length. destruct (Nat.leb_spec (length (m_sqes (reps s b))) (length (m_sqes bt))); [|lia].
  eexists. split; [reflexivity|]. cbn [fault susp]. split; [exact I9|]. apply upd_same.
Qed.
Print Assumptions C59_batch_that_fits_partial.

(** * C60: stopping the io_uring loop stops it on every thread *)

(** false: stop() / quick_stop() reach only the calling thread's ring; every other thread goes on accepting and
    completing I/O. *)
Theorem C60_stop_reaches_every_thread_refuted : forall s t g s', next s (EStop t g) = Some s' ->
  forall w, w <> t -> m_impl s' w = m_impl s w.
Proof.
  intros s t g s' Hn w Hw. unfold next in Hn. destruct (fault s); [discriminate|]. destruct (m_impl s t) as [r|]; [|inversion Hn; reflexivity].
  destruct (polling r =? 0); [|discriminate]. inversion Hn. cbn [m_impl]. now rewrite upd_other.
Qed.
Print Assumptions C60_stop_reaches_every_thread_refuted.
(** ... for instance, the usual caller is a thread without a ring. *)
Example C60_case : exists s,
  run next init [EPrepare 0; EStop 9 true; ECall 1 (Prep 10); EExec 0 50 1 1; EComplete 0 0 3%Z; EPollBegin 0; EPollStep 0] = Some s /\
  resumed s = [(0, (50, [Ret 3 (Oper 10)]))] /\ m_cleaning s = true.
Proof.
  destruct (run_proj_ok next (fun s => (resumed s, m_cleaning s)) init
    [EPrepare 0; EStop 9 true; ECall 1 (Prep 10); EExec 0 50 1 1; EComplete 0 0 3%Z; EPollBegin 0; EPollStep 0]
    ([(0, (50, [Ret 3 (Oper 10)]))], true)) as (s & Hr & Hp); [vm_compute; reflexivity|]. exists s. split; [exact Hr|]. inversion Hp. auto.
Qed.
(** On the thread itself it does take effect: afterwards completions are not looked at and executions are not submitted; the coroutine that asked for
    one is neither left suspended nor queued: it is destroyed, without a result. *)
Theorem C60_own_thread_partial : forall s t g s' r, fault s = false -> m_impl s t = Some r -> next s (EStop t g) = Some s' ->
  (exists r', m_impl s' t = Some r' /\ m_stoped r' = true /\ polling r' = 0) /\
  next s' (EPollBegin t) = Some s' /\ next s' (EPollStep t) = None /\
  forall a b k s'', next s' (EExec t a b k) = Some s'' -> fault s'' = false ->
    submitted s'' = submitted s' /\ dropped s'' = dropped s' ++ [a] /\ susp s'' a = false /\ runq s'' = runq s' /\ resumed s'' = resumed s'.
Proof.
  intros s t g s' r Hf Hr Hn. unfold next in Hn. rewrite Hf, Hr in Hn. destruct (polling r =? 0) eqn:Ep; [|discriminate].
  inversion Hn; subst s'; clear Hn. apply Nat.eqb_eq in Ep. split.
  - cbn [m_impl]. rewrite upd_same. eexists. split; [reflexivity|]. now split.
  - split; [|split].
    + unfold next. cbn [fault m_impl]. rewrite upd_same. cbn [polling m_stoped]. rewrite Ep. reflexivity.
    + unfold next. cbn [fault m_impl]. rewrite upd_same. cbn [polling]. rewrite Ep. reflexivity.
    + intros a b k s'' H Hf2. unfold next in H. cbn [fault m_impl susp reps] in H. rewrite upd_same in H. destruct (susp s a) eqn:Ea; [discriminate|].
      cbn [polling] in H. rewrite ?Hf, Ep in H. cbn [Nat.eqb] in H. destruct (arm (reps s b) a); [|inversion H; subst s''; discriminate].
      unfold add_event in H. cbn [m_stoped] in H. inversion H; subst s''. repeat split. exact Ea.
Qed.
Print Assumptions C60_own_thread_partial.
