(** C147: every ready task gets its turn, however often the others yield. *)
From Coq Require Import List Arith Bool Lia.
From Verif.Common Require Import TS.
From Verif.Fair Require Import Model Proofs.
Import ListNotations.

Definition prefix {A} (a b : list A) : Prop := exists c, b = a ++ c.

(** Any number of workers: what one thread enqueued gets its turns in that order. *)
Theorem C147_in_order_of_one_thread n h s p l1 x l2 l s' y : run (step n) init h = Some s -> q s p = l1 ++ x :: l2 -> In y l2 -> run (step n) s l = Some s' -> In y (turns n s l) -> In x (turns n s l).
Proof.
  intros Rh Q Hy R Ty. destruct (in_dec Nat.eq_dec x (turns n s l)) as [|N]; [assumption|exfalso].
  pose proof (Inv_run n h _ _ Inv_init Rh) as HI. clear Rh h. revert s s' l1 l2 HI Q Hy R Ty N. induction l as [|e l IH]; intros s s' l1 l2 HI Q Hy R Ty N; [exact Ty|]. cbn [run] in R.
  destruct (step n s e) as [s1|] eqn:E; [|discriminate]. rewrite (turns_cons n s e l s1 E), in_app_iff in Ty, N. pose proof (Inv_step n s e s1 HI E) as HI1.
  assert (Qy : holds s y (LQ p)) by (cbn; rewrite Q; apply in_app_iff; right; now right).
  destruct (queue_step n s e s1 p E) as [(more & H & O)|(w & z & Ee & H & T)].
  - destruct Ty as [Ty|Ty].
    + destruct e as [| |w p'| | | | |]; cbn [turn] in Ty; try contradiction. destruct (q s p') as [|z r] eqn:Q'; [contradiction|]. cbn in Ty. destruct Ty as [->|[]].
      assert (X : LQ p' = LQ p) by (apply (i_one _ HI y); [cbn; rewrite Q'; now left|exact Qy]). injection X as ->. assert (turn s (Take w p) s1 <> []) as X by (cbn; now rewrite Q'). destruct (O X w eq_refl).
    + rewrite Q in H. rewrite <- app_assoc in H. cbn [app] in H. apply (IH s1 s' l1 (l2 ++ more) HI1 H ltac:(apply in_app_iff; auto) R Ty). tauto.
  - rewrite Q in H. rewrite T in Ty, N. destruct l1 as [|z' l1]; cbn [app] in H; injection H as -> H; [apply N; left; now left|].
    destruct Ty as [[->|[]]|Ty]; [|apply (IH s1 s' l1 l2 HI1 (eq_sym H) Hy R Ty); tauto].
    pose proof (i_q _ HI p) as Nd. rewrite Q in Nd. cbn [app] in Nd. inversion Nd as [|? ? X _]; subst. apply X. apply in_app_iff. right. now right.
Qed.

(** One worker, and nothing enqueued from outside meanwhile: a task in the queue waits for the turns that are ahead of it, one each, and for nothing else. *)
Theorem C147_one_turn_each h s l1 x l2 l s' : run (step 1) init h = Some s -> (forall p, p <> 0 -> q s p = []) -> q s 0 = l1 ++ x :: l2 -> run (step 1) s l = Some s' -> (forall e, In e l -> outside e = false) ->
  ~ In x (turns 1 s l) -> prefix (turns 1 s l) l1 /\ forall y, count y (turns 1 s l) <= 1.
Proof.
  intros Rh Ho Q R No N. pose proof (Inv_run 1 h _ _ Inv_init Rh) as HI. assert (HO : One s) by (split; [exact HI|apply (workers_run 1 h init s); auto|exact Ho]).
  split; [exact (in_queue x l s s' l1 l2 HO Q R No N)|]. intros y. exact (queued_count x l s s' l1 l2 y HO Q R No N).
Qed.
(** A task whose deadline has passed, or whose I/O is complete, waits for at most two turns of any other task. *)
Theorem C147_two_turns_each h s x l s' : run (step 1) init h = Some s -> (forall p, p <> 0 -> q s p = []) -> In x (due s 0) -> run (step 1) s l = Some s' -> (forall e, In e l -> outside e = false) ->
  ~ In x (turns 1 s l) -> forall y, count y (turns 1 s l) <= 2.
Proof.
  intros Rh Ho D R No N y. pose proof (Inv_run 1 h _ _ Inv_init Rh) as HI. assert (HO : One s) by (split; [exact HI|apply (workers_run 1 h init s); auto|exact Ho]).
  pose proof (due_count x y l s s' HO D R No N). destruct (ph s 0); lia.
Qed.
(** While it waits it is not forgotten: it is there to be taken. *)
Theorem C147_not_forgotten n h s p x l s' : run (step n) init h = Some s -> In x (q s p) -> run (step n) s l = Some s' -> ~ In x (turns n s l) -> In x (q s' p).
Proof. intros _ Q R N. apply in_split in Q as (l1 & l2 & Q). destruct (stays n p x l s s' l1 l2 Q R N) as (k & more & H). rewrite H. apply in_app_iff. right. now left. Qed.

(** ** With an enqueuing thread more, there is no bound *)
Lemma turns_app n s l1 l2 s1 : run (step n) s l1 = Some s1 -> turns n s (l1 ++ l2) = turns n s l1 ++ turns n s1 l2.
Proof. revert s. induction l1 as [|e l1 IH]; cbn [run app]; intros s R; [injection R as <-; reflexivity|]. destruct (step n s e) as [s2|] eqn:E; [|discriminate]. rewrite !(turns_cons n s e _ s2 E), <- app_assoc. f_equal. now apply IH. Qed.
(** One worker; tasks 1 and 2 yield in turn, task 7 was started from main(). Each time the worker takes a task there are two of its own and one of main(): moodycamel's queue, which looks for the longest list, never takes the latter. *)
Definition yielding (s : state) : Prop := ph s 0 = Busy 1 /\ q s 0 = [2] /\ q s 1 = [7] /\ due s 0 = [].
Definition round : list event := [Yield 0; Poll 0; Take 0 0; Yield 0; Poll 0; Take 0 0].
Lemma round_again s : yielding s -> exists s', run (step 1) s round = Some s' /\ yielding s' /\ turns 1 s round = [2; 1].
Proof.
  intros (A & B & C & D). unfold turns, round, yielding. cbn. rewrite A. cbn. rewrite B. cbn. rewrite ?D. cbn. eexists. split; [reflexivity|]. cbn. auto.
Qed.
Fixpoint times (k : nat) (l : list event) : list event := match k with O => [] | S k => l ++ times k l end.
Lemma again n (P : state -> Prop) r ts : (forall s, P s -> exists s', run (step n) s r = Some s' /\ P s' /\ turns n s r = ts) ->
  forall k s, P s -> exists s', run (step n) s (times k r) = Some s' /\ P s' /\ turns n s (times k r) = concat (repeat ts k).
Proof.
  intros H. induction k as [|k IH]; intros s Hs; cbn [times repeat concat]; [exists s; repeat split; auto|]. destruct (H s Hs) as (s1 & R1 & H1 & T1). destruct (IH s1 H1) as (s2 & R2 & H2 & T2).
  exists s2. split; [now rewrite (run_app _ _ _ _ _ R1)|]. split; [exact H2|]. now rewrite (turns_app n s r _ s1 R1), T1, T2.
Qed.
Lemma count_concat y ts k : count y (concat (repeat ts k)) = k * count y ts.
Proof. unfold count. induction k as [|k IH]; cbn [repeat concat]; [reflexivity|]. rewrite count_occ_app, IH. lia. Qed.
Theorem C147_task_of_main_refuted : forall k, exists h s l s', run (step 1) init h = Some s /\ q s 1 = [7] /\ run (step 1) s l = Some s' /\ count 1 (turns 1 s l) = k /\ count 2 (turns 1 s l) = k /\ ~ In 7 (turns 1 s l) /\ q s' 1 = [7].
Proof.
  intros k. set (h := [Post 1 1; Poll 0; Take 0 1; Wake 0 2; Post 1 7]).
  assert (X : exists s, run (step 1) init h = Some s /\ yielding s) by (eexists; split; [reflexivity|repeat split; reflexivity]). destruct X as (s & R & Y). pose proof Y as (_ & _ & Q & _).
  destruct (again 1 yielding round [2; 1] round_again k s Y) as (s' & R' & Y' & T). exists h, s, (times k round), s'. split; [exact R|]. split; [exact Q|]. split; [exact R'|]. rewrite T, !count_concat. split; [cbn; lia|]. split; [cbn; lia|]. split; [|apply Y'].
  intros H. apply (count_occ_In Nat.eq_dec) in H. pose proof (count_concat 7 [2; 1] k) as Z. unfold count in Z. rewrite Z in H. cbn in H. lia.
Qed.
(** Two workers, nobody outside: task 7 was enqueued by worker 0; worker 1's tasks go on, on both workers. *)
Definition busy2 (s : state) : Prop := ph s 0 = Loop /\ ph s 1 = Busy 1 /\ q s 0 = [7] /\ q s 1 = [] /\ due s 0 = [] /\ due s 1 = [] /\ off s 2 = true.
Definition round2 : list event := [Wake 1 2; Yield 1; Poll 0; Take 0 1; Park 0; Poll 1; Take 1 1].
Definition view (s : state) := (ph s 0, ph s 1, q s 0, q s 1, due s 0, due s 1, off s 2).
Lemma r1 : forall s, view s = (Loop, Busy 1, [7], [], [], [], true) -> exists s', step 2 s (Wake 1 2) = Some s' /\ view s' = (Loop, Busy 1, [7], [2], [], [], false) /\ turn s (Wake 1 2) s' = [].
Proof. intros s V; unfold view in V; injection V as A B C D E F G; cbn [step]; rewrite ?A, ?B, ?C, ?D, ?G; cbn [Nat.ltb Nat.leb]; rewrite ?E, ?F; eexists; split; [reflexivity|]; split; [unfold view; cbn [ph q due off]; rewrite !updE; cbn [Nat.eqb]; rewrite ?A, ?B, ?C, ?D, ?E, ?F, ?G; reflexivity|cbn [turn]; rewrite ?C, ?D; reflexivity]. Qed.
Lemma r2 : forall s, view s = (Loop, Busy 1, [7], [2], [], [], false) -> exists s', step 2 s (Yield 1) = Some s' /\ view s' = (Loop, Loop, [7], [2; 1], [], [], false) /\ turn s (Yield 1) s' = [].
Proof. intros s V; unfold view in V; injection V as A B C D E F G; cbn [step]; rewrite ?A, ?B, ?C, ?D, ?G; cbn [Nat.ltb Nat.leb]; rewrite ?E, ?F; eexists; split; [reflexivity|]; split; [unfold view; cbn [ph q due off]; rewrite !updE; cbn [Nat.eqb]; rewrite ?A, ?B, ?C, ?D, ?E, ?F, ?G; reflexivity|cbn [turn]; rewrite ?C, ?D; reflexivity]. Qed.
Lemma r3 : forall s, view s = (Loop, Loop, [7], [2; 1], [], [], false) -> exists s', step 2 s (Poll 0) = Some s' /\ view s' = (Polled, Loop, [7], [2; 1], [], [], false) /\ turn s (Poll 0) s' = [].
Proof. intros s V; unfold view in V; injection V as A B C D E F G; cbn [step]; rewrite ?A, ?B, ?C, ?D, ?G; cbn [Nat.ltb Nat.leb]; rewrite ?E, ?F; eexists; split; [reflexivity|]; split; [unfold view; cbn [ph q due off]; rewrite !updE; cbn [Nat.eqb]; rewrite ?A, ?B, ?C, ?D, ?E, ?F, ?G; reflexivity|cbn [turn]; rewrite ?C, ?D; reflexivity]. Qed.
Lemma r4 : forall s, view s = (Polled, Loop, [7], [2; 1], [], [], false) -> exists s', step 2 s (Take 0 1) = Some s' /\ view s' = (Busy 2, Loop, [7], [1], [], [], false) /\ turn s (Take 0 1) s' = [2].
Proof. intros s V; unfold view in V; injection V as A B C D E F G; cbn [step]; rewrite ?A, ?B, ?C, ?D, ?G; cbn [Nat.ltb Nat.leb]; rewrite ?E, ?F; eexists; split; [reflexivity|]; split; [unfold view; cbn [ph q due off]; rewrite !updE; cbn [Nat.eqb]; rewrite ?A, ?B, ?C, ?D, ?E, ?F, ?G; reflexivity|cbn [turn]; rewrite ?C, ?D; reflexivity]. Qed.
Lemma r5 : forall s, view s = (Busy 2, Loop, [7], [1], [], [], false) -> exists s', step 2 s (Park 0) = Some s' /\ view s' = (Loop, Loop, [7], [1], [], [], true) /\ turn s (Park 0) s' = [].
Proof. intros s V; unfold view in V; injection V as A B C D E F G; cbn [step]; rewrite ?A, ?B, ?C, ?D, ?G; cbn [Nat.ltb Nat.leb]; rewrite ?E, ?F; eexists; split; [reflexivity|]; split; [unfold view; cbn [ph q due off]; rewrite !updE; cbn [Nat.eqb]; rewrite ?A, ?B, ?C, ?D, ?E, ?F, ?G; reflexivity|cbn [turn]; rewrite ?C, ?D; reflexivity]. Qed.
Lemma r6 : forall s, view s = (Loop, Loop, [7], [1], [], [], true) -> exists s', step 2 s (Poll 1) = Some s' /\ view s' = (Loop, Polled, [7], [1], [], [], true) /\ turn s (Poll 1) s' = [].
Proof. intros s V; unfold view in V; injection V as A B C D E F G; cbn [step]; rewrite ?A, ?B, ?C, ?D, ?G; cbn [Nat.ltb Nat.leb]; rewrite ?E, ?F; eexists; split; [reflexivity|]; split; [unfold view; cbn [ph q due off]; rewrite !updE; cbn [Nat.eqb]; rewrite ?A, ?B, ?C, ?D, ?E, ?F, ?G; reflexivity|cbn [turn]; rewrite ?C, ?D; reflexivity]. Qed.
Lemma r7 : forall s, view s = (Loop, Polled, [7], [1], [], [], true) -> exists s', step 2 s (Take 1 1) = Some s' /\ view s' = (Loop, Busy 1, [7], [], [], [], true) /\ turn s (Take 1 1) s' = [1].
Proof. intros s V; unfold view in V; injection V as A B C D E F G; cbn [step]; rewrite ?A, ?B, ?C, ?D, ?G; cbn [Nat.ltb Nat.leb]; rewrite ?E, ?F; eexists; split; [reflexivity|]; split; [unfold view; cbn [ph q due off]; rewrite !updE; cbn [Nat.eqb]; rewrite ?A, ?B, ?C, ?D, ?E, ?F, ?G; reflexivity|cbn [turn]; rewrite ?C, ?D; reflexivity]. Qed.
Lemma round2_again s : busy2 s -> exists s', run (step 2) s round2 = Some s' /\ busy2 s' /\ turns 2 s round2 = [2; 1].
Proof.
  intros (A & B & C & D & E & F & G). assert (V : view s = (Loop, Busy 1, [7], [], [], [], true)) by (unfold view; congruence).
  destruct (r1 s V) as (s1 & E1 & V1 & T1), (r2 s1 V1) as (s2 & E2 & V2 & T2), (r3 s2 V2) as (s3 & E3 & V3 & T3), (r4 s3 V3) as (s4 & E4 & V4 & T4), (r5 s4 V4) as (s5 & E5 & V5 & T5), (r6 s5 V5) as (s6 & E6 & V6 & T6), (r7 s6 V6) as (s7 & E7 & V7 & T7).
  exists s7. unfold round2. cbn [run]. rewrite E1, E2, E3, E4, E5, E6, E7. split; [reflexivity|]. split; [unfold view in V7; injection V7; unfold busy2; auto 10|].
  rewrite (turns_cons _ _ _ _ _ E1), (turns_cons _ _ _ _ _ E2), (turns_cons _ _ _ _ _ E3), (turns_cons _ _ _ _ _ E4), (turns_cons _ _ _ _ _ E5), (turns_cons _ _ _ _ _ E6), (turns_cons _ _ _ _ _ E7), T1, T2, T3, T4, T5, T6, T7. reflexivity.
Qed.
Theorem C147_two_workers_refuted : forall k, exists h s l s', run (step 2) init h = Some s /\ q s 0 = [7] /\ (forall e, In e l -> outside e = false) /\ run (step 2) s l = Some s' /\ count 1 (turns 2 s l) = k /\ ~ In 7 (turns 2 s l) /\ q s' 0 = [7].
Proof.
  intros k. set (h := [Post 2 1; Post 2 3; Poll 0; Poll 1; Take 1 2; Take 0 2; Wake 0 7; Park 0]).
  assert (X : option_map view (run (step 2) init h) = Some (Loop, Busy 1, [7], [], [], [], true)) by (vm_compute; reflexivity). apply run_proj_ok in X as (s & R & V).
  assert (Y : busy2 s) by (unfold view in V; injection V; unfold busy2; auto 10). pose proof Y as (_ & _ & Q & _).
  destruct (again 2 busy2 round2 [2; 1] round2_again k s Y) as (s' & R' & Y' & T). exists h, s, (times k round2), s'. split; [exact R|]. split; [exact Q|]. split.
  { clear. induction k as [|k IH]; cbn [times]; intros e He; [contradiction|]. apply in_app_iff in He as [He|He]; [|now apply IH]. cbn in He. intuition (subst; reflexivity). }
  split; [exact R'|]. rewrite T, count_concat. split; [cbn; lia|]. split; [|apply Y'].
  intros H. apply (count_occ_In Nat.eq_dec) in H. pose proof (count_concat 7 [2; 1] k) as Z. unfold count in Z. rewrite Z in H. cbn in H. lia.
Qed.
(** The theorems apply: on one worker tasks 1 and 2 yield, task 7's deadline passes while the worker is about to take task 2, and it gets its turn after 2, 1 and 2 again. *)
Example C147_case : exists h s l s', run (step 1) init h = Some s /\ (forall p, p <> 0 -> q s p = []) /\ due s 0 = [7] /\ ph s 0 = Polled /\ run (step 1) s l = Some s' /\ turns 1 s l = [2; 1; 2; 7] /\ (forall e, In e l -> outside e = false).
Proof.
  set (h := [Post 1 1; Poll 0; Take 0 1; Wake 0 2; Yield 0; Poll 0; Due 0 0 7]). set (l := [Take 0 0; Yield 0; Poll 0; Take 0 0; Yield 0; Poll 0; Take 0 0; Yield 0; Poll 0; Take 0 0]).
  assert (X : option_map (fun s => (q s 1, due s 0, ph s 0, turns 1 s l, match run (step 1) s l with Some _ => true | None => false end)) (run (step 1) init h) = Some ([], [7], Polled, [2; 1; 2; 7], true)) by (vm_compute; reflexivity).
  apply run_proj_ok in X as (s & R & V). apply pair_equal_spec in V as [V V5]. apply pair_equal_spec in V as [V V4]. apply pair_equal_spec in V as [V V3]. apply pair_equal_spec in V as [V1 V2]. destruct (run (step 1) s l) as [s'|] eqn:R'; [|rewrite ?R' in V5; discriminate]. exists h, s, l, s'. split; [exact R|]. split.
  - assert (Z : forall l s s', (forall p, 2 <= p -> q s p = []) -> (forall e, In e l -> match e with Post p _ => p < 2 | Wake w _ | Yield w | Poll w => w < 2 | _ => True end) -> run (step 1) s l = Some s' -> forall p, 2 <= p -> q s' p = []).
    { clear. induction l as [|e l IH]; cbn [run]; intros s s' H N R p Hp; [injection R as <-; auto|]. destruct (step 1 s e) as [s1|] eqn:E; [|discriminate]. refine (IH s1 s' _ _ R p Hp); [|intros e' He; apply N; now right]. intros p' Hp'.
      pose proof (N e (or_introl eq_refl)) as Ne. destruct (queue_step 1 s e s1 p' E) as [(more & Q & _)|(w & x & -> & Q & _)]; rewrite (H p' Hp') in Q; [|discriminate].
      destruct e as [w i y|w|w p2|w|w y|w|w|p2 y]; cbn [step] in E.
      - destruct (_ && _); [|discriminate]. injection E as <-. now apply H.
      - destruct (ph s w); try discriminate. destruct (w <? 1); [|discriminate]. injection E as <-. cbn [q]. rewrite upd_other by lia. now apply H.
      - destruct (ph s w); try discriminate. destruct (q s p2) as [|z r] eqn:Q2; [discriminate|]. injection E as <-. cbn [q]. rewrite upd_other; [now apply H|]. intros <-. rewrite (H p' Hp') in Q2. discriminate.
      - destruct (ph s w); try discriminate. injection E as <-. now apply H.
      - destruct (ph s w); try discriminate. destruct (off s y); [|discriminate]. injection E as <-. cbn [q]. rewrite upd_other by lia. now apply H.
      - destruct (ph s w); try discriminate. injection E as <-. cbn [q]. rewrite upd_other by lia. now apply H.
      - destruct (ph s w); try discriminate. injection E as <-. now apply H.
      - destruct (_ && _); [|discriminate]. injection E as <-. cbn [q]. rewrite upd_other by lia. now apply H. }
    intros [|[|p]] Hp; [congruence|exact V1|]. apply (Z h init s); [reflexivity| |exact R|lia]. unfold h. cbn [In]. intros e He. repeat destruct He as [<-|He]; try contradiction; lia || exact I.
  - split; [exact V2|]. split; [exact V3|]. split; [exact R'|]. split; [exact V4|]. unfold l. cbn [In]. intros e He. repeat destruct He as [<-|He]; try contradiction; reflexivity.
Qed.
Print Assumptions C147_in_order_of_one_thread.
Print Assumptions C147_one_turn_each.
Print Assumptions C147_two_turns_each.
Print Assumptions C147_not_forgotten.
Print Assumptions C147_task_of_main_refuted.
Print Assumptions C147_two_workers_refuted.
