(** Model of thread_pool::start() and of the beginning and end of a worker.
    src/thread_pool.cc 18-28 (start: emplace_back of n threads, then wait on the latch), 56-67 (consumer: the attribute object is a local variable of the worker),
    119 (its end); include/koios/thread_pool.h 50-51 (latch of n), 165 (number_of_threads: m_thrs.size(), unsynchronised), 168-171 (consumer_attrs),
    237-242 (thread_specific_preparation: register with the queue, then push_back under the lock).

    emplace_back is two steps: the thread object is constructed - the new thread runs - and then the size of the vector grows. *)
From Coq Require Import List Arith Bool Lia.
From Verif.Common Require Import TS Sum.
Import ListNotations.

(* where a worker is: thread_pool.cc 56-67, thread_pool.h 237-242 *)
Inductive wpc :=
| NotBorn
| Born                          (* 60 *)
| HasAttr (k : nat)             (* 65; k: number_of_threads of its attribute object *)
| InQueue (k : nat)             (* registered with the queue (and the component loops) *)
| Listed (k : nat)              (* its attribute object is listed *)
| Working (k : nat)             (* counted down *)
| Gone.                         (* consumer() has returned: the attribute object is destroyed *)
(* what the state keeps of thread_pool.cc 18-28, 56-67, 119, thread_pool.h 50-51, 165-171, 237-242 *)
Record state := St {
  size : nat;                   (* m_thrs.size() *)
  constructing : bool;          (* inside emplace_back *)
  workers : nat -> wpc;
  attrs : list nat;             (* m_consumer_attrs: whose attribute object is pointed to *)
  latch : nat;
  returned : bool;              (* start() has returned *)
  stop : bool }.

Section StartUp.
  Variable n : nat.
  (* before anything has happened; thread_pool.cc 18-28, 56-67, 119, thread_pool.h 50-51, 165-171, 237-242 *)
  Definition init : state := St 0 false (fun _ => NotBorn) [] n false false.
  (* the steps of thread_pool.cc 18-28, 56-67, 119, thread_pool.h 50-51, 165-171, 237-242 *)
  Inductive event := SConstruct | SCount | SReturn | WAttr (w : nat) | WPrepare (w : nat) | WList (w : nat) | WCount (w : nat) | EStop | WEnd (w : nat).
  (* bookkeeping of the model, no counterpart in /repo *)
  Definition set_w s w p := St (size s) (constructing s) (upd (workers s) w p) (attrs s) (latch s) (returned s) (stop s).
  (* what each step does: thread_pool.cc 18-28, 56-67, 119, thread_pool.h 50-51, 165-171, 237-242 *)
  Definition step (s : state) (e : event) : option state :=
    match e with
    | SConstruct => if (size s <? n) && negb (constructing s) then Some (St (size s) true (upd (workers s) (size s) Born) (attrs s) (latch s) (returned s) (stop s)) else None
    | SCount => if constructing s then Some (St (S (size s)) false (workers s) (attrs s) (latch s) (returned s) (stop s)) else None
    | SReturn => if (size s =? n) && negb (constructing s) && (latch s =? 0) && negb (returned s) then Some (St (size s) false (workers s) (attrs s) 0 true (stop s)) else None
    | WAttr w => match workers s w with Born => Some (set_w s w (HasAttr (size s))) | _ => None end
    | WPrepare w => match workers s w with HasAttr k => Some (set_w s w (InQueue k)) | _ => None end
    | WList w => match workers s w with
                 | InQueue k => Some (St (size s) (constructing s) (upd (workers s) w (Listed k)) (attrs s ++ [w]) (latch s) (returned s) (stop s))
                 | _ => None
                 end
    | WCount w => match workers s w with
                  | Listed k => Some (St (size s) (constructing s) (upd (workers s) w (Working k)) (attrs s) (pred (latch s)) (returned s) (stop s))
                  | _ => None
                  end
    | EStop => if returned s then Some (St (size s) (constructing s) (workers s) (attrs s) (latch s) (returned s) true) else None
    | WEnd w => if stop s then match workers s w with Working _ => Some (set_w s w Gone) | _ => None end else None
    end.

  Definition late (p : wpc) : bool := match p with Listed _ | Working _ | Gone => true | _ => false end.
  Definition counted (p : wpc) : bool := match p with Working _ | Gone => true | _ => false end.
  Definition number (p : wpc) : option nat := match p with HasAttr k | InQueue k | Listed k | Working k => Some k | _ => None end.
  Definition todo (s : state) (w : nat) : nat := if counted (workers s w) then 0 else 1.

  Record Inv (s : state) : Prop := {
    i_born : forall w, workers s w = NotBorn <-> ~ (w < size s \/ (w = size s /\ constructing s = true));
    i_size : size s <= n /\ (constructing s = true -> size s < n);
    i_nd : NoDup (attrs s);
    i_in : forall w, In w (attrs s) <-> late (workers s w) = true;
    i_latch : latch s = sum_to n (todo s);
    i_ret : returned s = true -> latch s = 0 /\ size s = n;
    i_num : forall w k, number (workers s w) = Some k -> w <= k <= n;
    i_stop : (stop s = true -> returned s = true) /\ (forall w, workers s w = Gone -> stop s = true) }.

  Lemma sum_const f c m : (forall i, i < m -> f i = c) -> sum_to m f = c * m.
  Proof. induction m as [|m IH]; intros H; cbn; [lia|]. rewrite H by lia. rewrite IH by (intros; apply H; lia). lia. Qed.
  Lemma Inv_init : Inv init.
  Proof.
    split; cbn; auto; try discriminate.
    - intros w. split; [lia|auto].
    - split; [lia|discriminate].
    - constructor.
    - intros w. split; [contradiction|discriminate].
    - rewrite (sum_const _ 1); [lia|reflexivity].
    - split; [discriminate|intros; discriminate].
  Qed.
  Lemma sum_zero f m : sum_to m f = 0 -> forall i, i < m -> f i = 0.
  Proof. induction m as [|m IH]; cbn; intros H i Hi; [lia|]. destruct (Nat.eq_dec i m); [subst; lia|apply IH; lia]. Qed.
  Lemma sum_le f m : (forall i, f i <= 1) -> sum_to m f <= m.
  Proof. intros H. induction m as [|m IH]; cbn; [lia|]. specialize (H m). lia. Qed.

  (** a worker's step that is not the last one before counting down *)
  Lemma todo_same s s' w p : workers s' = upd (workers s) w p -> counted p = counted (workers s w) -> sum_to n (todo s') = sum_to n (todo s).
  Proof.
    intros E Hc. apply sum_to_ext. intros i _. unfold todo. rewrite E. unfold upd. destruct (Nat.eqb_spec i w); [subst; now rewrite Hc|reflexivity].
  Qed.

  Lemma Inv_step s e s' : Inv s -> step s e = Some s' -> Inv s'.
  Proof.
    intros [I1 I2 I3 I4 I5 I6 I7 I8] Hs. destruct I2 as [I2 I2']. destruct I8 as [I8 I8']. unfold step in Hs. destruct e.
    - destruct (Nat.ltb_spec (size s) n); [|discriminate]. destruct (constructing s) eqn:Ec; [discriminate|]. injection Hs as <-.
      assert (Hnb : workers s (size s) = NotBorn) by (apply I1; intros [H0|[_ H0]]; [lia|discriminate]).
      split; cbn; auto.
      + intros w. unfold upd. destruct (Nat.eqb_spec w (size s)); [split; [discriminate|intros H0; exfalso; apply H0; auto]|]. rewrite I1. split; intros H0 [H1|[H1 H2]]; apply H0; auto; try lia; try congruence.
      + intros w. rewrite I4. unfold upd. destruct (Nat.eqb_spec w (size s)); [subst; rewrite Hnb; reflexivity|tauto].
      + rewrite I5. symmetry. apply (todo_same s _ (size s) Born); [reflexivity|now rewrite Hnb].
      + intros w k. unfold upd. destruct (Nat.eqb_spec w (size s)); [discriminate|apply I7].
      + split; [auto|]. intros w. unfold upd. destruct (Nat.eqb_spec w (size s)); [discriminate|apply I8'].
    - destruct (constructing s) eqn:Ec; [|discriminate]. injection Hs as <-. split; cbn; auto.
      + intros w. rewrite I1. split; intros H0 H1; apply H0; [destruct H1 as [H1|[_ H1]]; [|discriminate]; destruct (Nat.eq_dec w (size s)); [auto|left; lia]|destruct H1 as [H1|[H1 _]]; left; lia].
      + split; [specialize (I2' eq_refl); lia|discriminate].
      + intros Hr. apply I6 in Hr. specialize (I2' eq_refl). lia.
    - destruct (Nat.eqb_spec (size s) n); [|discriminate]. destruct (constructing s) eqn:Ec; [discriminate|]. destruct (Nat.eqb_spec (latch s) 0); [|discriminate]. destruct (returned s) eqn:Er; [discriminate|].
      injection Hs as <-. rewrite e0 in I5. split; cbn; auto.
    - destruct (workers s w) eqn:Ew; try discriminate. injection Hs as <-.
      assert (Hb : w < size s \/ (w = size s /\ constructing s = true)).
      { destruct (lt_dec w (size s)); [auto|]. destruct (Nat.eq_dec w (size s)); [|exfalso; assert (workers s w = NotBorn) by (apply I1; intros [?|[? _]]; lia); congruence].
        destruct (constructing s) eqn:Ec; [auto|]. exfalso. assert (workers s w = NotBorn) by (apply I1; intros [?|[_ ?]]; [lia|discriminate]). congruence. }
      split; cbn; auto.
      + intros v. unfold upd. destruct (Nat.eqb_spec v w); [subst; split; [discriminate|intros H0; exfalso; auto]|apply I1].
      + intros v. rewrite I4. unfold upd. destruct (Nat.eqb_spec v w); [subst; rewrite Ew; reflexivity|tauto].
      + rewrite I5. symmetry. apply (todo_same s _ w (HasAttr (size s))); [reflexivity|now rewrite Ew].
      + intros v k. unfold upd. destruct (Nat.eqb_spec v w); [|apply I7]. intros H0. cbn in H0. injection H0 as <-. subst. destruct Hb as [Hb|[Hb _]]; lia.
      + split; auto. intros v. unfold upd. destruct (Nat.eqb_spec v w); [discriminate|apply I8'].
    - destruct (workers s w) eqn:Ew; try discriminate. injection Hs as <-. split; cbn; auto.
      + intros v. unfold upd. destruct (Nat.eqb_spec v w); [subst; rewrite <- I1, Ew; split; discriminate|apply I1].
      + intros v. rewrite I4. unfold upd. destruct (Nat.eqb_spec v w); [subst; rewrite Ew; reflexivity|tauto].
      + rewrite I5. symmetry. apply (todo_same s _ w (InQueue k)); [reflexivity|now rewrite Ew].
      + intros v j. unfold upd. destruct (Nat.eqb_spec v w); [|apply I7]. subst. intros H0. apply I7. rewrite Ew. exact H0.
      + split; auto. intros v. unfold upd. destruct (Nat.eqb_spec v w); [discriminate|apply I8'].
    - destruct (workers s w) eqn:Ew; try discriminate. injection Hs as <-.
      assert (Hni : ~ In w (attrs s)) by (rewrite I4, Ew; discriminate).
      split; cbn; auto.
      + intros v. unfold upd. destruct (Nat.eqb_spec v w); [subst; rewrite <- I1, Ew; split; discriminate|apply I1].
      + apply NoDup_rev in I3. rewrite <- (rev_involutive (attrs s ++ [w])). apply NoDup_rev. rewrite rev_app_distr. cbn. constructor; [now rewrite <- in_rev|exact I3].
      + intros v. rewrite in_app_iff, I4. unfold upd. destruct (Nat.eqb_spec v w); [subst; split; [reflexivity|cbn; auto]|]. split; [intros [H0|[H0|[]]]; [auto|congruence]|auto].
      + rewrite I5. symmetry. apply (todo_same s _ w (Listed k)); [reflexivity|now rewrite Ew].
      + intros v j. unfold upd. destruct (Nat.eqb_spec v w); [|apply I7]. subst. intros H0. apply I7. rewrite Ew. exact H0.
      + split; auto. intros v. unfold upd. destruct (Nat.eqb_spec v w); [discriminate|apply I8'].
    - destruct (workers s w) eqn:Ew; try discriminate. injection Hs as <-.
      assert (Hw : w < n).
      { destruct (lt_dec w n); [auto|]. exfalso. assert (workers s w = NotBorn); [|congruence]. apply I1. intros [H0|[H0 H1]]; [lia|]. specialize (I2' H1). lia. }
      assert (Hsum : sum_to n (todo s) = S (sum_to n (todo (St (size s) (constructing s) (upd (workers s) w (Working k)) (attrs s) (pred (latch s)) (returned s) (stop s))))).
      { pose proof (sum_to_one n (todo (St (size s) (constructing s) (upd (workers s) w (Working k)) (attrs s) (pred (latch s)) (returned s) (stop s))) (todo s) w Hw) as H0.
set (s0 := St (size s) (constructing s) (upd (workers s) w (Working k)) (attrs s) (pred (latch s)) (returned s) (stop s)) in *.
        assert (Hx : todo s0 w = 0) by (unfold todo, s0; cbn; now rewrite upd_same). assert (Hy : todo s w = 1) by (unfold todo; now rewrite Ew).
        rewrite Hx, Hy in H0. rewrite <- Nat.add_1_r, H0; [lia|]. intros i Hi. unfold todo, s0. cbn. now rewrite upd_other. }
      split; cbn; auto.
      + intros v. unfold upd. destruct (Nat.eqb_spec v w); [subst; rewrite <- I1, Ew; split; discriminate|apply I1].
      + intros v. rewrite I4. unfold upd. destruct (Nat.eqb_spec v w); [subst; rewrite Ew; reflexivity|tauto].
      + rewrite I5, Hsum. reflexivity.
      + intros Hr. apply I6 in Hr. lia.
      + intros v j. unfold upd. destruct (Nat.eqb_spec v w); [|apply I7]. subst. intros H0. apply I7. rewrite Ew. exact H0.
      + split; auto. intros v. unfold upd. destruct (Nat.eqb_spec v w); [discriminate|apply I8'].
    - destruct (returned s) eqn:Er; [|discriminate]. injection Hs as <-. split; cbn; auto.
    - destruct (stop s) eqn:Est; [|discriminate]. destruct (workers s w) eqn:Ew; try discriminate. injection Hs as <-. split; cbn; auto.
      + intros v. unfold upd. destruct (Nat.eqb_spec v w); [subst; rewrite <- I1, Ew; split; discriminate|apply I1].
      + intros v. rewrite I4. unfold upd. destruct (Nat.eqb_spec v w); [subst; rewrite Ew; reflexivity|tauto].
      + rewrite I5. symmetry. apply (todo_same s _ w Gone); [reflexivity|now rewrite Ew].
      + intros v j. unfold upd. destruct (Nat.eqb_spec v w); [discriminate|apply I7].
  Qed.
  Lemma Inv_run l s : run step init l = Some s -> Inv s.
  Proof. apply (run_inv _ Inv); [intros; eapply Inv_step; eauto|apply Inv_init]. Qed.

  (** ** start() returns *)
  Definition starting (e : event) : Prop := match e with EStop | WEnd _ => False | _ => True end.
  Definition wcost (p : wpc) : nat := match p with NotBorn => 5 | Born => 4 | HasAttr _ => 3 | InQueue _ => 2 | Listed _ => 1 | _ => 0 end.
  Definition pending (s : state) : nat :=
    sum_to n (fun w => wcost (workers s w)) + 2 * (n - size s) - (if constructing s then 1 else 0) + (if returned s then 0 else 1).
  Lemma born_in s w : Inv s -> workers s w <> NotBorn -> w < n.
  Proof.
    intros [I1 [I2 I2'] _ _ _ _ _ _] Hw. destruct (lt_dec w n); [auto|]. exfalso. apply Hw. apply I1. intros [H0|[H0 H1]]; [lia|]. specialize (I2' H1). lia.
  Qed.
  Lemma wsum s s' w p : w < n -> workers s' = upd (workers s) w p ->
    sum_to n (fun w => wcost (workers s' w)) + wcost (workers s w) = sum_to n (fun w => wcost (workers s w)) + wcost p.
  Proof.
    intros Hw E. pose proof (sum_to_one n (fun w => wcost (workers s' w)) (fun w => wcost (workers s w)) w Hw) as H. cbn in H. rewrite H.
    - now rewrite E, upd_same.
    - intros i Hi. now rewrite E, upd_other.
  Qed.
  Lemma starting_dec s e s' : Inv s -> starting e -> step s e = Some s' -> pending s' < pending s.
  Proof.
    intros HI He Hs. pose proof HI as [I1 [I2 I2'] I3 I4 I5 I6 I7 I8]. unfold step in Hs. destruct e; try contradiction He.
    - destruct (Nat.ltb_spec (size s) n); [|discriminate]. destruct (constructing s) eqn:Ec; [discriminate|]. injection Hs as <-.
      assert (Hnb : workers s (size s) = NotBorn) by (apply I1; intros [H0|[_ H0]]; [lia|discriminate]).
      pose proof (wsum s (St (size s) true (upd (workers s) (size s) Born) (attrs s) (latch s) (returned s) (stop s)) (size s) Born ltac:(auto) eq_refl) as Hw. rewrite Hnb in Hw. cbn in Hw.
      unfold pending. cbn. rewrite Ec. lia.
    - destruct (constructing s) eqn:Ec; [|discriminate]. injection Hs as <-. specialize (I2' eq_refl). unfold pending. cbn. rewrite Ec. lia.
    - destruct (Nat.eqb_spec (size s) n); [|discriminate]. destruct (constructing s) eqn:Ec; [discriminate|]. destruct (Nat.eqb_spec (latch s) 0); [|discriminate]. destruct (returned s) eqn:Er; [discriminate|].
      injection Hs as <-. unfold pending. cbn. rewrite Ec, Er. lia.
    - destruct (workers s w) eqn:Ew; try discriminate. injection Hs as <-. assert (Hw : w < n) by (apply (born_in s); congruence).
      pose proof (wsum s (set_w s w (HasAttr (size s))) w _ Hw eq_refl) as H. rewrite Ew in H. cbn in H. unfold pending. cbn. assert (H2 : (if constructing s then 1 else 0) <= 2 * (n - size s)) by (destruct (constructing s); [specialize (I2' eq_refl)|]; lia). lia.
    - destruct (workers s w) eqn:Ew; try discriminate. injection Hs as <-. assert (Hw : w < n) by (apply (born_in s); congruence).
      pose proof (wsum s (set_w s w (InQueue k)) w _ Hw eq_refl) as H. rewrite Ew in H. cbn in H. unfold pending. cbn. assert (H2 : (if constructing s then 1 else 0) <= 2 * (n - size s)) by (destruct (constructing s); [specialize (I2' eq_refl)|]; lia). lia.
    - destruct (workers s w) eqn:Ew; try discriminate. injection Hs as <-. assert (Hw : w < n) by (apply (born_in s); congruence).
      pose proof (wsum s (St (size s) (constructing s) (upd (workers s) w (Listed k)) (attrs s ++ [w]) (latch s) (returned s) (stop s)) w _ Hw eq_refl) as H. rewrite Ew in H. cbn in H. unfold pending. cbn. assert (H2 : (if constructing s then 1 else 0) <= 2 * (n - size s)) by (destruct (constructing s); [specialize (I2' eq_refl)|]; lia). lia.
    - destruct (workers s w) eqn:Ew; try discriminate. injection Hs as <-. assert (Hw : w < n) by (apply (born_in s); congruence).
      pose proof (wsum s (St (size s) (constructing s) (upd (workers s) w (Working k)) (attrs s) (pred (latch s)) (returned s) (stop s)) w _ Hw eq_refl) as H. rewrite Ew in H. cbn in H. unfold pending. cbn. assert (H2 : (if constructing s then 1 else 0) <= 2 * (n - size s)) by (destruct (constructing s); [specialize (I2' eq_refl)|]; lia). lia.
  Qed.
  Lemma stuck_returned s : Inv s -> (forall e, starting e -> step s e = None) -> returned s = true.
  Proof.
    intros [I1 [I2 I2'] I3 I4 I5 I6 I7 I8] Hst. destruct (constructing s) eqn:Ec.
    { pose proof (Hst SCount I) as H. cbn in H. rewrite Ec in H. discriminate. }
    assert (Hsz : size s = n). { pose proof (Hst SConstruct I) as H. cbn -[Nat.ltb] in H. rewrite Ec in H. destruct (Nat.ltb_spec (size s) n); [discriminate|lia]. }
    assert (Hl : latch s = 0).
    { rewrite I5. rewrite (sum_const _ 0); [lia|]. intros w Hw. unfold todo. destruct (workers s w) eqn:Ew; cbn; try reflexivity; exfalso.
      - apply I1 in Ew. apply Ew. left. lia.
      - pose proof (Hst (WAttr w) I) as H. cbn in H. rewrite Ew in H. discriminate.
      - pose proof (Hst (WPrepare w) I) as H. cbn in H. rewrite Ew in H. discriminate.
      - pose proof (Hst (WList w) I) as H. cbn in H. rewrite Ew in H. discriminate.
      - pose proof (Hst (WCount w) I) as H. cbn in H. rewrite Ew in H. discriminate. }
    pose proof (Hst SReturn I) as H. cbn in H. rewrite Ec, Hsz, Nat.eqb_refl, Hl in H. cbn in H. destruct (returned s); [reflexivity|discriminate].
  Qed.
End StartUp.

(** C112: when start() - runtime_init() - has returned, each of the n workers is registered with the queue, and listed exactly once in consumer_attrs(); *)
Theorem C112_all_listed_once : forall n l s, run (step n) (init n) l = Some s -> returned s = true ->
  NoDup (attrs s) /\ length (attrs s) = n /\ (forall w, In w (attrs s) <-> w < n) /\
  (forall w, w < n -> (exists k, workers s w = Working k) \/ workers s w = Gone).
Proof.
  intros n l s Hr Hret. pose proof (Inv_run n l s Hr) as HI. pose proof HI as [I1 [I2 I2'] I3 I4 I5 I6 I7 I8]. destruct (I6 Hret) as [Hl Hsz].
  assert (Hc : forall w, w < n -> counted (workers s w) = true).
  { intros w Hw. rewrite I5 in Hl. pose proof (sum_zero _ _ Hl w Hw) as H. unfold todo in H. destruct (counted (workers s w)); [reflexivity|discriminate]. }
  assert (Hin : forall w, In w (attrs s) <-> w < n).
  { intros w. rewrite I4. split.
    - intros H. apply (born_in n s w HI). intros E. rewrite E in H. discriminate.
    - intros H. specialize (Hc w H). destruct (workers s w); try discriminate; reflexivity. }
  repeat split; auto; try apply Hin.
  - apply Nat.le_antisymm.
    + rewrite <- (seq_length n 0). apply NoDup_incl_length; [exact I3|]. intros w Hw. apply in_seq. apply Hin in Hw. lia.
    + rewrite <- (seq_length n 0) at 1. apply NoDup_incl_length; [apply seq_NoDup|]. intros w Hw. apply in_seq in Hw. apply Hin. lia.
  - intros w Hw. specialize (Hc w Hw). destruct (workers s w); try discriminate; eauto.
Qed.
Print Assumptions C112_all_listed_once.
(** before that, nobody is listed twice, or before its queue is registered; *)
Theorem C112_listed_after_preparation : forall n l s w, run (step n) (init n) l = Some s -> In w (attrs s) ->
  count_occ Nat.eq_dec (attrs s) w = 1 /\ w < n /\ (exists k, workers s w = Listed k \/ workers s w = Working k) \/ workers s w = Gone.
Proof.
  intros n l s w Hr Hin. pose proof (Inv_run n l s Hr) as HI. pose proof HI as [I1 [I2 I2'] I3 I4 I5 I6 I7 I8].
  pose proof (proj1 (I4 w) Hin) as Hl. destruct (workers s w) eqn:Ew; try discriminate; [left|left|auto].
  - repeat split; [|apply (born_in n s); auto; congruence|eauto]. apply (proj1 (NoDup_count_occ' Nat.eq_dec _)); auto.
  - repeat split; [|apply (born_in n s); auto; congruence|eauto]. apply (proj1 (NoDup_count_occ' Nat.eq_dec _)); auto.
Qed.
Print Assumptions C112_listed_after_preparation.
(** and start() returns under every schedule: at most [pending] steps, and when none is left it has returned. *)
Theorem C112_start_returns : forall n l s l' s',
  run (step n) (init n) l = Some s -> Forall starting l' -> run (step n) s l' = Some s' ->
  length l' <= pending n s /\ ((forall e, starting e -> step n s' e = None) -> returned s' = true).
Proof.
  intros n l s l' s' Hr HF Hr'. pose proof (Inv_run n l s Hr) as HI. clear Hr l. revert s HI Hr'. induction HF as [|e l' He HF IH]; intros s HI Hr'; cbn in Hr'.
  - injection Hr' as <-. split; [cbn; lia|]. now apply stuck_returned.
  - destruct (step n s e) as [s1|] eqn:Es; [|discriminate]. pose proof (starting_dec n s e s1 HI He Es) as Hd.
    destruct (IH s1) as [H1 H2]; auto; [eapply Inv_step; eauto|]. split; [cbn; lia|exact H2].
Qed.
Print Assumptions C112_start_returns.
Example C112_case : exists s, run (step 2) (init 2) [SConstruct; WAttr 0; SCount; SConstruct; WPrepare 0; SCount; WAttr 1; WList 0; WPrepare 1; WList 1; WCount 1; WCount 0; SReturn] = Some s /\
  (returned s, attrs s, workers s 0, workers s 1) = (true, [0; 1], Working 0, Working 2).
Proof. apply run_proj_ok with (f := fun s => (returned s, attrs s, workers s 0, workers s 1)). vm_compute. reflexivity. Qed.

(** C113: the number_of_threads in the attributes given to the loops and the queue is the number of workers. False: a worker reads the size of the vector while
    start() is still filling it (a data race as well); the first of any number of workers may find 0. *)
Theorem C113_number_of_threads_refuted : forall n, 0 < n -> exists s,
  run (step n) (init n) [SConstruct; WAttr 0] = Some s /\ workers s 0 = HasAttr 0.
Proof.
  intros n Hn. exists (set_w (St 0 true (upd (fun _ => NotBorn) 0 Born) [] n false false) 0 (HasAttr 0)). destruct n; [lia|]. split; reflexivity.
Qed.
Print Assumptions C113_number_of_threads_refuted.
(** What holds: it never exceeds the number of workers, and counts at least the workers started before; it never changes. *)
Theorem C113_bounds_partial : forall n l s w k, run (step n) (init n) l = Some s -> number (workers s w) = Some k -> w <= k <= n.
Proof. intros n l s w k Hr. apply (i_num n s (Inv_run n l s Hr)). Qed.
Print Assumptions C113_bounds_partial.
Theorem C113_constant_partial : forall n l s e s' w k, run (step n) (init n) l = Some s -> number (workers s w) = Some k -> step n s e = Some s' ->
  number (workers s' w) = Some k \/ workers s' w = Gone.
Proof.
  intros n l s e s' w k Hr Hk Hs. pose proof (Inv_run n l s Hr) as HI. pose proof HI as [I1 [I2 I2'] I3 I4 I5 I6 I7 I8].
  unfold step in Hs. destruct e as [| | |v|v|v|v| |v].
  - destruct (Nat.ltb_spec (size s) n); [|discriminate]. destruct (constructing s) eqn:Ec; [discriminate|]. injection Hs as <-. cbn. left. unfold upd. destruct (Nat.eqb_spec w (size s)); auto.
    exfalso. assert (workers s w = NotBorn) by (apply I1; intros [H0|[_ H0]]; [lia|discriminate]). rewrite H0 in Hk. discriminate.
  - destruct (constructing s); [|discriminate]. injection Hs as <-. auto.
  - destruct (_ && _); [|discriminate]. injection Hs as <-. auto.
  - destruct (workers s v) eqn:Ev; try discriminate. injection Hs as <-. cbn. unfold upd. destruct (Nat.eqb_spec w v); [subst; rewrite Ev in Hk; discriminate|auto].
  - destruct (workers s v) eqn:Ev; try discriminate. injection Hs as <-. cbn. unfold upd. destruct (Nat.eqb_spec w v); [subst; rewrite Ev in Hk; auto|auto].
  - destruct (workers s v) eqn:Ev; try discriminate. injection Hs as <-. cbn. unfold upd. destruct (Nat.eqb_spec w v); [subst; rewrite Ev in Hk; auto|auto].
  - destruct (workers s v) eqn:Ev; try discriminate. injection Hs as <-. cbn. unfold upd. destruct (Nat.eqb_spec w v); [subst; rewrite Ev in Hk; auto|auto].
  - destruct (returned s); [|discriminate]. injection Hs as <-. auto.
  - destruct (stop s); [|discriminate]. destruct (workers s v) eqn:Ev; try discriminate. injection Hs as <-. cbn. unfold upd. destruct (Nat.eqb_spec w v); auto.
Qed.
Print Assumptions C113_constant_partial.

(** C114: the pointers in consumer_attrs() can be used (for_each_dispatch_evenly does) as long as the scheduler exists. False: they point to local variables of the workers,
    and stay in the list when the workers have ended. *)
Theorem C114_after_stop_refuted : forall n l s w, run (step n) (init n) l = Some s -> workers s w = Gone -> In w (attrs s).
Proof. intros n l s w Hr Hg. apply (i_in n s (Inv_run n l s Hr)). now rewrite Hg. Qed.
Print Assumptions C114_after_stop_refuted.
Example C114_case : exists s, run (step 1) (init 1) [SConstruct; SCount; WAttr 0; WPrepare 0; WList 0; WCount 0; SReturn; EStop; WEnd 0] = Some s /\ (attrs s, workers s 0) = ([0], Gone).
Proof. apply run_proj_ok with (f := fun s => (attrs s, workers s 0)). vm_compute. reflexivity. Qed.
(** What holds: until stop() is called, each of them points to the living attribute object of a worker. *)
Theorem C114_before_stop_partial : forall n l s w, run (step n) (init n) l = Some s -> stop s = false -> In w (attrs s) ->
  exists k, workers s w = Listed k \/ workers s w = Working k.
Proof.
  intros n l s w Hr Hst Hin. pose proof (Inv_run n l s Hr) as [I1 I2 I3 I4 I5 I6 I7 [I8 I8']]. pose proof (proj1 (I4 w) Hin) as Hl. destruct (workers s w) eqn:Ew; try discriminate; eauto.
  specialize (I8' w Ew). congruence.
Qed.
Print Assumptions C114_before_stop_partial.
