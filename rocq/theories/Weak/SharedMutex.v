(** C149: koios::shared_mutex under the C++ memory model.

    coroutine_shared_mutex.cc 12-132 (every function but hold_this_immediately works under std::lock_guard lk{ m_lock }), acq_lk_aw.h 18-130, waiting_handle.cc 12-23 (wake_up gives the coroutine to the scheduler).

    The steps are those of SharedMutex/Model.v. Trusted: a std::mutex's unlock happens before every later lock of it; what is given to the scheduler happens before the operation that takes it out. *)
From Coq Require Import List Arith ZArith Bool Lia.
From Verif.Common Require Import TS.
From Verif.SharedMutex Require Import Model Spec Proofs Waiting.
From Verif.Weak Require Import HB.
Import ListNotations.

(** ** the client: coroutines that read shared data while they hold the lock, and write it while they hold it uniquely *)
(* the steps of coroutine_shared_mutex.cc 12-132, acq_lk_aw.h 18-130 (SharedMutex/Model.v) and client code *)
Inductive cevent := Mx (e : event) | Read (i : nat) | Write (i : nat).
(* what each step does: coroutine_shared_mutex.cc 12-132, acq_lk_aw.h 18-130 (SharedMutex/Model.v) and client code *)
Definition cstep (s : state) (e : cevent) : option state :=
  match e with
  | Mx e => step s e
  | Read i => match at_ s i with Reading | Writing => Some s | _ => None end
  | Write i => match at_ s i with Writing => Some s | _ => None end
  end.

(** ** the operations on memory that the steps make *)
(** who runs: coroutine [i], or the rest of [i]'s await_suspend after [i] was enqueued (acq_lk_aw.h 87), which may run at the same time as the resumed [i] *)
Inductive agent := Co (i : nat) | Kick (i : nat).
(* the memory operations: coroutine_shared_mutex.cc 12-132 *)
Inductive op :=
| RData (i : nat)              (* i reads the shared data *)
| WData (i : nat)              (* i writes it *)
| Lock (c : agent)             (* c locks m_lock *)
| Unlock (c : agent)           (* c unlocks m_lock *)
| Wake (c : agent) (j : nat)   (* c gives j to the scheduler *)
| Resumed (j : nat).           (* the scheduler resumes j *)
(* bookkeeping of the model, no counterpart in /repo *)
Definition num (c : agent) : nat := match c with Co i => 2 * i | Kick i => S (2 * i) end.
(* C++ memory model, environment, not code of /repo *)
Definition who (o : op) : nat := match o with RData i | WData i | Resumed i => num (Co i) | Lock c | Unlock c | Wake c _ => num c end.
(* bookkeeping of the model, no counterpart in /repo *)
Definition is_woken (p : pc) : bool := match p with ShrWoken | UniWoken | WShrWoken => true | _ => false end.
(* bookkeeping of the model, no counterpart in /repo *)
Definition newly (s s' : state) (j : nat) : bool := is_woken (at_ s' j) && negb (is_woken (at_ s j)).
(** a critical section of m_lock, which wakes at most one coroutine: one that waits, or the caller of acquire() itself *)
(* one critical section of m_lock: coroutine_shared_mutex.cc 12-132 *)
Definition section (c : agent) (s s' : state) : list op :=
  let i := match c with Co i | Kick i => i end in
  match find (newly s s') (i :: m_shr_waitings s ++ m_uni_waitings s) with
  | Some w => [Lock c; Wake c w; Unlock c]
  | None => [Lock c; Unlock c]
  end.
(* the memory operations of each step: coroutine_shared_mutex.cc 12-132 *)
Definition ops (s : state) (e : cevent) (s' : state) : list op :=
  match e with
  | Read i => [RData i] | Write i => [WData i]
  | Mx (EAcqShr i) | Mx (EShrEnq i) | Mx (EUniEnq i) | Mx (ERelease i _ _) => section (Co i) s s'
  | Mx (EKick i _ _) => section (Kick i) s s'
  | Mx (EAcqUni _) | Mx (ETryUni _) => []
  | Mx (EResume i) => [Resumed i]
  end.
(* specification, no counterpart in /repo *)
Definition history (l : list cevent) : list op := trace cstep ops init l.

(** ** happens-before *)
(* specification, no counterpart in /repo *)
Definition between (t : list op) (m n : nat) (P : op -> Prop) : Prop := forall k c, m < k -> k < n -> nth_error t k = Some c -> P c.
(* C++ memory model, environment, not code of /repo (std::mutex, the scheduler's queue) *)
Definition sw (t : list op) (m n : nat) : Prop :=
  m < n /\ exists a b, nth_error t m = Some a /\ nth_error t n = Some b /\
  ( (* std::mutex *) (exists c d, a = Unlock c /\ b = Lock d)
    \/ (* the scheduler *) (exists c j, a = Wake c j /\ b = Resumed j /\ between t m n (fun x => x <> Resumed j /\ forall d, x <> Wake d j))).
(* C++ memory model, environment, not code of /repo *)
Definition happens_before := hb who sw.
(* specification, no counterpart in /repo *)
Definition no_defect (s : state) (e : cevent) : Prop := match e with Mx e => defects_not_hit s e | _ => True end.
(** two accesses conflict if one of them is a write *)
(* specification, no counterpart in /repo *)
Definition data (o : op) : bool := match o with RData _ | WData _ => true | _ => false end.
(* specification, no counterpart in /repo *)
Definition is_write (o : op) : bool := match o with WData _ => true | _ => false end.
(* specification, no counterpart in /repo *)
Definition conflict (a b : op) : bool := data a && data b && (is_write a || is_write b).

(** ** proof *)
Lemma sw_lt t m n : sw t m n -> m < n /\ n < length t.
Proof. intros (H & a & b & _ & Hb & _). split; auto. apply nth_error_Some. congruence. Qed.
Lemma between_ext t x m n P : n <= length t -> between t m n P -> between (t ++ x) m n P.
Proof. intros L H k c H1 H2 H3. apply (H k c H1 H2). rewrite nth_error_app1 in H3; auto. lia. Qed.
Lemma sw_ext t x m n : sw t m n -> sw (t ++ x) m n.
Proof.
  intros H. pose proof (sw_lt _ _ _ H) as [_ L]. destruct H as (H & a & b & Ha & Hb & C). split; auto. exists a, b. split; [now apply nth_ext|]. split; [now apply nth_ext|].
  destruct C as [C|(c & j & C1 & C2 & C3)]; [left; exact C|right; exists c, j]. split; [exact C1|]. split; [exact C2|]. apply between_ext; auto; lia.
Qed.
Notation kn := (fun t c m => knows who sw t (num c) m).
Notation hbeq := (hbe who sw).

(** what a critical section does to the coroutines: nothing, or it wakes one of those in [q] *)
Definition eff (q : list nat) (s s' : state) : Prop :=
  (forall j, at_ s' j = at_ s j) \/ exists w, In w q /\ is_woken (at_ s' w) = true /\ forall j, j <> w -> at_ s' j = at_ s j.
Definition queues (s : state) : list nat := m_shr_waitings s ++ m_uni_waitings s.
Lemma eff_uni k s : let s' := try_wake_up_next_uni_impl k s in
  ((forall j, at_ s' j = at_ s j) \/ m_state s' = UNI /\ eff (m_uni_waitings s) s s') /\ m_shr_waitings s' = m_shr_waitings s.
Proof.
  cbv zeta. unfold try_wake_up_next_uni_impl. destruct (_ || _); [split; [left; reflexivity|reflexivity]|].
  cbn [check fail_assert m_uni_waitings]. destruct (pick k (m_uni_waitings s)) as [[w rest]|] eqn:Ep; [|split; [left; reflexivity|reflexivity]].
  apply pick_spec in Ep. destruct Ep as (l1 & l2 & E1 & E2). split; [|reflexivity].
  right. split; [reflexivity|]. right. exists w. cbn. rewrite upd_same. split; [rewrite E1, in_app_iff; right; now left|]. split; [reflexivity|]. intros j N. now rewrite upd_other.
Qed.
Lemma eff_shr k s : let s' := try_wake_up_shr_impl k s in
  ((forall j, at_ s' j = at_ s j) \/ m_state s' = SHR /\ eff (m_shr_waitings s) s s') /\ m_uni_waitings s' = m_uni_waitings s.
Proof.
  cbv zeta. unfold try_wake_up_shr_impl. destruct (being_held _); [split; [left; reflexivity|reflexivity]|].
  cbn [check fail_assert m_shr_waitings]. destruct (pick k (m_shr_waitings s)) as [[w rest]|] eqn:Ep; [|split; [left; reflexivity|reflexivity]].
  apply pick_spec in Ep. destruct Ep as (l1 & l2 & E1 & E2). split; [|reflexivity].
  right. split; [reflexivity|]. right. exists w. cbn. rewrite upd_same. split; [rewrite E1, in_app_iff; right; now left|]. split; [destruct (at_ s w); reflexivity|]. intros j N. now rewrite upd_other.
Qed.
Lemma finish_at s : at_ (finish s) = at_ s.
Proof. unfold finish. destruct (_ && _); reflexivity. Qed.
Lemma eff_finish q s s' : eff q s s' -> eff q s (finish s').
Proof. unfold eff. now rewrite finish_at. Qed.
Lemma eff_weaken q q' s s' : eff q s s' -> incl q q' -> eff q' s s'.
Proof. intros [H|(w & H1 & H2)] I; [now left|right; exists w; auto]. Qed.
Lemma eff_from q s0 s s' : (forall j, at_ s j = at_ s0 j) -> eff q s s' -> eff q s0 s'.
Proof. intros E [H|(w & H1 & H2 & H3)]; [left; intros j; now rewrite H|right; exists w; repeat split; auto; intros j N; now rewrite H3]. Qed.
Lemma eff_next ku ks s : eff (queues s) s (try_wake_up_next ku ks s).
Proof.
  unfold try_wake_up_next. destruct (eff_uni ku s) as (H1 & H3). set (s1 := try_wake_up_next_uni_impl ku s) in *. clearbody s1.
  destruct H1 as [H1|[H1 H2]].
  - destruct (being_held s1) eqn:Eb; [now left|]. destruct (eff_shr ks (check s1)) as ([H4|[_ H4]] & _); [left; intros j; rewrite H4; apply H1|].
    eapply eff_weaken; [eapply eff_from; [exact H1|exact H4]|]. cbn. rewrite H3. apply incl_appl, incl_refl.
  - unfold being_held. rewrite H1. cbn. eapply eff_weaken; [exact H2|]. apply incl_appr, incl_refl.
Qed.
Lemma eff_release ku ks s : eff (queues s) s (release ku ks s).
Proof.
  unfold release. destruct (m_state s) eqn:Em.
  - apply eff_finish. now left.
  - destruct (_ =? _)%Z; apply eff_finish; [|now left]. destruct (eff_uni ku (set_state (set_cnt s (m_shr_cnt s - 1)) NO)) as ([H1|[_ H1]] & _); [now left|].
    eapply eff_weaken; [exact H1|]. apply incl_appr, incl_refl.
  - destruct (eff_shr ks (set_writer (set_state s NO) None)) as (H1 & H3). set (s2 := try_wake_up_shr_impl ks _) in *. clearbody s2. cbn in H3.
    destruct H1 as [H1|[H1 H2]].
    + destruct (being_held_sharedly s2); apply eff_finish; [now left|]. destruct (eff_uni ku (check s2)) as ([H4|[_ H4]] & _); [left; intros j; rewrite H4; apply H1|].
      eapply eff_weaken; [eapply eff_from; [exact H1|exact H4]|]. cbn. rewrite H3. apply incl_appr, incl_refl.
    + unfold being_held_sharedly. rewrite H1. cbn. apply eff_finish. eapply eff_weaken; [exact H2|]. apply incl_appl, incl_refl.
  - now left.
Qed.

(** what a step under m_lock does: it moves the one who makes it, or wakes one coroutine *)
Definition sect (e : event) : option agent :=
  match e with EAcqShr i | EShrEnq i | EUniEnq i | ERelease i _ _ => Some (Co i) | EKick i _ _ => Some (Kick i) | _ => None end.
Definition name (c : agent) : nat := match c with Co i | Kick i => i end.
Lemma sect_eff s e s' c : WInv s -> defects_not_hit s e -> step s e = Some s' -> sect e = Some c ->
  (forall j, at_ s' j = at_ s j \/ newly s s' j = true \/ c = Co j) /\
  (forall j j', newly s s' j = true -> newly s s' j' = true -> j = j') /\
  (forall j, newly s s' j = true -> In j (queues s) \/ c = Co j) /\
  (forall j, c = Co j -> is_woken (at_ s j) = false).
Proof.
  intros HI HP Hs Hc.
  assert (Q : forall j, In j (queues s) -> is_woken (at_ s j) = false) by (intros j Hj; unfold queues in Hj; rewrite in_app_iff in Hj; destruct Hj as [Hj|Hj]; [rewrite (w_sq _ HI _ Hj)|rewrite (w_uq _ HI _ Hj)]; reflexivity).
  assert (G : forall i q p s1, (forall j, In j q -> is_woken (at_ s j) = false) -> incl q (queues s) -> (forall j, j <> i -> at_ s1 j = at_ s j) -> at_ s1 i = p -> is_woken p = false -> ~ In i q -> eff q s1 s' -> c = Co i -> is_woken (at_ s i) = false ->
    (forall j, at_ s' j = at_ s j \/ newly s s' j = true \/ c = Co j) /\ (forall j j', newly s s' j = true -> newly s s' j' = true -> j = j') /\ (forall j, newly s s' j = true -> In j (queues s) \/ c = Co j) /\ (forall j, c = Co j -> is_woken (at_ s j) = false)).
  { intros i q p s1 Hq Hin H1 H2 Hp Hni He -> Hwi. destruct He as [He|(w & He1 & He2 & He3)].
    - assert (N : forall j, newly s s' j = false).
      { intros j. unfold newly. destruct (Nat.eq_dec j i) as [->|N]; [rewrite He, H2, Hp; reflexivity|]. rewrite He, H1 by auto. now destruct (is_woken (at_ s j)). }
      repeat split; intros j; [|intros j'; rewrite N; discriminate|rewrite N; discriminate|intros [= <-]; exact Hwi].
      destruct (Nat.eq_dec j i) as [->|Nj]; [now right; right|]. left. now rewrite He, H1.
    - assert (N : forall j, newly s s' j = true -> j = w).
      { intros j. unfold newly. destruct (Nat.eq_dec j w) as [->|Nw]; auto. destruct (Nat.eq_dec j i) as [->|N]; [rewrite He3, H2, Hp by auto; discriminate|]. rewrite He3, H1 by auto. now destruct (is_woken (at_ s j)). }
      repeat split.
      + intros j. destruct (Nat.eq_dec j i) as [->|Nj]; [now right; right|]. destruct (Nat.eq_dec j w) as [->|Nw]; [|left; now rewrite He3, H1].
        right; left. unfold newly. now rewrite He2, Hq.
      + intros j j' A B. apply N in A, B. congruence.
      + intros j A. apply N in A. subst. left. auto.
      + intros j [= <-]. exact Hwi. }
  destruct e as [i|i|i ku ks|i|i|i|i|i ku ks]; cbn [sect] in Hc; try discriminate; injection Hc as <-; cbn in HP, Hs.
  - (* EAcqShr *)
    destruct (hold_this_shr_immediately s) as [ok s1] eqn:Eh. assert (E1 : forall j, at_ s1 j = at_ s j) by (unfold hold_this_shr_immediately in Eh; destruct (negb _); injection Eh as <- <-; reflexivity).
    destruct (at_ s i) eqn:Ei; try discriminate; injection Hs as <-; destruct ok;
    (eapply (G i []); [easy|easy| |reflexivity| |easy|left; reflexivity|reflexivity|now rewrite Ei]; [intros j N; cbn; rewrite upd_other by auto; apply E1|cbn; rewrite upd_same; reflexivity]).
  - (* EShrEnq *)
    destruct (at_ s i) eqn:Ei; try discriminate; [|exfalso; now apply HP]. injection Hs as <-.
    assert (Hr : add_shr_waiting i s = goto (set_shrq s (m_shr_waitings s ++ [i])) i ShrWaiting).
    { unfold add_shr_waiting. rewrite Ei. destruct (m_current_writer s) as [w|] eqn:Ew; [|reflexivity].
      destruct (Nat.eqb_spec w i) as [->|]; [|reflexivity].
      apply (w_cw _ HI) in Ew. rewrite Ei in Ew. discriminate. }
    rewrite Hr in G |- *. eapply (G i []); [easy|easy| |reflexivity| |easy|left; reflexivity|reflexivity|now rewrite Ei]; [intros j N; cbn; now rewrite upd_other by auto|cbn; now rewrite upd_same].
  - (* EKick *)
    destruct (kick s i); [|discriminate]. injection Hs as <-. set (s0 := set_uaf _ _). assert (E0 : forall j, at_ s0 j = at_ s j) by reflexivity. assert (Eq : queues s0 = queues s) by reflexivity. clearbody s0.
    pose proof (eff_next ku ks s0) as He. rewrite Eq in He. destruct He as [He|(w & He1 & He2 & He3)].
    + assert (N : forall j, newly s (try_wake_up_next ku ks s0) j = false) by (intros j; unfold newly; rewrite He, E0; now destruct (is_woken (at_ s j))).
      repeat split; intros j; [left; now rewrite He|intros j'; rewrite N; discriminate|rewrite N; discriminate|discriminate].
    + assert (N : forall j, newly s (try_wake_up_next ku ks s0) j = true -> j = w) by (intros j; unfold newly; destruct (Nat.eq_dec j w) as [->|Nw]; auto; rewrite He3, E0 by auto; now destruct (is_woken (at_ s j))).
      repeat split.
      * intros j. destruct (Nat.eq_dec j w) as [->|Nw]; [|left; now rewrite He3]. right; left. unfold newly. now rewrite He2, Q.
      * intros j j' A B. apply N in A, B. congruence.
      * intros j A. apply N in A. subst. now left.
      * discriminate.
  - (* EUniEnq *)
    destruct (at_ s i) eqn:Ei; try discriminate. injection Hs as <-. unfold add_waiting in G |- *. destruct (_ && _).
    + assert (N : forall j, newly s (wake_uni (set_writer (set_state (check s) UNI) (Some i)) i) j = true -> j = i).
      { intros j. unfold newly. destruct (Nat.eq_dec j i) as [->|Nw]; auto. cbn. rewrite upd_other by auto. now destruct (is_woken (at_ s j)). }
      repeat split.
      * intros j. destruct (Nat.eq_dec j i) as [->|Nw]; [now right; right|]. left. cbn. now rewrite upd_other.
      * intros j j' A B. apply N in A, B. congruence.
      * intros j A. apply N in A. subst. now right.
      * intros j [= <-]. now rewrite Ei.
    + eapply (G i []); [easy|easy| |reflexivity| |easy|left; reflexivity|reflexivity|now rewrite Ei]; [intros j N; cbn; now rewrite upd_other by auto|cbn; now rewrite upd_same].
  - (* ERelease *)
    assert (Hs' : exists p, is_woken p = false /\ s' = release ku ks (goto s i p) /\ is_woken (at_ s i) = false /\ at_ s i <> ShrWaiting /\ at_ s i <> UniWaiting)
      by (destruct (at_ s i); try discriminate; injection Hs as <-; eexists; repeat split; try reflexivity; discriminate).
    destruct Hs' as (p & Hp & -> & Hw & N1 & N2).
    eapply (G i (queues s) p (goto s i p)); auto.
    + apply incl_refl.
    + intros j N. cbn. now rewrite upd_other.
    + cbn. now rewrite upd_same.
    + unfold queues. rewrite in_app_iff. intros [X|X]; [apply (w_sq _ HI) in X|apply (w_uq _ HI) in X]; contradiction.
    + change (queues s) with (queues (goto s i p)). apply eff_release.
Qed.

(** ** knowledge *)
Definition pc_eq_dec (p q : pc) : {p = q} + {p <> q}.
Proof. decide equality. Defined.
Definition pub (t : list op) (m : nat) : Prop := exists n c, nth_error t n = Some (Unlock c) /\ hbeq t m n.
Definition handed (t : list op) (j m : nat) : Prop :=
  exists n c, nth_error t n = Some (Wake c j) /\ hbeq t m n /\ between t n (length t) (fun x => x <> Resumed j /\ forall d, x <> Wake d j).
Definition has (s : state) (t : list op) (j m : nat) : Prop := if is_woken (at_ s j) then handed t j m else kn t (Co j) m.
Record W (s : state) (t : list op) : Prop := {
  W_inv : WInv s;
  W_w : forall m i, nth_error t m = Some (WData i) -> pub t m \/ cls (at_ s i) = 2;
  W_r : forall m i, nth_error t m = Some (RData i) -> pub t m \/ cls (at_ s i) <> 0;
  W_rd : forall m i j, nth_error t m = Some (WData i) -> rd (at_ s j) = true -> has s t j m;
  W_wr : forall m a j, nth_error t m = Some a -> data a = true -> writer_pc (at_ s j) = true -> has s t j m
}.
Lemma pub_ext t x m : pub t m -> pub (t ++ x) m.
Proof. intros (n & c & H1 & H2). exists n, c. split; [now apply nth_ext|apply hbe_ext; auto; apply sw_ext]. Qed.
Lemma kn_ext t x c m : kn t c m -> kn (t ++ x) c m.
Proof. apply knows_ext, sw_ext. Qed.
Lemma nth_app_inv {A} (t x : list A) m a : nth_error (t ++ x) m = Some a -> nth_error t m = Some a \/ (length t <= m /\ In a x).
Proof.
  intros H. destruct (Nat.lt_ge_cases m (length t)) as [L|L]; [left; now rewrite nth_error_app1 in H|]. right. split; auto. rewrite nth_error_app2 in H by lia. eapply nth_error_In; eauto.
Qed.
Lemma handed_ext t x j m : handed t j m -> (forall b, In b x -> b <> Resumed j /\ forall d, b <> Wake d j) -> handed (t ++ x) j m.
Proof.
  intros (n & c & H1 & H2 & H3) Hb. exists n, c. split; [now apply nth_ext|]. split; [apply hbe_ext; auto; apply sw_ext|].
  intros k b K1 K2 K3. apply nth_app_inv in K3. destruct K3 as [K3|[_ K3]]; [|now apply Hb]. apply (H3 k b); auto. apply nth_error_Some. congruence.
Qed.
Lemma own t m a : nth_error t m = Some a -> knows who sw t (who a) m.
Proof. intros H. exists m, a. split; auto. split; auto. now left. Qed.
Lemma lock_knows t c m : pub t m \/ kn t c m -> kn (t ++ [Lock c]) c m.
Proof.
  intros [(n & d & H1 & H2)|H]; [|now apply kn_ext]. assert (L : n < length t) by (apply nth_error_Some; congruence).
  change (num c) with (who (Lock c)). apply knows_now. eapply sync_next; [apply sw_ext| |exact H2].
  split; [exact L|]. exists (Unlock d), (Lock c). split; [now apply nth_ext|]. split; [apply nth_snoc|]. left. eauto.
Qed.
Lemma unlock_pub t c m : kn t c m -> pub (t ++ [Unlock c]) m.
Proof. intros H. exists (length t), c. split; [apply nth_snoc|]. right. apply knows_next; [apply sw_ext|exact H]. Qed.
Lemma wake_handed t c j m : kn t c m -> handed (t ++ [Wake c j]) j m.
Proof.
  intros H. exists (length t), c. split; [apply nth_snoc|]. split; [right; apply knows_next; [apply sw_ext|exact H]|].
  intros k b K1 K2. rewrite app_length in K2. cbn in K2. lia.
Qed.
Lemma section_ops c s s' b : In b (section c s s') -> b = Lock c \/ b = Unlock c \/ exists w, b = Wake c w /\ newly s s' w = true.
Proof.
  unfold section. destruct (find _ _) as [w|] eqn:F; cbn; intros H; [apply find_some in F; destruct F as [_ F]|]; repeat (destruct H as [<-|H]; [eauto|]); try contradiction.
Qed.
Lemma section_knows c s s' t m : pub t m \/ kn t c m -> pub (t ++ section c s s') m /\ kn (t ++ section c s s') c m.
Proof.
  intros H. apply lock_knows in H. unfold section.
  assert (G : forall x, kn ((t ++ [Lock c]) ++ x ++ [Unlock c]) c m /\ pub ((t ++ [Lock c]) ++ x ++ [Unlock c]) m).
  { intros x. split; [now apply kn_ext|]. rewrite app_assoc. now apply unlock_pub, kn_ext. }
  destruct (find _ _) as [w|]; [specialize (G [Wake c w])|specialize (G [])]; rewrite <- app_assoc in G; cbn in G; tauto.
Qed.
Lemma section_hands c s s' t m w : (forall j, newly s s' j = true -> j = w) -> newly s s' w = true -> In w (name c :: queues s) -> pub t m \/ kn t c m -> handed (t ++ section c s s') w m.
Proof.
  intros U N I H. apply lock_knows in H. unfold section. fold (name c) (queues s).
  destruct (find _ _) as [x|] eqn:F; [|apply (find_none _ _ F) in I; congruence].
  apply find_some in F. destruct F as [_ F]. apply U in F. subst x.
  change [Lock c; Wake c w; Unlock c] with ([Lock c] ++ [Wake c w] ++ [Unlock c]). rewrite !app_assoc. apply handed_ext; [now apply wake_handed|].
  intros b [<-|[]]. split; [discriminate|]. intros d. discriminate.
Qed.
Lemma section_data c s s' t m a : nth_error (t ++ section c s s') m = Some a -> data a = true -> nth_error t m = Some a.
Proof. intros H Hd. apply nth_app_inv in H. destruct H as [H|[_ H]]; auto. apply section_ops in H. destruct H as [->|[->|(w & -> & _)]]; discriminate. Qed.
Lemma has_ext s s' t x j m : at_ s' j = at_ s j -> has s t j m -> (is_woken (at_ s j) = true -> forall b, In b x -> b <> Resumed j /\ forall d, b <> Wake d j) -> has s' (t ++ x) j m.
Proof. intros E H Hb. unfold has in *. rewrite E. destruct (is_woken (at_ s j)); [apply handed_ext; auto|now apply kn_ext]. Qed.
Lemma ops_sect s e s' c : sect e = Some c -> ops s (Mx e) s' = section c s s'.
Proof. destruct e; cbn; intros [= <-]; reflexivity. Qed.
Lemma W_section s e s' t c : W s t -> defects_not_hit s e -> step s e = Some s' -> sect e = Some c -> W s' (t ++ section c s s').
Proof.
  intros [HI Ww Wr Wrd Wwr] HP Hs Hc. destruct (WInv_step _ _ _ HI HP Hs) as [HI' _].
  destruct (sect_eff _ _ _ _ HI HP Hs Hc) as (E1 & E2 & E3 & E4). clear HP Hs Hc e.
  assert (Q : forall j, In j (queues s) -> cls (at_ s j) = 0) by (intros j Hj; unfold queues in Hj; rewrite in_app_iff in Hj; destruct Hj as [Hj|Hj]; [rewrite (w_sq _ HI _ Hj)|rewrite (w_uq _ HI _ Hj)]; reflexivity).
  assert (P : forall m k a, nth_error t m = Some a -> who a = num (Co k) -> cls (at_ s k) <> 0 -> kn t c m \/ at_ s' k = at_ s k).
  { intros m k a Hm Ha Hk. assert (O : c = Co k -> kn t c m) by (intros ->; rewrite <- Ha; now apply own). destruct (E1 k) as [X|[X|X]]; auto. apply E3 in X. destruct X as [X|X]; auto. apply Q in X. contradiction. }
  assert (Pw : forall m k, nth_error t m = Some (WData k) -> (pub t m \/ kn t c m) \/ at_ s' k = at_ s k /\ cls (at_ s k) = 2).
  { intros m k Hm. destruct (Ww m k Hm) as [X|X]; [auto|]. destruct (P m k _ Hm eq_refl) as [Y|Y]; auto. rewrite X. discriminate. }
  assert (Pr : forall m k, nth_error t m = Some (RData k) -> (pub t m \/ kn t c m) \/ at_ s' k = at_ s k /\ cls (at_ s k) <> 0).
  { intros m k Hm. destruct (Wr m k Hm) as [X|X]; [auto|]. destruct (P m k _ Hm eq_refl) as [Y|Y]; auto. }
  assert (C2 : forall p, cls p = 2 -> writer_pc p = true) by (intros []; cbn; congruence).
  assert (C0 : forall p, cls p <> 0 -> writer_pc p = true \/ rd p = true) by (intros []; cbn; auto; congruence).
  assert (NW : forall j, is_woken (at_ s j) = true -> forall b, In b (section c s s') -> b <> Resumed j /\ forall d, b <> Wake d j).
  { intros j Hj b Hb. apply section_ops in Hb. destruct Hb as [->|[->|(w & -> & Hw)]]; split; try discriminate; intros d; try discriminate. intros [= _ ->]. unfold newly in Hw. rewrite Hj, andb_false_r in Hw. discriminate. }
  assert (In' : forall w, newly s s' w = true -> In w (name c :: queues s)) by (intros w Hw; apply E3 in Hw; destruct Hw as [Hw| ->]; [now right|now left]).
  assert (NN : forall j, newly s s' j = true -> is_woken (at_ s' j) = true /\ is_woken (at_ s j) = false) by (intros j Hj; unfold newly in Hj; apply andb_prop in Hj; destruct Hj as [A B]; split; auto; now apply negb_true_iff).
  (* what [j] has after the step if the maker of the step has it *)
  assert (HK : forall j m, (at_ s' j <> at_ s j) -> pub t m \/ kn t c m -> has s' (t ++ section c s s') j m).
  { intros j m Hj K. unfold has. destruct (newly s s' j) eqn:N.
    - rewrite (proj1 (NN j N)). apply section_hands; auto.
    - destruct (E1 j) as [X|[X|X]]; [contradiction|congruence|]. unfold newly in N. rewrite (E4 j X) in N. cbn in N. rewrite andb_true_r in N. rewrite N. subst c. now apply section_knows. }
  split; auto.
  - intros m i Hm. apply section_data in Hm; [|reflexivity]. destruct (Pw m i Hm) as [X|[X Y]]; [left; now apply section_knows|right; congruence].
  - intros m i Hm. apply section_data in Hm; [|reflexivity]. destruct (Pr m i Hm) as [X|[X Y]]; [left; now apply section_knows|right; congruence].
  - intros m i j Hm Hj. apply section_data in Hm; [|reflexivity]. 
    destruct (Pw m i Hm) as [X|[X Y]].
    + destruct (pc_eq_dec (at_ s' j) (at_ s j)) as [E|E]; [|now apply HK]. apply (has_ext s); auto. apply (Wrd m i); auto. now rewrite <- E.
    + exfalso. apply (w_rd _ HI') in Hj. rewrite <- X in Y. apply C2, (w_wr _ HI') in Y. congruence.
  - intros m a j Hm Ha Hj. apply section_data in Hm; auto.
    destruct (pc_eq_dec (at_ s' j) (at_ s j)) as [E|E]; [apply (has_ext s); auto; apply (Wwr m a); auto; now rewrite <- E|].
    apply HK; auto. assert (H : exists k, (pub t m \/ kn t c m) \/ at_ s' k = at_ s k /\ cls (at_ s k) <> 0).
    { destruct a as [k|k| | | |]; try discriminate; exists k; [now apply Pr|]. destruct (Pw m k Hm) as [X|[X Y]]; [now left|]. right. rewrite Y. split; auto. }
    destruct H as (k & [H|[H1 H2]]); auto. exfalso. rewrite <- H1 in H2. apply C0 in H2. destruct H2 as [H2|H2].
    + apply E. rewrite (w_one _ HI' j k Hj H2). exact H1.
    + apply (w_rd _ HI') in H2. apply (w_wr _ HI') in Hj. congruence.
Qed.
Lemma W_quiet s s' t : W s t -> WInv s' -> (forall j, at_ s' j = at_ s j \/ cls (at_ s j) = 0 /\ rd (at_ s' j) = false /\ writer_pc (at_ s' j) = false) -> W s' t.
Proof.
  intros [HI Ww Wr Wrd Wwr] HI' H. split; auto.
  - intros m i Hm. destruct (Ww m i Hm) as [X|X]; auto. destruct (H i) as [E|[E _]]; [right; congruence|congruence].
  - intros m i Hm. destruct (Wr m i Hm) as [X|X]; auto. destruct (H i) as [E|[E _]]; [right; congruence|congruence].
  - intros m i j Hm Hj. destruct (H j) as [E|(_ & E & _)]; [|congruence]. unfold has. rewrite E in *. now apply (Wrd m i).
  - intros m a j Hm Ha Hj. destruct (H j) as [E|(_ & _ & E)]; [|congruence]. unfold has. rewrite E in *. now apply (Wwr m a).
Qed.
Lemma nth_snoc_inv {A} (t : list A) b m a : nth_error (t ++ [b]) m = Some a -> nth_error t m = Some a \/ (m = length t /\ a = b).
Proof.
  intros H. apply nth_app_inv in H as H'. destruct H' as [H'|[L [->|[]]]]; [now left|]. right. split; auto. assert (m < length (t ++ [a])) by (apply nth_error_Some; congruence). rewrite app_length in *; cbn in *. lia.
Qed.
Lemma resumed_knows t j m : handed t j m -> kn (t ++ [Resumed j]) (Co j) m.
Proof.
  intros (n & c & H1 & H2 & H3). assert (L : n < length t) by (apply nth_error_Some; congruence). change (num (Co j)) with (who (Resumed j)). apply knows_now.
  eapply sync_next; [apply sw_ext| |exact H2]. split; [exact L|]. exists (Wake c j), (Resumed j). split; [now apply nth_ext|]. split; [apply nth_snoc|]. right. exists c, j. split; [reflexivity|]. split; [reflexivity|].
  intros k b K1 K2 K3. apply (H3 k b K1 K2). now rewrite nth_error_app1 in K3 by lia.
Qed.
Lemma W_resume s s' t i p q : W s t -> WInv s' -> at_ s i = p -> is_woken p = true -> at_ s' i = q -> is_woken q = false -> rd q = rd p -> writer_pc q = writer_pc p -> (forall j, j <> i -> at_ s' j = at_ s j) -> W s' (t ++ [Resumed i]).
Proof.
  intros [HI Ww Wr Wrd Wwr] HI' Ei Hp Ei' Hq E1 E2 Ho.
  assert (D : forall m a, nth_error (t ++ [Resumed i]) m = Some a -> data a = true -> nth_error t m = Some a) by (intros m a Hm Ha; apply nth_snoc_inv in Hm; destruct Hm as [Hm|[_ ->]]; [auto|discriminate]).
  assert (C : cls p = 0) by (destruct p; try discriminate; reflexivity).
  assert (K : forall m j, has s t j m -> has s' (t ++ [Resumed i]) j m).
  { intros m j Hm. destruct (Nat.eq_dec j i) as [->|N].
    - unfold has in *. rewrite Ei, Hp in Hm. rewrite Ei', Hq. now apply resumed_knows.
    - apply (has_ext s); auto. intros _ b [<-|[]]. split; [congruence|discriminate]. }
  split; auto.
  - intros m k Hm. apply D in Hm; auto. destruct (Ww m k Hm) as [X|X]; [left; now apply pub_ext|right]. rewrite Ho; auto. intros ->. congruence.
  - intros m k Hm. apply D in Hm; auto. destruct (Wr m k Hm) as [X|X]; [left; now apply pub_ext|right]. rewrite Ho; auto. intros ->. congruence.
  - intros m k j Hm Hj. apply D in Hm; auto. apply K, (Wrd m k); auto. destruct (Nat.eq_dec j i) as [->|N]; [congruence|now rewrite <- Ho].
  - intros m a j Hm Ha Hj. apply D in Hm; auto. apply K, (Wwr m a); auto. destruct (Nat.eq_dec j i) as [->|N]; [congruence|now rewrite <- Ho].
Qed.
Lemma W_step s e s' t : W s t -> no_defect s e -> cstep s e = Some s' -> W s' (t ++ ops s e s').
Proof.
  intros HW HP Hs. destruct e as [e|i|i]; cbn [cstep no_defect] in *.
  - destruct (sect e) as [c|] eqn:Ec; [rewrite (ops_sect _ _ _ _ Ec); now eapply W_section; eauto|].
    destruct (WInv_step _ _ _ (W_inv _ _ HW) HP Hs) as [HI' _].
    destruct e as [i|i|i ku ks|i|i|i|i|i ku ks]; try discriminate; cbn in Hs; cbn [ops]; rewrite ?app_nil_r.
    + destruct (at_ s i) eqn:Ei; try discriminate. injection Hs as <-. apply (W_quiet s); auto. intros j. cbn. updc j i; auto. right. now rewrite Ei.
    + destruct (at_ s i) eqn:Ei; try discriminate. injection Hs as <-. apply (W_quiet s); auto. intros j. cbn. updc j i; auto.
    + destruct (at_ s i) eqn:Ei; try discriminate; injection Hs as <-; (eapply (W_resume s); [exact HW|exact HI'|exact Ei|reflexivity|cbn; apply upd_same|reflexivity| | |intros j N; cbn; now apply upd_other]; try reflexivity).
  - destruct HW as [HI Ww Wr Wrd Wwr].
    assert (Hi : (at_ s i = Reading \/ at_ s i = Writing) /\ s' = s) by (destruct (at_ s i); try discriminate; injection Hs as <-; auto). destruct Hi as [Hi ->]. cbn [ops]. clear Hs.
    assert (X : forall j b, In b [RData i] -> b <> Resumed j /\ forall d, b <> Wake d j) by (intros j b [<-|[]]; split; discriminate).
    split; auto.
    + intros m k Hm. apply nth_snoc_inv in Hm. destruct Hm as [Hm|[_ Hm]]; [|discriminate]. destruct (Ww m k Hm); [left; now apply pub_ext|auto].
    + intros m k Hm. apply nth_snoc_inv in Hm. destruct Hm as [Hm|[_ Hm]]; [destruct (Wr m k Hm); [left; now apply pub_ext|auto]|]. injection Hm as ->. right. destruct Hi as [-> | ->]; discriminate.
    + intros m k j Hm Hj. apply nth_snoc_inv in Hm. destruct Hm as [Hm|[_ Hm]]; [|discriminate]. apply (has_ext s); eauto.
    + intros m a j Hm Ha Hj. apply nth_snoc_inv in Hm. destruct Hm as [Hm|[-> ->]]; [apply (has_ext s); eauto|].
      assert (i = j) as -> by (destruct Hi as [Hi|Hi]; [apply (w_wr _ HI) in Hj; assert (Y : rd (at_ s i) = true) by (now rewrite Hi); apply (w_rd _ HI) in Y; congruence|apply (w_one _ HI); auto; now rewrite Hi]).
      unfold has. destruct Hi as [-> | ->]; cbn [is_woken]; change (num (Co j)) with (who (RData j)); apply knows_self.
  - destruct HW as [HI Ww Wr Wrd Wwr].
    assert (Hi : at_ s i = Writing /\ s' = s) by (destruct (at_ s i); try discriminate; injection Hs as <-; auto). destruct Hi as [Hi ->]. cbn [ops]. clear Hs.
    assert (X : forall j b, In b [WData i] -> b <> Resumed j /\ forall d, b <> Wake d j) by (intros j b [<-|[]]; split; discriminate).
    assert (Wi : writer_pc (at_ s i) = true) by now rewrite Hi.
    split; auto.
    + intros m k Hm. apply nth_snoc_inv in Hm. destruct Hm as [Hm|[_ Hm]]; [destruct (Ww m k Hm); [left; now apply pub_ext|auto]|]. injection Hm as ->. right. now rewrite Hi.
    + intros m k Hm. apply nth_snoc_inv in Hm. destruct Hm as [Hm|[_ Hm]]; [|discriminate]. destruct (Wr m k Hm); [left; now apply pub_ext|auto].
    + intros m k j Hm Hj. apply (w_rd _ HI) in Hj. apply (w_wr _ HI) in Wi. congruence.
    + intros m a j Hm Ha Hj. assert (j = i) as -> by (apply (w_one _ HI); auto).
      apply nth_snoc_inv in Hm. destruct Hm as [Hm|[-> ->]]; [apply (has_ext s); eauto|].
      unfold has. rewrite Hi. cbn [is_woken]. change (num (Co i)) with (who (WData i)). apply knows_self.
Qed.
Definition ordered (t : list op) : Prop := forall m n a b, m < n -> nth_error t m = Some a -> nth_error t n = Some b -> conflict a b = true -> happens_before t m n.
Lemma ordered_step s e s' t : W s t -> ordered t -> cstep s e = Some s' -> ordered (t ++ ops s e s').
Proof.
  intros HW HO Hs m n a b L Hm Hn Hc. apply nth_app_inv in Hn as Hn'. destruct Hn' as [Hn'|[Ln Hb]].
  - assert (n < length t) by (apply nth_error_Some; congruence). rewrite nth_error_app1 in Hm by lia. apply hb_ext; [apply sw_ext|]. eapply HO; eauto.
  - assert (Db : data b = true) by (unfold conflict in Hc; destruct (data b); auto; now rewrite andb_false_r in Hc).
    assert (Da : data a = true) by (unfold conflict in Hc; now destruct (data a)).
    assert (Hbe : exists i, (e = Read i /\ b = RData i /\ (at_ s i = Reading \/ at_ s i = Writing)) \/ e = Write i /\ b = WData i /\ at_ s i = Writing).
    { destruct e as [e|i|i]; cbn [ops cstep] in *.
      - exfalso. destruct e; cbn in Hb; try (apply section_ops in Hb; destruct Hb as [->|[->|(w & -> & _)]]; discriminate); try contradiction. destruct Hb as [<-|[]]. discriminate.
      - exists i. left. destruct Hb as [<-|[]]. destruct (at_ s i); try discriminate; auto.
      - exists i. right. destruct Hb as [<-|[]]. destruct (at_ s i); try discriminate; auto. }
    destruct Hbe as (i & Hbe).
    assert (Eo : ops s e s' = [b]) by (destruct Hbe as [(-> & -> & _)|(-> & -> & _)]; reflexivity). rewrite Eo in *.
    apply nth_snoc_inv in Hn. destruct Hn as [Hn|[-> _]]; [assert (n < length t) by (apply nth_error_Some; congruence); lia|]. rewrite nth_error_app1 in Hm by lia.
    apply knows_next; [apply sw_ext|]. destruct HW as [HI Ww Wr Wrd Wwr].
    destruct Hbe as [(-> & -> & [Hi|Hi])|(-> & -> & Hi)]; cbn [who].
    + destruct a as [k|k| | | |]; try discriminate. specialize (Wrd m k i Hm ltac:(now rewrite Hi)). unfold has in Wrd. now rewrite Hi in Wrd.
    + specialize (Wwr m a i Hm Da ltac:(now rewrite Hi)). unfold has in Wwr. now rewrite Hi in Wwr.
    + specialize (Wwr m a i Hm Da ltac:(now rewrite Hi)). unfold has in Wwr. now rewrite Hi in Wwr.
Qed.
Lemma ordered_run : forall l s t, W s t -> ordered t -> run_all cstep no_defect s l -> ordered (t ++ trace cstep ops s l).
Proof.
  induction l as [|e l IH]; intros s t HW HO Hr; cbn [trace]; [now rewrite app_nil_r|].
  destruct Hr as [H1 H2]. destruct (cstep s e) as [s1|] eqn:E; [|now rewrite app_nil_r]. rewrite app_assoc. apply IH; [now apply W_step|now eapply ordered_step|now apply H2].
Qed.
Lemma nth_nil {A} m (a : A) : nth_error [] m = Some a -> False.
Proof. destruct m; discriminate. Qed.
Lemma W_init : W init [].
Proof. split; [apply WInv_init| | | |]; intros [|m]; intros; discriminate. Qed.

(** C149: as long as the two defects of C04 are not hit, a write to the data and any other access to it are ordered by happens-before: there is no data race, and whoever has the lock sees all that was written under it before, on whatever threads the coroutines ran. Missing from the full statement: histories that hit one of the defects, where it is false. *)
Theorem C149_accesses_happen_before_each_other_partial : forall l m n a b,
  run_all cstep no_defect init l -> m < n -> nth_error (history l) m = Some a -> nth_error (history l) n = Some b -> conflict a b = true -> happens_before (history l) m n.
Proof.
  intros l m n a b Hr. change (history l) with ([] ++ trace cstep ops init l). apply (ordered_run l init []); auto using W_init.
  intros ? ? ? ? _ H. exfalso. eapply nth_nil; eauto.
Qed.
Print Assumptions C149_accesses_happen_before_each_other_partial.

(** The full statement is false: the lock is given to a writer while a reader has it, and their accesses race. *)
Definition racing : list cevent := map Mx writer_with_reader ++ [Read 1; Write 3].
Lemma no_successor t m n : (forall k a b, m < k -> nth_error t m = Some a -> nth_error t k = Some b -> who a <> who b) -> (forall k, ~ sw t m k) -> ~ happens_before t m n.
Proof. intros H1 H2 H. unfold happens_before in H. remember m as x eqn:E in H. revert E. induction H as [x n a b A B C D|x n A|x k n A IH _ _]; intros ->; [eapply H1; eauto|eapply H2; eauto|auto]. Qed.
Theorem C149_accesses_happen_before_each_other_refuted :
  run cstep init racing <> None /\
  exists m n, nth_error (history racing) m = Some (RData 1) /\ nth_error (history racing) n = Some (WData 3) /\ m < n /\
    ~ happens_before (history racing) m n /\ ~ happens_before (history racing) n m.
Proof.
  split; [discriminate|]. exists 22, 23. split; [reflexivity|]. split; [reflexivity|]. split; [lia|]. split.
  - apply no_successor.
    + intros k a b L Ha Hb. injection Ha as <-. assert (Lk : k < length (history racing)) by (apply nth_error_Some; congruence). cbn in Lk. assert (k = 23) as -> by lia. injection Hb as <-. discriminate.
    + intros k (_ & a & b & Ha & _ & C). injection Ha as <-. destruct C as [(c & d & C & _)|(c & d & C & _)]; discriminate.
  - intros H. apply hb_lt in H; [lia|apply sw_lt].
Qed.
Print Assumptions C149_accesses_happen_before_each_other_refuted.

(** A writer that waited for a reader writes after its read; a reader that waited for the writer, and one that did not, read after its write. *)
Definition shared_history : list cevent :=
  [Mx (EAcqShr 2); Read 2; Mx (EAcqUni 0); Mx (EUniEnq 0); Mx (ERelease 2 0 0); Mx (EResume 0); Write 0; Read 0;
   Mx (EAcqShr 1); Mx (EShrEnq 1); Mx (EKick 1 0 0); Mx (ERelease 0 0 0); Mx (EResume 1); Read 1; Mx (EAcqShr 3); Read 3].
Lemma no_defect_shared : run_all cstep no_defect init shared_history.
Proof.
  unfold shared_history. cbn [run_all].
  repeat lazymatch goal with
    | |- True => exact I
    | |- no_defect ?s (Mx (ERelease 2 0 0)) /\ _ => split; [intros _ _ j Hj; destruct j as [|[|[|j]]]; [| |congruence|]; vm_compute; split; discriminate|]
    | |- no_defect ?s ?e /\ _ => split; [cbn; first [exact I | intros X; vm_compute in X; discriminate]|]
    | |- forall s', _ -> _ => let H := fresh in intros ? H; vm_compute in H; injection H as <-
    end.
Qed.
Example C149_case : run cstep init shared_history <> None /\
  history shared_history = [Lock (Co 2); Unlock (Co 2); RData 2; Lock (Co 0); Unlock (Co 0); Lock (Co 2); Wake (Co 2) 0; Unlock (Co 2); Resumed 0; WData 0; RData 0;
    Lock (Co 1); Unlock (Co 1); Lock (Co 1); Unlock (Co 1); Lock (Kick 1); Unlock (Kick 1); Lock (Co 0); Wake (Co 0) 1; Unlock (Co 0); Resumed 1; RData 1; Lock (Co 3); Unlock (Co 3); RData 3] /\
  happens_before (history shared_history) 2 9 /\ happens_before (history shared_history) 9 21 /\ happens_before (history shared_history) 9 24.
Proof.
  split; [discriminate|]. split; [vm_compute; reflexivity|].
  split; [|split]; (eapply C149_accesses_happen_before_each_other_partial; [exact no_defect_shared|lia|vm_compute; reflexivity|vm_compute; reflexivity|reflexivity]).
Qed.
