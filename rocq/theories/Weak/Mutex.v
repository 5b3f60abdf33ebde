(** C131: koios::mutex under the C++ memory model, with the memory orders written in the code.

    coroutine_mutex.h 69-72 (test_and_set(acq_rel)), 74-77 (enqueue), 86-90 (clear(), which is seq_cst); coroutine_mutex.cc 39-52 (try_dequeue, wake_up, clear(release)); waiting_handle.cc 12-23 (enqueue into the scheduler).

    The steps are those of Mutex/Model.v. [m_flag] is the only atomic variable that is not inside a queue; it is only modified by read-modify-write operations (test_and_set, each of which reads the modification immediately before it) and by stores (clear). A failing try_dequeue may fail at any time (spurious = true), so nothing is assumed about the order of the queue's operations relative to the flag's. Trusted: what is put into a moodycamel queue, or into the scheduler, happens before the operation that takes it out (that is what these queues are for). *)
From Coq Require Import List Arith Bool Lia.
From Verif.Common Require Import TS.
From Verif.Mutex Require Import Model Spec Proofs.
From Verif.Weak Require Import HB.
Import ListNotations.

(** ** the client: coroutines that access shared data while they own the lock *)
(* the steps of coroutine_mutex.h 69-90, coroutine_mutex.cc 39-52 (Mutex/Model.v) and client code *)
Inductive cevent := Mx (e : event) | Access (i : nat).
(* what each step does: coroutine_mutex.h 69-90, coroutine_mutex.cc 39-52 (Mutex/Model.v) and client code *)
Definition cstep (s : state) (e : cevent) : option state :=
  match e with
  | Mx e => step true s e
  | Access i => match at_ s i with Owner => Some s | _ => None end
  end.

(** ** the operations on memory that the steps make *)
(* the memory operations: coroutine_mutex.h 69-90, coroutine_mutex.cc 39-52 *)
Inductive op :=
| Tas (i : nat)          (* m_flag.test_and_set, whatever it answers *)
| Unlock (i : nat)       (* release(): m_flag.clear() *)
| PutBack (i : nat)      (* try_wake_up_next(): m_flag.clear(release) *)
| Enq (i : nat)          (* i's handle is put into m_waitings *)
| Deq (i w : nat)        (* i takes w's handle out of m_waitings and gives w to the scheduler *)
| NoDeq (i : nat)        (* i finds nothing in m_waitings *)
| Resumed (i : nat)      (* the scheduler resumes i *)
| Data (i : nat).        (* i reads or writes the shared data *)
(* C++ memory model, environment, not code of /repo *)
Definition who (o : op) : nat := match o with Tas i | Unlock i | PutBack i | Enq i | Deq i _ | NoDeq i | Resumed i | Data i => i end.
(* the memory operations of each step: coroutine_mutex.h 69-90, coroutine_mutex.cc 39-52 *)
Definition ops (s : state) (e : cevent) (s' : state) : list op :=
  match e with
  | Mx (EAcquire i) => [Tas i] | Mx (ETry i) => [Tas i] | Mx (ERelTAS i) => [Tas i]
  | Mx (EClear i) => [Unlock i] | Mx (ERelClear i) => [PutBack i]
  | Mx (EEnqueue i) => [Enq i]
  | Mx (ERelDeq i k) => match take_nth k (waitings s) with Some (w, _) => [Deq i w] | None => [] end
  | Mx (ERelNone i) => [NoDeq i]
  | Mx (EResume i) => [Resumed i]
  | Access i => [Data i]
  end.
(* specification, no counterpart in /repo *)
Definition history (l : list cevent) : list op := trace cstep ops init l.

(** ** synchronizes-with, for given memory orders *)
(* the memory orders written in coroutine_mutex.h 69-90, coroutine_mutex.cc 51 *)
Record orders := Orders { tas_acquires : bool; tas_releases : bool; unlock_releases : bool; putback_releases : bool }.
(** coroutine_mutex.h 71, 88; coroutine_mutex.cc 51 *)
Definition code_orders : orders := {| tas_acquires := true; tas_releases := true; unlock_releases := true; putback_releases := true |}.
(* C++ memory model, environment, not code of /repo *)
Definition releases (o : orders) (a : op) : bool :=
  match a with Tas _ => tas_releases o | Unlock _ => unlock_releases o | PutBack _ => putback_releases o | _ => false end.
(* C++ memory model, environment, not code of /repo *)
Definition acquires (o : orders) (a : op) : bool := match a with Tas _ => tas_acquires o | _ => false end.
(* clear(): coroutine_mutex.h 88, coroutine_mutex.cc 51 *)
Definition is_store (a : op) : bool := match a with Unlock _ | PutBack _ => true | _ => false end.
(** [between t m n P]: the operations strictly between the two satisfy [P] *)
(* specification, no counterpart in /repo *)
Definition between (t : list op) (m n : nat) (P : op -> Prop) : Prop := forall k c, m < k -> k < n -> nth_error t k = Some c -> P c.
(* C++ memory model, environment, not code of /repo *)
Definition sw (o : orders) (t : list op) (m n : nat) : Prop :=
  m < n /\ exists a b, nth_error t m = Some a /\ nth_error t n = Some b /\
  ( (* an acquiring read of the release sequence headed by a releasing modification: only read-modify-writes between *)
    (releases o a = true /\ acquires o b = true /\ between t m n (fun c => is_store c = false))
    \/ (* through the waiting queue *)
    (exists i w, a = Enq w /\ b = Deq i w /\ between t m n (fun c => c <> Enq w))
    \/ (* through the scheduler *)
    (exists i w, a = Deq i w /\ b = Resumed w /\ between t m n (fun c => forall j, c <> Deq j w))).
Lemma sw_lt o t m n : sw o t m n -> m < n /\ n < length t.
Proof. intros (H & a & b & _ & Hb & _). split; auto. apply nth_error_Some. congruence. Qed.
Lemma between_ext t x m n P : n <= length t -> between t m n P -> between (t ++ x) m n P.
Proof. intros L H k c H1 H2 H3. apply (H k c H1 H2). rewrite nth_error_app1 in H3; auto. lia. Qed.
Lemma sw_ext o t x m n : sw o t m n -> sw o (t ++ x) m n.
Proof.
  intros H. pose proof (sw_lt _ _ _ _ H) as [_ L]. destruct H as (H & a & b & Ha & Hb & C). split; auto. exists a, b. split; [now apply nth_ext|]. split; [now apply nth_ext|].
  destruct C as [(C1 & C2 & C3)|[(i & w & C1 & C2 & C3)|(i & w & C1 & C2 & C3)]]; [left|right; left; exists i, w|right; right; exists i, w]; repeat split; auto; apply between_ext; auto; lia.
Qed.
(* C++ memory model, environment, not code of /repo *)
Definition happens_before (o : orders) := hb who (sw o).

(** ** proof *)
Section Proof.
  Variable o : orders.
  Hypothesis Hacq : tas_acquires o = true.
  Hypothesis Hun : unlock_releases o = true.
  Hypothesis Hpb : putback_releases o = true.
  Notation kn := (knows who (sw o)).
  Notation hbeq := (hbe who (sw o)).
  (** the operation at [m] is covered by the last store to the flag *)
  Definition published (t : list op) (m : nat) : Prop :=
    exists n a, nth_error t n = Some a /\ is_store a = true /\ hbeq t m n /\ between t n (length t) (fun c => is_store c = false).
  Definition handed (t : list op) (w m : nat) : Prop :=
    exists n i, nth_error t n = Some (Deq i w) /\ hbeq t m n /\ between t n (length t) (fun c => forall j, c <> Deq j w).
  Definition covered (s : state) (t : list op) (m : nat) : Prop :=
    (flag s = false -> published t m) /\ (forall i, tok (at_ s i) = true -> match at_ s i with Woken => handed t i m | _ => kn t i m end).
  (** the operations of a critical section: the accesses, and the store that ends it *)
  Definition held (a : op) : bool := match a with Data _ | Unlock _ => true | _ => false end.
  Definition W (s : state) (t : list op) : Prop := Inv s /\ forall m a, nth_error t m = Some a -> held a = true -> covered s t m.
  Lemma between_snoc t n b P : between t n (length t) P -> P b -> between (t ++ [b]) n (length (t ++ [b])) P.
  Proof.
    intros H Hb k c H1 H2 H3. rewrite app_length in H2; cbn in H2. destruct (Nat.eq_dec k (length t)) as [->|N].
    - rewrite nth_snoc in H3. now injection H3 as <-.
    - apply (H k c); auto; [lia|]. rewrite nth_error_app1 in H3; auto. lia.
  Qed.
  Lemma published_snoc t b m : published t m -> is_store b = false -> published (t ++ [b]) m.
  Proof. intros (n & a & H1 & H2 & H3 & H4) Hb. exists n, a. split; [now apply nth_ext|]. split; auto. split; [apply hbe_ext; auto; apply sw_ext|now apply between_snoc]. Qed.
  Lemma handed_snoc t b w m : handed t w m -> (forall j, b <> Deq j w) -> handed (t ++ [b]) w m.
  Proof. intros (n & i & H1 & H3 & H4) Hb. exists n, i. split; [now apply nth_ext|]. split; [apply hbe_ext; auto; apply sw_ext|now apply between_snoc]. Qed.
  Lemma kn_snoc t b i m : kn t i m -> kn (t ++ [b]) i m.
  Proof. apply knows_ext, sw_ext. Qed.
  (** a successful test_and_set *)
  Lemma acquire_known t i m : published t m -> kn (t ++ [Tas i]) i m.
  Proof.
    intros (n & a & H1 & H2 & H3 & H4). assert (L : n < length t) by (apply nth_error_Some; congruence).
    change i with (who (Tas i)) at 2. apply knows_now. eapply sync_next; [apply sw_ext| |exact H3].
    split; [exact L|]. exists a, (Tas i). split; [now apply nth_ext|]. split; [apply nth_snoc|]. left.
    split; [destruct a; cbn in *; try discriminate; assumption|]. split; [exact Hacq|].
    intros k c Hk1 Hk2 Hk3. apply (H4 k c Hk1 Hk2). now rewrite nth_error_app1 in Hk3 by lia.
  Qed.
  Lemma store_publishes t b m : is_store b = true -> kn t (who b) m -> published (t ++ [b]) m.
  Proof.
    intros Hb Hk. exists (length t), b. split; [apply nth_snoc|]. split; auto. split; [right; now apply knows_next; [apply sw_ext|]|].
    intros k c H1 H2. rewrite app_length in H2; cbn in H2. lia.
  Qed.
  Lemma nth_held t b m a : nth_error (t ++ [b]) m = Some a -> held a = true -> nth_error t m = Some a \/ (m = length t /\ held b = true).
  Proof.
    intros H Ha. destruct (Nat.lt_ge_cases m (length t)) as [L|L].
    - rewrite nth_error_app1 in H; auto.
    - right. assert (m < length (t ++ [b])) by (apply nth_error_Some; congruence). rewrite app_length in *; cbn in *. assert (m = length t) as -> by lia. rewrite nth_snoc in H. injection H as ->. auto.
  Qed.
  Lemma W_step s e s' t : W s t -> cstep s e = Some s' -> W s' (t ++ ops s e s').
  Proof.
    intros [HI HW] Hs. destruct e as [e|i]; cbn [cstep] in Hs.
    2:{ destruct (at_ s i) eqn:Ei; try discriminate. injection Hs as <-. cbn [ops]. split; auto.
        assert (T : tok (at_ s i) = true) by now rewrite Ei.
        intros m a Hm Ha. apply nth_held in Hm; auto. destruct Hm as [Hm|[-> _]].
        - destruct (HW m a Hm Ha) as [C1 C2]. split; [intros Hf; apply published_snoc; auto|]. intros k Hk. specialize (C2 k Hk). destruct (at_ s k); try (now apply kn_snoc); try discriminate. apply handed_snoc; auto. discriminate.
        - split; [intros Hf; rewrite (inv_tok _ HI i T) in Hf; discriminate|]. intros k Hk. assert (k = i) as -> by (apply (inv_uniq _ HI); auto). rewrite Ei. change i with (who (Data i)) at 2. apply knows_self. }
    pose proof (Inv_step _ _ _ _ HI Hs) as HI'. split; auto.
    assert (FN : flag s = false -> forall j, tok (at_ s j) = false) by (intros Ef j; destruct (tok (at_ s j)) eqn:E; auto; rewrite (inv_tok _ HI j E) in Ef; discriminate).
    destruct e as [i|i|i|i|i|i k|i|i|i]; cbn in Hs; destruct (at_ s i) eqn:Ei; try discriminate; cbn [ops].
    - (* EAcquire *) injection Hs as <-. intros m a Hm Ha. apply nth_held in Hm; auto. destruct Hm as [Hm|[_ Hm]]; [|discriminate]. destruct (HW m a Hm Ha) as [C1 C2]. split; [discriminate|]. cbn. intros x.
      destruct (flag s) eqn:Ef; cbn.
      + upd_cases; try discriminate. intros Hx. specialize (C2 x Hx). destruct (at_ s x); try (now apply kn_snoc); try discriminate. apply handed_snoc; auto. discriminate.
      + upd_cases; [intros _; now apply acquire_known, C1|]. intros Hx. rewrite FN in Hx by auto. discriminate.
    - (* EEnqueue *) injection Hs as <-. intros m a Hm Ha. apply nth_held in Hm; auto. destruct Hm as [Hm|[_ Hm]]; [|discriminate]. destruct (HW m a Hm Ha) as [C1 C2]. unfold covered; cbn. split; [intros Hf; apply published_snoc; auto|].
      intros x. upd_cases; try discriminate. intros Hx. specialize (C2 x Hx). destruct (at_ s x); try (now apply kn_snoc); try discriminate. apply handed_snoc; auto. discriminate.
    - (* ETry *) injection Hs as <-. intros m a Hm Ha. apply nth_held in Hm; auto. destruct Hm as [Hm|[_ Hm]]; [|discriminate]. destruct (HW m a Hm Ha) as [C1 C2]. split; [discriminate|]. cbn. intros x.
      destruct (flag s) eqn:Ef; cbn.
      + upd_cases; try discriminate. intros Hx. specialize (C2 x Hx). destruct (at_ s x); try (now apply kn_snoc); try discriminate. apply handed_snoc; auto. discriminate.
      + upd_cases; [intros _; now apply acquire_known, C1|]. intros Hx. rewrite FN in Hx by auto. discriminate.
    - (* EClear *) injection Hs as <-. intros m a Hm Ha. apply nth_held in Hm; auto. destruct Hm as [Hm|[-> _]].
      2:{ unfold covered; cbn. split.
          - intros _. exists (length t), (Unlock i). split; [apply nth_snoc|]. split; [reflexivity|]. split; [now left|]. intros k c H1 H2. rewrite app_length in H2; cbn in H2. lia.
          - intros x. upd_cases; try discriminate. intros Hx. exfalso. apply n. apply (inv_uniq _ HI); auto. now rewrite Ei. }
      destruct (HW m a Hm Ha) as [C1 C2]. unfold covered; cbn.
      assert (Ki : kn t i m) by (specialize (C2 i ltac:(now rewrite Ei)); now rewrite Ei in C2). split.
      + intros _. now apply store_publishes.
      + intros x. upd_cases; try discriminate. intros Hx. exfalso. apply n. apply (inv_uniq _ HI); auto. now rewrite Ei.
    - (* ERelTAS *) injection Hs as <-. intros m a Hm Ha. apply nth_held in Hm; auto. destruct Hm as [Hm|[_ Hm]]; [|discriminate]. destruct (HW m a Hm Ha) as [C1 C2]. split; [discriminate|]. cbn. intros x.
      destruct (flag s) eqn:Ef; cbn.
      + upd_cases; try discriminate. intros Hx. specialize (C2 x Hx). destruct (at_ s x); try (now apply kn_snoc); try discriminate. apply handed_snoc; auto. discriminate.
      + upd_cases; [intros _; now apply acquire_known, C1|]. intros Hx. rewrite FN in Hx by auto. discriminate.
    - (* ERelDeq *) destruct (take_nth k (waitings s)) as [[w rest]|] eqn:Et; [|discriminate]. injection Hs as <-. intros m a Hm Ha. apply nth_held in Hm; auto. destruct Hm as [Hm|[_ Hm]]; [|discriminate]. destruct (HW m a Hm Ha) as [C1 C2]. unfold covered; cbn.
      assert (Ti : tok (at_ s i) = true) by now rewrite Ei. assert (Ki : kn t i m) by (specialize (C2 i Ti); now rewrite Ei in C2).
      split; [intros Hf; rewrite (inv_tok _ HI i Ti) in Hf; discriminate|]. intros x. upd_cases; try discriminate.
      + intros _. exists (length t), i. split; [apply nth_snoc|]. split; [right; apply (knows_next who (sw o) (sw_ext o) t (Deq i w) m Ki)|]. intros y c H1 H2. rewrite app_length in H2; cbn in H2. lia.
      + intros Hx. exfalso. assert (x = i) by (apply (inv_uniq _ HI); auto). contradiction.
    - (* ERelNone *) injection Hs as <-. intros m a Hm Ha. apply nth_held in Hm; auto. destruct Hm as [Hm|[_ Hm]]; [|discriminate]. destruct (HW m a Hm Ha) as [C1 C2]. unfold covered; cbn.
      assert (Ti : tok (at_ s i) = true) by now rewrite Ei. assert (Ki : kn t i m) by (specialize (C2 i Ti); now rewrite Ei in C2).
      split; [intros Hf; rewrite (inv_tok _ HI i Ti) in Hf; discriminate|]. intros x. upd_cases; [intros _; now apply kn_snoc|].
      intros Hx. exfalso. assert (x = i) by (apply (inv_uniq _ HI); auto). contradiction.
    - (* ERelClear *) injection Hs as <-. intros m a Hm Ha. apply nth_held in Hm; auto. destruct Hm as [Hm|[_ Hm]]; [|discriminate]. destruct (HW m a Hm Ha) as [C1 C2]. unfold covered; cbn.
      assert (Ti : tok (at_ s i) = true) by now rewrite Ei. assert (Ki : kn t i m) by (specialize (C2 i Ti); now rewrite Ei in C2). split.
      + intros _. now apply store_publishes.
      + intros x. upd_cases; try discriminate. intros Hx. exfalso. apply n. apply (inv_uniq _ HI); auto.
    - (* EResume *) injection Hs as <-. intros m a Hm Ha. apply nth_held in Hm; auto. destruct Hm as [Hm|[_ Hm]]; [|discriminate]. destruct (HW m a Hm Ha) as [C1 C2]. unfold covered; cbn.
      assert (Ti : tok (at_ s i) = true) by now rewrite Ei. assert (Ki : handed t i m) by (specialize (C2 i Ti); now rewrite Ei in C2).
      split; [intros Hf; rewrite (inv_tok _ HI i Ti) in Hf; discriminate|]. intros x. upd_cases.
      + intros _. destruct Ki as (n & y & H1 & H2 & H3). assert (L : n < length t) by (apply nth_error_Some; congruence). change i with (who (Resumed i)) at 2. apply knows_now. eapply sync_next; [apply sw_ext| |exact H2].
        split; [exact L|]. exists (Deq y i), (Resumed i). split; [now apply nth_ext|]. split; [apply nth_snoc|]. right; right. exists y, i. repeat split; auto. intros z c Hz1 Hz2 Hz3. apply (H3 z c Hz1 Hz2). now rewrite nth_error_app1 in Hz3 by lia.
      + intros Hx. exfalso. assert (x = i) by (apply (inv_uniq _ HI); auto). contradiction.
  Qed.
  Definition ordered (t : list op) : Prop := forall m n a b, m < n -> nth_error t m = Some a -> nth_error t n = Some b -> held a = true -> held b = true -> happens_before o t m n.
  Lemma ordered_step s e s' t : W s t -> ordered t -> cstep s e = Some s' -> ordered (t ++ ops s e s').
  Proof.
    intros [HI HW] HO Hs.
    assert (G : forall b, (held b = true -> at_ s (who b) = Owner) -> ordered (t ++ [b])).
    { intros b Hb m n x y L Hm Hn Hx Hy. destruct (Nat.lt_ge_cases n (length t)) as [Ln|Ln].
      - rewrite nth_error_app1 in Hn, Hm by lia. apply hb_ext; [apply sw_ext|]. eapply HO; eauto.
      - assert (n < length (t ++ [b])) by (apply nth_error_Some; congruence). rewrite app_length in *; cbn in *. assert (n = length t) as -> by lia. rewrite nth_snoc in Hn. injection Hn as ->.
        rewrite nth_error_app1 in Hm by lia. apply knows_next; [apply sw_ext|]. specialize (Hb Hy). destruct (HW m x Hm Hx) as [_ C]. specialize (C (who y) ltac:(now rewrite Hb)). now rewrite Hb in C. }
    destruct e as [e|i].
    - destruct e as [i|i|i|i|i|i k|i|i|i]; cbn [ops]; try (apply G; discriminate).
      + apply G. intros _. cbn in *. destruct (at_ s i); congruence.
      + destruct (take_nth k (waitings s)) as [[w rest]|]; [apply G; discriminate|now rewrite app_nil_r].
    - cbn in *. apply G. intros _. cbn. destruct (at_ s i); congruence.
  Qed.
  Lemma ordered_run : forall l s t, W s t -> ordered t -> forall s', run cstep s l = Some s' -> ordered (t ++ trace cstep ops s l).
  Proof.
    induction l as [|e l IH]; intros s t HW HO s' Hr; cbn [run trace] in *; [now rewrite app_nil_r|].
    destruct (cstep s e) as [s1|] eqn:E; [|discriminate]. rewrite app_assoc. eapply IH; [now apply W_step|now eapply ordered_step|exact Hr].
  Qed.
  Lemma ordered_all : forall l s, run cstep init l = Some s -> ordered (history l).
  Proof.
    intros l s Hr. change (history l) with ([] ++ trace cstep ops init l). eapply ordered_run; eauto.
    - split; [apply Inv_init|]. intros m i Hm. destruct m; discriminate.
    - intros m n a b _ Hm. destruct m; discriminate.
  Qed.
End Proof.

(** C131: with the memory orders of the code, any two accesses to data that is accessed under the lock only, are ordered by happens-before: there is no data race, and a critical section sees all that was written in the ones before it, on whatever threads they ran. *)
Theorem C131_sections_happen_before_each_other : forall l s m n i j,
  run cstep init l = Some s -> m < n -> nth_error (history l) m = Some (Data i) -> nth_error (history l) n = Some (Data j) -> happens_before code_orders (history l) m n.
Proof. intros l s m n i j Hr Hmn Hm Hn. eapply ordered_all; eauto. Qed.
Print Assumptions C131_sections_happen_before_each_other.
(** It is the acquire of test_and_set and the release of both stores that matter, whatever test_and_set releases. *)
Theorem C131_what_is_needed : forall o, tas_acquires o = true -> unlock_releases o = true -> putback_releases o = true -> forall l s m n i j,
  run cstep init l = Some s -> m < n -> nth_error (history l) m = Some (Data i) -> nth_error (history l) n = Some (Data j) -> happens_before o (history l) m n.
Proof. intros o H1 H2 H3 l s m n i j Hr Hmn Hm Hn. eapply ordered_all; eauto. Qed.
Print Assumptions C131_what_is_needed.

(** The end of a critical section, too, is ordered with all accesses and with the ends of all others. *)
Theorem C131_ends_happen_before : forall l s m n a b,
  run cstep init l = Some s -> m < n -> nth_error (history l) m = Some a -> nth_error (history l) n = Some b -> held a = true -> held b = true -> happens_before code_orders (history l) m n.
Proof. intros l s m n a b Hr. eapply ordered_all; eauto. Qed.
Print Assumptions C131_ends_happen_before.

(** Each of the three is needed. *)
Definition direct := [Mx (EAcquire 0); Access 0; Mx (EClear 0); Mx (EAcquire 1); Access 1].
Definition through_putback := [Mx (EAcquire 0); Access 0; Mx (EClear 0); Mx (ERelTAS 0); Mx (ERelNone 0); Mx (ERelClear 0); Mx (EAcquire 1); Access 1].
(** nothing leads from one coroutine to the other if no synchronizes-with does *)
Lemma no_cross t o : (forall m n a b, sw o t m n -> nth_error t m = Some a -> nth_error t n = Some b -> who a = who b) -> forall m n, happens_before o t m n -> exists a b, nth_error t m = Some a /\ nth_error t n = Some b /\ who a = who b.
Proof.
  intros N m n H. induction H as [m n a b H1 H2 H3 H4|m n H|m k n _ (a & b & A1 & A2 & A3) _ (c & d & B1 & B2 & B3)]; [eauto| |].
  - destruct H as (H0 & a & b & Ha & Hb & H1). exists a, b. repeat split; auto. apply (N m n a b); auto. split; auto. exists a, b. auto.
  - exists a, d. repeat split; auto. congruence.
Qed.
Theorem C131_each_is_needed :
  run cstep init direct <> None /\ nth_error (history direct) 1 = Some (Data 0) /\ nth_error (history direct) 4 = Some (Data 1) /\
  run cstep init through_putback <> None /\ nth_error (history through_putback) 1 = Some (Data 0) /\ nth_error (history through_putback) 7 = Some (Data 1) /\
  ~ happens_before (Orders false true true true) (history direct) 1 4 /\
  ~ happens_before (Orders true true false true) (history direct) 1 4 /\
  ~ happens_before (Orders true true true false) (history through_putback) 1 7.
Proof.
  repeat (split; [try reflexivity; discriminate|]).
  split; [|split]; intros H; apply no_cross in H; try (destruct H as (a & b & Ha & Hb & E); cbn in Ha, Hb; injection Ha as <-; injection Hb as <-; discriminate E);
  clear H; intros m n a b (L & a' & b' & Ha' & Hb' & C) Ha Hb; rewrite Ha in Ha'; injection Ha' as <-; rewrite Hb in Hb'; injection Hb' as <-;
  cbn in Ha, Hb;
  repeat (destruct m as [|m]; [cbn in Ha; injection Ha as <-|cbn in Ha]); try (destruct m; discriminate);
  repeat (destruct n as [|n]; [cbn in Hb; injection Hb as <-|cbn in Hb]); try (destruct n; discriminate); try lia; try reflexivity;
  destruct C as [(C1 & C2 & C3)|[(i & w & C1 & C2 & C3)|(i & w & C1 & C2 & C3)]]; try discriminate.
  1: specialize (C3 2 _ ltac:(lia) ltac:(lia) eq_refl); discriminate C3.
  all: specialize (C3 5 _ ltac:(lia) ltac:(lia) eq_refl); discriminate C3.
Qed.
Print Assumptions C131_each_is_needed.
(** Both ways of passing the lock on occur: handing over through the queue, and directly; all accesses are ordered. *)
Example C131_case : let l := [Mx (EAcquire 0); Access 0; Mx (EAcquire 1); Mx (EEnqueue 1); Mx (EClear 0); Mx (ERelTAS 0); Mx (ERelDeq 0 0); Mx (EResume 1); Access 1; Mx (EClear 1); Mx (ETry 2); Access 2] in
  run cstep init l <> None /\ history l = [Tas 0; Data 0; Tas 1; Enq 1; Unlock 0; Tas 0; Deq 0 1; Resumed 1; Data 1; Unlock 1; Tas 2; Data 2] /\
  happens_before code_orders (history l) 1 8 /\ happens_before code_orders (history l) 1 11 /\ happens_before code_orders (history l) 8 11.
Proof.
  cbv zeta. match goal with |- run cstep init ?l <> None /\ _ => assert (R : exists s, run cstep init l = Some s) by (eexists; vm_compute; reflexivity) end. destruct R as (s & R).
  split; [congruence|]. split; [reflexivity|].
  split; [|split]; (eapply C131_sections_happen_before_each_other; [exact R|lia|reflexivity|reflexivity]).
Qed.
