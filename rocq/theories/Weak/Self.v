(** C144: a coroutine that moves between threads never races with itself, and sees what its creator and its waker did.

    A suspended coroutine is handed over by its task_on_the_fly (task_on_the_fly.h): its await_suspend() moves the handle into one of
    - a concurrent queue: yield() and get_id() into the scheduler's (this_task.h 83, get_id_aw.cc 11-15), mutex, shared_mutex, wait_group and async_awaiting_hub into their own
      (acq_lk_aw.h 27-30, coroutine_mutex.cc, coroutine_shared_mutex.cc 33-68, wait_group.h 44-47, async_awaiting_hub.h 37-40);
    - a slot or heap under a lock: future, generator and the timer heap (future.h 51-58, generator_shared_state.h 47-74, timer.cc 73-83);
    - the ring of the thread itself: I/O (iouring.cc, m_opreps of a thread_local object);
    whoever wakes it takes it out and enqueues it into the scheduler (waiting_handle.cc 12-23, timer.cc 52-55, iouring.cc), and a worker takes it from there and resumes it (thread_pool.cc).

    Program order is that of the real threads here. Trusted: putting an item into a concurrent queue (moodycamel, or std::queue under a std::mutex) synchronizes with taking that item out; an unlock
    of a lock synchronizes with every later lock of it. The ring needs nothing: the thread that put the coroutine in takes it out (C22).
    acquire_shared() goes on after the hand-over: try_wake_up_next() is called through the awaiter, which lives in the coroutine (acq_lk_aw.h 84-88, C47). *)
From Coq Require Import List Arith Bool Lia.
From Verif.Common Require Import TS.
From Verif.Weak Require Import HB.
Import ListNotations.

(* the memory operations: waiting_handle.cc 12-23, acq_lk_aw.h 27-30, future.h 51-58 *)
Inductive op :=
| Data (c w : nat)            (* thread w accesses the frame of coroutine c: its code, its creation, its destruction *)
| After (c w : nat)           (* await_suspend() reads the awaiter, in the frame of c, after it has handed c over *)
| Push (q c w : nat) | Pop (q c w : nat)
| Lock (k w : nat) | Unlock (k w : nat).
(* C++ memory model, environment, not code of /repo *)
Definition who (o : op) : nat := match o with Data _ w | After _ w | Push _ _ w | Pop _ _ w | Lock _ w | Unlock _ w => w end.
(* C++ memory model, environment, not code of /repo (queues, std::mutex) *)
Definition sw (t : list op) (m n : nat) : Prop := m < n /\
  ((exists q c w v, nth_error t m = Some (Push q c w) /\ nth_error t n = Some (Pop q c v) /\ forall k u, m < k < n -> nth_error t k <> Some (Pop q c u)) \/
   (exists k w v, nth_error t m = Some (Unlock k w) /\ nth_error t n = Some (Lock k v))).
(* C++ memory model, environment, not code of /repo *)
Definition happens_before := hb who sw.
Lemma sw_lt t m n : sw t m n -> m < n /\ n < length t.
Proof. intros (H & [(q & c & w & v & _ & Hb & _)|(k & w & v & _ & Hb)]); (split; auto; apply nth_error_Some; congruence). Qed.
Lemma sw_ext t x m n : sw t m n -> sw (t ++ x) m n.
Proof.
  intros Hs. pose proof (sw_lt _ _ _ Hs) as [_ L]. destruct Hs as (H & [(q & c & w & v & Ha & Hb & Hn)|(k & w & v & Ha & Hb)]); split; auto.
  - left. exists q, c, w, v. repeat split; try now apply nth_ext. intros k u Hk. rewrite nth_error_app1 by lia. now apply Hn.
  - right. exists k, w, v. split; now apply nth_ext.
Qed.

(** ** the machine *)
(* where a coroutine is: task_on_the_fly.h, waiting_handle.cc 12-23 *)
Inductive place := Nowhere | On (w : nat) | InQ (q : nat) | InSlot (k : nat) | InRing (w : nat) | Gone.
(* into what await_suspend() moves it: acq_lk_aw.h 27-30, 84-88, future.h 51-58, timer.cc 73-83, iouring.cc 104-117 *)
Inductive how := Queue (q : nat) | Slot (k : nat) | Ring | Shared (q : nat).    (* what is awaited; Shared: acquire_shared() with its queue *)
(* what the state keeps of task_on_the_fly.h, this_task.h 83, acq_lk_aw.h 27-30, wait_group.h 44-47, future.h 51-58, timer.cc 52-83, iouring.cc 47-117, waiting_handle.cc 12-23 *)
Record state := St { at_ : nat -> place; cur : nat -> option nat; late : nat -> option nat }.
(** queue 0 is the scheduler's *)
Inductive event :=
| Main (c w : nat)             (* c stands for the code of a thread w that is not a worker *)
| Work (c : nat)
| Spawn (c d : nat)            (* c makes coroutine d and enqueues it: task.h 174-197 *)
| Suspend (c : nat) (h : how)
| Rest (w : nat)               (* the rest of await_suspend() of acquire_shared() *)
| Wake (u c : nat)             (* thread u takes c out of where it waits and enqueues it into the scheduler *)
| Resume (u c : nat)
| End (c : nat)                (* c ends and its frame is destroyed *)
| Destroy (u c : nat).         (* thread u destroys the suspended c *)
(* before anything has happened; task_on_the_fly.h, this_task.h 83, acq_lk_aw.h 27-30, wait_group.h 44-47, future.h 51-58, timer.cc 52-83, iouring.cc 47-117, waiting_handle.cc 12-23 *)
Definition init : state := St (fun _ => Nowhere) (fun _ => None) (fun _ => None).
(* what each step does: task_on_the_fly.h, this_task.h 83, acq_lk_aw.h 27-30, wait_group.h 44-47, future.h 51-58, timer.cc 52-83, iouring.cc 47-117, waiting_handle.cc 12-23 *)
Definition step (s : state) (e : event) : option state :=
  match e with
  | Main c w => match at_ s c, cur s w with Nowhere, None => Some (St (upd (at_ s) c (On w)) (upd (cur s) w (Some c)) (late s)) | _, _ => None end
  | Work c => match at_ s c with On w => Some s | _ => None end
  | Spawn c d => match at_ s c, at_ s d with On w, Nowhere => Some (St (upd (at_ s) d (InQ 0)) (cur s) (late s)) | _, _ => None end
  | Suspend c h =>
      match at_ s c with
      | On w => Some (St (upd (at_ s) c (match h with Queue q | Shared q => InQ q | Slot k => InSlot k | Ring => InRing w end)) (upd (cur s) w None)
                         (match h with Shared _ => upd (late s) w (Some c) | _ => late s end))
      | _ => None end
  | Rest w => match late s w with Some _ => Some (St (at_ s) (cur s) (upd (late s) w None)) | None => None end
  | Wake u c => match at_ s c with
                | InQ (S q) | InSlot q => Some (St (upd (at_ s) c (InQ 0)) (cur s) (late s))
                | InRing w => if u =? w then Some (St (upd (at_ s) c (InQ 0)) (cur s) (late s)) else None
                | _ => None end
  | Resume u c => match at_ s c, cur s u, late s u with
                  | InQ 0, None, None => Some (St (upd (at_ s) c (On u)) (upd (cur s) u (Some c)) (late s))
                  | _, _, _ => None end
  | End c => match at_ s c with On w => Some (St (upd (at_ s) c Gone) (upd (cur s) w None) (late s)) | _ => None end
  | Destroy u c => match at_ s c with
                   | InQ _ | InSlot _ => Some (St (upd (at_ s) c Gone) (cur s) (late s))
                   | InRing w => if u =? w then Some (St (upd (at_ s) c Gone) (cur s) (late s)) else None
                   | _ => None end
  end.
(* the memory operations of each step: waiting_handle.cc 12-23, acq_lk_aw.h 27-30, 84-88, future.h 51-58 *)
Definition ops (s : state) (e : event) (s' : state) : list op :=
  match e with
  | Main c w => []
  | Work c | End c => match at_ s c with On w => [Data c w] | _ => [] end
  | Spawn c d => match at_ s c with On w => [Data d w; Push 0 d w] | _ => [] end
  | Suspend c h => match at_ s c with
                   | On w => match h with Queue q | Shared q => [Push q c w] | Slot k => [Lock k w; Unlock k w] | Ring => [] end
                   | _ => [] end
  | Rest w => match late s w with Some c => [After c w] | None => [] end
  | Wake u c => match at_ s c with InQ q => [Pop q c u; Push 0 c u] | InSlot k => [Lock k u; Unlock k u; Push 0 c u] | _ => [Push 0 c u] end
  | Resume u c => [Pop 0 c u]
  | Destroy u c => match at_ s c with InQ q => [Pop q c u; Data c u] | InSlot k => [Lock k u; Unlock k u; Data c u] | _ => [Data c u] end
  end.
(* specification, no counterpart in /repo *)
Definition history (l : list event) : list op := trace step ops init l.

Notation kn := (knows who sw).
Notation hbeq := (hbe who sw).
Lemma kn_ext t x i m : kn t i m -> kn (t ++ x) i m.
Proof. apply knows_ext, sw_ext. Qed.
(** what happened at [m] comes with coroutine [c] wherever it goes *)
Definition carried (s : state) (t : list op) (c m : nat) : Prop :=
  match at_ s c with
  | On w | InRing w => kn t w m
  | InQ q => exists r w, nth_error t r = Some (Push q c w) /\ hbeq t m r /\ forall k u, r < k -> nth_error t k <> Some (Pop q c u)
  | InSlot k => exists r w, nth_error t r = Some (Unlock k w) /\ hbeq t m r
  | Nowhere | Gone => True
  end.
Lemma nth_app_new {A} (t x : list A) m a : nth_error (t ++ x) m = Some a -> nth_error t m = Some a \/ (length t <= m /\ nth_error x (m - length t) = Some a).
Proof. intros H. destruct (Nat.lt_ge_cases m (length t)) as [L|L]; [rewrite nth_error_app1 in H; auto|rewrite nth_error_app2 in H; auto]. Qed.
Lemma nth_len {A} (t : list A) m a : nth_error t m = Some a -> m < length t.
Proof. intros H. apply nth_error_Some. congruence. Qed.
(** other coroutines' operations change nothing *)
Definition foreign (c : nat) (x : list op) : Prop := forall q u, ~ In (Pop q c u) x.
Lemma carried_ext s s' t x c m : at_ s' c = at_ s c -> foreign c x -> carried s t c m -> carried s' (t ++ x) c m.
Proof.
  unfold carried. intros -> F. destruct (at_ s c); auto.
  - apply kn_ext.
  - intros (r & w & A & B & C). exists r, w. split; [now apply nth_ext|]. split; [apply hbe_ext; auto; apply sw_ext|]. intros k u Hk Hn. apply nth_app_new in Hn as [Hn|[_ Hn]]; [now apply (C k u)|]. apply (F q u). eapply nth_error_In; eauto.
  - intros (r & w & A & B). exists r, w. split; [now apply nth_ext|apply hbe_ext; auto; apply sw_ext].
  - apply kn_ext.
Qed.
(** taking it out of where it is makes the thread know *)
Lemma pop_knows t q c u m : (exists r w, nth_error t r = Some (Push q c w) /\ hbeq t m r /\ forall k v, r < k -> nth_error t k <> Some (Pop q c v)) -> hb who sw (t ++ [Pop q c u]) m (length t).
Proof.
  intros (r & w & A & B & C). pose proof (nth_len _ _ _ A) as L. eapply sync_next; [apply sw_ext| |exact B]. split; [exact L|]. left. exists q, c, w, u. split; [now apply nth_ext|]. split; [apply nth_snoc|].
  intros k v Hk. rewrite nth_error_app1 by lia. apply C. lia.
Qed.
Lemma lock_knows t k u m : (exists r w, nth_error t r = Some (Unlock k w) /\ hbeq t m r) -> hb who sw (t ++ [Lock k u]) m (length t).
Proof. intros (r & w & A & B). pose proof (nth_len _ _ _ A) as L. eapply sync_next; [apply sw_ext| |exact B]. split; [exact L|]. right. exists k, w, u. split; [now apply nth_ext|apply nth_snoc]. Qed.
Lemma kn_now t o m : hb who sw (t ++ [o]) m (length t) -> kn (t ++ [o]) (who o) m.
Proof. apply knows_now. Qed.
Lemma push_new t q c w m : kn t w m -> exists r v, nth_error (t ++ [Push q c w]) r = Some (Push q c v) /\ hbeq (t ++ [Push q c w]) m r /\ forall k u, r < k -> nth_error (t ++ [Push q c w]) k <> Some (Pop q c u).
Proof.
  intros K. exists (length t), w. split; [apply nth_snoc|]. split; [right; change w with (who (Push q c w)) in K; apply (knows_next who sw sw_ext _ _ _ K)|].
  intros k u Hk. rewrite (proj2 (nth_error_None _ _)); [discriminate|]. rewrite app_length. cbn. lia.
Qed.
Lemma unlock_new t k w m : kn t w m -> exists r v, nth_error (t ++ [Unlock k w]) r = Some (Unlock k v) /\ hbeq (t ++ [Unlock k w]) m r.
Proof. intros K. exists (length t), w. split; [apply nth_snoc|]. right. change w with (who (Unlock k w)) in K. apply (knows_next who sw sw_ext _ _ _ K). Qed.
Lemma kn_lock t k w m : kn t w m -> kn (t ++ [Lock k w]) w m.
Proof. apply kn_ext. Qed.

(** ** what a step does to what is carried *)
Lemma app2 {A} (t : list A) a b : t ++ [a; b] = (t ++ [a]) ++ [b].
Proof. now rewrite <- app_assoc. Qed.
Lemma app3 {A} (t : list A) a b c : t ++ [a; b; c] = ((t ++ [a]) ++ [b]) ++ [c].
Proof. now rewrite <- !app_assoc. Qed.
Lemma step_carried s t e s' c m : step s e = Some s' -> at_ s c <> Nowhere -> carried s t c m -> carried s' (t ++ ops s e s') c m.
Proof.
  intros Hs Hn K.
  assert (F0 : forall x, (forall q c' u, In (Pop q c' u) x -> c' <> c) -> foreign c x) by (intros x Hx q u Hi; now apply (Hx q c u)).
  destruct e as [d w|d|d d'|d h|w|u d|u d|d|u d]; unfold step in Hs; cbn [ops].
  - destruct (at_ s d) eqn:E; try discriminate. destruct (cur s w); try discriminate. injection Hs as <-. rewrite app_nil_r. destruct (Nat.eq_dec c d) as [->|N]; [congruence|]. revert K. unfold carried. cbn [at_]. now rewrite upd_other by auto.
  - destruct (at_ s d) eqn:E; try discriminate. injection Hs as <-. apply (carried_ext s); auto. apply F0. intros q c' u [H|[]]. discriminate.
  - destruct (at_ s d) eqn:E; try discriminate. destruct (at_ s d') eqn:E'; try discriminate. injection Hs as <-. destruct (Nat.eq_dec c d') as [->|N]; [congruence|].
    apply (carried_ext s); [cbn; now rewrite upd_other by auto| |exact K]. apply F0. intros q c' u [H|[H|[]]]; discriminate.
  - destruct (at_ s d) eqn:E; try discriminate. injection Hs as <-. destruct (Nat.eq_dec c d) as [->|N].
    + unfold carried in *. rewrite E in K. cbn [at_]. rewrite upd_same. destruct h; cbn.
      * now apply push_new.
      * rewrite app2. apply unlock_new. now apply kn_ext.
      * now rewrite app_nil_r.
      * now apply push_new.
    + apply (carried_ext s); [cbn; now rewrite upd_other by auto| |exact K]. apply F0. intros q c' u H. destruct h; cbn in H; firstorder discriminate.
  - destruct (late s w); try discriminate. injection Hs as <-. apply (carried_ext s); auto. apply F0. intros q c' u [H|[]]. discriminate.
  - destruct (Nat.eq_dec c d) as [->|N].
    + unfold carried in K. destruct (at_ s d) as [| |[|q]|k|w|] eqn:E; try discriminate.
      * injection Hs as <-. unfold carried. cbn [at_]. rewrite upd_same, app2. apply push_new. apply (kn_now _ (Pop (S q) d u)). now apply pop_knows.
      * injection Hs as <-. unfold carried. cbn [at_]. rewrite upd_same, app3. apply push_new. apply kn_ext. apply (kn_now _ (Lock k u)). now apply lock_knows.
      * destruct (Nat.eqb_spec u w) as [->|]; [|discriminate]. injection Hs as <-. unfold carried. cbn [at_]. rewrite upd_same. now apply push_new.
    + assert (Ea : at_ s' c = at_ s c).
      { destruct (at_ s d) as [| |[|q]|k|w|]; try discriminate; try (destruct (u =? w); [|discriminate]); injection Hs as <-; cbn [at_]; now rewrite upd_other by auto. }
      apply (carried_ext s); auto. apply F0. intros q c' v H. destruct (at_ s d); cbn in H; firstorder congruence.
  - destruct (Nat.eq_dec c d) as [->|N].
    + unfold carried in K. destruct (at_ s d) as [| |[|q]|k|w|] eqn:E; try discriminate. destruct (cur s u); try discriminate. destruct (late s u); try discriminate. injection Hs as <-. unfold carried. cbn [at_]. rewrite upd_same.
      apply (kn_now _ (Pop 0 d u)). now apply pop_knows.
    + assert (Ea : at_ s' c = at_ s c).
      { destruct (at_ s d) as [| |[|q]|k|w|]; try discriminate. destruct (cur s u); try discriminate. destruct (late s u); try discriminate. injection Hs as <-; cbn [at_]; now rewrite upd_other by auto. }
      apply (carried_ext s); auto. apply F0. intros q c' v [H|[]]. congruence.
  - destruct (at_ s d) eqn:E; try discriminate. injection Hs as <-. destruct (Nat.eq_dec c d) as [->|N]; [unfold carried; cbn [at_]; now rewrite upd_same|].
    apply (carried_ext s); [cbn; now rewrite upd_other by auto| |exact K]. apply F0. intros q c' u [H|[]]. discriminate.
  - assert (Es : exists k2, s' = St (upd (at_ s) d Gone) k2 (late s)).
    { destruct (at_ s d) as [| |q|k|w|]; try discriminate; try (destruct (u =? w); [|discriminate]); injection Hs as <-; eauto. }
    destruct Es as (k2 & ->). destruct (Nat.eq_dec c d) as [->|N]; [unfold carried; cbn [at_]; now rewrite upd_same|].
    apply (carried_ext s); [cbn; now rewrite upd_other by auto| |exact K]. apply F0. intros q c' v H. destruct (at_ s d); cbn in H; firstorder congruence.
Qed.
(** every access of the frame comes after what is carried *)
Lemma step_access s t e s' c m n w : step s e = Some s' -> at_ s c <> Nowhere -> carried s t c m -> length t <= n -> nth_error (t ++ ops s e s') n = Some (Data c w) -> happens_before (t ++ ops s e s') m n.
Proof.
  intros Hs Hn K L Hd. rewrite nth_error_app2 in Hd by auto.
  assert (One : forall v, ops s e s' = [Data c v] -> kn t v m -> happens_before (t ++ ops s e s') m n).
  { intros v E Kv. rewrite E in Hd |- *. assert (n = length t) as -> by (destruct (n - length t) as [|[|j]] eqn:X; cbn in Hd; try discriminate; lia). change v with (who (Data c v)) in Kv. apply (knows_next who sw sw_ext _ _ _ Kv). }
  destruct e as [d v|d|d d'|d h|v|u d|u d|d|u d]; unfold step in Hs; cbn [ops] in *.
  - destruct (n - length t); discriminate.
  - destruct (at_ s d) as [|v| | | |] eqn:E; try discriminate. assert (d = c) as -> by (destruct (n - length t) as [|[|j]]; cbn in Hd; try discriminate; congruence). unfold carried in K. rewrite E in K. now apply (One v).
  - destruct (at_ s d) as [|v| | | |] eqn:E; try discriminate. destruct (at_ s d') eqn:E'; try discriminate. assert (d' = c) as -> by (destruct (n - length t) as [|[|[|j]]]; cbn in Hd; try discriminate; congruence). congruence.
  - destruct (at_ s d) as [|v| | | |] eqn:E; try discriminate. destruct h; cbn in Hd; destruct (n - length t) as [|[|j]]; cbn in Hd; try discriminate; destruct j; discriminate.
  - destruct (late s v); try discriminate. destruct (n - length t) as [|[|j]]; discriminate.
  - destruct (at_ s d) as [| |q|k|v|] eqn:E; try discriminate; destruct (n - length t) as [|[|[|[|j]]]]; cbn in Hd; discriminate.
  - destruct (n - length t) as [|[|j]]; discriminate.
  - destruct (at_ s d) as [|v| | | |] eqn:E; try discriminate. assert (d = c) as -> by (destruct (n - length t) as [|[|j]]; cbn in Hd; try discriminate; congruence). unfold carried in K. rewrite E in K. now apply (One v).
  - destruct (at_ s d) as [| |q|k|v|] eqn:E; try discriminate.
    + assert (n = length t + 1 /\ d = c) as [-> ->] by (destruct (n - length t) as [|[|[|j]]] eqn:X; cbn in Hd; try discriminate; split; [lia|congruence]).
      unfold carried in K. rewrite E in K. rewrite app2. replace (length t + 1) with (length (t ++ [Pop q c u])) by (rewrite app_length; reflexivity).
      apply (knows_next who sw sw_ext _ (Data c u)). apply (kn_now _ (Pop q c u)). now apply pop_knows.
    + assert (n = length t + 2 /\ d = c) as [-> ->] by (destruct (n - length t) as [|[|[|[|j]]]] eqn:X; cbn in Hd; try discriminate; split; [lia|congruence]).
      unfold carried in K. rewrite E in K. rewrite app3. replace (length t + 2) with (length ((t ++ [Lock k u]) ++ [Unlock k u])) by (rewrite !app_length; cbn; lia).
      apply (knows_next who sw sw_ext _ (Data c u)). apply kn_ext. apply (kn_now _ (Lock k u)). now apply lock_knows.
    + destruct (Nat.eqb_spec u v) as [->|]; [|discriminate]. assert (d = c) as -> by (destruct (n - length t) as [|[|j]]; cbn in Hd; try discriminate; congruence). unfold carried in K. rewrite E in K. now apply (One v).
Qed.
(** its own accesses come with it *)
Lemma step_own s t e s' c n w : step s e = Some s' -> length t <= n -> nth_error (t ++ ops s e s') n = Some (Data c w) -> at_ s' c <> Nowhere /\ carried s' (t ++ ops s e s') c n.
Proof.
  intros Hs L Hd. rewrite nth_error_app2 in Hd by auto.
  destruct e as [d v|d|d d'|d h|v|u d|u d|d|u d]; unfold step in Hs; cbn [ops] in *.
  - destruct (n - length t); discriminate.
  - destruct (at_ s d) as [|v| | | |] eqn:E; try discriminate. assert (n = length t /\ d = c) as [-> ->] by (destruct (n - length t) as [|[|j]] eqn:X; cbn in Hd; try discriminate; split; [lia|congruence]).
    injection Hs as <-. split; [congruence|]. unfold carried. rewrite E. apply (knows_self who sw t (Data c v)).
  - destruct (at_ s d) as [|v| | | |] eqn:E; try discriminate. destruct (at_ s d') eqn:E'; try discriminate. assert (n = length t /\ d' = c) as [-> ->] by (destruct (n - length t) as [|[|[|j]]] eqn:X; cbn in Hd; try discriminate; split; [lia|congruence]).
    injection Hs as <-. unfold carried. cbn [at_]. rewrite upd_same. split; [discriminate|]. rewrite app2. apply push_new. apply (knows_self who sw t (Data c v)).
  - destruct (at_ s d) as [|v| | | |] eqn:E; try discriminate. destruct h; cbn in Hd; destruct (n - length t) as [|[|j]]; cbn in Hd; try discriminate; destruct j; discriminate.
  - destruct (late s v); try discriminate. destruct (n - length t) as [|[|j]]; discriminate.
  - destruct (at_ s d) as [| |q|k|v|] eqn:E; try discriminate; destruct (n - length t) as [|[|[|[|j]]]]; cbn in Hd; discriminate.
  - destruct (n - length t) as [|[|j]]; discriminate.
  - destruct (at_ s d) as [|v| | | |] eqn:E; try discriminate. assert (d = c) as -> by (destruct (n - length t) as [|[|j]]; cbn in Hd; try discriminate; congruence).
    injection Hs as <-. unfold carried. cbn [at_]. rewrite upd_same. split; [discriminate|exact I].
  - assert (d = c) as ->. { destruct (at_ s d) as [| |q|k|v|]; try discriminate; destruct (n - length t) as [|[|[|[|j]]]]; cbn in Hd; try discriminate; congruence. }
    assert (Es : exists k2, s' = St (upd (at_ s) c Gone) k2 (late s)).
    { destruct (at_ s c) as [| |q|k|v|]; try discriminate; try (destruct (u =? v); [|discriminate]); injection Hs as <-; eauto. }
    destruct Es as (k2 & ->). unfold carried. cbn [at_]. rewrite upd_same. split; [discriminate|exact I].
Qed.
(** nothing goes back to being unmade *)
Lemma step_made s e s' c : step s e = Some s' -> at_ s c <> Nowhere -> at_ s' c <> Nowhere.
Proof.
  intros Hs Hn. destruct e as [d v|d|d d'|d h|v|u d|u d|d|u d]; unfold step in Hs; repeat match type of Hs with context[match ?x with _ => _ end] => destruct x eqn:?; try discriminate end; injection Hs as <-; cbn [at_]; auto;
  match goal with |- upd _ ?i _ c <> _ => destruct (Nat.eq_dec c i) as [->|N]; [rewrite upd_same; try discriminate; try (destruct h; discriminate)|now rewrite upd_other by auto] end.
Qed.

(** From a state where [c] exists, what it carries happens before all its later accesses. *)
Lemma carried_run l : forall s t c m s', run step s l = Some s' -> at_ s c <> Nowhere -> carried s t c m ->
  carried s' (t ++ trace step ops s l) c m /\ at_ s' c <> Nowhere /\
  forall n w, length t <= n -> nth_error (t ++ trace step ops s l) n = Some (Data c w) -> happens_before (t ++ trace step ops s l) m n.
Proof.
  induction l as [|e l IH]; intros s t c m s' Hr Hn K; cbn [run trace] in *.
  - injection Hr as <-. rewrite app_nil_r. repeat split; auto. intros n w L H. apply nth_len in H. lia.
  - destruct (step s e) as [s1|] eqn:E; [|discriminate]. rewrite app_assoc. pose proof (step_carried _ _ _ _ _ _ E Hn K) as K1. pose proof (step_made _ _ _ _ E Hn) as N1.
    destruct (IH s1 _ c m s' Hr N1 K1) as (A & B & C). split; [exact A|]. split; [exact B|]. intros n w L Hd. destruct (Nat.lt_ge_cases n (length (t ++ ops s e s1))) as [L1|L1]; [|now apply (C n w)].
    rewrite nth_error_app1 in Hd by auto. apply hb_ext; [apply sw_ext|]. eapply step_access; eauto.
Qed.
Lemma all_run l : forall s t s', run step s l = Some s' -> (forall c m w, nth_error t m = Some (Data c w) -> at_ s c <> Nowhere /\ carried s t c m) ->
  forall c m w, nth_error (t ++ trace step ops s l) m = Some (Data c w) -> at_ s' c <> Nowhere /\ carried s' (t ++ trace step ops s l) c m /\
  forall n v, m < n -> length t <= n -> nth_error (t ++ trace step ops s l) n = Some (Data c v) -> happens_before (t ++ trace step ops s l) m n.
Proof.
  intros s t s' Hr HA c m w Hm. destruct (Nat.lt_ge_cases m (length t)) as [L|L].
  - rewrite nth_error_app1 in Hm by auto. destruct (HA c m w Hm) as [Hn K]. destruct (carried_run l s t c m s' Hr Hn K) as (A & B & C). repeat split; auto. intros n v _ Ln Hd. now apply (C n v).
  - clear HA. revert s t s' Hr c m w Hm L. induction l as [|e l IH]; intros s t s' Hr c m w Hm L; cbn [run trace] in *.
    + rewrite app_nil_r in Hm. apply nth_len in Hm. lia.
    + destruct (step s e) as [s1|] eqn:E; [|discriminate]. rewrite app_assoc in Hm |- *. destruct (Nat.lt_ge_cases m (length (t ++ ops s e s1))) as [L1|L1].
      * rewrite nth_error_app1 in Hm by auto. destruct (step_own _ _ _ _ _ _ _ E L Hm) as [N1 K1]. destruct (carried_run l s1 _ c m s' Hr N1 K1) as (A & B & C). split; [exact B|]. split; [exact A|].
        intros n v Lt Ln Hd. destruct (Nat.lt_ge_cases n (length (t ++ ops s e s1))) as [L2|L2]; [|now apply (C n v)].
        exfalso. rewrite nth_error_app1 in Hd by auto. clear - Hm Hd Lt L. rewrite nth_error_app2 in Hm, Hd by lia. apply nth_error_split in Hm as (a1 & a2 & Ha & La).
        assert (X : forall x y, ops s e s1 = x ++ Data c w :: y -> forall j v, nth_error y j <> Some (Data c v)).
        { intros x y Hx j v' Hj. destruct e as [d z|d|d d'|d h|z|u d|u d|d|u d]; cbn [ops] in Hx; repeat match type of Hx with context[match ?q with _ => _ end] => destruct q end;
          repeat (destruct x as [|? x]; cbn in Hx; [injection Hx as Hx; try discriminate; subst; repeat (destruct j as [|j]; cbn in Hj; try discriminate)|injection Hx as ? Hx; try discriminate; subst]); destruct x; discriminate. }
        rewrite Ha in Hd. rewrite nth_error_app2 in Hd by lia. replace (n - length t - length a1) with (S (n - m - 1)) in Hd by lia. cbn in Hd. now apply (X _ _ Ha) in Hd.
      * destruct (IH s1 _ s' Hr c m w Hm L1) as (A & B & C). split; [exact A|]. split; [exact B|]. intros n v Lt Ln Hd. apply (C n v); auto. lia.
Qed.

(** C144: all accesses to the frame of a coroutine (its creation, its code before and after any suspension on whatever threads, its destruction) are ordered by happens-before. *)
Theorem C144_never_races_with_itself l s c m n w v : run step init l = Some s -> m < n ->
  nth_error (history l) m = Some (Data c w) -> nth_error (history l) n = Some (Data c v) -> happens_before (history l) m n.
Proof.
  intros Hr Lt Hm Hn. destruct (all_run l init [] s Hr) with (c := c) (m := m) (w := w) as (_ & _ & C); [intros c' m' w' H; destruct m'; discriminate|exact Hm|]. apply (C n v); auto. cbn. lia.
Qed.
(** C144: what the creator did before it made a coroutine happens before everything the coroutine does. *)
Theorem C144_sees_its_creator l1 l2 s c d m n w v : run step init (l1 ++ Spawn c d :: l2) = Some s ->
  m < length (history l1) -> nth_error (history l1) m = Some (Data c w) ->
  nth_error (history (l1 ++ Spawn c d :: l2)) n = Some (Data d v) -> happens_before (history (l1 ++ Spawn c d :: l2)) m n.
Proof.
  intros Hr Lm Hm Hn. apply run_app_inv in Hr as (s1 & H1 & H2). cbn [run] in H2. destruct (step s1 (Spawn c d)) as [s2|] eqn:E; [|discriminate].
  assert (Kc : carried s1 (history l1) c m).
  { destruct (all_run l1 init [] s1 H1) with (c := c) (m := m) (w := w) as (_ & K & _); [intros c' m' w' H; destruct m'; discriminate|exact Hm|exact K]. }
  assert (En : history (l1 ++ Spawn c d :: l2) = history l1 ++ ops s1 (Spawn c d) s2 ++ trace step ops s2 l2).
  { unfold history. rewrite (trace_app step ops _ l1 _ s1 H1). cbn [trace]. now rewrite E. }
  rewrite En, app_assoc in Hn |- *.
  unfold step in E. destruct (at_ s1 c) as [|x| | | |] eqn:Ec; try discriminate. destruct (at_ s1 d) eqn:Ed; try discriminate. injection E as <-. cbn [ops] in *. rewrite Ec in *.
  unfold carried in Kc. rewrite Ec in Kc. set (t := history l1) in *.
  assert (K2 : carried (St (upd (at_ s1) d (InQ 0)) (cur s1) (late s1)) (t ++ [Data d x; Push 0 d x]) d m).
  { unfold carried. cbn [at_]. rewrite upd_same, app2. apply push_new. now apply kn_ext. }
  destruct (carried_run l2 _ _ d m s H2 ltac:(cbn [at_]; rewrite upd_same; discriminate) K2) as (_ & _ & C).
  destruct (Nat.lt_ge_cases n (length (t ++ [Data d x; Push 0 d x]))) as [L1|L1]; [|now apply (C n v)].
  rewrite nth_error_app1 in Hn by auto. apply hb_ext; [apply sw_ext|]. apply nth_app_new in Hn as [Hn|[L2 Hn]].
  - exfalso. destruct (all_run l1 init [] s1 H1) with (c := d) (m := n) (w := v) as (X & _); [intros c' m' w' H; destruct m'; discriminate|exact Hn|]. now apply X.
  - assert (n = length t) as -> by (destruct (n - length t) as [|[|[|j]]] eqn:X; cbn in Hn; try discriminate; lia). rewrite app2. apply hb_ext; [apply sw_ext|]. change x with (who (Data d x)) in Kc. apply (knows_next who sw sw_ext _ _ _ Kc).
Qed.
(** C144: what a coroutine did before it woke another one up (released a lock, set a value, called done()) happens before everything the other does after it was woken. *)
Theorem C144_sees_its_waker l1 l2 s s1 c d u m n w v : run step init l1 = Some s1 -> run step s1 (Wake u d :: l2) = Some s -> at_ s1 c = On u ->
  nth_error (history l1) m = Some (Data c w) ->
  length (history l1) <= n -> nth_error (history (l1 ++ Wake u d :: l2)) n = Some (Data d v) -> happens_before (history (l1 ++ Wake u d :: l2)) m n.
Proof.
  intros H1 H2 Ec Hm Ln Hn. cbn [run] in H2. destruct (step s1 (Wake u d)) as [s2|] eqn:E; [|discriminate].
  assert (Kc : kn (history l1) u m).
  { destruct (all_run l1 init [] s1 H1) with (c := c) (m := m) (w := w) as (_ & K & _); [intros c' m' w' H; destruct m'; discriminate|exact Hm|]. unfold carried in K. now rewrite Ec in K. }
  assert (En : history (l1 ++ Wake u d :: l2) = history l1 ++ ops s1 (Wake u d) s2 ++ trace step ops s2 l2).
  { unfold history. rewrite (trace_app step ops _ l1 _ s1 H1). cbn [trace]. now rewrite E. }
  rewrite En, app_assoc in Hn |- *. set (t := history l1) in *.
  assert (X : at_ s2 d = InQ 0 /\ exists x, ops s1 (Wake u d) s2 = x ++ [Push 0 d u] /\ forall j v, nth_error x j <> Some (Data d v)).
  { unfold step in E. cbn [ops]. destruct (at_ s1 d) as [| |[|q]|k|z|] eqn:Ed; try discriminate.
    - injection E as <-. cbn [at_]. rewrite upd_same. split; [reflexivity|]. exists [Pop (S q) d u]. split; [reflexivity|]. intros [|[|j]]; discriminate.
    - injection E as <-. cbn [at_]. rewrite upd_same. split; [reflexivity|]. exists [Lock k u; Unlock k u]. split; [reflexivity|]. intros [|[|[|j]]]; discriminate.
    - destruct (u =? z); [|discriminate]. injection E as <-. cbn [at_]. rewrite upd_same. split; [reflexivity|]. exists []. split; [reflexivity|]. intros [|j]; discriminate. }
  destruct X as (E2 & x & Ex & Nx). rewrite Ex in *. assert (K2 : carried s2 (t ++ x ++ [Push 0 d u]) d m).
  { unfold carried. rewrite E2, app_assoc. apply push_new. now apply kn_ext. }
  destruct (carried_run l2 s2 _ d m s H2 ltac:(congruence) K2) as (_ & _ & C).
  destruct (Nat.lt_ge_cases n (length (t ++ x ++ [Push 0 d u]))) as [L1|L1]; [|now apply (C n v)].
  exfalso. rewrite nth_error_app1 in Hn by auto. rewrite nth_error_app2 in Hn by auto. apply nth_app_new in Hn as [Hn|[_ Hn]]; [now apply Nx in Hn|]. destruct (n - length t - length x) as [|[|j]]; discriminate.
Qed.
(** C144 refuted for acquire_shared(): worker 0 hands coroutine 1 over and reads its awaiter afterwards; meanwhile worker 2 wakes it, worker 1 resumes it and it ends: the read is not ordered
    with the destruction of the frame, and comes later. *)
Definition l_shared : list event := [Main 0 2; Spawn 0 1; Resume 0 1; Work 1; Suspend 1 (Shared 7); Wake 2 1; Resume 1 1; End 1; Rest 0].
Theorem C144_acquire_shared_refuted : exists s, run step init l_shared = Some s /\
  history l_shared = [Data 1 2; Push 0 1 2; Pop 0 1 0; Data 1 0; Push 7 1 0; Pop 7 1 2; Push 0 1 2; Pop 0 1 1; Data 1 1; After 1 0] /\
  ~ happens_before (history l_shared) 8 9 /\ ~ happens_before (history l_shared) 9 8.
Proof.
  assert (E : history l_shared = [Data 1 2; Push 0 1 2; Pop 0 1 0; Data 1 0; Push 7 1 0; Pop 7 1 2; Push 0 1 2; Pop 0 1 1; Data 1 1; After 1 0]) by (vm_compute; reflexivity).
  assert (R : exists s, run step init l_shared = Some s) by (eexists; vm_compute; reflexivity). destruct R as (s & R). exists s. split; [exact R|]. split; [exact E|]. rewrite E. set (t := [_; _; _; _; _; _; _; _; _; _]). split.
  - intros H. assert (G : forall m n, hb who sw t m n -> n = 9 -> m = 2 \/ m = 3 \/ m = 4 \/ m = 0 \/ m = 1).
    { clear. intros m n H. induction H as [m n a b L Ha Hb Hw|m n Hs|m k n A IA B IB]; intros ->.
      - destruct m as [|[|[|[|[|[|[|[|[|m]]]]]]]]]; cbn in Ha, Hb; try lia; injection Ha as <-; injection Hb as <-; discriminate.
      - destruct Hs as (_ & [(q & c & w & v & _ & Hb & _)|(k & w & v & _ & Hb)]); discriminate.
      - specialize (IB eq_refl). apply (hb_lt who sw sw_lt) in A. lia. }
    destruct (G 8 9 H eq_refl) as [X|[X|[X|[X|X]]]]; discriminate.
  - intros H. apply (hb_lt who sw sw_lt) in H. lia.
Qed.
(** C144: a case that uses every kind of hand-over. *)
Definition l_case : list event :=
  [Main 0 9; Work 0; Spawn 0 1; Resume 0 1; Work 1; Suspend 1 Ring; Wake 0 1; Resume 1 1; Work 1; Suspend 1 (Slot 5); Wake 0 1; Resume 0 1; Spawn 1 2; Work 1; Suspend 1 (Queue 3);
   Resume 1 2; Work 2; Wake 1 1; Suspend 2 (Queue 0); Resume 0 1; Work 1; Resume 1 2; End 1; Suspend 2 (Slot 6); Destroy 8 2].
Example C144_case : exists s, run step init l_case = Some s /\ at_ s 1 = Gone /\ at_ s 2 = Gone /\
  filter (fun o => match o with Data 1 _ => true | _ => false end) (history l_case) = [Data 1 9; Data 1 0; Data 1 1; Data 1 0; Data 1 0; Data 1 0].
Proof. eexists. split; [vm_compute; reflexivity|]. repeat split; vm_compute; reflexivity. Qed.
Print Assumptions C144_never_races_with_itself.
Print Assumptions C144_sees_its_creator.
Print Assumptions C144_sees_its_waker.
Print Assumptions C144_acquire_shared_refuted.
