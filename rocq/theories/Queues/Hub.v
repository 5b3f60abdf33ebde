(** C127: async_awaiting_hub. include/koios/async_awaiting_hub.h 29-86: add_awaiting, may_wake_next, may_wake_all, called by any number of threads at once.

    The queue (moodycamel::ConcurrentQueue) is modelled as a bag with atomic enqueue and try_dequeue that takes any element and fails only if the bag is empty (the library promises this for elements whose enqueue happened before; for racing enqueues a failure counts as happening before them). The scheduler's enqueue appends to the list of scheduled tasks. *)
From Coq Require Import List Arith Bool Lia Permutation.
From Verif.Common Require Import TS.
Import ListNotations.

(* where a thread is in may_wake_next or may_wake_all, async_awaiting_hub.h 51-82 *)
Inductive pc :=
| Idle
| NHold (t : nat)              (* may_wake_next, between 55 and 58 *)
| AllTop (r : bool)            (* may_wake_all, before try_dequeue 76; r is result *)
| AllHold (t : nat).           (* between 76 and 80; result is true (78) *)
(* what the state keeps of async_awaiting_hub.h 29-86 *)
Record state := St { added : list nat (* ghost: all tasks given to add_awaiting *); waiting : list nat; pcs : nat -> pc; scheduled : list nat;
  woken_by : nat -> list nat (* ghost: what the thread's current or last call has handed to the scheduler *); answer : nat -> option bool (* result of the thread's last call *) }.
(* before anything has happened; async_awaiting_hub.h 29-86 *)
Definition init : state := St [] [] (fun _ => Idle) [] (fun _ => []) (fun _ => None).
Inductive event :=
| Add (t : nat)                (* 39-42, by any thread *)
| NextTake (th k : nat)        (* may_wake_next begins and takes the k-th waiting task 55 *)
| NextEmpty (th : nat)         (* 55-56 *)
| NextPut (th : nat)           (* 58-59 *)
| AllBegin (th : nat)          (* 73-75 *)
| AllTake (th k : nat)         (* 76 *)
| AllPut (th : nat)            (* 78-80 *)
| AllEnd (th : nat).           (* try_dequeue fails, 82 *)
(* try_dequeue: environment, not code of /repo *)
Definition take (k : nat) (l : list nat) : option (nat * list nat) :=
  match nth_error l k with Some t => Some (t, firstn k l ++ tl (skipn k l)) | None => None end.
(* what each step does: async_awaiting_hub.h 29-86 *)
Definition step (s : state) (e : event) : option state :=
  match e with
  | Add t => Some (St (t :: added s) (waiting s ++ [t]) (pcs s) (scheduled s) (woken_by s) (answer s))
  | NextTake th k => match pcs s th, take k (waiting s) with
                     | Idle, Some (t, w) => Some (St (added s) w (upd (pcs s) th (NHold t)) (scheduled s) (upd (woken_by s) th []) (answer s))
                     | _, _ => None end
  | NextEmpty th => match pcs s th, waiting s with
                    | Idle, [] => Some (St (added s) [] (pcs s) (scheduled s) (upd (woken_by s) th []) (upd (answer s) th (Some false)))
                    | _, _ => None end
  | NextPut th => match pcs s th with
                  | NHold t => Some (St (added s) (waiting s) (upd (pcs s) th Idle) (scheduled s ++ [t]) (upd (woken_by s) th [t]) (upd (answer s) th (Some true)))
                  | _ => None end
  | AllBegin th => match pcs s th with
                   | Idle => Some (St (added s) (waiting s) (upd (pcs s) th (AllTop false)) (scheduled s) (upd (woken_by s) th []) (answer s))
                   | _ => None end
  | AllTake th k => match pcs s th, take k (waiting s) with
                    | AllTop _, Some (t, w) => Some (St (added s) w (upd (pcs s) th (AllHold t)) (scheduled s) (woken_by s) (answer s))
                    | _, _ => None end
  | AllPut th => match pcs s th with
                 | AllHold t => Some (St (added s) (waiting s) (upd (pcs s) th (AllTop true)) (scheduled s ++ [t]) (upd (woken_by s) th (t :: woken_by s th)) (answer s))
                 | _ => None end
  | AllEnd th => match pcs s th, waiting s with
                 | AllTop r, [] => Some (St (added s) [] (upd (pcs s) th Idle) (scheduled s) (woken_by s) (upd (answer s) th (Some r)))
                 | _, _ => None end
  end.

(** specification: the tasks in the hands of threads th < n *)
Definition hand (p : pc) : list nat := match p with NHold t | AllHold t => [t] | _ => [] end.
Fixpoint hands (f : nat -> pc) (n : nat) : list nat := match n with O => [] | S n => hand (f n) ++ hands f n end.
Definition thread_of (e : event) : option nat := match e with Add _ => None | NextTake th _ | NextEmpty th | NextPut th | AllBegin th | AllTake th _ | AllPut th | AllEnd th => Some th end.
Definition below (n : nat) (e : event) : Prop := match thread_of e with Some th => th < n | None => True end.

Lemma take_perm k l t w : take k l = Some (t, w) -> Permutation l (t :: w).
Proof.
  unfold take. destruct (nth_error l k) eqn:E; [|discriminate]. intros H. injection H as <- <-.
  apply nth_error_split in E as (a & b & -> & <-). rewrite firstn_app, firstn_all, Nat.sub_diag. cbn [firstn]. rewrite app_nil_r.
  rewrite skipn_app, skipn_all, Nat.sub_diag. cbn. apply Permutation_sym, Permutation_middle.
Qed.
Lemma hands_upd f th p n : Permutation (hand (f th) ++ hands (upd f th p) n) ((if th <? n then hand p else hand (f th)) ++ hands f n).
Proof.
  induction n as [|n IH]; [reflexivity|]. cbn [hands]. destruct (Nat.eq_dec n th) as [->|N].
  - rewrite upd_same. destruct (Nat.ltb_spec th (S th)); [|lia]. assert (E : hands (upd f th p) th = hands f th). { clear. assert (G : forall m, m <= th -> hands (upd f th p) m = hands f m). { induction m as [|m IH]; intros L; [reflexivity|]. cbn. rewrite upd_other by lia. rewrite IH by lia. reflexivity. } auto. }
    rewrite E. rewrite !app_assoc. apply Permutation_app_tail, Permutation_app_comm.
  - rewrite upd_other by auto. assert ((th <? S n) = (th <? n)) as -> by (destruct (Nat.ltb_spec th (S n)), (Nat.ltb_spec th n); auto; lia).
    rewrite !app_assoc. etransitivity; [apply Permutation_app_tail, Permutation_app_comm|]. rewrite <- app_assoc. etransitivity; [apply Permutation_app_head, IH|].
    rewrite !app_assoc. apply Permutation_app_tail, Permutation_app_comm.
Qed.
Definition Inv n (s : state) : Prop := Permutation (added s) (waiting s ++ hands (pcs s) n ++ scheduled s).
Lemma Inv_step n s e s' : below n e -> Inv n s -> step s e = Some s' -> Inv n s'.
Proof.
  unfold Inv. intros B I H. destruct e as [t|th k|th|th|th|th k|th|th]; unfold below in B; cbn [thread_of] in B; unfold step in H.
  - injection H as <-. cbn. rewrite <- app_assoc. cbn. now apply Permutation_cons_app.
  - destruct (pcs s th) eqn:E; try discriminate. destruct (take k (waiting s)) as [[t w]|] eqn:T; [|discriminate]. injection H as <-. cbn. apply take_perm in T.
    pose proof (hands_upd (pcs s) th (NHold t) n) as U. rewrite E in U. destruct (Nat.ltb_spec th n); [|lia]. cbn in U.
    rewrite I, T. cbn. rewrite U. rewrite Permutation_middle. reflexivity.
  - destruct (pcs s th) eqn:E; try discriminate. destruct (waiting s) eqn:W; [|discriminate]. injection H as <-. exact I.
  - destruct (pcs s th) eqn:E; try discriminate. injection H as <-. cbn.
    pose proof (hands_upd (pcs s) th Idle n) as U. rewrite E in U. destruct (Nat.ltb_spec th n); [|lia]. cbn in U.
    rewrite I, <- U. apply Permutation_app_head. cbn. rewrite app_assoc. apply Permutation_cons_append.
  - destruct (pcs s th) eqn:E; try discriminate. injection H as <-. cbn.
    pose proof (hands_upd (pcs s) th (AllTop false) n) as U. rewrite E in U. destruct (Nat.ltb_spec th n); [|lia]. cbn in U. rewrite I, <- U. reflexivity.
  - destruct (pcs s th) eqn:E; try discriminate. destruct (take k (waiting s)) as [[t w]|] eqn:T; [|discriminate]. injection H as <-. cbn. apply take_perm in T.
    pose proof (hands_upd (pcs s) th (AllHold t) n) as U. rewrite E in U. destruct (Nat.ltb_spec th n); [|lia]. cbn in U.
    rewrite I, T. cbn. rewrite U. rewrite Permutation_middle. reflexivity.
  - destruct (pcs s th) eqn:E; try discriminate. injection H as <-. cbn.
    pose proof (hands_upd (pcs s) th (AllTop true) n) as U. rewrite E in U. destruct (Nat.ltb_spec th n); [|lia]. cbn in U.
    rewrite I, <- U. apply Permutation_app_head. cbn. rewrite app_assoc. apply Permutation_cons_append.
  - destruct (pcs s th) eqn:E; try discriminate. destruct (waiting s) eqn:W; [|discriminate]. injection H as <-. cbn.
    pose proof (hands_upd (pcs s) th Idle n) as U. rewrite E in U. destruct (Nat.ltb_spec th n); [|lia]. cbn in U. rewrite I, <- U. reflexivity.
Qed.
Lemma hands_idle n : hands (fun _ => Idle) n = []. Proof. induction n; auto. Qed.

(** C127: every task given to the hub is, at every moment, in exactly one place: still waiting, in the hands of a thread that is waking it, or handed to the scheduler; as often as it was added. *)
Theorem C127_exactly_once : forall n l s, Forall (below n) l -> run step init l = Some s ->
  Permutation (added s) (waiting s ++ hands (pcs s) n ++ scheduled s).
Proof.
  intros n l s Hf Hr. assert (G : forall l s0 s1, Forall (below n) l -> Inv n s0 -> run step s0 l = Some s1 -> Inv n s1).
  { clear. induction l as [|e l IH]; intros s0 s1 Hf I Hr; cbn [run] in Hr; [injection Hr as <-; exact I|]. apply Forall_cons_iff in Hf as [He Hf]. destruct (step s0 e) eqn:E; [|discriminate]. eapply IH; [exact Hf| |exact Hr]. eapply Inv_step; eauto. }
  apply (G l init s Hf); auto. unfold Inv. cbn. rewrite hands_idle. constructor.
Qed.
Print Assumptions C127_exactly_once.
(** C127: when may_wake_all returns, every task added so far has been handed to the scheduler or is in the hands of another thread that is waking it. *)
Theorem C127_wake_all_wakes_all : forall n l s th s', Forall (below n) l -> th < n -> run step init l = Some s -> step s (AllEnd th) = Some s' ->
  Permutation (added s') (hands (pcs s') n ++ scheduled s').
Proof.
  intros n l s th s' Hf Ht Hr Hs. assert (R : run step init (l ++ [AllEnd th]) = Some s') by (rewrite (run_app step _ _ _ _ Hr); cbn [run]; now rewrite Hs).
  pose proof (C127_exactly_once n _ s' (proj2 (Forall_app _ _ _) (conj Hf (Forall_cons (AllEnd th) Ht (Forall_nil _)))) R) as P.
  unfold step in Hs. destruct (pcs s th); try discriminate. destruct (waiting s); [|discriminate]. injection Hs as <-. exact P.
Qed.
Print Assumptions C127_wake_all_wakes_all.
(** C127: the answers: true exactly if the call handed a task to the scheduler, and may_wake_next at most one. *)
Definition Ans (s : state) : Prop := forall th, match pcs s th with
  | Idle => answer s th = None /\ woken_by s th = [] \/ exists b, answer s th = Some b /\ (b = true <-> woken_by s th <> [])
  | NHold _ => woken_by s th = []
  | AllTop r => r = true <-> woken_by s th <> []
  | AllHold _ => True end.
Lemma Ans_step s e s' : Ans s -> step s e = Some s' -> Ans s'.
Proof.
  intros I H th0. specialize (I th0). destruct e as [t|th k|th|th|th|th k|th|th]; unfold step in H;
    try (destruct (Nat.eq_dec th0 th) as [->|N]); repeat match type of H with
      | match pcs s ?x with _ => _ end = _ => destruct (pcs s x) eqn:?; try discriminate
      | match take ?k ?w with _ => _ end = _ => destruct (take k w) as [[? ?]|]; try discriminate
      | match waiting s with _ => _ end = _ => destruct (waiting s); try discriminate end;
    injection H as <-; cbn; rewrite ?upd_same, ?upd_other by auto; auto.
  - destruct I as [I|I]; rewrite Heqp; [right|right]; exists false; rewrite ?upd_same; split; auto; split; intros; try discriminate; congruence.
  - right. exists true. split; auto. split; auto. intros _. discriminate.
  - split; [discriminate|congruence].
  - split; [discriminate|congruence].
  - right. eauto.
Qed.
Theorem C127_answers : forall l s th, run step init l = Some s -> pcs s th = Idle -> forall b, answer s th = Some b -> (b = true <-> woken_by s th <> []).
Proof.
  intros l s th Hr Hp b Hb. assert (A : Ans s). { refine (run_inv step Ans _ l init s _ Hr); [intros s0 e s1 H1 H2; eapply Ans_step; eauto|intros x; cbn; left; auto]. }
  specialize (A th). rewrite Hp in A. destruct A as [[A _]|(b' & A & B)]; congruence || (rewrite A in Hb; injection Hb as <-; exact B).
Qed.
Print Assumptions C127_answers.

(** C127: may_wake_all goes round at most once per task that was waiting when it began or was added meanwhile: it returns when nobody adds any more. *)
Definition is_take (e : event) : nat := match e with NextTake _ _ | AllTake _ _ => 1 | _ => 0 end.
Definition is_add (e : event) : nat := match e with Add _ => 1 | _ => 0 end.
Fixpoint count (f : event -> nat) (l : list event) : nat := match l with [] => 0 | e :: l => f e + count f l end.
Lemma take_len k l t w : take k l = Some (t, w) -> length l = S (length w).
Proof. intros H. apply take_perm, Permutation_length in H. exact H. Qed.
Lemma take_count : forall l s s', run step s l = Some s' -> count is_take l + length (waiting s') = length (waiting s) + count is_add l.
Proof.
  induction l as [|e l IH]; intros s s' Hr; cbn [run] in Hr; [injection Hr as <-; cbn; lia|]. destruct (step s e) as [s1|] eqn:E; [|discriminate]. specialize (IH s1 s' Hr). cbn [count].
  destruct e as [t|th k|th|th|th|th k|th|th]; unfold step in E; repeat match type of E with
      | match pcs s ?x with _ => _ end = _ => destruct (pcs s x) eqn:?; try discriminate
      | match take ?k ?w with _ => _ end = _ => destruct (take k w) as [[? ?]|] eqn:T; try discriminate; apply take_len in T
      | match waiting s with _ => _ end = _ => destruct (waiting s) eqn:?; try discriminate end;
    injection E as <-; cbn in *; rewrite ?app_length in *; cbn in *; lia.
Qed.
Theorem C127_wake_all_bounded : forall l s s', run step s l = Some s' -> count is_take l <= length (waiting s) + count is_add l.
Proof. intros l s s' Hr. pose proof (take_count l s s' Hr). lia. Qed.
Print Assumptions C127_wake_all_bounded.
(** ... and when the hub is empty it can return. *)
Theorem C127_wake_all_can_return : forall s th, (exists r, pcs s th = AllTop r) -> waiting s = [] -> exists s', step s (AllEnd th) = Some s' /\ pcs s' th = Idle.
Proof. intros s th (r & Hp) Hw. cbn. rewrite Hp, Hw. eexists. split; [reflexivity|]. cbn. now rewrite upd_same. Qed.
Print Assumptions C127_wake_all_can_return.
(** Refuted: it does not return within any number of rounds if one woken task keeps coming back (for example because it waits for a condition in a loop). *)
Fixpoint round (n : nat) : list event := match n with O => [] | S n => [AllTake 0 0; AllPut 0; Add 7] ++ round n end.
Theorem C127_wake_all_endless_refuted : forall n, exists s, run step init ([Add 7; AllBegin 0] ++ round n) = Some s /\ (exists r, pcs s 0 = AllTop r) /\ length (woken_by s 0) = n.
Proof.
  intros n. assert (G : forall n s r, waiting s = [7] -> pcs s 0 = AllTop r -> exists s', run step s (round n) = Some s' /\ (exists r', pcs s' 0 = AllTop r') /\ length (woken_by s' 0) = n + length (woken_by s 0)).
  { clear. induction n as [|n IH]; intros s r Hw Hp; [exists s; cbn; eauto|]. cbn [round app run step]. rewrite Hp, Hw. cbn.
    edestruct (IH (St (7 :: added s) [7] (upd (upd (pcs s) 0 (AllHold 7)) 0 (AllTop true)) (scheduled s ++ [7]) (upd (woken_by s) 0 (7 :: woken_by s 0)) (answer s)) true) as (s' & R & P & L); [reflexivity|reflexivity|].
    exists s'. split; [exact R|]. split; [exact P|]. rewrite L. cbn. lia. }
  cbn [app run step]. cbn. edestruct (G n (St [7] [7] (upd (fun _ => Idle) 0 (AllTop false)) [] (upd (fun _ => []) 0 []) (fun _ => None)) false) as (s & R & P & L); [reflexivity|reflexivity|].
  exists s. split; [exact R|]. split; [exact P|]. rewrite L. cbn. lia.
Qed.
Print Assumptions C127_wake_all_endless_refuted.
Example C127_case : exists s, run step init [Add 1; Add 2; Add 3; AllBegin 0; NextTake 1 1; AllTake 0 1; AllPut 0; NextPut 1; AllTake 0 0; AllPut 0; AllEnd 0; NextEmpty 1] = Some s /\ (scheduled s, answer s 0, answer s 1) = ([3;2;1], Some true, Some false).
Proof. apply (run_proj_ok step (fun s => (scheduled s, answer s 0, answer s 1))). vm_compute. reflexivity. Qed.
