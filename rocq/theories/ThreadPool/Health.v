(** C150: the report of an idle pool ("thread_pool has been idle for a while!").

    src/thread_pool.cc 56-104 (consumer), 84-97 (the report); include/koios/thread_pool.h 237-245 (thread_specific_preparation, has_pending_event).

    Every access to the shared counters is a step of its own; [m_lock] is explicit. The clock is std::chrono::system_clock in milliseconds. Simplified: dequeue may find nothing at any time (its scan of several queues is not atomic, C14); a worker may end wherever it asks done(), at any time (stop, C15); a task is only a number of pending tasks; what other loops wait for (timers, I/O) is a number of pending events. *)
From Coq Require Import List Arith NArith Bool Lia.
From Verif.Common Require Import TS Sum.
Import ListNotations.

Inductive pc :=
| New                    (* the thread has not registered itself yet *)
| Started                (* 237-242 done: listed in m_consumer_attrs *)
| Top                    (* 72 *)
| Polled (b : bool)      (* 74: before_each_task() returned b *)
| Empty (b : bool)       (* 75: dequeue found nothing *)
| Locked (b : bool)      (* 78: has m_lock *)
| Last (b : bool)        (* 84: counted itself as asleep, the others are all asleep *)
| Now (b : bool) (t : N) (* 86: has read the clock *)
| Reporting (t : N)    (* 88-91: the condition held *)
| ToSleep                (* 98: about to wait *)
| Asleep                 (* 98: in wait_for, the lock is released *)
| Woken                  (* wait_for ends, wants the lock *)
| Down                   (* 99: has the lock again *)
| Busy                   (* 104: executes a task *)
| Ended.
(* what the state keeps of thread_pool.cc 56-104, thread_pool.h 237-245 *)
Record state := St {
  clock : N;
  last_check : N;            (* m_last_health_check_tp *)
  sleeping : nat;              (* m_sleeping_thrs *)
  attrs : nat;                 (* m_consumer_attrs.size() *)
  m_lock : option nat;
  queue : nat;                 (* tasks waiting to be executed *)
  events : nat;                (* timers and I/O the loops wait for *)
  at_ : nat -> pc;
  no_task : nat -> nat }.      (* 71: a local variable of each worker *)
(* before anything has happened; thread_pool.cc 56-104, thread_pool.h 237-245 *)
Definition init : state := St 0 0 0 0 None 0 0 (fun _ => New) (fun _ => 0).
(** thread_pool.h 245; no class overrides it *)
Definition has_pending_event (s : state) : bool := false.

(* the steps of thread_pool.cc 56-104, thread_pool.h 237-245 *)
Inductive event :=
| ETick (d : N) | ESetClock (t : N)
| EEnqueue | EPending | EFires
| ERegister (w : nat) | EStart (w : nat) | EEnd (w : nat)
| EPoll (w : nat) (b : bool) | ETake (w : nat) | ENone (w : nat) | EFinish (w : nat)
| ELock (w : nat) | ECount (w : nat) | ERead (w : nat) | ECheck (w : nat) | EReport (w : nat)
| ESleep (w : nat) | EWake (w : nat) | ERelock (w : nat) | EUncount (w : nat).

(* bookkeeping of the model, no counterpart in /repo *)
Definition goto s w p := St (clock s) (last_check s) (sleeping s) (attrs s) (m_lock s) (queue s) (events s) (upd (at_ s) w p) (no_task s).
(* bookkeeping of the model, no counterpart in /repo *)
Definition set_lock s l := St (clock s) (last_check s) (sleeping s) (attrs s) l (queue s) (events s) (at_ s) (no_task s).
(* bookkeeping of the model, no counterpart in /repo *)
Definition set_last s t := St (clock s) t (sleeping s) (attrs s) (m_lock s) (queue s) (events s) (at_ s) (no_task s).
(* bookkeeping of the model, no counterpart in /repo *)
Definition set_sleeping s k := St (clock s) (last_check s) k (attrs s) (m_lock s) (queue s) (events s) (at_ s) (no_task s).
(* bookkeeping of the model, no counterpart in /repo *)
Definition set_attrs s k := St (clock s) (last_check s) (sleeping s) k (m_lock s) (queue s) (events s) (at_ s) (no_task s).
(* bookkeeping of the model, no counterpart in /repo *)
Definition set_clock s t := St t (last_check s) (sleeping s) (attrs s) (m_lock s) (queue s) (events s) (at_ s) (no_task s).
(* bookkeeping of the model, no counterpart in /repo *)
Definition set_queue s k := St (clock s) (last_check s) (sleeping s) (attrs s) (m_lock s) k (events s) (at_ s) (no_task s).
(* bookkeeping of the model, no counterpart in /repo *)
Definition set_events s k := St (clock s) (last_check s) (sleeping s) (attrs s) (m_lock s) (queue s) k (at_ s) (no_task s).
(* bookkeeping of the model, no counterpart in /repo *)
Definition set_no_task s w k := St (clock s) (last_check s) (sleeping s) (attrs s) (m_lock s) (queue s) (events s) (at_ s) (upd (no_task s) w k).

Section Health.
  Variable n : nat.            (* the number of worker threads *)
  Definition wstep (s : state) (e : event) : option state :=
    match e with
    | ERegister w => match at_ s w, m_lock s with New, None => Some (goto (set_attrs s (S (attrs s))) w Started) | _, _ => None end   (* 237-242 *)
    | EStart w => match at_ s w with Started => Some (goto (set_last s (clock s)) w Top) | _ => None end                               (* 69 *)
    | EEnd w => match at_ s w with Top | Empty _ => Some (goto s w Ended) | _ => None end                                             (* 72, 77 *)
    | EPoll w b => match at_ s w with Top => Some (goto s w (Polled b)) | _ => None end                                               (* 74 *)
    | ETake w => match at_ s w, queue s with Polled _, S k => Some (goto (set_no_task (set_queue s k) w 0) w Busy) | _, _ => None end  (* 75, 101-104 *)
    | ENone w => match at_ s w with Polled b => Some (goto s w (Empty b)) | _ => None end                                             (* 75 *)
    | EFinish w => match at_ s w with Busy => Some (goto s w Top) | _ => None end
    | ELock w => match at_ s w, m_lock s with Empty b, None => Some (goto (set_lock s (Some w)) w (Locked b)) | _, _ => None end       (* 78 *)
    | ECount w => match at_ s w with                                                                                                  (* 84 *)
                  | Locked b => Some (goto (set_sleeping s (S (sleeping s))) w (if sleeping s =? attrs s - 1 then Last b else ToSleep))
                  | _ => None end
    | ERead w => match at_ s w with Last b => Some (goto s w (Now b (clock s))) | _ => None end                                       (* 86 *)
    | ECheck w => match at_ s w with                                                                                                  (* 87-91 *)
                  | Now b t => let k := S (no_task s w) in
                               Some (goto (set_no_task s w k) w
                                 (if (k mod S (attrs s) =? 0) && negb b && negb (has_pending_event s) && (15000 <=? t - last_check s)%N then Reporting t else ToSleep))
                  | _ => None end
    | EReport w => match at_ s w with Reporting t => Some (goto (set_last s t) w ToSleep) | _ => None end                             (* 93-95 *)
    | ESleep w => match at_ s w with ToSleep => Some (goto (set_lock s None) w Asleep) | _ => None end                                (* 98 *)
    | EWake w => match at_ s w with Asleep => Some (goto s w Woken) | _ => None end                                                   (* timeout, notification, spuriously *)
    | ERelock w => match at_ s w, m_lock s with Woken, None => Some (goto (set_lock s (Some w)) w Down) | _, _ => None end
    | EUncount w => match at_ s w with Down => Some (goto (set_lock (set_sleeping s (sleeping s - 1)) None) w Top) | _ => None end    (* 99-100 *)
    | ETick d => Some (set_clock s (clock s + d)%N)
    | ESetClock t => Some (set_clock s t)
    | EEnqueue => Some (set_queue s (S (queue s)))
    | EPending => Some (set_events s (S (events s)))
    | EFires => match events s with S k => Some (set_events s k) | O => None end
    end.
  (* bookkeeping of the model, no counterpart in /repo *)
  Definition actor (e : event) : option nat :=
    match e with
    | ERegister w | EStart w | EEnd w | EPoll w _ | ETake w | ENone w | EFinish w | ELock w | ECount w | ERead w | ECheck w | EReport w | ESleep w | EWake w | ERelock w | EUncount w => Some w
    | _ => None
    end.
  (* what each step does: thread_pool.cc 56-104, thread_pool.h 237-245 *)
  Definition step (s : state) (e : event) : option state :=
    match actor e with Some w => if w <? n then wstep s e else None | None => wstep s e end.

  (** ** specification *)
  Inductive obs := Ran (w : nat) (t : N) (* w executes a task *) | Looked (w : nat) (* w looked for a task in vain *) | Report (w : nat) (t : N) (* the report, with the time it was found due *).
  Definition observe (s : state) (e : event) (s' : state) : list obs :=
    match e with
    | ETake w | EFinish w => [Ran w (clock s)]
    | ENone w => [Looked w]
    | EReport w => match at_ s w with Reporting t => [Report w t] | _ => [] end
    | _ => []
    end.
  Definition log (l : list event) : list obs := trace step observe init l.
  (** the reports are at least [gap] apart, the first at [t] or later *)
  Fixpoint spaced (gap t : N) (l : list obs) : Prop :=
    match l with
    | [] => True
    | Report _ r :: l => (t <= r)%N /\ spaced gap (r + gap)%N l
    | _ :: l => spaced gap t l
    end.
  (** how often [w] has looked in vain since it last executed a task (the log is read backwards) *)
  Fixpoint in_vain (w : nat) (l : list obs) : nat :=
    match l with
    | [] => 0
    | Ran v _ :: l => if v =? w then 0 else in_vain w l
    | Looked v :: l => (if v =? w then 1 else 0) + in_vain w l
    | Report _ _ :: l => in_vain w l
    end.
  Definition clock_not_set (s : state) (e : event) : Prop := match e with ESetClock _ => False | _ => True end.

  (** ** proof *)
  Definition registered (p : pc) : bool := match p with New => false | _ => true end.
  Definition counted (p : pc) : bool := match p with Last _ | Now _ _ | Reporting _ | ToSleep | Asleep | Woken | Down => true | _ => false end.
  Definition has_lock (p : pc) : bool := match p with Locked _ | Last _ | Now _ _ | Reporting _ | ToSleep | Down => true | _ => false end.
  Definition is_last (p : pc) : bool := match p with Last _ | Now _ _ | Reporting _ => true | _ => false end.
  Definition b2n (b : bool) : nat := if b then 1 else 0.
  Record Inv (s : state) : Prop := {
    i_attrs : attrs s = sum_to n (fun w => b2n (registered (at_ s w)));
    i_sleep : sleeping s = sum_to n (fun w => b2n (counted (at_ s w)));
    i_lock : forall w, w < n -> has_lock (at_ s w) = true -> m_lock s = Some w;
    i_last : forall w, w < n -> is_last (at_ s w) = true -> forall v, v < n -> registered (at_ s v) = true -> counted (at_ s v) = true }.

  Lemma sum_zero m f : (forall w, w < m -> f w = 0) -> sum_to m f = 0.
  Proof. induction m as [|m IH]; intros H; cbn; auto. rewrite H, IH by (auto; lia). reflexivity. Qed.
  Lemma sum_le m f g : (forall w, w < m -> f w <= g w) -> sum_to m f <= sum_to m g.
  Proof. induction m as [|m IH]; intros H; cbn; auto. specialize (IH ltac:(intros; apply H; lia)). specialize (H m ltac:(lia)). lia. Qed.
  Lemma sum_eq m f g : (forall w, w < m -> f w <= g w) -> sum_to m f = sum_to m g -> forall w, w < m -> f w = g w.
  Proof.
    induction m as [|m IH]; intros H E w Hw; [lia|]. cbn in E. assert (L : sum_to m f <= sum_to m g) by (apply sum_le; intros; apply H; lia). pose proof (H m ltac:(lia)).
    destruct (Nat.eq_dec w m) as [->|N]; [lia|]. apply IH; auto; try lia.
  Qed.
  Lemma Inv_init : Inv init.
  Proof. split; cbn; try discriminate; now rewrite sum_zero. Qed.
  Lemma counted_registered p : counted p = true -> registered p = true.
  Proof. destruct p; auto. Qed.
  Lemma is_last_lock p : is_last p = true -> has_lock p = true.
  Proof. destruct p; auto. Qed.
  (** moving worker [w] changes the sums by its own share *)
  Lemma sum_move (f : pc -> bool) s w p : w < n -> sum_to n (fun v => b2n (f (upd (at_ s) w p v))) + b2n (f (at_ s w)) = sum_to n (fun v => b2n (f (at_ s v))) + b2n (f p).
  Proof.
    intros Hw. pose proof (sum_to_one n (fun v => b2n (f (upd (at_ s) w p v))) (fun v => b2n (f (at_ s v))) w Hw) as H. cbv beta in H. rewrite upd_same in H. apply H.
    intros i Hi. now rewrite upd_other.
  Qed.
  Lemma sum_same (f : pc -> bool) s w p : w < n -> f p = f (at_ s w) -> sum_to n (fun v => b2n (f (upd (at_ s) w p v))) = sum_to n (fun v => b2n (f (at_ s v))).
  Proof. intros Hw E. pose proof (sum_move f s w p Hw) as H. rewrite E in H. lia. Qed.
  Lemma Inv_step s e s' : Inv s -> step s e = Some s' -> Inv s'.
  Proof.
    intros [A SL L Z] Hs. unfold step in Hs. destruct (actor e) as [w|] eqn:Ea.
    2:{ destruct e; cbn in *; try discriminate; try (injection Hs as <-; split; auto). destruct (events s); [discriminate|]. injection Hs as <-; split; auto. }
    destruct (Nat.ltb_spec w n) as [Hw|]; [|discriminate].
    (* the worker moves, without effect on who is registered, counted, or has the lock *)
    assert (Quiet : forall s1 p, at_ s1 = at_ s -> attrs s1 = attrs s -> sleeping s1 = sleeping s -> m_lock s1 = m_lock s ->
      registered p = registered (at_ s w) -> counted p = counted (at_ s w) -> has_lock p = has_lock (at_ s w) -> (is_last p = true -> is_last (at_ s w) = true) -> Inv (goto s1 w p)).
    { intros s1 p E1 E2 E3 E4 R C H I. split; cbn; rewrite ?E1, ?E2, ?E3, ?E4.
      - now rewrite sum_same.
      - now rewrite sum_same.
      - intros v Hv. unfold upd. destruct (Nat.eqb_spec v w) as [->|]; auto. rewrite H. auto.
      - intros u Hu Hl v Hv Hr. assert (Hl' : is_last (at_ s u) = true) by (revert Hl; unfold upd; destruct (Nat.eqb_spec u w) as [->|]; auto).
        revert Hr. unfold upd. destruct (Nat.eqb_spec v w) as [->|]; [rewrite R, C|]; eauto. }
    (* nobody can have the lock if it is free, or if [w] has it *)
    assert (Free : m_lock s = None -> forall v, v < n -> has_lock (at_ s v) = false) by (intros E v Hv; destruct (has_lock (at_ s v)) eqn:X; auto; apply L in X; congruence).
    assert (Mine : has_lock (at_ s w) = true -> forall v, v < n -> v <> w -> has_lock (at_ s v) = false).
    { intros X v Hv N. destruct (has_lock (at_ s v)) eqn:Y; auto. apply L in X, Y; auto. congruence. }
    destruct e as [| | | | |w'|w'|w'|w' b|w'|w'|w'|w'|w'|w'|w'|w'|w'|w'|w'|w']; cbn in Ea; try discriminate; injection Ea as ->; cbn [wstep] in Hs;
    destruct (at_ s w) as [| | |b'|b'|b'|b'|b' t'|t'| | | | | |] eqn:Ew; try discriminate.
    - (* ERegister *) destruct (m_lock s) eqn:El; [discriminate|]. injection Hs as <-. pose proof (sum_move registered s w Started Hw) as M. rewrite Ew in M. cbn in M. split; cbn.
      + lia.
      + rewrite sum_same; auto. now rewrite Ew.
      + intros v Hv. unfold upd. destruct (Nat.eqb_spec v w); [discriminate|]. intros X. rewrite Free in X by auto. discriminate.
      + intros u Hu. unfold upd at 1. destruct (Nat.eqb_spec u w); [discriminate|]. intros X. apply is_last_lock in X. rewrite Free in X by auto. discriminate.
    - injection Hs as <-. apply Quiet; auto; discriminate.
    - injection Hs as <-. apply Quiet; auto; discriminate.
    - injection Hs as <-. apply Quiet; auto; discriminate.
    - injection Hs as <-. apply Quiet; auto; discriminate.
    - destruct (queue s); [discriminate|]. injection Hs as <-. apply Quiet; auto; discriminate.
    - injection Hs as <-. apply Quiet; auto; discriminate.
    - injection Hs as <-. apply Quiet; auto; discriminate.
    - (* ELock *) destruct (m_lock s) eqn:El; [discriminate|]. injection Hs as <-. split; cbn.
      + rewrite sum_same; auto. now rewrite Ew.
      + rewrite sum_same; auto. now rewrite Ew.
      + intros v Hv. unfold upd. destruct (Nat.eqb_spec v w) as [->|]; auto. intros X. rewrite Free in X by auto. discriminate.
      + intros u Hu. unfold upd at 1. destruct (Nat.eqb_spec u w); [discriminate|]. intros X. apply is_last_lock in X. rewrite Free in X by auto. discriminate.
    - (* ECount *) injection Hs as <-.
      assert (R1 : forall p, registered p = true -> counted p = true -> has_lock p = true -> (is_last p = true -> sleeping s = attrs s - 1) -> Inv (goto (set_sleeping s (S (sleeping s))) w p)).
      { intros p Rp Cp Hp Ip. pose proof (sum_move counted s w p Hw) as M. rewrite Ew, Cp in M. cbn in M. split; cbn.
        - rewrite sum_same; auto. now rewrite Ew.
        - lia.
        - intros v Hv. unfold upd. destruct (Nat.eqb_spec v w) as [->|]; [|auto]. intros _. apply L; auto. now rewrite Ew.
        - intros u Hu. unfold upd at 1. destruct (Nat.eqb_spec u w) as [->|Nu]; [|intros X; apply is_last_lock in X; rewrite Mine in X; auto; discriminate].
          intros X v Hv. specialize (Ip X).
          pose proof (sum_move registered s w p Hw) as M2. rewrite Ew, Rp in M2. cbn in M2.
          assert (Q : forall x, x < n -> b2n (counted (upd (at_ s) w p x)) = b2n (registered (upd (at_ s) w p x))).
          { apply sum_eq; [|].
            - intros x Hx. destruct (counted (upd (at_ s) w p x)) eqn:Y; [apply counted_registered in Y; rewrite Y; cbn; lia|cbn; lia].
            - assert (P1 : 1 <= sum_to n (fun v => b2n (registered (at_ s v)))).
              { clear - Hw Ew. assert (G : forall m, w < m -> 1 <= sum_to m (fun v => b2n (registered (at_ s v)))).
                { induction m as [|m IH]; intros Hm; [lia|]. cbn. destruct (Nat.eq_dec w m) as [<-|N]; [rewrite Ew; cbn; lia|specialize (IH ltac:(lia)); lia]. } auto. }
              lia. }
          intros Rv. specialize (Q v Hv). rewrite Rv in Q. destruct (counted (upd (at_ s) w p v)); auto. discriminate. }
      destruct (Nat.eqb_spec (sleeping s) (attrs s - 1)); apply R1; auto; discriminate.
    - injection Hs as <-. apply Quiet; auto.
    - injection Hs as <-. destruct (_ && _); apply Quiet; auto; discriminate.
    - injection Hs as <-. apply Quiet; auto; discriminate.
    - (* ESleep *) injection Hs as <-. assert (Mw : has_lock (at_ s w) = true) by (now rewrite Ew). split; cbn.
      + rewrite sum_same; auto. now rewrite Ew.
      + rewrite sum_same; auto. now rewrite Ew.
      + intros v Hv. unfold upd. destruct (Nat.eqb_spec v w) as [->|]; [discriminate|]. intros X. rewrite Mine in X; auto; discriminate.
      + intros u Hu. unfold upd at 1. destruct (Nat.eqb_spec u w); [discriminate|]. intros X. apply is_last_lock in X. rewrite Mine in X by (rewrite ?Ew; auto). discriminate.
    - injection Hs as <-. apply Quiet; auto; discriminate.
    - (* ERelock *) destruct (m_lock s) eqn:El; [discriminate|]. injection Hs as <-. split; cbn.
      + rewrite sum_same; auto. now rewrite Ew.
      + rewrite sum_same; auto. now rewrite Ew.
      + intros v Hv. unfold upd. destruct (Nat.eqb_spec v w) as [->|]; auto. intros X. rewrite Free in X by auto. discriminate.
      + intros u Hu. unfold upd at 1. destruct (Nat.eqb_spec u w); [discriminate|]. intros X. apply is_last_lock in X. rewrite Free in X by auto. discriminate.
    - (* EUncount *) injection Hs as <-. assert (Mw : has_lock (at_ s w) = true) by (now rewrite Ew). pose proof (sum_move counted s w Top Hw) as M. rewrite Ew in M. cbn in M. split; cbn.
      + rewrite sum_same; auto. now rewrite Ew.
      + lia.
      + intros v Hv. unfold upd. destruct (Nat.eqb_spec v w) as [->|]; [discriminate|]. intros X. rewrite Mine in X; auto; discriminate.
      + intros u Hu. unfold upd at 1. destruct (Nat.eqb_spec u w); [discriminate|]. intros X. apply is_last_lock in X. rewrite Mine in X by (rewrite ?Ew; auto). discriminate.
  Qed.
  Lemma Inv_run l s : run step init l = Some s -> Inv s.
  Proof. apply (run_inv step Inv Inv_step). exact Inv_init. Qed.

  (** ** the spacing of the reports *)
  Definition reports (t : list obs) : list N := flat_map (fun o => match o with Report _ r => [r] | _ => [] end) t.
  Record J (s : state) (t : list obs) : Prop := {
    j_inv : Inv s;
    j_spaced : spaced 15000 0 t;
    j_last : (last_check s <= clock s)%N;
    j_rep : forall r, In r (reports t) -> (r <= last_check s)%N;
    j_now : forall w b x, w < n -> at_ s w = Now b x -> (x <= clock s)%N /\ forall r, In r (reports t) -> (r <= x)%N;
    j_due : forall w x, w < n -> at_ s w = Reporting x -> (x <= clock s)%N /\ forall r, In r (reports t) -> (r + 15000 <= x)%N }.
  Lemma spaced_snoc w x : forall t a, spaced 15000 a t -> (a <= x)%N -> (forall r, In r (reports t) -> (r + 15000 <= x)%N) -> spaced 15000 a (t ++ [Report w x]).
  Proof.
    induction t as [|o t IH]; intros a H Ha Hr; [split; [exact Ha|exact I]|]. destruct o as [v r|v|v r]; cbn in *; auto. destruct H as [H1 H2]. split; auto.
  Qed.
  Lemma spaced_app_quiet o : (forall w x, o <> Report w x) -> forall t a, spaced 15000 a t -> spaced 15000 a (t ++ [o]).
  Proof. intros No. induction t as [|p t IH]; intros a H; cbn in *; [destruct o; auto; now edestruct No|]. destruct p; auto. destruct H. split; auto. Qed.
  Lemma reports_app t x : reports (t ++ x) = reports t ++ reports x.
  Proof. unfold reports. now rewrite flat_map_app. Qed.
  Lemma J_step s e s' t : J s t -> clock_not_set s e -> step s e = Some s' -> J s' (t ++ observe s e s').
  Proof.
    intros [HI Hsp Hl Hr Hn Hd] Hc Hs. pose proof (Inv_step _ _ _ HI Hs) as HI'.
    assert (Own : forall w v, w < n -> v < n -> has_lock (at_ s w) = true -> has_lock (at_ s v) = true -> v = w) by (intros w v Hw Hv A B; apply (i_lock _ HI) in A, B; auto; congruence).
    (* steps that report nothing *)
    assert (Quiet : forall o, (forall w x, ~ In (Report w x) o) -> length o <= 1 -> observe s e s' = o ->
      (last_check s' <= clock s')%N -> (last_check s <= last_check s')%N -> (clock s <= clock s')%N ->
      (forall w b x, w < n -> at_ s' w = Now b x -> at_ s w = Now b x \/ x = clock s) ->
      (forall w x, w < n -> at_ s' w = Reporting x -> at_ s w = Reporting x \/ ((x <= clock s)%N /\ (last_check s + 15000 <= x)%N)) -> J s' (t ++ observe s e s')).
    { intros o No Lo -> H1 H2 H3 H4 H5. assert (Er : reports (t ++ o) = reports t).
      { rewrite reports_app. destruct o as [|o [|]]; cbn in Lo; try lia; cbn; [apply app_nil_r|]. destruct o as [v r|v|v r]; cbn; rewrite ?app_nil_r; auto. exfalso. eapply No. left. reflexivity. }
      assert (Lr : forall r, In r (reports t) -> (r <= clock s)%N) by (intros r X; apply Hr in X; lia).
      split; auto; rewrite ?Er.
      - destruct o as [|o [|]]; cbn in Lo; try lia; [now rewrite app_nil_r|]. apply spaced_app_quiet; auto. intros w x ->. eapply No. left. reflexivity.
      - intros r X. apply Hr in X. lia.
      - intros w b x Hw X. destruct (H4 w b x Hw X) as [Y|Y]; [destruct (Hn w b x Hw Y); split; auto; lia|]. subst x. split; [lia|auto].
      - intros w x Hw X. destruct (H5 w x Hw X) as [Y|[Y Z]]; [destruct (Hd w x Hw Y); split; auto; lia|]. split; [lia|]. intros r R. apply Hr in R. lia. }
    unfold step in Hs. destruct (actor e) as [w|] eqn:Ea.
    2:{ destruct e; cbn in *; try discriminate; try contradiction; try (destruct (events s); [discriminate|]); injection Hs as <-;
        apply (Quiet []); cbn; auto; try lia. }
    destruct (Nat.ltb_spec w n) as [Hw|]; [|discriminate].
    destruct e as [| | | | |w'|w'|w'|w' b|w'|w'|w'|w'|w'|w'|w'|w'|w'|w'|w'|w']; cbn in Ea; try discriminate; injection Ea as ->; cbn [wstep] in Hs;
    destruct (at_ s w) as [| | |b'|b'|b'|b'|b' t'|t'| | | | | |] eqn:Ew; try discriminate;
    try (destruct (m_lock s); [discriminate|]); try (destruct (queue s); [discriminate|]); injection Hs as <-.
    13:{ (* EReport *) cbn [observe]. rewrite Ew. destruct (Hd w t' Hw Ew) as [D1 D2]. split; auto; cbn; rewrite ?reports_app; cbn.
      - apply spaced_snoc; auto. lia.
      - intros r R. apply in_app_or in R. destruct R as [R|[R|[]]]; [specialize (D2 r R); lia|lia].
      - intros v b x Hv. unfold upd. destruct (Nat.eqb_spec v w); [discriminate|]. intros X. exfalso. apply n0. apply Own; auto; [now rewrite Ew|now rewrite X].
      - intros v x Hv. unfold upd. destruct (Nat.eqb_spec v w); [discriminate|]. intros X. exfalso. apply n0. apply Own; auto; [now rewrite Ew|now rewrite X]. }
    all: eapply Quiet; [| |reflexivity| | | | |]; cbn; auto; try lia;
      match goal with
      | |- forall w x, ~ (_ \/ False) => intros ? ? [X|[]]; discriminate
      | |- forall w b x, w < n -> _ -> _ \/ x = _ => intros v bb x Hv; unfold upd; destruct (Nat.eqb_spec v w) as [->|]; [|auto]; try discriminate
      | |- forall w x, w < n -> _ => intros v x Hv; unfold upd; destruct (Nat.eqb_spec v w) as [->|]; [|auto]; try discriminate
      end.
    - destruct (_ =? _); discriminate.
    - destruct (_ =? _); discriminate.
    - intros [= _ ->]. auto.
    - destruct (_ && _); discriminate.
    - destruct (_ && _) eqn:C; [|discriminate]. intros [= <-]. rewrite !andb_true_iff in C. destruct C as [_ C]. apply N.leb_le in C. destruct (Hn w b' t' Hw Ew). right. lia.
  Qed.
  Lemma trace_J : forall l s t, J s t -> run_all step clock_not_set s l -> spaced 15000 0 (t ++ trace step observe s l).
  Proof.
    induction l as [|e l IH]; intros s t HJ Hr; cbn [trace]; [rewrite app_nil_r; apply HJ|]. destruct Hr as [H1 H2].
    destruct (step s e) as [s'|] eqn:E; [|rewrite app_nil_r; apply HJ]. rewrite app_assoc. apply IH; auto. now apply J_step.
  Qed.
  Lemma J_init : J init [].
  Proof. split; cbn; auto; try lia; try contradiction; try discriminate. exact Inv_init. Qed.

  (** ** looking in vain *)
  Definition pending_look (p : pc) : nat := match p with Empty _ | Locked _ | Last _ | Now _ _ => 1 | _ => 0 end.
  Record K (s : state) (t : list obs) : Prop := {
    k_inv : Inv s;
    k_vain : forall w, w < n -> no_task s w + pending_look (at_ s w) <= in_vain w (rev t);
    k_busy : forall w, w < n -> at_ s w = Busy -> no_task s w = 0;
    k_rep : forall w x, w < n -> at_ s w = Reporting x -> S (attrs s) <= no_task s w }.

  Lemma in_vain_snoc w t o : in_vain w (rev (t ++ [o])) = match o with Ran v _ => if v =? w then 0 else in_vain w (rev t) | Looked v => (if v =? w then 1 else 0) + in_vain w (rev t) | Report _ _ => in_vain w (rev t) end.
  Proof. rewrite rev_app_distr. cbn. reflexivity. Qed.
  Local Arguments Nat.modulo _ _ : simpl never.
  Lemma K_step s e s' t : K s t -> step s e = Some s' -> K s' (t ++ observe s e s').
  Proof.
    intros [HI Hv Hb Hr] Hs. pose proof (Inv_step _ _ _ HI Hs) as HI'.
    unfold step in Hs. destruct (actor e) as [w|] eqn:Ea.
    2:{ destruct e; cbn in *; try discriminate; try (destruct (events s); [discriminate|]); injection Hs as <-; rewrite app_nil_r; split; auto. }
    destruct (Nat.ltb_spec w n) as [Hw|]; [|discriminate].
    assert (Lk : m_lock s = None -> forall v x, v < n -> at_ s v <> Reporting x) by (intros E v x V X; assert (Y : has_lock (at_ s v) = true) by (now rewrite X); apply (i_lock _ HI) in Y; auto; congruence).
    pose proof (Hv w Hw) as Vw.
    destruct e as [| | | | |w'|w'|w'|w' b|w'|w'|w'|w'|w'|w'|w'|w'|w'|w'|w'|w']; cbn in Ea; try discriminate; injection Ea as ->; cbn [wstep] in Hs;
    destruct (at_ s w) as [| | |b'|b'|b'|b'|b' t'|t'| | | | | |] eqn:Ew; try discriminate;
    try (destruct (m_lock s) eqn:El; [discriminate|]); try (destruct (queue s); [discriminate|]); injection Hs as <-; cbn [observe]; rewrite ?Ew, ?app_nil_r; cbn [pending_look] in Vw;
    (split; [exact HI'|intros v V; specialize (Hv v V)|intros v V; specialize (Hb v V)|intros v x V; specialize (Hr v x V)]; cbn in *; rewrite ?in_vain_snoc; unfold upd in *;
     rewrite ?(Nat.eqb_sym w v); destruct (Nat.eqb_spec v w) as [->|Nv]; cbn; try discriminate; auto; try lia).
    - (* ERegister *) intros X. exfalso. exact (Lk eq_refl v x V X).
    - (* EFinish *) rewrite (Hb w Hw Ew). lia.
    - (* ECount *) destruct (_ =? _); cbn; lia.
    - destruct (_ =? _); discriminate.
    - destruct (_ =? _); discriminate.
    - (* ECheck *) destruct (_ && _); cbn; lia.
    - destruct (_ && _); discriminate.
    - destruct (_ && _) eqn:C; [|discriminate]. intros _. rewrite !andb_true_iff in C. destruct C as [[[C _] _] _]. apply Nat.eqb_eq in C.
      destruct (Nat.le_gt_cases (S (attrs s)) (S (no_task s w))) as [L|L]; auto. rewrite Nat.mod_small in C by lia. discriminate.
  Qed.
  Lemma K_init : K init [].
  Proof. split; cbn; auto; try discriminate. exact Inv_init. Qed.
  Lemma trace_K : forall l s t s', K s t -> run step s l = Some s' -> K s' (t ++ trace step observe s l).
  Proof.
    induction l as [|e l IH]; intros s t s' HK Hr; cbn [trace run] in *; [injection Hr as <-; now rewrite app_nil_r|].
    destruct (step s e) as [s1|] eqn:E; [|discriminate]. rewrite app_assoc. eapply IH; eauto. now apply K_step.
  Qed.
End Health.

(** C150: when the report is printed, no worker executes a task. *)
Theorem C150_nobody_works : forall n l s w s', run (step n) init l = Some s -> step n s (EReport w) = Some s' -> forall v, v < n -> at_ s v <> Busy /\ at_ s' v <> Busy.
Proof.
  intros n l s w s' Hr Hs v Hv. pose proof (Inv_run n l s Hr) as HI. unfold step in Hs. cbn [actor wstep] in Hs. destruct (Nat.ltb_spec w n) as [Hw|]; [|discriminate]. destruct (at_ s w) eqn:Ew; try discriminate. injection Hs as <-.
  assert (H : at_ s v <> Busy).
  { intros X. assert (Hl : is_last (at_ s w) = true) by now rewrite Ew. pose proof (i_last _ _ HI w Hw Hl v Hv) as H. rewrite X in H. discriminate (H eq_refl). }
  split; auto. cbn. unfold upd. destruct (Nat.eqb_spec v w); [discriminate|exact H].
Qed.
Print Assumptions C150_nobody_works.
(** Two reports are at least 15 s apart, whichever workers print them, as long as nobody sets the clock. *)
Theorem C150_reports_apart : forall n l, run_all (step n) clock_not_set init l -> spaced 15000 0 (log n l).
Proof. intros n l H. exact (trace_J n l init [] (J_init n) H). Qed.
Print Assumptions C150_reports_apart.
(** The worker that prints it has looked for a task in vain more often than there are workers listed, since it last executed one. *)
Theorem C150_looked_in_vain : forall n l s w s', run (step n) init l = Some s -> step n s (EReport w) = Some s' -> attrs s < in_vain w (rev (log n l)).
Proof.
  intros n l s w s' Hr Hs. pose proof (trace_K n l init [] s (K_init n) Hr) as HK. unfold step in Hs. cbn [actor wstep] in Hs. destruct (Nat.ltb_spec w n) as [Hw|]; [|discriminate]. destruct (at_ s w) eqn:Ew; try discriminate.
  pose proof (k_rep _ _ _ HK w t Hw Ew). pose proof (k_vain _ _ _ HK w Hw). rewrite Ew in *. cbn [app pending_look] in *. unfold log. lia.
Qed.
Print Assumptions C150_looked_in_vain.

(** ** what it does not mean *)
(** a worker looks for a task in vain and goes back to the head of its loop *)
Definition round (w : nat) : list event := [EPoll w false; ENone w; ELock w; ECount w; ERead w; ECheck w; ESleep w; EWake w; ERelock w; EUncount w].
Definition round_report (w : nat) (pre : list event) : list event := [EPoll w false; ENone w] ++ pre ++ [ELock w; ECount w; ERead w; ECheck w; EReport w].
Definition view (s : state) := (clock s, last_check s, queue s, events s).
(** It is printed although a task waits for a timer or for I/O, although a task has been put into the queue, and although a task was executed a moment ago: the condition looks at the last report, not at the last activity; has_pending_event() is false. *)
Theorem C150_idle_refuted :
  (exists l s, run (step 1) init l = Some s /\ events s = 1 /\ log 1 l = [Looked 0; Looked 0; Report 0 20000]) /\
  (exists l s, run (step 1) init l = Some s /\ queue s = 1 /\ log 1 l = [Looked 0; Looked 0; Report 0 20000]) /\
  (exists l s, run (step 1) init l = Some s /\ clock s = 20000%N /\ log 1 l = [Ran 0 0; Ran 0 20000; Looked 0; Looked 0; Report 0 20000]).
Proof.
  split; [|split].
  - exists ([ERegister 0; EStart 0; EPending; ETick 20000] ++ round 0 ++ round_report 0 []). eexists. split; [vm_compute; reflexivity|]. split; vm_compute; reflexivity.
  - exists ([ERegister 0; EStart 0; ETick 20000] ++ round 0 ++ round_report 0 [EEnqueue]). eexists. split; [vm_compute; reflexivity|]. split; vm_compute; reflexivity.
  - exists ([ERegister 0; EStart 0; EEnqueue; EPoll 0 false; ETake 0; ETick 20000; EFinish 0] ++ round 0 ++ round_report 0 []). eexists. split; [vm_compute; reflexivity|]. split; vm_compute; reflexivity.
Qed.
Print Assumptions C150_idle_refuted.
(** Two workers: the second one to fall asleep counts, and a report takes three of its looks; the next report is due 15 s later, not before. *)
Definition nap (w : nat) : list event := [EPoll w false; ENone w; ELock w; ECount w; ESleep w].
Definition back (w : nat) : list event := [EWake w; ERelock w; EUncount w].
Example C150_case :
  let l := [ERegister 0; ERegister 1; EStart 0; EStart 1] ++ nap 0 ++ [ETick 14999] ++ round 1 ++ round 1 ++ round 1 ++ round 1 ++ round 1 ++ [ETick 1] ++ round_report 1 [] ++ [ESleep 1] ++ back 1 ++ [ETick 14999] ++ round 1 ++ round 1 ++ round 1 ++ [ETick 1] ++ round 1 ++ round 1 ++ round_report 1 [] in
  run_all (step 2) clock_not_set init l /\ exists s, run (step 2) init l = Some s /\ at_ s 0 = Asleep /\
  log 2 l = [Looked 0; Looked 1; Looked 1; Looked 1; Looked 1; Looked 1; Looked 1; Report 1 15000; Looked 1; Looked 1; Looked 1; Looked 1; Looked 1; Looked 1; Report 1 30000].
Proof.
  cbv zeta. split; [|eexists; split; [vm_compute; reflexivity|split; vm_compute; reflexivity]].
  apply (run_allb_ok (step 2) (fun _ e => match e with ESetClock _ => false | _ => true end)); [intros s e; destruct e; cbn; auto; discriminate|vm_compute; reflexivity].
Qed.
