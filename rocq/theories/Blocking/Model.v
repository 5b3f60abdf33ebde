(** Programs of tasks on a pool of [n] workers that wait for each other, by co_await or by a blocking result()/get().
    include/koios/task.h 174-247 (run_and_get_future: an eager task has run up to its first suspension when it is created, a lazy one is enqueued; result() is run_and_get_future().get()),
    215-223 (operator co_await), include/koios/future.h 41-67 and 136-147 (get() blocks the calling thread until the promise is fulfilled; set_value wakes the blocked thread or enqueues the
    suspended coroutine), include/koios/future_aw.h 31-39 (a ready future does not suspend), include/koios/this_task.h 77-87 (yield), src/thread_pool.cc 72-98 (a worker runs one queued task at a time),
    include/koios/event_loop.h 126-129, include/koios/timer.h 193-212, src/iouring.cc 67-96 (a task that sleeps or waits for an I/O operation is in the event loop of the worker it was running on,
    which looks at it between two tasks only).

    Simplifications: any free worker may take any queued task (the order of the queues and the sleeping of workers are C14, C109, C110); a task waits for tasks it has started itself, and a second wait
    for the same future succeeds (the code throws std::logic_error, C10); no exceptions; no spurious wake-ups of get() (C69); the pool is not stopped. *)
From Coq Require Import List Arith Bool Lia.
From Verif.Common Require Import TS Sum.
Import ListNotations.

(** what a task, or main(), does *)
(* what the body of a task does: start a task, wait for one (task.h 174-247; future.h 136-147), yield (this_task.h 77-87), sleep (this_task.h 24-70) *)
Inductive prog :=
| Ret
| Yield (k : prog)                          (* co_await this_task::yield() *)
| Sleep (k : prog)                          (* co_await this_task::sleep_for(), or an I/O operation: the event loop of this worker resumes it *)
| Spawn (eager : bool) (p k : prog)         (* start a task; its future is kept *)
| Get (i : nat) (k : prog)                  (* blocking get() of the i-th future *)
| Await (i : nat) (k : prog).               (* co_await of the i-th future *)
(** only futures of tasks already started are waited for *)
(* a task waits for tasks it has started: specification, no counterpart in /repo *)
Fixpoint wf (d : nat) (p : prog) : Prop :=
  match p with
  | Ret => True
  | Yield k | Sleep k => wf d k
  | Spawn _ p k => wf 0 p /\ wf (S d) k
  | Get i k | Await i k => i < d /\ wf d k
  end.

(* where a task is: task.h 174-247, future.h 41-67, timer.h 193-212, thread_pool.cc 72-98 *)
Inductive status := Queued | OnStack | Blocked (c : nat) | Suspended (c : nat) | Asleep (w : nat) (* in the event loop of worker w *) | Done.
(* a coroutine: what is left of its body, the futures it has, where it is; task.h 174-247 *)
Record task := T { rest : prog; kids : list nat; st : status }.
(* what the state keeps of task.h 174-247, future.h 41-67, 136-147, future_aw.h 31-39, thread_pool.cc 72-98 *)
Record state := St {
  count : nat;                              (* tasks 0 .. count-1; task 0 is main() *)
  tasks : nat -> task;
  stacks : nat -> list nat }.               (* thread -> the coroutines on its stack, innermost first; thread n is the main thread *)

(* the steps of task.h 174-247, future.h 41-67, 136-147, future_aw.h 31-39, thread_pool.cc 72-98 *)
Inductive event :=
| Take (w t : nat)                          (* worker w dequeues task t *)
| Act (w : nat)                             (* thread w: the innermost coroutine does its next action *)
| Unblock (w : nat)                         (* get() on thread w returns *)
| Wake (t : nat)                            (* the suspended coroutine is enqueued *)
| Due (t : nat).                            (* the deadline has passed or the operation is complete, and the worker, between two tasks, finds it *)

(* future ready: future.h 41-67 *)
Definition is_done (s : state) (c : nat) : bool := match st (tasks s c) with Done => true | _ => false end.
(* bookkeeping of the model, no counterpart in /repo *)
Definition set (s : state) (t : nat) (x : task) (w : nat) (stk : list nat) : state := St (count s) (upd (tasks s) t x) (upd (stacks s) w stk).

Section Pool.
  Variable n : nat.
  (* before anything has happened; task.h 174-247, future.h 41-67, 136-147, future_aw.h 31-39, thread_pool.cc 72-98 *)
  Definition init (main : prog) : state := St 1 (fun t => if t =? 0 then T main [] OnStack else T Ret [] Done) (fun w => if w =? n then [0] else []).
  Definition step (s : state) (e : event) : option state :=
    match e with
    | Take w t => match (w <? n) && (t <? count s), stacks s w, st (tasks s t) with
                  | true, [], Queued => Some (set s t (T (rest (tasks s t)) (kids (tasks s t)) OnStack) w [t])
                  | _, _, _ => None
                  end
    | Act w => match stacks s w with
               | t :: r =>
                 let x := tasks s t in
                 match st x, rest x with
                 | OnStack, Ret => Some (set s t (T Ret (kids x) Done) w r)
                 | OnStack, Yield k => Some (set s t (T k (kids x) Queued) w r)
                 | OnStack, Sleep k => if w <? n then Some (set s t (T k (kids x) (Asleep w)) w r) else None   (* outside the pool: timer.h 158 dereferences a null pointer (C68) *)
                 | OnStack, Spawn e p k =>
                     let c := count s in
                     Some (St (S c) (upd (upd (tasks s) t (T k (kids x ++ [c]) OnStack)) c (T p [] (if e then OnStack else Queued)))
                              (upd (stacks s) w (if e then c :: t :: r else t :: r)))
                 | OnStack, Get i k =>
                     match nth_error (kids x) i with
                     | Some c => Some (set s t (T k (kids x) (if is_done s c then OnStack else Blocked c)) w (t :: r))
                     | None => None
                     end
                 | OnStack, Await i k =>
                     match nth_error (kids x) i with
                     | Some c => Some (if is_done s c then set s t (T k (kids x) OnStack) w (t :: r) else set s t (T k (kids x) (Suspended c)) w r)
                     | None => None
                     end
                 | _, _ => None
                 end
               | [] => None
               end
    | Unblock w => match stacks s w with
                   | t :: r => let x := tasks s t in
                               match st x with
                               | Blocked c => if is_done s c then Some (set s t (T (rest x) (kids x) OnStack) w (t :: r)) else None
                               | _ => None
                               end
                   | [] => None
                   end
    | Wake t => let x := tasks s t in
                match st x with
                | Suspended c => if is_done s c then Some (St (count s) (upd (tasks s) t (T (rest x) (kids x) Queued)) (stacks s)) else None
                | _ => None
                end
    | Due t => let x := tasks s t in
               match st x with
               | Asleep w => match stacks s w with [] => Some (St (count s) (upd (tasks s) t (T (rest x) (kids x) Queued)) (stacks s)) | _ => None end
               | _ => None
               end
    end.

  (** ** invariant *)
  Fixpoint desc (l : list nat) : Prop := match l with [] => True | a :: r => (forall b, In b r -> b < a) /\ desc r end.
  Definition on_stack (z : status) : Prop := z = OnStack \/ exists c, z = Blocked c.
  Definition ok_task (m t : nat) (x : task) : Prop :=
    (forall c, In c (kids x) -> t < c < m) /\ wf (length (kids x)) (rest x) /\
    match st x with Blocked c | Suspended c => t < c < m | Asleep w => w < n | Done => rest x = Ret | _ => True end.
  Record Inv (s : state) : Prop := {
    i_ok : forall t, t < count s -> ok_task (count s) t (tasks s t);
    i_out : forall t, count s <= t -> st (tasks s t) = Done;
    i_in : forall w t, In t (stacks s w) -> w <= n /\ t < count s /\ on_stack (st (tasks s t));
    i_top : forall w a r t, stacks s w = a :: r -> In t r -> st (tasks s t) = OnStack;
    i_has : forall t, t < count s -> on_stack (st (tasks s t)) -> exists w, In t (stacks s w);
    i_desc : forall w, desc (stacks s w);
    i_one : forall w w' t, In t (stacks s w) -> In t (stacks s w') -> w = w' }.

  Lemma ok_more m m' t x : m <= m' -> ok_task m t x -> ok_task m' t x.
  Proof. intros Hm (H1 & H2 & H3). split; [intros c Hc; specialize (H1 c Hc); lia|]. split; [exact H2|]. destruct (st x); auto; lia. Qed.

  (** task [t] and thread [w] change; the new stack of [w] is a suffix of the old, or the old, or [t] alone *)
  Lemma inv_pop s w t r x : Inv s -> stacks s w = t :: r -> ok_task (count s) t x -> ~ on_stack (st x) -> Inv (set s t x w r).
  Proof.
    intros [H1 H2 H3 H4 H5 H6 H7] Hw Hx Hn.
    assert (Ht : w <= n /\ t < count s /\ on_stack (st (tasks s t))) by (apply H3; rewrite Hw; left; reflexivity).
    assert (Hd := H6 w). rewrite Hw in Hd. destruct Hd as [Hlt Hd].
    assert (Hout : forall w' t', In t' (upd (stacks s) w r w') -> t' <> t /\ In t' (stacks s w')).
    { intros w' t'. unfold upd. destruct (Nat.eqb_spec w' w).
      - subst. intros Hin. rewrite Hw. split; [specialize (Hlt t' Hin); lia|right; exact Hin].
      - intros Hin. split; [|exact Hin]. intros ->. apply n0. apply (H7 w' w t); [exact Hin|rewrite Hw; left; reflexivity]. }
    split; cbn [set count tasks stacks].
    - intros t' Ht'. unfold upd. destruct (Nat.eqb_spec t' t); [subst; exact Hx|auto].
    - intros t' Ht'. rewrite upd_other by lia. auto.
    - intros w' t' Hin. destruct (Hout w' t' Hin) as [G1 G2]. rewrite upd_other by exact G1. auto.
    - intros w' a r' t' Hs Hin. assert (G : In t' (upd (stacks s) w r w')) by (rewrite Hs; right; exact Hin). destruct (Hout w' t' G) as [G1 G2]. rewrite upd_other by exact G1.
      unfold upd in Hs. destruct (Nat.eqb_spec w' w); [|eapply H4; eauto]. subst. eapply (H4 w t); [exact Hw|right; exact Hin].
    - intros t' Ht'. unfold upd at 1. destruct (Nat.eqb_spec t' t); [subst; contradiction|]. intros Hs. destruct (H5 t' Ht' Hs) as [w' Hin]. exists w'. unfold upd. destruct (Nat.eqb_spec w' w); [|exact Hin].
      subst. rewrite Hw in Hin. destruct Hin; [congruence|assumption].
    - intros w'. unfold upd. destruct (Nat.eqb_spec w' w); auto.
    - intros w1 w2 t' G1 G2. apply Hout in G1 as [_ G1]. apply Hout in G2 as [_ G2]. eauto.
  Qed.
  Lemma inv_stay s w t r x : Inv s -> stacks s w = t :: r -> ok_task (count s) t x -> on_stack (st x) -> Inv (set s t x w (t :: r)).
  Proof.
    intros [H1 H2 H3 H4 H5 H6 H7] Hw Hx Hn.
    assert (Ht : w <= n /\ t < count s /\ on_stack (st (tasks s t))) by (apply H3; rewrite Hw; left; reflexivity).
    assert (Hsame : forall w', upd (stacks s) w (t :: r) w' = stacks s w') by (intros w'; unfold upd; destruct (Nat.eqb_spec w' w); congruence).
    assert (Hd := H6 w). rewrite Hw in Hd. destruct Hd as [Hlt Hd].
    split; cbn [set count tasks stacks].
    - intros t' Ht'. unfold upd. destruct (Nat.eqb_spec t' t); [subst; exact Hx|auto].
    - intros t' Ht'. rewrite upd_other by lia. auto.
    - intros w' t'. rewrite Hsame. intros Hin. destruct (H3 w' t' Hin) as (G1 & G2 & G3). do 2 (split; [auto|]). unfold upd. destruct (Nat.eqb_spec t' t); auto.
    - intros w' a r' t'. rewrite Hsame. intros Hs Hin. unfold upd. destruct (Nat.eqb_spec t' t); [|eapply H4; eauto]. subst. exfalso.
      assert (w' = w) by (apply (H7 w' w t); [rewrite Hs; right; exact Hin|rewrite Hw; left; reflexivity]). subst. rewrite Hw in Hs. injection Hs as <- <-. specialize (Hlt t Hin). lia.
    - intros t' Ht'. unfold upd at 1. destruct (Nat.eqb_spec t' t); intros Hs.
      + subst. exists w. rewrite Hsame, Hw. left. reflexivity.
      + destruct (H5 t' Ht' Hs) as [w' Hin]. exists w'. rewrite Hsame. exact Hin.
    - intros w'. rewrite Hsame. auto.
    - intros w1 w2 t'. rewrite !Hsame. eauto.
  Qed.
  Lemma nth_kid s t i c : Inv s -> t < count s -> nth_error (kids (tasks s t)) i = Some c -> t < c < count s.
  Proof. intros HI Ht Hc. destruct (i_ok _ HI t Ht) as (H & _). apply H. eapply nth_error_In; eauto. Qed.
  Lemma inv_push s w t : Inv s -> w < n -> t < count s -> stacks s w = [] -> st (tasks s t) = Queued -> Inv (set s t (T (rest (tasks s t)) (kids (tasks s t)) OnStack) w [t]).
  Proof.
    intros [H1 H2 H3 H4 H5 H6 H7] Hw Ht Hs Hq.
    assert (Hno : forall w', ~ In t (stacks s w')). { intros w' Hin. destruct (H3 w' t Hin) as (_ & _ & [E|[c E]]); congruence. }
    split; cbn [set count tasks stacks].
    - intros t' Ht'. unfold upd. destruct (Nat.eqb_spec t' t); [subst|auto]. destruct (H1 t Ht) as (G1 & G2 & G3). split; [exact G1|]. split; [exact G2|exact I].
    - intros t' Ht'. rewrite upd_other by lia. auto.
    - intros w' t'. unfold upd at 1. destruct (Nat.eqb_spec w' w); [subst; intros [<-|[]]|].
      + split; [lia|]. split; [exact Ht|]. rewrite upd_same. left. reflexivity.
      + intros Hin. destruct (H3 w' t' Hin) as (G1 & G2 & G3). do 2 (split; [auto|]). rewrite upd_other; [exact G3|]. intros ->. eapply Hno; eauto.
    - intros w' a r t'. unfold upd at 1. destruct (Nat.eqb_spec w' w); [intros E Hin; injection E as <- <-; contradiction|]. intros E Hin. rewrite upd_other; [eapply H4; eauto|]. intros ->. eapply Hno. rewrite E. right. exact Hin.
    - intros t' Ht'. unfold upd at 1. destruct (Nat.eqb_spec t' t); intros G.
      + subst. exists w. rewrite upd_same. left. reflexivity.
      + destruct (H5 t' Ht' G) as [w' Hin]. exists w'. rewrite upd_other; [exact Hin|]. intros ->. rewrite Hs in Hin. contradiction.
    - intros w'. unfold upd. destruct (Nat.eqb_spec w' w); [cbn; split; [contradiction|exact I]|auto].
    - intros w1 w2 t'. unfold upd. destruct (Nat.eqb_spec w1 w), (Nat.eqb_spec w2 w); subst; auto; [intros [<-|[]] G; exfalso; eapply Hno; eauto|intros G [<-|[]]; exfalso; eapply Hno; eauto|eauto].
  Qed.
  Lemma inv_spawn s w t r e p k : Inv s -> stacks s w = t :: r -> st (tasks s t) = OnStack -> rest (tasks s t) = Spawn e p k ->
    Inv (St (S (count s)) (upd (upd (tasks s) t (T k (kids (tasks s t) ++ [count s]) OnStack)) (count s) (T p [] (if e then OnStack else Queued))) (upd (stacks s) w (if e then count s :: t :: r else t :: r))).
  Proof.
    intros [H1 H2 H3 H4 H5 H6 H7] Hw Ho Hr. set (c := count s).
    assert (Ht : w <= n /\ t < c /\ on_stack (st (tasks s t))) by (apply H3; rewrite Hw; left; reflexivity). destruct Ht as (Hwn & Ht & _).
    assert (Hlt : forall w' t', In t' (stacks s w') -> t' < c) by (intros w' t' Hin; apply (H3 w' t' Hin)).
    assert (Hst : forall t', t' < c -> st (upd (upd (tasks s) t (T k (kids (tasks s t) ++ [c]) OnStack)) c (T p [] (if e then OnStack else Queued)) t') = st (tasks s t')).
    { intros t' Hl. rewrite upd_other by lia. unfold upd. destruct (Nat.eqb_spec t' t); [subst; cbn; auto|reflexivity]. }
    assert (Hin' : forall w' t', In t' (upd (stacks s) w (if e then c :: t :: r else t :: r) w') -> In t' (stacks s w') \/ (t' = c /\ e = true /\ w' = w)).
    { intros w' t'. unfold upd. destruct (Nat.eqb_spec w' w); [|auto]. subst. rewrite Hw. destruct e; auto. intros [<-|G]; auto. }
    assert (Hinc : forall w' t', In t' (stacks s w') -> In t' (upd (stacks s) w (if e then c :: t :: r else t :: r) w')).
    { intros w' t' Hin. unfold upd. destruct (Nat.eqb_spec w' w); [|exact Hin]. subst. rewrite Hw in Hin. destruct e; [right; exact Hin|exact Hin]. }
    split; cbn [count tasks stacks].
    - intros t' Ht'. unfold upd. destruct (Nat.eqb_spec t' c).
      + subst. destruct (H1 t Ht) as (_ & G & _). rewrite Hr in G. destruct G as [G _]. split; [contradiction|]. split; [exact G|]. destruct e; exact I.
      + destruct (Nat.eqb_spec t' t); [subst|apply (ok_more c); [lia|apply H1; fold c; lia]]. destruct (H1 t Ht) as (G1 & G2 & _). rewrite Hr in G2. destruct G2 as [_ G2]. fold c in G1. split; cbn.
        * intros a Ha. apply in_app_iff in Ha as [Ha|[<-|[]]]; [specialize (G1 a Ha)|]; lia.
        * split; [|exact I]. rewrite app_length. cbn. rewrite Nat.add_1_r. exact G2.
    - intros t' Ht'. rewrite !upd_other by lia. apply H2. fold c. lia.
    - intros w' t' Hin. destruct (Hin' w' t' Hin) as [G|(-> & -> & ->)].
      + destruct (H3 w' t' G) as (G1 & G2 & G3). fold c in G2. split; [auto|]. split; [lia|]. rewrite Hst by exact G2. exact G3.
      + split; [auto|]. split; [lia|]. rewrite upd_same. left. reflexivity.
    - intros w' a r' t' Hs Hin.
      assert (G : In t' (stacks s w') /\ (st (tasks s t') = OnStack)).
      { unfold upd in Hs. destruct (Nat.eqb_spec w' w).
        - subst w'. assert (K : forall b, In b r -> st (tasks s b) = OnStack) by (intros b Hb; eapply (H4 w t); eauto). rewrite Hw. destruct e; injection Hs as <- <-; [destruct Hin as [<-|Hin]|]; split; auto; [left; reflexivity|right; exact Hin|right; exact Hin].
        - split; [rewrite Hs; right; exact Hin|eapply H4; eauto]. }
      destruct G as [G1 G2]. rewrite Hst by eauto. exact G2.
    - intros t' Ht'. destruct (Nat.eq_dec t' c) as [->|Hne].
      + rewrite upd_same. cbn. destruct e; intros [G|[b G]]; try discriminate. exists w. rewrite upd_same. left. reflexivity.
      + rewrite Hst by lia. intros G. destruct (H5 t' ltac:(fold c; lia) G) as [w' Hin]. eauto.
    - intros w'. unfold upd. destruct (Nat.eqb_spec w' w); [|auto]. subst. assert (Hd := H6 w). rewrite Hw in Hd. destruct e; [|exact Hd]. split; [|exact Hd]. intros b Hb. apply (Hlt w). rewrite Hw. exact Hb.
    - intros w1 w2 t' G1 G2. apply Hin' in G1. apply Hin' in G2. destruct G1 as [G1|(-> & _ & ->)], G2 as [G2|(G2 & _ & ->)]; auto; [eauto| |]; exfalso.
      + subst. apply Hlt in G1. lia.
      + apply Hlt in G2. lia.
  Qed.

  Lemma inv_queue s t : Inv s -> ~ on_stack (st (tasks s t)) -> st (tasks s t) <> Done -> Inv (St (count s) (upd (tasks s) t (T (rest (tasks s t)) (kids (tasks s t)) Queued)) (stacks s)).
  Proof.
    intros HI Hns Hnd. destruct HI as [H1 H2 H3 H4 H5 H6 H7].
    assert (Hno : forall w', ~ In t (stacks s w')). { intros w' Hin. now destruct (H3 w' t Hin) as (_ & _ & G). }
    split; cbn.
    + intros t' Ht'. unfold upd. destruct (Nat.eqb_spec t' t); [subst|auto]. destruct (H1 t Ht') as (K1 & K2 & _). split; [exact K1|]. split; [exact K2|exact I].
    + intros t' Ht'. rewrite upd_other; [auto|]. intros ->. specialize (H2 t Ht'). congruence.
    + intros w' t' Hin. rewrite upd_other; [auto|]. intros ->. eapply Hno; eauto.
    + intros w' a r t' Hs Hin. rewrite upd_other; [eauto|]. intros ->. eapply Hno. rewrite Hs. right. exact Hin.
    + intros t' Ht'. unfold upd. destruct (Nat.eqb_spec t' t); [intros [G|[c' G]]; discriminate|auto].
    + exact H6.
    + exact H7.
  Qed.
  Lemma Inv_step s e s' : Inv s -> step s e = Some s' -> Inv s'.
  Proof.
    intros HI Hs. unfold step in Hs. destruct e as [w t|w|w|t|t].
    - destruct ((w <? n) && (t <? count s)) eqn:E; [|discriminate]. apply andb_true_iff in E as [E1 E2]. apply Nat.ltb_lt in E1, E2. destruct (stacks s w) eqn:Ew; [|discriminate]. destruct (st (tasks s t)) eqn:Es; try discriminate. injection Hs as <-. now apply inv_push.
    - destruct (stacks s w) as [|t r] eqn:Ew; [discriminate|]. destruct (i_in _ HI w t) as (Hw & Ht & _); [rewrite Ew; left; reflexivity|].
      destruct (st (tasks s t)) eqn:Es; try discriminate. destruct (i_ok _ HI t Ht) as (K1 & K2 & K3). destruct (rest (tasks s t)) as [|k|k|e p k|i k|i k] eqn:Er; cbn in K2.
      + injection Hs as <-. apply inv_pop; auto; [|intros [G|[c G]]; discriminate]. split; [exact K1|]. split; [exact I|reflexivity].
      + injection Hs as <-. apply inv_pop; auto; [|intros [G|[c G]]; discriminate]. split; [exact K1|]. split; [exact K2|exact I].
      + destruct (Nat.ltb_spec w n) as [Lw|]; [|discriminate]. injection Hs as <-. apply inv_pop; auto; [|intros [G|[c G]]; discriminate]. split; [exact K1|]. split; [exact K2|exact Lw].
      + injection Hs as <-. now apply inv_spawn.
      + destruct (nth_error (kids (tasks s t)) i) as [c|] eqn:Ec; [|discriminate]. injection Hs as <-. pose proof (nth_kid s t i c HI Ht Ec) as Hc. apply inv_stay; auto.
        * split; [exact K1|]. split; [exact (proj2 K2)|]. cbn. destruct (is_done s c); [exact I|exact Hc].
        * cbn. destruct (is_done s c); [left; reflexivity|right; eauto].
      + destruct (nth_error (kids (tasks s t)) i) as [c|] eqn:Ec; [|discriminate]. injection Hs as <-. pose proof (nth_kid s t i c HI Ht Ec) as Hc. destruct (is_done s c).
        * apply inv_stay; auto; [|left; reflexivity]. split; [exact K1|]. split; [exact (proj2 K2)|exact I].
        * apply inv_pop; auto; [|intros [G|[c' G]]; discriminate]. split; [exact K1|]. split; [exact (proj2 K2)|exact Hc].
    - destruct (stacks s w) as [|t r] eqn:Ew; [discriminate|]. destruct (i_in _ HI w t) as (Hw & Ht & _); [rewrite Ew; left; reflexivity|].
      destruct (st (tasks s t)) eqn:Es; try discriminate. destruct (is_done s c); [|discriminate]. injection Hs as <-. destruct (i_ok _ HI t Ht) as (K1 & K2 & K3). apply inv_stay; auto; [|left; reflexivity]. split; [exact K1|]. split; [exact K2|exact I].
    - destruct (st (tasks s t)) eqn:Es; try discriminate. destruct (is_done s c); [|discriminate]. injection Hs as <-. apply inv_queue; auto; rewrite Es; [intros [G|[c' G]]; discriminate|discriminate].
    - destruct (st (tasks s t)) eqn:Es; try discriminate. destruct (stacks s w); [|discriminate]. injection Hs as <-. apply inv_queue; auto; rewrite Es; [intros [G|[c' G]]; discriminate|discriminate].
  Qed.
  Lemma Inv_init main : wf 0 main -> Inv (init main).
  Proof.
    intros Hwf. split; cbn.
    - intros t Ht. assert (t = 0) by lia. subst. cbn. split; [contradiction|]. split; [exact Hwf|exact I].
    - intros t Ht. destruct (Nat.eqb_spec t 0); [lia|reflexivity].
    - intros w t. destruct (Nat.eqb_spec w n); [|contradiction]. intros [<-|[]]. split; [lia|]. split; [lia|]. left. reflexivity.
    - intros w a r t. destruct (Nat.eqb_spec w n); [|discriminate]. intros E. injection E as <- <-. contradiction.
    - intros t Ht _. assert (t = 0) by lia. subst. exists n. rewrite Nat.eqb_refl. left. reflexivity.
    - intros w. destruct (Nat.eqb_spec w n); cbn; [split; [contradiction|exact I]|exact I].
    - intros w w' t. destruct (Nat.eqb_spec w n), (Nat.eqb_spec w' n); try contradiction. congruence.
  Qed.
  Lemma Inv_run main l s : wf 0 main -> run step (init main) l = Some s -> Inv s.
  Proof. intros Hwf. apply (run_inv _ Inv); [intros; eapply Inv_step; eauto|]. now apply Inv_init. Qed.
End Pool.
