(** Task ids, and cancellation of a task's operation through its id.
    include/koios/get_id_aw.h, src/get_id_aw.cc 11-15 (the id is the address of the coroutine frame; the task goes through the scheduler), include/koios/task_on_the_fly.h 87-91;
    src/iouring_op_batch_execute_aw.cc 15-27 and src/iouring.cc 104-117 (the user data of all operations of a batch is the address of the awaiting frame; submitted on the ring of
    the calling thread: m_impl is thread_local, src/iouring.cc 25), 48-64 (completion: the task is enqueued); src/iouring_op_functions.cc 309-314 (cancel_first).

    Simplifications: a task waits for one operation at a time (a one-operation batch); a cancel request is processed by the kernel when it is submitted (its own completion is the task
    going back to the queue). Any worker may run a queued task. Frames are allocated at any address not in use, address 0 never. *)
From Coq Require Import List Arith Bool Lia.
From Verif.Common Require Import TS.
Import ListNotations.

(* where a task is: get_id_aw.cc 11-15, iouring.cc 47-65, 104-117 *)
Inductive pc := Queued | Running (w : nat) | Waiting (w : nat) (* for an operation on w's ring *) | Ended.
(* a task: the address of its frame is its id, task_on_the_fly.h 87-91 *)
Record task := T { addr : nat; at_ : pc }.
(* what the state keeps of get_id_aw.cc 11-15, iouring_op_batch_execute_aw.cc 15-27, iouring.cc 47-65, 104-117, iouring_op_functions.cc 309-314 *)
Record state := St {
  tasks : nat -> option task;
  frames : nat -> option nat;                  (* address -> living task *)
  rings : nat -> list (nat * nat) }.           (* worker -> pending operations, oldest first: user data; whose it is *)
(* before anything has happened; get_id_aw.cc 11-15, iouring_op_batch_execute_aw.cc 15-27, iouring.cc 47-65, 104-117, iouring_op_functions.cc 309-314 *)
Definition init : state := St (fun _ => None) (fun _ => None) (fun _ => []).

(* the steps of get_id_aw.cc 11-15, iouring_op_batch_execute_aw.cc 15-27, iouring.cc 47-65, 104-117, iouring_op_functions.cc 309-314 *)
Inductive event :=
| ENew (t a : nat)            (* a coroutine is created *)
| ERun (t w : nat)            (* worker w resumes it *)
| EGetId (t : nat)            (* co_await this_task::get_id() *)
| ESubmit (t : nat)           (* co_await of an operation *)
| EComplete (w k : nat)       (* the k-th pending operation of w's ring completes *)
| ECancel (t u : nat)         (* co_await cancel_first(u) *)
| EEnd (t : nat).             (* the coroutine ends: the frame is freed *)
(* specification, no counterpart in /repo (what a user can observe) *)
Inductive obs :=
| Id (t a : nat)
| Completed (t : nat)         (* t's operation completed *)
| Cancelled (t : nat)         (* t's operation completed with ECANCELED *)
| Found (t : nat)             (* t's cancel_first returned 0 *)
| NotFound (t : nat).         (* ... -ENOENT *)

(* bookkeeping of the model, no counterpart in /repo *)
Definition set_at s t x p := St (upd (tasks s) t (Some (T (addr x) p))) (frames s) (rings s).
(* the kernel completes one of the pending operations: environment, not code of /repo *)
Fixpoint take_k (k : nat) (l : list (nat * nat)) : option ((nat * nat) * list (nat * nat)) :=
  match l, k with
  | [], _ => None
  | x :: l', O => Some (x, l')
  | x :: l', S k' => match take_k k' l' with Some (y, r) => Some (y, x :: r) | None => None end
  end.
(* the kernel looks for an operation with this user data: environment, not code of /repo *)
Fixpoint take_ud (u : nat) (l : list (nat * nat)) : option ((nat * nat) * list (nat * nat)) :=
  match l with
  | [] => None
  | x :: l' => if fst x =? u then Some (x, l') else match take_ud u l' with Some (y, r) => Some (y, x :: r) | None => None end
  end.
(** an operation of task [t] is over: the task is enqueued *)
(* an operation is over, its task goes to the scheduler: iouring.cc 47-65 *)
Definition over (s : state) (w : nat) (r : list (nat * nat)) (t : nat) : state :=
  let s' := St (tasks s) (frames s) (upd (rings s) w r) in
  match tasks s t with Some x => set_at s' t x Queued | None => s' end.

(* what each step does: get_id_aw.cc 11-15, iouring_op_batch_execute_aw.cc 15-27, iouring.cc 47-65, 104-117, iouring_op_functions.cc 309-314 *)
Definition step (s : state) (e : event) : option (state * list obs) :=
  match e with
  | ENew t a => match tasks s t, frames s a with
                | None, None => if a =? 0 then None else Some (St (upd (tasks s) t (Some (T a Queued))) (upd (frames s) a (Some t)) (rings s), [])
                | _, _ => None
                end
  | ERun t w => match tasks s t with
                | Some x => match at_ x with Queued => Some (set_at s t x (Running w), []) | _ => None end
                | None => None
                end
  | EGetId t => match tasks s t with
                | Some x => match at_ x with Running _ => Some (set_at s t x Queued, [Id t (addr x)]) | _ => None end
                | None => None
                end
  | ESubmit t => match tasks s t with
                 | Some x => match at_ x with
                             | Running w => Some (let s' := set_at s t x (Waiting w) in St (tasks s') (frames s') (upd (rings s) w (rings s w ++ [(addr x, t)])), [])
                             | _ => None
                             end
                 | None => None
                 end
  | EComplete w k => match take_k k (rings s w) with
                     | Some ((_, t), r) => Some (over s w r t, [Completed t])
                     | None => None
                     end
  | ECancel t u => match tasks s t with
                   | Some x => match at_ x with
                               | Running w => match take_ud u (rings s w) with
                                              | Some ((_, t'), r) => Some (set_at (over s w r t') t x Queued, [Cancelled t'; Found t])
                                              | None => Some (set_at s t x Queued, [NotFound t])
                                              end
                               | _ => None
                               end
                   | None => None
                   end
  | EEnd t => match tasks s t with
              | Some x => match at_ x with Running _ => Some (let s' := set_at s t x Ended in St (tasks s') (upd (frames s) (addr x) None) (rings s), []) | _ => None end
              | None => None
              end
  end.
(* bookkeeping of the model, no counterpart in /repo *)
Definition next (s : state) (e : event) : option state := option_map fst (step s e).
(* specification, no counterpart in /repo (what a user can observe) *)
Definition observe (s : state) (e : event) (_ : state) : list obs := match step s e with Some (_, o) => o | None => [] end.

(** ** invariant *)
Record Inv (s : state) : Prop := {
  i_frame : forall a t, frames s a = Some t <-> exists x, tasks s t = Some x /\ addr x = a /\ at_ x <> Ended;
  i_addr : forall t x, tasks s t = Some x -> addr x <> 0;
  i_ring : forall w u t, In (u, t) (rings s w) -> exists x, tasks s t = Some x /\ addr x = u /\ at_ x = Waiting w;
  i_wait : forall t x w, tasks s t = Some x -> at_ x = Waiting w -> In (addr x, t) (rings s w);
  i_nd : forall w, NoDup (map snd (rings s w)) }.

Lemma take_k_spec k l x r : take_k k l = Some (x, r) -> exists l1 l2, l = l1 ++ x :: l2 /\ r = l1 ++ l2.
Proof.
  revert k r. induction l as [|y l IH]; intros k r H; destruct k; cbn in H; try discriminate.
  - injection H as <- <-. exists [], l. auto.
  - destruct (take_k k l) as [[z r']|] eqn:E; [|discriminate]. injection H as -> <-. destruct (IH _ _ E) as (l1 & l2 & -> & ->). exists (y :: l1), l2. auto.
Qed.
Lemma take_ud_spec u l x r : take_ud u l = Some (x, r) -> fst x = u /\ exists l1 l2, l = l1 ++ x :: l2 /\ r = l1 ++ l2.
Proof.
  revert r. induction l as [|y l IH]; intros r H; cbn in H; try discriminate. destruct (Nat.eqb_spec (fst y) u).
  - injection H as <- <-. split; auto. exists [], l. auto.
  - destruct (take_ud u l) as [[z r']|] eqn:E; [|discriminate]. injection H as -> <-. destruct (IH _ eq_refl) as (Hf & l1 & l2 & -> & ->). split; auto. exists (y :: l1), l2. auto.
Qed.
Lemma take_ud_None u l : take_ud u l = None <-> forall t, ~ In (u, t) l.
Proof.
  induction l as [|[v t'] l IH]; cbn; [split; [auto|reflexivity]|]. destruct (Nat.eqb_spec v u).
  - split; [discriminate|]. intros H. exfalso. subst. apply (H t'). auto.
  - destruct (take_ud u l) as [[z r]|] eqn:E; split; intros H; try discriminate; auto.
    + exfalso. assert (Hn : Some (z, r) = None); [|discriminate]. apply IH. intros t Ht. apply (H t). auto.
    + intros t [Ht|Ht]; [congruence|]. eapply (proj1 IH); eauto.
Qed.

(** a task that stays alive and is not waiting changes its program point *)
Lemma inv_move s t x p : Inv s -> tasks s t = Some x -> at_ x <> Ended -> (forall w, at_ x <> Waiting w) -> p <> Ended -> (forall w, p <> Waiting w) -> Inv (set_at s t x p).
Proof.
  intros [I1 I2 I3 I4 I5] Ht Hx Hw Hp Hpw. split; cbn.
  - intros a t'. rewrite I1. unfold upd. destruct (Nat.eqb_spec t' t); [subst|reflexivity]. split; intros (y & H1 & H2 & H3).
    + rewrite Ht in H1. injection H1 as <-. exists (T (addr x) p). auto.
    + injection H1 as <-. exists x. auto.
  - intros t' y. unfold upd. destruct (Nat.eqb_spec t' t); [|apply I2]. intros H; injection H as <-. cbn. eauto.
  - intros w u t' Hin. destruct (I3 w u t' Hin) as (y & H1 & H2 & H3). unfold upd. destruct (Nat.eqb_spec t' t); [|eauto]. subst. rewrite Ht in H1. injection H1 as <-. exfalso. eapply Hw; eauto.
  - intros t' y w. unfold upd. destruct (Nat.eqb_spec t' t); [|apply I4]. intros H; injection H as <-. cbn. intros ->. exfalso. eapply Hpw; eauto.
  - exact I5.
Qed.
Lemma inv_over s w u t l1 l2 : Inv s -> rings s w = l1 ++ (u, t) :: l2 -> Inv (over s w (l1 ++ l2) t) /\ exists x, tasks s t = Some x /\ addr x = u /\ at_ x = Waiting w.
Proof.
  intros [I1 I2 I3 I4 I5] Hr. destruct (I3 w u t) as (x & H1 & H2 & H3); [rewrite Hr; apply in_elt|]. split; [|eauto]. unfold over. rewrite H1.
  assert (Hnd := I5 w). rewrite Hr, map_app in Hnd. cbn in Hnd. apply NoDup_remove in Hnd as [Hnd Hni]. rewrite <- map_app in Hnd, Hni.
  assert (Hne : forall v t', In (v, t') (l1 ++ l2) -> t' <> t) by (intros v t' Hin ->; apply Hni; apply (in_map snd) in Hin; exact Hin).
  split; cbn.
  - intros a t'. rewrite I1. unfold upd. destruct (Nat.eqb_spec t' t); [subst|reflexivity]. split; intros (y & G1 & G2 & G3).
    + rewrite H1 in G1. injection G1 as <-. exists (T (addr x) Queued). cbn. repeat split; auto. discriminate.
    + injection G1 as <-. exists x. cbn in G2. repeat split; auto. rewrite H3. discriminate.
  - intros t' y. unfold upd. destruct (Nat.eqb_spec t' t); [|apply I2]. intros H; injection H as <-. cbn. eauto.
  - intros w' u' t'. unfold upd at 1. destruct (Nat.eqb_spec w' w).
    + subst. intros Hin. rewrite upd_other by eauto. apply I3. rewrite Hr. apply in_app_iff in Hin. apply in_app_iff. destruct Hin; [auto|right; right; auto].
    + intros Hin. destruct (I3 w' u' t' Hin) as (y & G1 & G2 & G3). rewrite upd_other; [eauto|]. intros ->. rewrite H1 in G1. injection G1 as <-. congruence.
  - intros t' y w'. unfold upd. destruct (Nat.eqb_spec t' t); [intros H; injection H as <-; discriminate|]. intros G1 G2. specialize (I4 t' y w' G1 G2). destruct (Nat.eqb_spec w' w); [|exact I4].
    subst w'. rewrite Hr in I4. apply in_app_iff in I4. apply in_app_iff. destruct I4 as [I4|[I4|I4]]; auto. congruence.
  - intros w'. unfold upd. destruct (Nat.eqb_spec w' w); [exact Hnd|apply I5].
Qed.

Lemma Inv_step s e s' o : Inv s -> step s e = Some (s', o) -> Inv s'.
Proof.
  intros HI Hs. pose proof HI as [I1 I2 I3 I4 I5]. unfold step in Hs. destruct e as [t a|t w|t|t|w k|t u|t].
  - destruct (tasks s t) eqn:Et; [discriminate|]. destruct (frames s a) eqn:Ef; [discriminate|]. destruct (Nat.eqb_spec a 0); [discriminate|]. injection Hs as <- _.
    assert (Hno : forall t' y, tasks s t' = Some y -> at_ y <> Ended -> addr y <> a).
    { intros t' y H1 H2 H3. assert (frames s a = Some t') by (apply I1; eauto). congruence. }
    split; cbn.
    + intros b t'. unfold upd. destruct (Nat.eqb_spec b a), (Nat.eqb_spec t' t); subst.
      * split; [|reflexivity]. intros _. exists (T a Queued). cbn. repeat split; auto. discriminate.
      * split; [congruence|]. intros (y & H1 & H2 & H3). exfalso. eapply Hno; eauto.
      * split; [|intros (y & H1 & H2 & H3); injection H1 as <-; cbn in H2; congruence]. intros H. apply I1 in H as (y & H1 & _). congruence.
      * apply I1.
    + intros t' y. unfold upd. destruct (Nat.eqb_spec t' t); [|apply I2]. intros H; injection H as <-. auto.
    + intros w u t' Hin. destruct (I3 w u t' Hin) as (y & H1 & H2 & H3). unfold upd. destruct (Nat.eqb_spec t' t); [congruence|eauto].
    + intros t' y w. unfold upd. destruct (Nat.eqb_spec t' t); [|apply I4]. intros H; injection H as <-. discriminate.
    + exact I5.
  - destruct (tasks s t) as [x|] eqn:Et; [|discriminate]. destruct (at_ x) eqn:Ea; try discriminate. injection Hs as <- _. apply inv_move; auto; congruence.
  - destruct (tasks s t) as [x|] eqn:Et; [|discriminate]. destruct (at_ x) eqn:Ea; try discriminate. injection Hs as <- _. apply inv_move; auto; congruence.
  - destruct (tasks s t) as [x|] eqn:Et; [|discriminate]. destruct (at_ x) eqn:Ea; try discriminate. injection Hs as <- _.
    assert (Hni : forall w' u, ~ In (u, t) (rings s w')). { intros w' u Hin. destruct (I3 w' u t Hin) as (y & H1 & _ & H3). congruence. }
    split; cbn.
    + intros a t'. rewrite I1. unfold upd. destruct (Nat.eqb_spec t' t); [subst|reflexivity]. split; intros (y & H1 & H2 & H3).
      * rewrite Et in H1. injection H1 as <-. exists (T (addr x) (Waiting w)). cbn. repeat split; auto. discriminate.
      * injection H1 as <-. exists x. repeat split; auto. congruence.
    + intros t' y. unfold upd. destruct (Nat.eqb_spec t' t); [|apply I2]. intros H; injection H as <-. cbn. eauto.
    + intros w' u t'. unfold upd. intros Hin. destruct (Nat.eqb_spec t' t).
      * subst t'. destruct (Nat.eqb_spec w' w); [|exfalso; eapply Hni; eauto]. subst w'. apply in_app_iff in Hin as [Hin|[Hin|[]]]; [exfalso; eapply Hni; eauto|]. injection Hin as <-. eexists. split; [reflexivity|]. auto.
      * apply I3. destruct (Nat.eqb_spec w' w); [|exact Hin]. subst w'. apply in_app_iff in Hin as [Hin|[Hin|[]]]; [auto|congruence].
    + intros t' y w'. unfold upd. destruct (Nat.eqb_spec t' t).
      * intros H; injection H as <-. cbn. intros H; injection H as <-. rewrite Nat.eqb_refl. subst t'. apply in_app_iff. right. left. reflexivity.
      * intros H1 H2. specialize (I4 t' y w' H1 H2). destruct (Nat.eqb_spec w' w); [subst; apply in_app_iff; auto|exact I4].
    + intros w'. unfold upd. destruct (Nat.eqb_spec w' w); [|apply I5]. subst. rewrite map_app. cbn. specialize (I5 w).
      apply NoDup_rev in I5. rewrite <- (rev_involutive (map snd (rings s w) ++ [t])). apply NoDup_rev. rewrite rev_app_distr. cbn. constructor; [|exact I5].
      rewrite <- in_rev. intros Hin. apply in_map_iff in Hin as ([u t'] & <- & Hin). eapply Hni; eauto.
  - destruct (take_k k (rings s w)) as [[[u t] r]|] eqn:Ek; [|discriminate]. injection Hs as <- _. apply take_k_spec in Ek as (l1 & l2 & H1 & ->). now apply (inv_over s w u t).
  - destruct (tasks s t) as [x|] eqn:Et; [|discriminate]. destruct (at_ x) eqn:Ea; try discriminate. destruct (take_ud u (rings s w)) as [[[v t'] r]|] eqn:Ek; injection Hs as <- _.
    + apply take_ud_spec in Ek as (_ & l1 & l2 & H1 & ->). destruct (inv_over s w v t' l1 l2 HI H1) as (HI' & y & G1 & G2 & G3).
      apply inv_move; auto; try congruence. unfold over. rewrite G1. cbn. rewrite upd_other; [exact Et|]. intros ->. congruence.
    + apply inv_move; auto; congruence.
  - destruct (tasks s t) as [x|] eqn:Et; [|discriminate]. destruct (at_ x) eqn:Ea; try discriminate. injection Hs as <- _. split; cbn.
    + intros a t'. unfold upd. destruct (Nat.eqb_spec a (addr x)), (Nat.eqb_spec t' t); subst.
      * split; [discriminate|]. intros (y & H1 & H2 & H3). injection H1 as <-. cbn in H3. congruence.
      * split; [discriminate|]. intros (y & H1 & H2 & H3). exfalso. assert (G1 : frames s (addr x) = Some t') by (apply I1; eauto). assert (G2 : frames s (addr x) = Some t) by (apply I1; exists x; repeat split; auto; congruence). congruence.
      * split; [|intros (y & H1 & H2 & H3); injection H1 as <-; cbn in H3; congruence]. intros H. apply I1 in H as (y & H1 & H2 & H3). congruence.
      * apply I1.
    + intros t' y. unfold upd. destruct (Nat.eqb_spec t' t); [|apply I2]. intros H; injection H as <-. cbn. eauto.
    + intros w' u t' Hin. destruct (I3 w' u t' Hin) as (y & H1 & H2 & H3). unfold upd. destruct (Nat.eqb_spec t' t); [congruence|eauto].
    + intros t' y w'. unfold upd. destruct (Nat.eqb_spec t' t); [|apply I4]. intros H; injection H as <-. discriminate.
    + exact I5.
Qed.
Lemma Inv_init : Inv init.
Proof. split; cbn; try discriminate; try contradiction; [|intros; constructor]. intros a t. split; [discriminate|]. intros (x & H & _). discriminate. Qed.
Lemma Inv_run l s : run next init l = Some s -> Inv s.
Proof.
  apply (run_inv _ Inv); [|apply Inv_init]. intros s0 e s1 HI Hn. unfold next in Hn. destruct (step s0 e) as [[s2 o]|] eqn:Es; [|discriminate]. injection Hn as <-. eapply Inv_step; eauto.
Qed.

(** ** histories *)
Lemma step_addr s e s' o t x : Inv s -> step s e = Some (s', o) -> tasks s t = Some x ->
  exists x', tasks s' t = Some x' /\ addr x' = addr x /\ (at_ x' = Ended -> at_ x = Ended \/ e = EEnd t).
Proof.
  intros HI Hs Ht.
  assert (M : forall s0 t0 x0 p, tasks s0 = tasks s -> tasks s t0 = Some x0 -> (p = Ended -> e = EEnd t0) ->
            exists x', tasks (set_at s0 t0 x0 p) t = Some x' /\ addr x' = addr x /\ (at_ x' = Ended -> at_ x = Ended \/ e = EEnd t)).
  { intros s0 t0 x0 p E E0 Hp. cbn. rewrite E. unfold upd. destruct (Nat.eqb_spec t t0); [subst|eauto 10]. rewrite Ht in E0. injection E0 as <-. eexists; split; [reflexivity|]. cbn. auto. }
  assert (O : forall w r t0, exists x', tasks (over s w r t0) t = Some x' /\ addr x' = addr x /\ (at_ x' = Ended -> at_ x = Ended \/ e = EEnd t)).
  { intros w r t0. unfold over. destruct (tasks s t0) as [x0|] eqn:E0; [|cbn; eauto]. apply M; auto; discriminate. }
  unfold step in Hs. destruct e as [t0 a|t0 w|t0|t0|w k|t0 u|t0].
  - destruct (tasks s t0) eqn:Et; [discriminate|]. destruct (frames s a); [discriminate|]. destruct (a =? 0); [discriminate|]. injection Hs as <- _. cbn. rewrite upd_other by congruence. eauto.
  - destruct (tasks s t0) as [x0|] eqn:Et; [|discriminate]. destruct (at_ x0); try discriminate. injection Hs as <- _. apply M; auto; discriminate.
  - destruct (tasks s t0) as [x0|] eqn:Et; [|discriminate]. destruct (at_ x0); try discriminate. injection Hs as <- _. apply M; auto; discriminate.
  - destruct (tasks s t0) as [x0|] eqn:Et; [|discriminate]. destruct (at_ x0); try discriminate. injection Hs as <- _. cbn. apply (M s t0 x0 (Waiting w)); auto; discriminate.
  - destruct (take_k k (rings s w)) as [[[u t0] r]|]; [|discriminate]. injection Hs as <- _. apply O.
  - destruct (tasks s t0) as [x0|] eqn:Et; [|discriminate]. destruct (at_ x0); try discriminate. destruct (take_ud u (rings s w)) as [[[v t1] r]|]; injection Hs as <- _.
    + destruct (O w r t1) as (x1 & H1 & H2 & H3). cbn. unfold upd. destruct (Nat.eqb_spec t t0); [|eauto]. subst. eexists; split; [reflexivity|]. cbn. rewrite Ht in Et. injection Et as ->. split; [reflexivity|discriminate].
    + apply M; auto; discriminate.
  - destruct (tasks s t0) as [x0|] eqn:Et; [|discriminate]. destruct (at_ x0); try discriminate. injection Hs as <- _. cbn. apply (M s t0 x0 Ended); auto.
Qed.
Lemma run_addr s l s' t x : Inv s -> run next s l = Some s' -> tasks s t = Some x ->
  exists x', tasks s' t = Some x' /\ addr x' = addr x /\ (at_ x' = Ended -> at_ x = Ended \/ In (EEnd t) l).
Proof.
  revert s x. induction l as [|e l IH]; intros s x HI Hr Ht; cbn [run] in Hr; [injection Hr as <-; eauto|]. unfold next at 1 in Hr. destruct (step s e) as [[s1 o]|] eqn:Es; [|discriminate]. cbn in Hr.
  destruct (step_addr _ _ _ _ _ _ HI Es Ht) as (x1 & H1 & H2 & H3). destruct (IH s1 x1 (Inv_step _ _ _ _ HI Es) Hr H1) as (x2 & G1 & G2 & G3). exists x2. split; [exact G1|]. split; [congruence|].
  intros E. destruct (G3 E) as [E'|E']; [destruct (H3 E') as [E2| ->]; auto; right; left; auto|right; right; auto].
Qed.
Lemma id_of s e s' o t a : step s e = Some (s', o) -> In (Id t a) o -> exists x, tasks s t = Some x /\ addr x = a /\ at_ x <> Ended.
Proof.
  unfold step. intros Hs Hin. destruct e as [t0 b|t0 w|t0|t0|w k|t0 u|t0].
  1: destruct (tasks s t0); [discriminate|]; destruct (frames s b); [discriminate|]; destruct (b =? 0); [discriminate|]; injection Hs as _ <-; contradiction.
  1,2,3,6: destruct (tasks s t0) as [x0|] eqn:Et; [|discriminate]; destruct (at_ x0) eqn:Ea; try discriminate; injection Hs as _ <-; try contradiction.
  - destruct Hin as [H|[]]. injection H as <- <-. exists x0. repeat split; auto. congruence.
  - destruct (take_k k (rings s w)) as [[[u t0] r]|]; [|discriminate]. injection Hs as _ <-. destruct Hin as [H|[]]; discriminate.
  - destruct (tasks s t0) as [x0|]; [|discriminate]. destruct (at_ x0); try discriminate. destruct (take_ud u (rings s w)) as [[[v t1] r]|]; injection Hs as _ <-; cbn in Hin; intuition discriminate.
Qed.
Lemma ids_of s l s' t a : Inv s -> run next s l = Some s' -> In (Id t a) (trace next observe s l) -> exists x, tasks s' t = Some x /\ addr x = a /\ (at_ x = Ended -> In (EEnd t) l).
Proof.
  revert s. induction l as [|e l IH]; intros s HI Hr Hin; cbn [run trace] in Hr, Hin; [contradiction|]. unfold next at 1 in Hr. unfold next at 1, observe at 1 in Hin. destruct (step s e) as [[s1 o]|] eqn:Es; [|discriminate]. cbn [option_map fst] in Hr, Hin.
  pose proof (Inv_step _ _ _ _ HI Es) as HI1. apply in_app_iff in Hin as [Hin|Hin].
  - destruct (id_of _ _ _ _ _ _ Es Hin) as (x & H1 & H2 & H3). destruct (step_addr _ _ _ _ _ _ HI Es H1) as (x1 & G1 & G2 & G3). destruct (run_addr _ _ _ _ _ HI1 Hr G1) as (x2 & K1 & K2 & K3). exists x2. split; auto. split; [congruence|].
    intros E. destruct (K3 E) as [E'|E']; [destruct (G3 E') as [E2| ->]; [contradiction|left; auto]|right; auto].
  - destruct (IH s1 HI1 Hr Hin) as (x & H1 & H2 & H3). exists x. split; auto. split; auto. intros E. right; auto.
Qed.

(** C117: this_task::get_id() identifies the task. For tasks that have not ended it does: whatever a task is told, in any history, is the same each time, is not null, and is told to no other task
    unless one of the two has ended. *)
Theorem C117_id_identifies_living_task_partial : forall l s, run next init l = Some s ->
  forall t a, In (Id t a) (trace next observe init l) ->
  a <> 0 /\ (forall b, In (Id t b) (trace next observe init l) -> b = a) /\
  (forall t', In (Id t' a) (trace next observe init l) -> t' = t \/ In (EEnd t) l \/ In (EEnd t') l).
Proof.
  intros l s Hr t a Hin. pose proof (Inv_run _ _ Hr) as HI. destruct (ids_of _ _ _ _ _ Inv_init Hr Hin) as (x & H1 & H2 & H3). split; [|split].
  - subst. eapply i_addr; eauto.
  - intros b Hb. destruct (ids_of _ _ _ _ _ Inv_init Hr Hb) as (y & G1 & G2 & _). congruence.
  - intros t' Ht'. destruct (ids_of _ _ _ _ _ Inv_init Hr Ht') as (y & G1 & G2 & G3).
    assert (D : forall q, {at_ q = Ended} + {at_ q <> Ended}) by (intros q; destruct (at_ q); (left; reflexivity) || (right; discriminate)).
    destruct (D x) as [Ex|Ex]; [auto|]. destruct (D y) as [Ey|Ey]; [auto|]. left.
    assert (F1 : frames s a = Some t) by (apply (i_frame _ HI); eauto). assert (F2 : frames s a = Some t') by (apply (i_frame _ HI); eauto). congruence.
Qed.
Print Assumptions C117_id_identifies_living_task_partial.

(** ... but not over time: for every id, a history in which a task that ended and a later one are both told it. *)
Theorem C117_id_reused_refuted : forall a, a <> 0 -> exists l s t t', run next init l = Some s /\ t <> t' /\
  In (Id t a) (trace next observe init l) /\ In (Id t' a) (trace next observe init l).
Proof.
  intros a Ha.
  set (l := [ENew 1 a; ERun 1 0; EGetId 1; ERun 1 0; EEnd 1; ENew 2 a; ERun 2 0; EGetId 2]). exists l.
  set (R := trace next observe init l). assert (T : run next init l <> None /\ R = [Id 1 a; Id 2 a]).
  { unfold R, l. destruct a as [|a]; [congruence|]. cbn. unfold next, observe, step, upd. cbn. rewrite !Nat.eqb_refl. cbn. split; [discriminate|reflexivity]. }
  destruct T as [T1 T2]. destruct (run next init l) as [s|]; [|congruence]. exists s, 1, 2. split; [reflexivity|]. split; [discriminate|]. rewrite T2. cbn; auto.
Qed.
Print Assumptions C117_id_reused_refuted.
Example C117_case : trace next observe init [ENew 1 8; ENew 2 9; ERun 1 0; ERun 2 1; EGetId 2; EGetId 1; ERun 1 1; ERun 2 0; EGetId 1; EEnd 2] = [Id 2 9; Id 1 8; Id 1 8].
Proof. reflexivity. Qed.

(** C118: cancelling by a task's id reaches exactly that task's pending operation. What holds: the canceller [t] runs on the worker whose ring the operation of [t'] is pending on, and [t'] was told [a] and
    has not ended: then [t'], and nobody else, gets ECANCELED and goes back to the queue; the canceller is told that something was cancelled. *)
Theorem C118_cancel_same_worker_partial : forall l s t x w t' y a, run next init l = Some s ->
  tasks s t = Some x -> at_ x = Running w -> In (Id t' a) (trace next observe init l) -> tasks s t' = Some y -> at_ y = Waiting w ->
  exists s', step s (ECancel t a) = Some (s', [Cancelled t'; Found t]) /\
  tasks s' t' = Some (T a Queued) /\ tasks s' t = Some (T (addr x) Queued) /\
  (forall t'', t'' <> t -> t'' <> t' -> tasks s' t'' = tasks s t'') /\
  (forall w' u t'', In (u, t'') (rings s' w') <-> In (u, t'') (rings s w') /\ t'' <> t').
Proof.
  intros l s t x w t' y a Hr Ht Hx Hid Ht' Hy. pose proof (Inv_run _ _ Hr) as HI. destruct (ids_of _ _ _ _ _ Inv_init Hr Hid) as (y' & G1 & G2 & _). rewrite Ht' in G1. injection G1 as <-. subst a.
  assert (Hne : t <> t') by (intros ->; congruence). pose proof (i_wait _ HI _ _ _ Ht' Hy) as Hin. unfold step. rewrite Ht, Hx.
  destruct (take_ud (addr y) (rings s w)) as [[[v q] r]|] eqn:Ek; [|exfalso; eapply (proj1 (take_ud_None _ _) Ek); eauto].
  pose proof (take_ud_spec _ _ _ _ Ek) as (Hv & l1 & l2 & E1 & E2). cbn in Hv. subst v r. destruct (i_ring _ HI w (addr y) q) as (z & Z1 & Z2 & Z3); [rewrite E1; apply in_elt|].
  assert (q = t').
  { assert (F1 : frames s (addr y) = Some t') by (apply (i_frame _ HI); exists y; repeat split; auto; congruence). assert (F2 : frames s (addr y) = Some q) by (apply (i_frame _ HI); exists z; repeat split; auto; congruence). congruence. }
  subst q. exists (set_at (over s w (l1 ++ l2) t') t x Queued). split; [reflexivity|]. unfold over. rewrite Ht'. cbn. repeat split.
  - rewrite upd_other by congruence. apply upd_same.
  - apply upd_same.
  - intros t'' N1 N2. rewrite !upd_other by congruence. reflexivity.
  - revert H. unfold upd. destruct (Nat.eqb_spec w' w); [|auto]. subst. rewrite E1, !in_app_iff. cbn. tauto.
  - revert H. unfold upd. destruct (Nat.eqb_spec w' w).
    + subst. intros H ->. pose proof (i_nd _ HI w) as Hnd. rewrite E1, map_app in Hnd. cbn in Hnd. apply NoDup_remove in Hnd as [_ Hni]. apply Hni. rewrite <- map_app. apply (in_map snd) in H. exact H.
    + intros H ->. destruct (i_ring _ HI w' u t' H) as (z' & K1 & K2 & K3). congruence.
  - intros [H1 H2]. unfold upd. destruct (Nat.eqb_spec w' w); [|auto]. subst. rewrite E1 in H1. apply in_app_iff in H1 as [H1|[H1|H1]]; apply in_app_iff; auto. congruence.
Qed.
Print Assumptions C118_cancel_same_worker_partial.

(** Whoever gets ECANCELED was waiting on the canceller's own ring, and its id is the one given; and the canceller is told -ENOENT exactly when there is nobody like that. *)
Theorem C118_cancel_hits_only_the_id_partial : forall l s t u s' o, run next init l = Some s -> step s (ECancel t u) = Some (s', o) ->
  exists x w, tasks s t = Some x /\ at_ x = Running w /\
  (forall t', In (Cancelled t') o -> exists y, tasks s t' = Some y /\ addr y = u /\ at_ y = Waiting w) /\
  (In (NotFound t) o <-> forall t' y, tasks s t' = Some y -> addr y = u -> at_ y <> Waiting w).
Proof.
  intros l s t u s' o Hr Hs. pose proof (Inv_run _ _ Hr) as HI. unfold step in Hs. destruct (tasks s t) as [x|] eqn:Et; [|discriminate]. destruct (at_ x) eqn:Ea; try discriminate. exists x, w. do 2 (split; [auto|]).
  destruct (take_ud u (rings s w)) as [[[v q] r]|] eqn:Ek; injection Hs as _ <-.
  - pose proof (take_ud_spec _ _ _ _ Ek) as (Hv & l1 & l2 & E1 & E2). cbn in Hv. subst v. destruct (i_ring _ HI w u q) as (z & Z1 & Z2 & Z3); [rewrite E1; apply in_elt|]. split.
    + intros t' [H|[H|[]]]; [|discriminate]. injection H as <-. eauto.
    + split; [intros [H|[H|[]]]; discriminate|]. intros H. exfalso. eapply H; eauto.
  - split; [intros t' [H|[]]; discriminate|]. split; [|intros _; left; reflexivity]. intros _ t' y H1 H2 H3. eapply (proj1 (take_ud_None u (rings s w)) Ek t'). subst u. eapply i_wait; eauto.
Qed.
Print Assumptions C118_cancel_hits_only_the_id_partial.

(** Not reached: the operation is pending on another worker's ring. Whichever worker [t'] waits on, a canceller on any other is told -ENOENT and the operation stays pending. *)
Theorem C118_cancel_other_worker_refuted : forall l s t x w t' y w', run next init l = Some s ->
  tasks s t = Some x -> at_ x = Running w -> tasks s t' = Some y -> at_ y = Waiting w' -> w <> w' ->
  exists s', step s (ECancel t (addr y)) = Some (s', [NotFound t]) /\ tasks s' t' = Some y /\ In (addr y, t') (rings s' w').
Proof.
  intros l s t x w t' y w' Hr Ht Hx Ht' Hy Hne. pose proof (Inv_run _ _ Hr) as HI. unfold step. rewrite Ht, Hx.
  assert (Ek : take_ud (addr y) (rings s w) = None).
  { apply take_ud_None. intros q Hq. destruct (i_ring _ HI w _ q Hq) as (z & Z1 & Z2 & Z3).
    assert (F1 : frames s (addr y) = Some t') by (apply (i_frame _ HI); exists y; repeat split; auto; congruence). assert (F2 : frames s (addr y) = Some q) by (apply (i_frame _ HI); exists z; repeat split; auto; congruence). congruence. }
  rewrite Ek. eexists. split; [reflexivity|]. cbn. rewrite upd_other by congruence. split; [exact Ht'|]. eapply i_wait; eauto.
Qed.
Print Assumptions C118_cancel_other_worker_refuted.
(** ... as here, with task 1 waiting on worker 1 and task 2 running on worker 0; on worker 1 it would have been reached *)
Definition other := [ENew 1 8; ERun 1 0; EGetId 1; ERun 1 1; ESubmit 1; ENew 2 9; ERun 2 0].
Example C118_other_case : trace next observe init (other ++ [ECancel 2 8; ERun 2 1; ECancel 2 8]) = [Id 1 8; NotFound 2; Cancelled 1; Found 2].
Proof. reflexivity. Qed.
Example C118_other_hyps : exists s x y, run next init other = Some s /\ tasks s 2 = Some x /\ at_ x = Running 0 /\ tasks s 1 = Some y /\ at_ y = Waiting 1.
Proof. eexists _, _, _. split; [reflexivity|]. repeat split. Qed.
Definition same := [ENew 1 8; ERun 1 0; EGetId 1; ERun 1 1; ESubmit 1; ENew 2 9; ERun 2 0; EGetId 2; ERun 2 1].
Example C118_same_hyps : exists s x y, run next init same = Some s /\ tasks s 2 = Some x /\ at_ x = Running 1 /\ In (Id 1 8) (trace next observe init same) /\ tasks s 1 = Some y /\ at_ y = Waiting 1.
Proof. eexists _, _, _. split; [reflexivity|]. repeat split. cbn. auto. Qed.

(** And a task's id outlives the task: whatever the id, a history in which task 3 cancels with the id task 1 was told, and an unrelated task 2 loses its operation. *)
Theorem C118_stale_id_refuted : forall a b, a <> 0 -> b <> 0 -> a <> b -> exists l,
  run next init (l ++ [ECancel 3 a]) <> None /\ trace next observe init (l ++ [ECancel 3 a]) = [Id 1 a; Cancelled 2; Found 3].
Proof.
  intros a b Ha Hb Hab. exists [ENew 1 a; ERun 1 0; EGetId 1; ERun 1 0; EEnd 1; ENew 2 a; ERun 2 0; ESubmit 2; ENew 3 b; ERun 3 0].
  destruct a as [|a]; [congruence|]. destruct b as [|b]; [congruence|]. assert (E1 : (a =? b) = false) by (apply Nat.eqb_neq; congruence). assert (E2 : (b =? a) = false) by (apply Nat.eqb_neq; congruence).
  cbn. unfold next, observe, step, upd. cbn. rewrite !Nat.eqb_refl. cbn. rewrite !E2. cbn. rewrite ?Nat.eqb_refl. cbn. split; [discriminate|reflexivity].
Qed.
Print Assumptions C118_stale_id_refuted.
