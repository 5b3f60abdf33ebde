(** C157: does cancel_all_polling() of a dir_mutex, and with it its destructor, return?

    src/dir_mutex.cc 98-112 (polling_lock_file: sleeps first, then looks at its stop token, tries, sleeps, ...), 80-96 (create_lock_file: throws unless openat succeeds or fails with EEXIST),
    114-131 (cancel_all_polling, noexcept: request_stop, takes the futures of all pollers out of the object and calls get() on each; ~dir_mutex calls it), 133-146 (a contended acquire() starts a poller);
    include/koios/task.h 184-197 (run_and_get_future of a lazy task: enqueued), include/koios/future.h 136-147 (get() blocks the thread; rethrows), include/koios/timer.h 193-212 (a sleeping task is in the
    timer of the worker it ran on), include/koios/event_loop.h 126-129 and src/thread_pool.cc 72-75 (a worker looks into its own timer only, between two tasks), include/koios/task_concepts.h/promise: an
    exception that leaves the coroutine goes to its future.

    Simplifications: one turn of a poller is one event; what else the workers run does not appear except that it may call cancel_all_polling(); any free worker may take any queued poller; the lock file
    does not appear (whether openat succeeds, fails with EEXIST or fails otherwise is free); std::terminate ends everything. *)
From Coq Require Import List Arith Bool Lia.
From Verif.Common Require Import TS.
Import ListNotations.
#[local] Arguments upd : simpl never.

(* where a poller is: dir_mutex.cc 98-112, timer.h 193-212 *)
Inductive ppos :=
| Fresh              (* enqueued, has not run yet *)
| Asleep (w : nat)   (* in the timer of worker w *)
| Woken              (* enqueued again after its sleep *)
| Ended (ok : bool). (* false: with an exception *)
(* of create_lock_file(), dir_mutex.cc 80-96 *)
Inductive outcome := Created | Exists | Fails.   (* of create_lock_file() *)
(* what the state keeps of dir_mutex.cc 98-146 *)
Record state := St {
  count : nat;                       (* pollers 0 .. count-1 *)
  obj : nat -> nat;                  (* the dir_mutex object of a poller *)
  pos : nat -> ppos;
  held : nat -> bool;                (* its future is in m_pollers of the object *)
  stop : nat -> bool;                (* m_stop_src of an object *)
  call : nat -> option (list nat);   (* thread: is inside cancel_all_polling() and has still to get() these *)
  terminated : bool }.
(* before anything has happened; dir_mutex.cc 98-146 *)
Definition init : state := St 0 (fun _ => 0) (fun _ => Ended true) (fun _ => false) (fun _ => false) (fun _ => None) false.

(* the steps of dir_mutex.cc 98-146 *)
Inductive event :=
| Start (o : nat)                    (* a contended acquire() on object o, by any coroutine *)
| Turn (w p : nat) (r : outcome)     (* worker w runs poller p up to its next suspension or its end *)
| Due (p : nat)                      (* its deadline has passed and the worker whose timer it is in finds it *)
| Cancel (a o : nat)                 (* thread a calls cancel_all_polling() of object o, or destroys it *)
| Got (a : nat)                      (* get() of the next future returns or throws *)
| Return (a : nat).                  (* cancel_all_polling() returns *)

Section M.
Variable n : nat.                    (* workers are the threads below n *)
(* the thread is not blocked inside cancel_all_polling(): dir_mutex.cc 121-124 *)
Definition free (s : state) (a : nat) : bool := match call s a with None => true | Some _ => false end.
(* bookkeeping of the model, no counterpart in /repo *)
Definition set_pos (s : state) (p : nat) (x : ppos) : state := St (count s) (obj s) (upd (pos s) p x) (held s) (stop s) (call s) (terminated s).
(* bookkeeping of the model, no counterpart in /repo *)
Definition set_call (s : state) (a : nat) (x : option (list nat)) : state := St (count s) (obj s) (pos s) (held s) (stop s) (upd (call s) a x) (terminated s).
(* what cancel_all_polling() moves out of m_pollers: dir_mutex.cc 118-119 *)
Definition futures (s : state) (o : nat) : list nat := filter (fun p => held s p && (obj s p =? o)) (seq 0 (count s)).
(* what each step does: dir_mutex.cc 98-146 *)
Definition step (s : state) (e : event) : option state :=
  if terminated s then None else
  match e with
  | Start o => Some (St (S (count s)) (upd (obj s) (count s) o) (upd (pos s) (count s) Fresh) (upd (held s) (count s) true) (stop s) (call s) false)
  | Turn w p r => if (w <? n) && (p <? count s) && free s w then
      match pos s p with
      | Fresh => Some (set_pos s p (Asleep w))
      | Woken => Some (set_pos s p (if stop s (obj s p) then Ended true else match r with Created => Ended true | Exists => Asleep w | Fails => Ended false end))
      | _ => None
      end else None
  | Due p => match pos s p with Asleep w => if free s w then Some (set_pos s p Woken) else None | _ => None end
  | Cancel a o => if free s a then
      Some (St (count s) (obj s) (pos s) (fun p => held s p && negb (obj s p =? o)) (upd (stop s) o true) (upd (call s) a (Some (futures s o))) false)
    else None
  | Got a => match call s a with
             | Some (p :: l) => match pos s p with
                                | Ended true => Some (set_call s a (Some l))
                                | Ended false => Some (St (count s) (obj s) (pos s) (held s) (stop s) (call s) true)
                                | _ => None
                                end
             | _ => None
             end
  | Return a => match call s a with Some [] => Some (set_call s a None) | _ => None end
  end.

(** ** specification *)
(** thread [a] is inside cancel_all_polling() and has not finished with poller [p] *)
Definition waits_for (s : state) (a p : nat) : Prop := exists l, call s a = Some l /\ In p l.
(** cancel_all_polling() is called by threads outside the pool only *)
Definition outside (l : list event) : Prop := forall a o, In (Cancel a o) l -> n <= a.
(** no poll fails *)
Definition no_failure (l : list event) : Prop := forall w p, ~ In (Turn w p Fails) l.
(** a step that the call of thread [a] is waiting for *)
Definition helps (s : state) (a : nat) (e : event) : Prop := match e with Got b | Return b => b = a | Turn _ p _ | Due p => waits_for s a p | _ => False end.
(** how many of them are still to come, at most *)
Definition rem (x : ppos) : nat := match x with Fresh => 3 | Asleep _ => 2 | Woken => 1 | Ended _ => 0 end.
Definition to_come (s : state) (a : nat) : nat := match call s a with None => 0 | Some l => 1 + list_sum (map (fun p => 1 + rem (pos s p)) l) end.

(** the pollers that the acquires in [l] have started on object [o] since the last cancel_all_polling() of [o], [k] pollers having been started before and [acc] being left over *)
Fixpoint outstanding (l : list event) (o k : nat) (acc : list nat) : list nat :=
  match l with
  | [] => acc
  | Start o' :: r => outstanding r o (S k) (if o' =? o then acc ++ [k] else acc)
  | Cancel _ o' :: r => outstanding r o k (if o' =? o then [] else acc)
  | _ :: r => outstanding r o k acc
  end.
(* how many acquires in [l] start a poller *)
Definition starts (l : list event) : nat := length (filter (fun e => match e with Start _ => true | _ => false end) l).

(** ** proof *)
Record Inv (s : state) : Prop := {
  i_out : forall p, count s <= p -> pos s p = Ended true /\ held s p = false;
  i_call : forall a l p, call s a = Some l -> In p l -> p < count s /\ stop s (obj s p) = true;
  i_w : forall p w, pos s p = Asleep w -> w < n }.
Lemma Inv_init : Inv init.
Proof. split; cbn; auto; discriminate. Qed.
Lemma inv_pos s p x : Inv s -> p < count s -> (forall w, x = Asleep w -> w < n) -> Inv (set_pos s p x).
Proof.
  intros [I1 I2 I3] Hp Hx. split; cbn.
  - intros q Hq. rewrite upd_other by lia. auto.
  - exact I2.
  - intros q w. unfold upd. destruct (q =? p); [auto|apply I3].
Qed.
Lemma in_futures s o p : In p (futures s o) <-> p < count s /\ held s p = true /\ obj s p = o.
Proof. unfold futures. rewrite filter_In, in_seq, andb_true_iff, Nat.eqb_eq. intuition lia. Qed.
Lemma alive s p : Inv s -> pos s p <> Ended true -> p < count s.
Proof. intros H N. destruct (Nat.lt_ge_cases p (count s)) as [|G]; [assumption|]. destruct (i_out _ H p G). congruence. Qed.
Lemma Inv_step s e s' : Inv s -> step s e = Some s' -> Inv s'.
Proof.
  intros HI Hs. unfold step in Hs. destruct (terminated s); [discriminate|]. destruct e as [o|w p r|p|a o|a|a].
  - injection Hs as <-. destruct HI as [I1 I2 I3]. split; cbn.
    + intros p Hp. rewrite !upd_other by lia. apply I1. lia.
    + intros a l p Ha Hl. destruct (I2 a l p Ha Hl) as (G1 & G2). split; [lia|]. rewrite upd_other by lia. exact G2.
    + intros p w. unfold upd. destruct (p =? count s); [discriminate|apply I3].
  - destruct ((w <? n) && (p <? count s) && free s w) eqn:E; [|discriminate]. apply andb_true_iff in E as [E _]. apply andb_true_iff in E as [E1 E2]. apply Nat.ltb_lt in E1, E2.
    destruct (pos s p) eqn:Ep; try discriminate; injection Hs as <-; apply inv_pos; auto; intros w' G; [congruence|]. destruct (stop s (obj s p)); [discriminate|]. destruct r; congruence.
  - destruct (pos s p) as [|w| |] eqn:Ep; try discriminate. destruct (free s w); [|discriminate]. injection Hs as <-. apply inv_pos; auto; [|discriminate]. apply alive; [exact HI|congruence].
  - destruct (free s a); [|discriminate]. injection Hs as <-. destruct HI as [I1 I2 I3]. split; cbn.
    + intros p Hp. destruct (I1 p Hp) as (G1 & G2). rewrite G2. auto.
    + intros b l p. unfold upd at 1. destruct (b =? a).
      * intros [= <-] Hl. apply in_futures in Hl. destruct Hl as (G1 & _ & G2). split; [exact G1|]. rewrite G2. apply upd_same.
      * intros Hb Hl. destruct (I2 b l p Hb Hl) as (G1 & G2). split; [exact G1|]. unfold upd. destruct (obj s p =? o); auto.
    + exact I3.
  - destruct (call s a) as [[|p l]|] eqn:Ea; try discriminate. destruct HI as [I1 I2 I3]. destruct (pos s p) as [| | |[|]]; try discriminate; injection Hs as <-; (split; cbn; [exact I1| |exact I3]); [|exact I2].
    intros b l' q. unfold upd. destruct (Nat.eqb_spec b a) as [->|]; [intros [= <-] Hl; apply (I2 a (p :: l)); [exact Ea|now right]|apply I2].
  - destruct (call s a) as [[|p l]|] eqn:Ea; try discriminate. injection Hs as <-. destruct HI as [I1 I2 I3]. split; cbn; [exact I1| |exact I3].
    intros b l' q. unfold upd. destruct (b =? a); [discriminate|apply I2].
Qed.
Lemma Inv_run l s : run step init l = Some s -> Inv s.
Proof. apply (run_inv _ Inv); [apply Inv_step|apply Inv_init]. Qed.

(** ** nobody but the workers that are free moves a poller *)
Definition frozen (s : state) (p : nat) : Prop := (exists w, pos s p = Asleep w /\ free s w = false) \/ pos s p = Ended false \/ (pos s p <> Ended true /\ forall w, w < n -> free s w = false).
Lemma frozen_step s e s' p : Inv s -> frozen s p -> step s e = Some s' -> pos s' p = pos s p.
Proof.
  intros HI F Hs. assert (Hp : p < count s). { apply alive; [exact HI|]. destruct F as [(w & F & _)|[F|(F & _)]]; congruence. }
  unfold step in Hs. destruct (terminated s); [discriminate|]. destruct e as [o|w q r|q|a o|a|a].
  - injection Hs as <-. cbn. apply upd_other. lia.
  - destruct ((w <? n) && (q <? count s) && free s w) eqn:E; [|discriminate]. apply andb_true_iff in E as [E E3]. apply andb_true_iff in E as [E1 E2]. apply Nat.ltb_lt in E1.
    destruct (Nat.eq_dec p q) as [->|N]; [|destruct (pos s q); try discriminate; injection Hs as <-; now apply upd_other].
    exfalso. destruct F as [(v & F & _)|[F|(_ & F)]]; [rewrite F in Hs; discriminate|rewrite F in Hs; discriminate|]. rewrite (F w E1) in E3. discriminate.
  - destruct (pos s q) as [|w| |] eqn:Eq; try discriminate. destruct (free s w) eqn:Ef; [|discriminate]. injection Hs as <-. destruct (Nat.eq_dec p q) as [->|N]; [|now apply upd_other].
    exfalso. destruct F as [(v & F1 & F2)|[F|(_ & F)]]; [congruence|congruence|]. rewrite (F w) in Ef by (eapply i_w; eauto). discriminate.
  - destruct (free s a); [|discriminate]. injection Hs as <-. reflexivity.
  - destruct (call s a) as [[|q l]|]; try discriminate. destruct (pos s q) as [| | |[|]]; try discriminate; injection Hs as <-; reflexivity.
  - destruct (call s a) as [[|q l]|]; try discriminate. injection Hs as <-. reflexivity.
Qed.
Lemma waits_step s e s' a p : waits_for s a p -> pos s p <> Ended true -> step s e = Some s' -> waits_for s' a p.
Proof.
  intros (l & Ha & Hl) N Hs. unfold step in Hs. destruct (terminated s); [discriminate|]. destruct e as [o|w q r|q|b o|b|b].
  - injection Hs as <-. exists l. auto.
  - destruct ((w <? n) && (q <? count s) && free s w); [|discriminate]. destruct (pos s q); try discriminate; injection Hs as <-; exists l; auto.
  - destruct (pos s q) as [|w| |]; try discriminate. destruct (free s w); [|discriminate]. injection Hs as <-. exists l. auto.
  - destruct (free s b) eqn:Ef; [|discriminate]. injection Hs as <-. exists l. cbn. rewrite upd_other; [auto|]. intros ->. unfold free in Ef. rewrite Ha in Ef. discriminate.
  - destruct (call s b) as [[|q l']|] eqn:Eb; try discriminate. destruct (pos s q) as [| | |[|]] eqn:Eq; try discriminate; injection Hs as <-; [|exists l; auto]. unfold waits_for. cbn. unfold upd. destruct (Nat.eqb_spec a b) as [<-|]; [|exists l; auto].
    exists l'. split; [reflexivity|]. rewrite Ha in Eb. injection Eb as ->. destruct Hl as [->|]; [congruence|assumption].
  - destruct (call s b) as [[|q l']|] eqn:Eb; try discriminate. injection Hs as <-. exists l. cbn. rewrite upd_other; [auto|]. intros ->. rewrite Ha in Eb. injection Eb as ->. destruct Hl.
Qed.
Lemma waits_busy s a p : waits_for s a p -> free s a = false.
Proof. intros (l & H & _). unfold free. now rewrite H. Qed.

(** C157, refuted: the caller is the worker in whose timer one of the pollers sleeps: whatever the other workers do, the call never returns *)
Theorem C157_own_timer_refuted : forall l s a p, run step init l = Some s -> waits_for s a p -> pos s p = Asleep a ->
  forall l' s', run step s l' = Some s' -> waits_for s' a p /\ pos s' p = Asleep a.
Proof.
  intros l s a p R Hw Hp l' s' R'. assert (H : Inv s' /\ waits_for s' a p /\ pos s' p = Asleep a); [|tauto]. revert R'.
  apply (run_inv _ (fun s => Inv s /\ waits_for s a p /\ pos s p = Asleep a)); [|split; [eapply Inv_run; eauto|auto]].
  intros s0 e s1 (H1 & H2 & H3) Hs. split; [eapply Inv_step; eauto|]. split; [eapply waits_step; eauto; congruence|]. rewrite (frozen_step _ _ _ p H1) with (2 := Hs); [exact H3|]. left. exists a. split; [exact H3|]. eapply waits_busy; eauto.
Qed.
(** ... or all workers are inside such calls, each waiting for a poller that has not ended: nobody is left to run the pollers. With one worker: every call made by a task while a poller of the object lives *)
Theorem C157_all_workers_refuted : forall l s, run step init l = Some s -> (forall w, w < n -> exists p, waits_for s w p /\ pos s p <> Ended true) ->
  forall l' s', run step s l' = Some s' -> forall w, w < n -> exists p, waits_for s' w p /\ pos s' p <> Ended true.
Proof.
  intros l s R H l' s' R'. assert (G : Inv s' /\ forall w, w < n -> exists p, waits_for s' w p /\ pos s' p <> Ended true); [|apply G]. revert R'.
  apply (run_inv _ (fun s => Inv s /\ forall w, w < n -> exists p, waits_for s w p /\ pos s p <> Ended true)); [|split; [eapply Inv_run; eauto|exact H]].
  intros s0 e s1 (H1 & H2) Hs. split; [eapply Inv_step; eauto|]. intros w Hw. destruct (H2 w Hw) as (p & P1 & P2). exists p. split; [eapply waits_step; eauto|]. rewrite (frozen_step _ _ _ p H1) with (2 := Hs); [exact P2|].
  right. right. split; [exact P2|]. intros v Hv. destruct (H2 v Hv) as (q & Q & _). eapply waits_busy; eauto.
Qed.
(** ... or a poll has failed (openat: ENOENT, EMFILE, ...): the call never returns *)
Theorem C157_failed_poll_refuted : forall l s a p, run step init l = Some s -> waits_for s a p -> pos s p = Ended false ->
  forall l' s', run step s l' = Some s' -> waits_for s' a p.
Proof.
  intros l s a p R Hw Hp l' s' R'. assert (H : Inv s' /\ waits_for s' a p /\ pos s' p = Ended false); [|tauto]. revert R'.
  apply (run_inv _ (fun s => Inv s /\ waits_for s a p /\ pos s p = Ended false)); [|split; [eapply Inv_run; eauto|auto]].
  intros s0 e s1 (H1 & H2 & H3) Hs. split; [eapply Inv_step; eauto|]. split; [eapply waits_step; eauto; congruence|]. rewrite (frozen_step _ _ _ p H1) with (2 := Hs); [exact H3|]. right. left. exact H3.
Qed.

(** ** what holds *)
Lemma sum_change (f g : nat -> nat) l p : (forall q, q <> p -> f q = g q) -> f p < g p -> (list_sum (map f l) <= list_sum (map g l)) /\ (In p l -> list_sum (map f l) < list_sum (map g l)).
Proof.
  intros H1 H2. unfold list_sum. induction l as [|q l (IH1 & IH2)]; cbn [map fold_right In]; [split; [lia|contradiction]|]. destruct (Nat.eq_dec q p) as [->|N].
  - split; [lia|]. intros _. lia.
  - rewrite (H1 q N). split; [lia|]. intros [G|G]; [congruence|]. specialize (IH2 G). lia.
Qed.
(** C157, the steps a call is waiting for: there are at most [to_come] of them, and no other step makes more *)
Theorem C157_bounded_partial : forall l s e s' a, run step init l = Some s -> step s e = Some s' -> terminated s' = false -> call s a <> None ->
  to_come s' a <= to_come s a /\ (helps s a e -> to_come s' a < to_come s a).
Proof.
  intros l s e s' a R Hs Ht Ha. pose proof (Inv_run _ _ R) as HI. clear R. unfold step in Hs. destruct (terminated s) eqn:Et; [discriminate|].
  destruct (call s a) as [lst|] eqn:Ec; [|congruence].
  assert (PC : forall p x, p < count s -> rem x < rem (pos s p) -> to_come (set_pos s p x) a <= to_come s a /\ (waits_for s a p -> to_come (set_pos s p x) a < to_come s a)).
  { intros p x _ Hr. unfold to_come. cbn [set_pos call pos]. rewrite Ec. destruct (sum_change (fun q => 1 + rem (upd (pos s) p x q)) (fun q => 1 + rem (pos s q)) lst p) as (S1 & S2).
    - intros q N. now rewrite upd_other.
    - rewrite upd_same. lia.
    - split; [lia|]. intros (l' & E & Hin). rewrite Ec in E. injection E as <-. specialize (S2 Hin). lia. }
  destruct e as [o|w p r|p|b o|b|b]; cbn [helps].
  - injection Hs as <-. split; [|contradiction]. unfold to_come. cbn [call pos]. rewrite Ec. apply le_n_S. apply Nat.eq_le_incl. f_equal. apply map_ext_in. intros q Hq. destruct (i_call _ HI a lst q Ec Hq) as (Hc & _). now rewrite upd_other by lia.
  - destruct ((w <? n) && (p <? count s) && free s w) eqn:E; [|discriminate]. apply andb_true_iff in E as [E _]. apply andb_true_iff in E as [_ E]. apply Nat.ltb_lt in E.
    destruct (pos s p) eqn:Ep; try discriminate; injection Hs as <-; [apply PC; [exact E|rewrite Ep; cbn; lia]|]. destruct (stop s (obj s p)) eqn:Es; [apply PC; [exact E|rewrite Ep; cbn; lia]|].
    (* not cancelled: nobody waits for it *)
    assert (NW : ~ In p lst) by (intros G; destruct (i_call _ HI a lst p Ec G); congruence). split; [|intros (l' & El & G); rewrite Ec in El; injection El as <-; contradiction].
    unfold to_come. cbn [set_pos call pos]. rewrite Ec. apply le_n_S. apply Nat.eq_le_incl. f_equal. apply map_ext_in. intros q Hq. now rewrite upd_other by congruence.
  - destruct (pos s p) as [|w| |] eqn:Ep; try discriminate. destruct (free s w); [|discriminate]. injection Hs as <-. apply PC; [apply alive; [exact HI|congruence]|rewrite Ep; cbn; lia].
  - destruct (free s b) eqn:Ef; [|discriminate]. injection Hs as <-. split; [|contradiction]. unfold to_come. cbn [call pos]. rewrite upd_other; [rewrite Ec; lia|]. intros ->. unfold free in Ef. rewrite Ec in Ef. discriminate.
  - destruct (call s b) as [[|p l']|] eqn:Eb; try discriminate. destruct (pos s p) as [| | |[|]] eqn:Ep; try discriminate; injection Hs as <-; [|discriminate]. unfold to_come. cbn [set_call call pos]. unfold upd. destruct (Nat.eqb_spec a b) as [<-|N].
    + rewrite Ec in Eb |- *. injection Eb as ->. cbn [map list_sum fold_right]. change (fold_right Nat.add 0) with list_sum. lia.
    + rewrite Ec. split; [lia|]. intros ->. congruence.
  - destruct (call s b) as [[|p l']|] eqn:Eb; try discriminate. injection Hs as <-. unfold to_come. cbn [set_call call pos]. unfold upd. destruct (Nat.eqb_spec a b) as [<-|N].
    + rewrite Ec. lia.
    + rewrite Ec. split; [lia|]. intros ->. congruence.
Qed.
Lemma calm l s : outside l -> no_failure l -> run step init l = Some s -> terminated s = false /\ (forall w, w < n -> call s w = None) /\ forall p, pos s p <> Ended false.
Proof.
  revert s. induction l as [|e l IH] using rev_ind; intros s Ho Hn R.
  - cbn in R. injection R as <-. cbn. repeat split; discriminate.
  - apply run_app_inv in R. destruct R as (s1 & R1 & R2). cbn in R2. destruct (step s1 e) as [s2|] eqn:E; [|discriminate]. injection R2 as <-.
    destruct (IH s1) as (T & C & P); [intros a o G; apply (Ho a o); apply in_app_iff; auto|intros w p G; apply (Hn w p); apply in_app_iff; auto|exact R1|]. unfold step in E. rewrite T in E. destruct e as [o|w p r|p|a o|a|a].
    + injection E as <-. cbn. repeat split; auto. intros p. unfold upd. destruct (p =? count s1); [discriminate|apply P].
    + destruct ((w <? n) && (p <? count s1) && free s1 w); [|discriminate].
      assert (U : forall x, x <> Ended false -> terminated (set_pos s1 p x) = false /\ (forall v, v < n -> call (set_pos s1 p x) v = None) /\ forall q, pos (set_pos s1 p x) q <> Ended false).
      { intros x Hx. cbn. repeat split; auto. intros q. unfold upd. destruct (q =? p); auto. }
      destruct (pos s1 p); try discriminate; injection E as <-; apply U; [discriminate|]. destruct (stop s1 (obj s1 p)); [discriminate|]. destruct r; try discriminate. exfalso. apply (Hn w p). apply in_app_iff. right. left. reflexivity.
    + destruct (pos s1 p) as [|w| |]; try discriminate. destruct (free s1 w); [|discriminate]. injection E as <-. cbn. repeat split; auto. intros q. unfold upd. destruct (q =? p); [discriminate|apply P].
    + destruct (free s1 a); [|discriminate]. injection E as <-. cbn. repeat split; auto. intros w Hw. rewrite upd_other; [auto|]. assert (n <= a) by (apply (Ho a o); apply in_app_iff; right; left; reflexivity). lia.
    + destruct (call s1 a) as [[|p l']|] eqn:Ea; try discriminate. destruct (pos s1 p) as [| | |[|]] eqn:Ep; try discriminate; injection E as <-; [|destruct (P p Ep)]. cbn. repeat split; auto. intros w Hw. rewrite upd_other; [auto|]. intros ->. rewrite C in Ea by exact Hw. discriminate.
    + destruct (call s1 a) as [[|p l']|] eqn:Ea; try discriminate. injection E as <-. cbn. repeat split; auto. intros w Hw. unfold upd. destruct (w =? a); auto.
Qed.
(** ... and if the calls are made outside the pool and no poll fails, such a step is possible until the call has returned *)
Theorem C157_returns_outside_partial : forall l s a, 0 < n -> outside l -> no_failure l -> run step init l = Some s -> call s a <> None -> exists e s', helps s a e /\ step s e = Some s'.
Proof.
  intros l s a Hn Ho Hf R Ha. pose proof (Inv_run _ _ R) as HI. destruct (calm l s Ho Hf R) as (T & C & P). destruct (call s a) as [[|p lst]|] eqn:Ec; [| |congruence].
  - exists (Return a). eexists. split; [reflexivity|]. unfold step. rewrite T, Ec. reflexivity.
  - assert (W : waits_for s a p) by (exists (p :: lst); split; [exact Ec|left; reflexivity]). destruct (i_call _ HI a _ p Ec (or_introl eq_refl)) as (Hp & Hst).
    assert (F : forall w, w < n -> free s w = true) by (intros w Hw; unfold free; rewrite C by exact Hw; reflexivity).
    destruct (pos s p) as [|w| |[|]] eqn:Ep.
    + exists (Turn 0 p Exists). eexists. split; [exact W|]. unfold step. rewrite T, (proj2 (Nat.ltb_lt 0 n)), (proj2 (Nat.ltb_lt p (count s))), (F 0 Hn), Ep by assumption. reflexivity.
    + exists (Due p). eexists. split; [exact W|]. unfold step. rewrite T, Ep, (F w) by (eapply i_w; eauto). reflexivity.
    + exists (Turn 0 p Exists). eexists. split; [exact W|]. unfold step. rewrite T, (proj2 (Nat.ltb_lt 0 n)), (proj2 (Nat.ltb_lt p (count s))), (F 0 Hn), Ep by assumption. reflexivity.
    + exists (Got a). eexists. split; [reflexivity|]. unfold step. rewrite T, Ec, Ep. reflexivity.
    + destruct (P p Ep).
Qed.
(** ** what a call waits for: all the pollers of its object, and no other *)
Lemma outstanding_snoc : forall l e o k acc, outstanding (l ++ [e]) o k acc =
  match e with Start o' => if o' =? o then outstanding l o k acc ++ [k + starts l] else outstanding l o k acc | Cancel _ o' => if o' =? o then [] else outstanding l o k acc | _ => outstanding l o k acc end.
Proof.
  induction l as [|x l IH]; intros e o k acc; cbn [outstanding app]; [destruct e; cbn; try (destruct (_ =? _)); rewrite ?Nat.add_0_r; reflexivity|].
  destruct x; rewrite IH; unfold starts; cbn [filter length]; try reflexivity. destruct e; try reflexivity. rewrite Nat.add_succ_r. reflexivity.
Qed.
Lemma starts_snoc l e : starts (l ++ [e]) = starts l + match e with Start _ => 1 | _ => 0 end.
Proof. unfold starts. rewrite filter_app, app_length. destruct e; reflexivity. Qed.
Lemma outstanding_run l s : run step init l = Some s -> count s = starts l /\ forall o, futures s o = outstanding l o 0 [].
Proof.
  revert s. induction l as [|e l IH] using rev_ind; intros s R; [injection R as <-; split; reflexivity|].
  apply run_app_inv in R. destruct R as (s1 & R1 & R2). cbn in R2. destruct (step s1 e) as [s2|] eqn:E; [|discriminate]. injection R2 as <-.
  destruct (IH s1 R1) as (HC & HF). clear IH. rewrite starts_snoc. pose proof (Inv_run _ _ R1) as HI. unfold step in E. destruct (terminated s1); [discriminate|].
  destruct e as [o|w p r|p|a o|a|a].
  - injection E as <-. cbn [count]. split; [lia|]. intros o1. rewrite outstanding_snoc, <- (HF o1), <- HC. cbn [Nat.add]. unfold futures. cbn [count held obj]. rewrite seq_S, filter_app. cbn [filter Nat.add]. rewrite !upd_same. cbn [andb].
    replace (filter (fun p => upd (held s1) (count s1) true p && (upd (obj s1) (count s1) o p =? o1)) (seq 0 (count s1))) with (filter (fun p => held s1 p && (obj s1 p =? o1)) (seq 0 (count s1))); [destruct (o =? o1); [reflexivity|apply app_nil_r]|].
    apply filter_ext_in. intros p Hp. apply in_seq in Hp. rewrite !upd_other by lia. reflexivity.
  - destruct ((w <? n) && (p <? count s1) && free s1 w); [|discriminate]. rewrite Nat.add_0_r. destruct (pos s1 p); try discriminate; injection E as <-; (split; [exact HC|]); intros o1; rewrite outstanding_snoc; apply HF.
  - rewrite Nat.add_0_r. destruct (pos s1 p) as [|w| |]; try discriminate. destruct (free s1 w); [|discriminate]. injection E as <-. (split; [exact HC|]); intros o1; rewrite outstanding_snoc; apply HF.
  - destruct (free s1 a); [|discriminate]. injection E as <-. rewrite Nat.add_0_r. split; [exact HC|]. intros o1. rewrite outstanding_snoc. unfold futures. cbn [count held obj]. destruct (Nat.eqb_spec o o1) as [G|N].
    + subst o1. induction (seq 0 (count s1)) as [|p q IHq]; [reflexivity|]. cbn [filter]. destruct (obj s1 p =? o); cbn [negb]; rewrite ?andb_false_r; exact IHq.
    + rewrite <- HF. apply filter_ext. intros p. destruct (Nat.eqb_spec (obj s1 p) o) as [G|G]; [|now rewrite andb_true_r]. cbn [negb]. rewrite andb_false_r. cbn. destruct (Nat.eqb_spec (obj s1 p) o1); [congruence|]. now rewrite andb_false_r.
  - rewrite Nat.add_0_r. destruct (call s1 a) as [[|p lst]|]; try discriminate. destruct (pos s1 p) as [| | |[|]]; try discriminate; injection E as <-; (split; [exact HC|]); intros o1; rewrite outstanding_snoc; apply HF.
  - rewrite Nat.add_0_r. destruct (call s1 a) as [[|p lst]|]; try discriminate. injection E as <-. (split; [exact HC|]); intros o1; rewrite outstanding_snoc; apply HF.
Qed.
Theorem C157_waits_for_all_partial : forall l s a o s', run step init l = Some s -> step s (Cancel a o) = Some s' -> call s' a = Some (outstanding l o 0 []).
Proof.
  intros l s a o s' R Hs. destruct (outstanding_run l s R) as (_ & HF). unfold step in Hs. destruct (terminated s); [discriminate|]. destruct (free s a); [|discriminate]. injection Hs as <-. cbn. rewrite upd_same. f_equal. apply HF.
Qed.
End M.
Print Assumptions C157_waits_for_all_partial.
Print Assumptions C157_own_timer_refuted.
Print Assumptions C157_all_workers_refuted.
Print Assumptions C157_failed_poll_refuted.
Print Assumptions C157_bounded_partial.
Print Assumptions C157_returns_outside_partial.

(** the situations of the theorems, for every number of workers *)
Example C157_own_timer_case n : 1 <= n -> exists s, run (step n) init [Start 0; Turn 0 0 Exists; Cancel 0 0] = Some s /\ waits_for s 0 0 /\ pos s 0 = Asleep 0.
Proof. intros Hn. destruct n as [|n]; [lia|]. eexists. split; [reflexivity|]. split; [|reflexivity]. exists [0]. split; [reflexivity|left; reflexivity]. Qed.
Example C157_one_worker_case : exists s, run (step 1) init [Start 0; Cancel 0 0] = Some s /\ forall w, w < 1 -> exists p, waits_for s w p /\ pos s p <> Ended true.
Proof. eexists. split; [reflexivity|]. intros w Hw. assert (w = 0) by lia. subst. exists 0. split; [|discriminate]. exists [0]. split; [reflexivity|left; reflexivity]. Qed.
Example C157_failed_poll_case : exists s, run (step 2) init [Start 0; Turn 0 0 Exists; Due 0; Turn 1 0 Fails; Cancel 7 0] = Some s /\ waits_for s 7 0 /\ pos s 0 = Ended false /\
  exists s', step 2 s (Got 7) = Some s' /\ terminated s' = true.
Proof. eexists. split; [reflexivity|]. split; [exists [0]; split; [reflexivity|left; reflexivity]|]. split; [reflexivity|]. eexists. split; reflexivity. Qed.
(** two pollers, one of which is asleep: eight steps later the call of thread 7 has returned *)
Example C157_returns_case : exists s, run (step 2) init [Start 0; Start 1; Turn 0 0 Exists; Start 0; Cancel 7 0] = Some s /\ to_come s 7 = 8 /\
  exists s', run (step 2) s [Due 0; Turn 1 0 Exists; Got 7; Turn 0 2 Exists; Due 2; Turn 0 2 Exists; Got 7; Return 7] = Some s' /\ call s' 7 = None.
Proof. eexists. split; [reflexivity|]. split; [reflexivity|]. eexists. split; reflexivity. Qed.
(** three pollers of two objects; the second call for object 0 has only the third to wait for *)
Example C157_waits_for_all_case : exists s, run (step 2) init [Start 0; Start 1; Cancel 7 0; Start 0] = Some s /\ outstanding [Start 0; Start 1; Cancel 7 0; Start 0] 0 0 [] = [2] /\
  exists s', step 2 s (Cancel 8 0) = Some s' /\ call s' 8 = Some [2].
Proof. eexists. split; [reflexivity|]. split; [reflexivity|]. eexists. split; reflexivity. Qed.
