(** C156: waiting by get() or result() inside a task, with other workers free.

    Over Model.v: a task that sleeps or waits for I/O is in the event loop of the worker it ran on (timer.h 193-212, iouring.cc 67-96), and only that worker looks into it, between two tasks
    (event_loop.h 126-129, thread_pool.cc 72-75). A worker inside get() (future.h 136-147) does not. *)
From Coq Require Import List Arith Bool Lia.
From Verif.Common Require Import TS Sum.
From Verif.Blocking Require Import Model Props.
Import ListNotations.
#[local] Arguments upd : simpl never.

(** what worker [w] has on its stack and in its event loop is changed by nobody else *)
(* specification, no counterpart in /repo *)
Definition of_worker (w : nat) (e : event) : bool := match e with Act w' | Unblock w' => w' =? w | _ => false end.
Lemma frame n s e s' w : Inv n s -> step n s e = Some s' -> stacks s w <> [] -> of_worker w e = false ->
  stacks s' w = stacks s w /\ (forall u, In u (stacks s w) -> tasks s' u = tasks s u) /\ forall u, st (tasks s u) = Asleep w -> tasks s' u = tasks s u.
Proof.
  intros HI Hs Hne Ho. unfold step in Hs.
  assert (Hq : forall t, ~ on_stack (st (tasks s t)) -> forall u, In u (stacks s w) -> u <> t). { intros t Ht u Hu ->. apply Ht. apply (i_in _ _ HI w t Hu). }
  destruct e as [v t|v|v|t|t]; cbn [of_worker] in Ho.
  - destruct ((v <? n) && (t <? count s)); [|discriminate]. destruct (stacks s v) eqn:Ev; [|discriminate]. destruct (st (tasks s t)) eqn:Es; try discriminate. injection Hs as <-. cbn [set stacks tasks].
    assert (v <> w) by congruence. rewrite upd_other by congruence. split; [reflexivity|]. split.
    + intros u Hu. rewrite upd_other; [reflexivity|]. apply Hq; [rewrite Es; intros [G|[c G]]; discriminate|exact Hu].
    + intros u Hu. rewrite upd_other; [reflexivity|congruence].
  - apply Nat.eqb_neq in Ho. destruct (stacks s v) as [|t r] eqn:Ev; [discriminate|]. assert (Hin : In t (stacks s v)) by (rewrite Ev; left; reflexivity).
    assert (Hu1 : forall u, In u (stacks s w) -> u <> t) by (intros u Hu ->; apply Ho; exact (i_one _ _ HI v w t Hin Hu)). destruct (i_in _ _ HI v t Hin) as (_ & Ht & _).
    destruct (st (tasks s t)) eqn:Es; try discriminate. assert (Hu2 : forall u, st (tasks s u) = Asleep w -> u <> t) by congruence.
    assert (G : forall x stk, stacks (set s t x v stk) w = stacks s w /\ (forall u, In u (stacks s w) -> tasks (set s t x v stk) u = tasks s u) /\ forall u, st (tasks s u) = Asleep w -> tasks (set s t x v stk) u = tasks s u).
    { intros x stk. cbn. rewrite upd_other by congruence. split; [reflexivity|]. split; intros u Hu; rewrite upd_other; auto. }
    destruct (rest (tasks s t)) as [|k|k|e p k|i k|i k].
    + injection Hs as <-. apply G.
    + injection Hs as <-. apply G.
    + destruct (v <? n); [|discriminate]. injection Hs as <-. apply G.
    + injection Hs as <-. cbn. rewrite upd_other by congruence. split; [reflexivity|]. split; intros u Hu.
      * assert (u < count s) by apply (i_in _ _ HI w u Hu). rewrite !upd_other; auto. lia.
      * assert (u < count s). { destruct (lt_dec u (count s)); [assumption|]. rewrite (i_out _ _ HI u) in Hu by lia. discriminate. } rewrite !upd_other; auto. lia.
    + destruct (nth_error (kids (tasks s t)) i); [|discriminate]. injection Hs as <-. apply G.
    + destruct (nth_error (kids (tasks s t)) i); [|discriminate]. injection Hs as <-. destruct (is_done s n0); apply G.
  - apply Nat.eqb_neq in Ho. destruct (stacks s v) as [|t r] eqn:Ev; [discriminate|]. assert (Hin : In t (stacks s v)) by (rewrite Ev; left; reflexivity).
    destruct (st (tasks s t)) eqn:Es; try discriminate. destruct (is_done s c); [|discriminate]. injection Hs as <-. cbn. rewrite upd_other by congruence. split; [reflexivity|]. split; intros u Hu; rewrite upd_other; auto; [|congruence].
    intros ->. apply Ho. exact (i_one _ _ HI v w t Hin Hu).
  - destruct (st (tasks s t)) eqn:Es; try discriminate. destruct (is_done s c); [|discriminate]. injection Hs as <-. cbn. split; [reflexivity|]. split; intros u Hu; rewrite upd_other; auto; [|congruence].
    apply Hq; [rewrite Es; intros [G|[c' G]]; discriminate|exact Hu].
  - destruct (st (tasks s t)) as [| | | |v|] eqn:Es; try discriminate. destruct (stacks s v) eqn:Ev; [|discriminate]. injection Hs as <-. cbn. split; [reflexivity|]. split; intros u Hu; rewrite upd_other; auto.
    + apply Hq; [rewrite Es; intros [G|[c' G]]; discriminate|exact Hu].
    + intros ->. assert (v = w) by congruence. congruence.
Qed.

(** ** specification *)
(** worker [w] is inside the get() that task [t] calls on task [c] *)
Definition in_get (s : state) (w t c : nat) : Prop := (exists r, stacks s w = t :: r) /\ st (tasks s t) = Blocked c.

(** a get() for a task that is in the event loop of the very worker that is blocked never returns, whatever the other workers do *)
Theorem C156_own_loop_blocks_for_good : forall n main l s w t c, wf 0 main -> run (step n) (init n main) l = Some s -> in_get s w t c -> st (tasks s c) = Asleep w ->
  forall l' s', run (step n) s l' = Some s' -> in_get s' w t c /\ st (tasks s' c) = Asleep w.
Proof.
  intros n main l s w t c Hwf Hr Hg Hc l'. pose proof (Inv_run _ _ _ _ Hwf Hr) as HI. clear Hr. revert s HI Hg Hc.
  induction l' as [|e l' IH]; intros s HI Hg Hc s' Hr; cbn [run] in Hr; [injection Hr as <-; auto|]. destruct (step n s e) as [s1|] eqn:E; [|discriminate]. destruct Hg as ((r & Hw) & Ht).
  destruct (of_worker w e) eqn:Ho.
  - exfalso. unfold step in E. destruct e; cbn in Ho; try discriminate; apply Nat.eqb_eq in Ho; subst; rewrite Hw, Ht in E; [discriminate|]. unfold is_done in E. rewrite Hc in E. discriminate.
  - destruct (frame _ _ _ _ w HI E) as (F1 & F2 & F3); [congruence|exact Ho|]. apply (IH s1); [eapply Inv_step; eauto| |rewrite F3; auto|exact Hr].
    split; [exists r; congruence|]. rewrite F2; [exact Ht|]. rewrite Hw. left. reflexivity.
Qed.
Print Assumptions C156_own_loop_blocks_for_good.

(** a task about to execute  auto f = eager_task_that_sleeps(); f.get();  on a worker *)
Definition about_to (s : state) (w t : nat) (q k : prog) : Prop := (exists r, stacks s w = t :: r) /\ st (tasks s t) = OnStack /\ rest (tasks s t) = Spawn true (Sleep q) (Get (length (kids (tasks s t))) k).
Inductive phase (s : state) (w t : nat) (q k : prog) : Prop :=
| ph1 : about_to s w t q k -> phase s w t q k
| ph2 r c i : stacks s w = c :: t :: r -> tasks s c = T (Sleep q) [] OnStack -> st (tasks s t) = OnStack -> rest (tasks s t) = Get i k -> nth_error (kids (tasks s t)) i = Some c -> phase s w t q k
| ph3 r c i : stacks s w = t :: r -> st (tasks s c) = Asleep w -> st (tasks s t) = OnStack -> rest (tasks s t) = Get i k -> nth_error (kids (tasks s t)) i = Some c -> phase s w t q k
| ph4 r c : stacks s w = t :: r -> st (tasks s c) = Asleep w -> st (tasks s t) = Blocked c -> phase s w t q k.
Lemma phase_step n s e s' w t q k : Inv n s -> w < n -> phase s w t q k -> step n s e = Some s' -> phase s' w t q k.
Proof.
  intros HI Hw Hp Hs. destruct (of_worker w e) eqn:Ho.
  - destruct e as [v u|v|v|u|u]; try discriminate; cbn in Ho; apply Nat.eqb_eq in Ho; subst v; unfold step in Hs.
    + destruct Hp as [((r & Ew) & Hst & Hr)|r c i Ew Hc Hst Hr Hk|r c i Ew Hc Hst Hr Hk|r c Ew Hc Hst]; rewrite Ew in Hs.
      * rewrite Hst, Hr in Hs. injection Hs as <-. assert (Ht : t < count s) by (apply (i_in _ _ HI w t); rewrite Ew; left; reflexivity).
        apply ph2 with (r := r) (c := count s) (i := length (kids (tasks s t))); cbn.
        -- apply upd_same.
        -- apply upd_same.
        -- rewrite upd_other, upd_same by lia. reflexivity.
        -- rewrite upd_other, upd_same by lia. reflexivity.
        -- rewrite upd_other, upd_same by lia. cbn. rewrite nth_error_app2, Nat.sub_diag by lia. reflexivity.
      * rewrite Hc in Hs. cbn [st rest] in Hs. rewrite (proj2 (Nat.ltb_lt w n)) in Hs by exact Hw. injection Hs as <-.
        assert (Hne : t <> c). { assert (Hd := i_desc _ _ HI w). rewrite Ew in Hd. destruct Hd as [Hd _]. specialize (Hd t (or_introl eq_refl)). lia. }
        apply ph3 with (r := r) (c := c) (i := i); cbn; rewrite ?upd_same, ?(upd_other (tasks s)) by assumption; auto.
      * rewrite Hst, Hr, Hk in Hs. assert (D : is_done s c = false) by (unfold is_done; rewrite Hc; reflexivity). rewrite D in Hs. injection Hs as <-.
        apply ph4 with (r := r) (c := c); cbn; rewrite ?upd_same; auto. rewrite upd_other; [exact Hc|congruence].
      * rewrite Hst in Hs. discriminate.
    + destruct Hp as [((r & Ew) & Hst & Hr)|r c i Ew Hc Hst Hr Hk|r c i Ew Hc Hst Hr Hk|r c Ew Hc Hst]; rewrite Ew in Hs; rewrite ?Hc in Hs; rewrite ?Hst in Hs; try discriminate. unfold is_done in Hs. rewrite Hc in Hs. discriminate.
  - assert (Hne : stacks s w <> []) by (destruct Hp as [((r & Ew) & _)|? ? ? Ew|? ? ? Ew|? ? Ew]; congruence).
    destruct (frame _ _ _ _ w HI Hs Hne Ho) as (F1 & F2 & F3).
    destruct Hp as [((r & Ew) & Hst & Hr)|r c i Ew Hc Hst Hr Hk|r c i Ew Hc Hst Hr Hk|r c Ew Hc Hst]; (assert (Ft : tasks s' t = tasks s t) by (apply F2; rewrite Ew; cbn; auto)).
    + apply ph1. unfold about_to. rewrite Ft. split; [exists r; congruence|auto].
    + apply ph2 with (r := r) (c := c) (i := i); rewrite ?Ft; try congruence. rewrite F2; [exact Hc|]. rewrite Ew. left. reflexivity.
    + apply ph3 with (r := r) (c := c) (i := i); rewrite ?Ft; try congruence. rewrite F3; auto.
    + apply ph4 with (r := r) (c := c); rewrite ?Ft; try congruence. rewrite F3; auto.
Qed.
(** C156, refuted: in every program, on any number of workers and under every schedule, a task that calls get() on an eager task which begins by sleeping never ends *)
Theorem C156_get_of_eager_sleeper_refuted : forall n main l s w t q k, wf 0 main -> run (step n) (init n main) l = Some s -> w < n -> about_to s w t q k ->
  forall l' s', run (step n) s l' = Some s' -> st (tasks s' t) <> Done.
Proof.
  intros n main l s w t q k Hwf Hr Hw Ha l' s' Hr'. pose proof (Inv_run _ _ _ _ Hwf Hr) as HI.
  assert (H : Inv n s' /\ phase s' w t q k).
  { revert Hr'. apply (run_inv _ (fun s => Inv n s /\ phase s w t q k)); [|split; [exact HI|now apply ph1]]. intros s0 e s1 (H1 & H2) Hs. split; [eapply Inv_step; eauto|eapply phase_step; eauto]. }
  destruct H as (_ & [(_ & G & _)|? ? ? _ _ G|? ? ? _ _ G|? ? _ _ G]); rewrite G; discriminate.
Qed.
Print Assumptions C156_get_of_eager_sleeper_refuted.

(** one task that waits by get(), on any number of workers: the others are idle and the program does not go on *)
Definition one_get : prog := Spawn false (Spawn true (Sleep Ret) (Get 0 Ret)) (Get 0 Ret).
Theorem C156_one_get_blocks_refuted : forall n, 1 <= n -> wf 0 one_get /\ plain one_get /\ blockers one_get = 1 /\
  exists l s, run (step n) (init n one_get) l = Some s /\ stuck n s /\ in_get s n 0 1 /\ in_get s 0 1 2 /\ forall w, 1 <= w < n -> stacks s w = [].
Proof.
  intros n Hn. split; [cbn; repeat split; lia|]. split; [cbn; auto|]. split; [reflexivity|].
  destruct n as [|m]; [lia|]. exists [Act (S m); Act (S m); Take 0 1; Act 0; Act 0; Act 0].
  assert (R : exists s, run (step (S m)) (init (S m) one_get) [Act (S m); Act (S m); Take 0 1; Act 0; Act 0; Act 0] = Some s /\ count s = 3 /\
    (forall t, tasks s t = match t with 0 => T Ret [1] (Blocked 1) | 1 => T Ret [2] (Blocked 2) | 2 => T Ret [] (Asleep 0) | _ => T Ret [] Done end) /\
    forall w, stacks s w = if w =? S m then [0] else if w =? 0 then [1] else []).
  { unfold one_get, init. eexists. split.
    - unfold step, is_done, set, upd. repeat (progress (cbn; rewrite ?Nat.eqb_refl)). reflexivity.
    - cbn. split; [reflexivity|]. split.
      + intros [|[|[|t]]]; reflexivity.
      + intros [|w]; cbn; [reflexivity|]. destruct (w =? m); reflexivity. }
  destruct R as (s & R & Hc & Ht & Hk). exists s. split; [exact R|]. split; [|split; [|split]].
  - intros [w t|w|w|t|t]; unfold step; rewrite ?Ht, ?Hk.
    + destruct ((w <? S m) && (t <? count s)) eqn:E; [|reflexivity]. destruct (w =? S m); [reflexivity|]. destruct (w =? 0); [reflexivity|]. destruct t as [|[|[|t]]]; reflexivity.
    + destruct (w =? S m); [rewrite Ht; reflexivity|]. destruct (w =? 0); [rewrite Ht; reflexivity|reflexivity].
    + destruct (w =? S m); [rewrite Ht; cbn; unfold is_done; rewrite Ht; reflexivity|]. destruct (w =? 0); [rewrite Ht; cbn; unfold is_done; rewrite Ht; reflexivity|reflexivity].
    + destruct t as [|[|[|t]]]; reflexivity.
    + destruct t as [|[|[|t]]]; try reflexivity. cbn [st]. rewrite Hk. reflexivity.
  - split; [exists []; rewrite Hk, Nat.eqb_refl; reflexivity|now rewrite Ht].
  - split; [exists []; rewrite Hk; reflexivity|now rewrite Ht].
  - intros w Hw. rewrite Hk. destruct (Nat.eqb_spec w (S m)); [lia|]. destruct (Nat.eqb_spec w 0); [lia|reflexivity].
Qed.
Print Assumptions C156_one_get_blocks_refuted.
(** what holds: as long as a worker is not inside get(), nothing but a task in the event loop of a worker inside get() can stop the program *)
Theorem C156_only_own_loops_partial : forall n main l s w, wf 0 main -> plain main -> run (step n) (init n main) l = Some s -> w < n -> ~ blocked s w -> stuck n s -> finished s \/ exists v, loop_blocked n s v.
Proof. intros n main l s w Hwf Hp Hr Hw Hb Hs. destruct (C120_stuck_only_if_all_blocked_partial n main l s Hwf Hp Hr Hs) as [H|[H|H]]; auto. destruct (Hb (H w Hw)). Qed.
Print Assumptions C156_only_own_loops_partial.
(** the situation of [C156_get_of_eager_sleeper_refuted] and, three steps later, that of [C156_own_loop_blocks_for_good] *)
Example C156_case : exists s, run (step 2) (init 2 one_get) [Act 2; Act 2; Take 0 1] = Some s /\ about_to s 0 1 Ret Ret /\
  exists s', run (step 2) s [Act 0; Act 0; Act 0] = Some s' /\ in_get s' 0 1 2 /\ st (tasks s' 2) = Asleep 0.
Proof. eexists. split; [reflexivity|]. split; [split; [eexists; reflexivity|split; reflexivity]|]. eexists. split; [reflexivity|]. split; [split; [eexists; reflexivity|reflexivity]|reflexivity]. Qed.
(** the same with a lazy task that another worker takes: it ends *)
Definition one_get_lazy : prog := Spawn false (Spawn false (Sleep Ret) (Get 0 Ret)) (Get 0 Ret).
Example C156_case_other_worker : exists s, run (step 2) (init 2 one_get_lazy) [Act 2; Act 2; Take 0 1; Act 0; Act 0; Take 1 2; Act 1; Due 2; Take 1 2; Act 1; Unblock 0; Act 0; Unblock 2; Act 2] = Some s /\ finished s.
Proof.
  destruct (run_check_ok (step 2) (init 2 one_get_lazy) [Act 2; Act 2; Take 0 1; Act 0; Act 0; Take 1 2; Act 1; Due 2; Take 1 2; Act 1; Unblock 0; Act 0; Unblock 2; Act 2] (fun s => forallb (fun t => is_done s t && match rest (tasks s t) with Ret => true | _ => false end) (seq 0 (count s))) eq_refl) as (s & H1 & H2).
  exists s. split; [exact H1|]. intros t Ht. rewrite forallb_forall in H2. assert (E := H2 t ltac:(apply in_seq; lia)). apply andb_true_iff in E. destruct E as [E1 E2]. split; [now apply is_done_true|]. destruct (rest (tasks s t)); discriminate || reflexivity.
Qed.
