(** C119, C120: programs of tasks that wait for each other run to completion. *)
From Coq Require Import List Arith Bool Lia.
From Verif.Common Require Import TS Sum.
From Verif.Blocking Require Import Model.
Import ListNotations.

(** ** what is claimed *)
(** every task has ended, at the end of its code *)
Definition finished (s : state) : Prop := forall t, t < count s -> st (tasks s t) = Done /\ rest (tasks s t) = Ret.
(** nothing can happen any more *)
Definition stuck (n : nat) (s : state) : Prop := forall e, step n s e = None.
(** worker [w] is inside get(), for a task that has not ended *)
Definition blocked (s : state) (w : nat) : Prop := exists t r c, stacks s w = t :: r /\ st (tasks s t) = Blocked c /\ st (tasks s c) <> Done.
(** the code of this task (not of those it starts) calls get() *)
Fixpoint own_get (p : prog) : bool := match p with Ret => false | Yield k | Sleep k | Spawn _ _ k | Await _ k => own_get k | Get _ _ => true end.
(** how many of the tasks started by [p], directly or indirectly, call get() *)
Fixpoint blockers (p : prog) : nat :=
  match p with Ret => 0 | Yield k | Sleep k | Get _ k | Await _ k => blockers k | Spawn _ q k => (if own_get q then 1 else 0) + blockers q + blockers k end.
(** run on the main thread, this task does not sleep there (it has been moved to a worker before it does) *)
Fixpoint home (p : prog) : Prop := match p with Ret | Yield _ => True | Sleep _ => False | Spawn e q k => (if e then home q else True) /\ home k | Get _ k | Await _ k => home k end.
(** main() is not a coroutine: it starts tasks and calls get() *)
Fixpoint plain (p : prog) : Prop := match p with Ret => True | Yield _ | Sleep _ | Await _ _ => False | Spawn e q k => (if e then home q else True) /\ plain k | Get _ k => plain k end.
(** no task of [p] sleeps or does I/O *)
Fixpoint still (p : prog) : Prop := match p with Ret => True | Sleep _ => False | Spawn _ q k => still q /\ still k | Yield k | Get _ k | Await _ k => still k end.
(** worker [w] is inside get(), and its event loop holds a task *)
Definition loop_blocked (n : nat) (s : state) (w : nat) : Prop := w < n /\ blocked s w /\ exists t, t < count s /\ st (tasks s t) = Asleep w.
Fixpoint size (p : prog) : nat := match p with Ret => 0 | Yield k | Sleep k | Get _ k | Await _ k => 1 + size k | Spawn _ q k => 1 + size q + size k end.

(** ** every schedule ends *)
Definition rank (z : status) : nat := match z with Done => 0 | OnStack => 1 | Queued | Blocked _ => 2 | Suspended _ | Asleep _ => 3 end.
Definition weight (x : task) : nat := 3 * size (rest x) + rank (st x).
Definition measure (s : state) : nat := sum_to (count s) (fun t => weight (tasks s t)).

Lemma sum_upd m (f : task -> nat) g t x : t < m -> sum_to m (fun i => f (upd g t x i)) + f (g t) = sum_to m (fun i => f (g i)) + f x.
Proof.
  intros Ht. pose proof (sum_to_one m (fun i => f (upd g t x i)) (fun i => f (g i)) t Ht) as H. cbn beta in H. rewrite upd_same in H. apply H. intros i Hi. now rewrite upd_other.
Qed.
Lemma sum_upd_i m (f : nat -> task -> nat) g t x : t < m -> sum_to m (fun i => f i (upd g t x i)) + f t (g t) = sum_to m (fun i => f i (g i)) + f t x.
Proof.
  intros Ht. pose proof (sum_to_one m (fun i => f i (upd g t x i)) (fun i => f i (g i)) t Ht) as H. cbn beta in H. rewrite upd_same in H. apply H. intros i Hi. now rewrite upd_other.
Qed.
Lemma sum_new m (f : nat -> task -> nat) g x : sum_to (S m) (fun i => f i (upd g m x i)) = sum_to m (fun i => f i (g i)) + f m x.
Proof. cbn. rewrite upd_same. rewrite (sum_to_ext m _ (fun i => f i (g i))); [lia|]. intros i Hi. rewrite upd_other by lia. reflexivity. Qed.

(** the value of a per-task sum after a step, for any per-task function *)
Lemma sum_step n s e s' (f : nat -> task -> nat) : Inv n s -> step n s e = Some s' ->
  (exists t x, t < count s /\ sum_to (count s') (fun i => f i (tasks s' i)) + f t (tasks s t) = sum_to (count s) (fun i => f i (tasks s i)) + f t x /\
     ((st (tasks s t) = Queued /\ x = T (rest (tasks s t)) (kids (tasks s t)) OnStack) \/
      (st (tasks s t) = OnStack /\ rest (tasks s t) = Ret /\ x = T Ret (kids (tasks s t)) Done) \/
      (exists k, st (tasks s t) = OnStack /\ rest (tasks s t) = Yield k /\ x = T k (kids (tasks s t)) Queued) \/
      (exists i k, st (tasks s t) = OnStack /\ rest (tasks s t) = Get i k /\ (x = T k (kids (tasks s t)) OnStack \/ exists c, x = T k (kids (tasks s t)) (Blocked c))) \/
      (exists i k, st (tasks s t) = OnStack /\ rest (tasks s t) = Await i k /\ (x = T k (kids (tasks s t)) OnStack \/ exists c, x = T k (kids (tasks s t)) (Suspended c))) \/
      (exists c, st (tasks s t) = Blocked c /\ x = T (rest (tasks s t)) (kids (tasks s t)) OnStack) \/
      (exists c, st (tasks s t) = Suspended c /\ x = T (rest (tasks s t)) (kids (tasks s t)) Queued) \/
      (exists k w, w < n /\ st (tasks s t) = OnStack /\ rest (tasks s t) = Sleep k /\ x = T k (kids (tasks s t)) (Asleep w)) \/
      (exists w, st (tasks s t) = Asleep w /\ x = T (rest (tasks s t)) (kids (tasks s t)) Queued))) \/
  (exists t e' p k x, t < count s /\ st (tasks s t) = OnStack /\ rest (tasks s t) = Spawn e' p k /\ rest x = k /\ st x = OnStack /\
     sum_to (count s') (fun i => f i (tasks s' i)) + f t (tasks s t) = sum_to (count s) (fun i => f i (tasks s i)) + f t x + f (count s) (T p [] (if e' then OnStack else Queued))).
Proof.
  intros HI Hs. unfold step in Hs. destruct e as [w t|w|w|t|t].
  - destruct ((w <? n) && (t <? count s)) eqn:E; [|discriminate]. apply andb_true_iff in E as [_ E2]. apply Nat.ltb_lt in E2. destruct (stacks s w); [|discriminate]. destruct (st (tasks s t)) eqn:Es; try discriminate. injection Hs as <-.
    left. eexists t, _. split; [exact E2|]. split; [apply sum_upd_i; exact E2|]. auto.
  - destruct (stacks s w) as [|t r] eqn:Ew; [discriminate|]. destruct (i_in _ _ HI w t) as (_ & Ht & _); [rewrite Ew; left; reflexivity|].
    destruct (st (tasks s t)) eqn:Es; try discriminate. destruct (rest (tasks s t)) as [|k|k|e p k|i k|i k] eqn:Er.
    + injection Hs as <-. left. eexists t, _. split; [exact Ht|]. split; [apply sum_upd_i; exact Ht|]. auto.
    + injection Hs as <-. left. eexists t, _. split; [exact Ht|]. split; [apply sum_upd_i; exact Ht|]. right; right; left. eauto.
    + destruct (Nat.ltb_spec w n) as [Lw|]; [|discriminate]. injection Hs as <-. left. eexists t, _. split; [exact Ht|]. split; [apply sum_upd_i; exact Ht|]. do 7 right. left. exists k, w. auto.
    + injection Hs as <-. right. exists t, e, p, k, (T k (kids (tasks s t) ++ [count s]) OnStack). do 3 (split; [assumption|]). do 2 (split; [reflexivity|]). cbn [tasks count].
      rewrite (sum_new (count s) f). pose proof (sum_upd_i (count s) f (tasks s) t (T k (kids (tasks s t) ++ [count s]) OnStack) Ht). lia.
    + destruct (nth_error (kids (tasks s t)) i) as [c|]; [|discriminate]. injection Hs as <-. left. eexists t, _. split; [exact Ht|]. split; [apply sum_upd_i; exact Ht|]. do 3 right. left. exists i, k. do 2 (split; [auto|]). destruct (is_done s c); [left|right]; eauto.
    + destruct (nth_error (kids (tasks s t)) i) as [c|]; [|discriminate]. injection Hs as <-. left. destruct (is_done s c); eexists t, _; (split; [exact Ht|]); (split; [apply sum_upd_i; exact Ht|]); do 4 right; left; exists i, k; do 2 (split; [auto|]); eauto.
  - destruct (stacks s w) as [|t r] eqn:Ew; [discriminate|]. destruct (i_in _ _ HI w t) as (_ & Ht & _); [rewrite Ew; left; reflexivity|].
    destruct (st (tasks s t)) eqn:Es; try discriminate. destruct (is_done s c); [|discriminate]. injection Hs as <-. left. eexists t, _. split; [exact Ht|]. split; [apply sum_upd_i; exact Ht|]. do 5 right. left. eauto.
  - destruct (st (tasks s t)) eqn:Es; try discriminate. destruct (is_done s c); [|discriminate]. injection Hs as <-.
    assert (Ht : t < count s). { destruct (lt_dec t (count s)); [assumption|]. rewrite (i_out _ _ HI t) in Es by lia. discriminate. }
    left. eexists t, _. split; [exact Ht|]. split; [apply sum_upd_i; exact Ht|]. do 6 right. left. eauto.
  - destruct (st (tasks s t)) eqn:Es; try discriminate. destruct (stacks s w); [|discriminate]. injection Hs as <-.
    assert (Ht : t < count s). { destruct (lt_dec t (count s)); [assumption|]. rewrite (i_out _ _ HI t) in Es by lia. discriminate. }
    left. eexists t, _. split; [exact Ht|]. split; [apply sum_upd_i; exact Ht|]. do 8 right. eauto.
Qed.

Lemma measure_step n s e s' : Inv n s -> step n s e = Some s' -> measure s' < measure s.
Proof.
  intros HI Hs. unfold measure.
  destruct (sum_step n s e s' (fun _ => weight) HI Hs) as [(t & x & _ & E & H)|(t & e' & p & k & x & _ & H1 & H2 & H3 & H4 & E)].
  - cbn beta in E. destruct H as [[H1 ->]|[(H1 & H2 & ->)|[(k & H1 & H2 & ->)|[(i & k & H1 & H2 & [->|[c ->]])|[(i & k & H1 & H2 & [->|[c ->]])|[(c & H1 & ->)|[(c & H1 & ->)|[(k & w & _ & H1 & H2 & ->)|(w & H1 & ->)]]]]]]]]; unfold weight in E at 2 4; cbn [rest st] in E; rewrite H1 in E; rewrite ?H2 in E; cbn [size rank] in E; lia.
  - cbn beta in E. unfold weight in E at 2 4 5. cbn [rest st] in E. rewrite H1, H2, H3, H4 in E. cbn [size rank] in E. destruct e'; cbn [rank] in E; lia.
Qed.
Lemma measure_run n s l s' : Inv n s -> run (step n) s l = Some s' -> length l + measure s' <= measure s.
Proof.
  revert s. induction l as [|e l IH]; intros s HI Hr; cbn [run] in Hr; [injection Hr as <-; cbn; lia|]. destruct (step n s e) as [s1|] eqn:Es; [|discriminate].
  pose proof (measure_step _ _ _ _ HI Es). specialize (IH s1 (Inv_step _ _ _ _ HI Es) Hr). cbn. lia.
Qed.
Lemma measure_init n main : measure (init n main) = 3 * size main + 1.
Proof. unfold measure, weight. cbn. lia. Qed.

(** ** progress *)
Lemma done_dec z : {z = Done} + {z <> Done}.
Proof. destruct z; (left; reflexivity) || (right; discriminate). Qed.
Lemma is_done_true s c : is_done s c = true <-> st (tasks s c) = Done.
Proof. unfold is_done. destruct (st (tasks s c)); split; congruence. Qed.
Lemma latest s m : (forall t, t < m -> st (tasks s t) = Done) \/ exists t, t < m /\ st (tasks s t) <> Done /\ forall t', t < t' < m -> st (tasks s t') = Done.
Proof.
  induction m as [|m IH]; [left; intros; lia|]. destruct (done_dec (st (tasks s m))) as [E|E].
  - destruct IH as [IH|(t & H1 & H2 & H3)].
    + left. intros t Ht. destruct (Nat.eq_dec t m); [congruence|apply IH; lia].
    + right. exists t. split; [lia|]. split; [exact H2|]. intros t' Ht'. destruct (Nat.eq_dec t' m); [congruence|apply H3; lia].
  - right. exists m. split; [lia|]. split; [exact E|]. intros; lia.
Qed.
Definition Home (n : nat) (s : state) : Prop := forall t, In t (stacks s n) -> home (rest (tasks s t)).
Lemma top_moves n s w a r : Inv n s -> Home n s -> stacks s w = a :: r -> (exists e s', step n s e = Some s') \/ exists c, st (tasks s a) = Blocked c /\ st (tasks s c) <> Done.
Proof.
  intros HI HH Hw. destruct (i_in _ _ HI w a) as (Hwn & Ha & [Hs|[c Hs]]); [rewrite Hw; left; reflexivity| |].
  - left. exists (Act w). unfold step. rewrite Hw, Hs. destruct (i_ok _ _ HI a Ha) as (_ & K & _). destruct (rest (tasks s a)) as [|k|k|e p k|i k|i k] eqn:Er; cbn in K; eauto.
    { destruct (Nat.ltb_spec w n) as [|G]; [eauto|]. assert (w = n) by lia. subst w. specialize (HH a). rewrite Hw, Er in HH. destruct (HH (or_introl eq_refl)). }
    all: destruct (nth_error (kids (tasks s a)) i) eqn:E; eauto; exfalso; apply nth_error_None in E; lia.
  - destruct (is_done s c) eqn:E.
    + left. exists (Unblock w). unfold step. rewrite Hw, Hs, E. eauto.
    + right. exists c. split; [exact Hs|]. rewrite <- is_done_true. congruence.
Qed.
Lemma workers n s t m : Inv n s -> Home n s -> t < count s -> st (tasks s t) = Queued -> m <= n -> (exists e s', step n s e = Some s') \/ forall w, w < m -> blocked s w.
Proof.
  intros HI HH Ht Hq. induction m as [|m IH]; intros Hm; [right; intros; lia|]. destruct (IH ltac:(lia)) as [H|H]; [auto|]. destruct (stacks s m) as [|a r] eqn:Em.
  - left. exists (Take m t). unfold step. rewrite (proj2 (Nat.ltb_lt m n)), (proj2 (Nat.ltb_lt t (count s))) by lia. cbn. rewrite Em, Hq. eauto.
  - destruct (top_moves n s m a r HI HH Em) as [G|(c & G1 & G2)]; [auto|]. right. intros w Hw. destruct (Nat.eq_dec w m); [subst; exists a, r, c; auto|apply H; lia].
Qed.
Lemma progress n s : Inv n s -> Home n s -> finished s \/ (exists e s', step n s e = Some s') \/ (forall w, w < n -> blocked s w) \/ exists w, loop_blocked n s w.
Proof.
  intros HI HH. destruct (latest s (count s)) as [H|(t & Ht & Hn & Hmax)]; [left; intros t Ht; pose proof (H t Ht) as Hd; destruct (i_ok _ _ HI t Ht) as (_ & _ & G); rewrite Hd in G; auto|]. right. destruct (i_ok _ _ HI t Ht) as (_ & _ & Hk).
  assert (Hon : on_stack (st (tasks s t)) -> exists e s', step n s e = Some s').
  { intros Hon. destruct (i_has _ _ HI t Ht Hon) as [w Hin]. destruct (stacks s w) as [|a r] eqn:Ew; [contradiction|]. destruct Hin as [->|Hin].
    - destruct (top_moves n s w t r HI HH Ew) as [G|(c & G1 & G2)]; [exact G|]. exfalso. apply G2. apply Hmax. rewrite G1 in Hk. exact Hk.
    - exfalso. assert (Hd := i_desc _ _ HI w). rewrite Ew in Hd. destruct Hd as [Hd _]. specialize (Hd t Hin). destruct (i_in _ _ HI w a) as (_ & Ha & G); [rewrite Ew; left; reflexivity|].
      rewrite (Hmax a) in G by lia. destruct G as [G|[c G]]; discriminate. }
  destruct (st (tasks s t)) eqn:Es; [| | | | |congruence].
  - destruct (workers n s t n HI HH Ht Es (le_n _)); auto.
  - left. apply Hon. left. reflexivity.
  - left. apply Hon. right. eauto.
  - left. exists (Wake t). unfold step. rewrite Es. rewrite (proj2 (is_done_true s c)) by (apply Hmax; exact Hk). eauto.
  - destruct (stacks s w) as [|a r] eqn:Ew; [left; exists (Due t); unfold step; rewrite Es, Ew; eauto|]. destruct (top_moves n s w a r HI HH Ew) as [G|(c & G1 & G2)]; [auto|].
    right. right. exists w. split; [exact Hk|]. split; [exists a, r, c; auto|eauto].
Qed.

(** ** at most [blockers main] workers are in get() *)
Definition is_blocked (x : task) : bool := match st x with Blocked _ => true | _ => false end.
Definition share (t : nat) (x : task) : nat := blockers (rest x) + (if t =? 0 then 0 else if own_get (rest x) || is_blocked x then 1 else 0).
Definition total (s : state) : nat := sum_to (count s) (fun t => share t (tasks s t)).
Lemma total_step n s e s' : Inv n s -> step n s e = Some s' -> total s' <= total s.
Proof.
  intros HI Hs. unfold total.
  destruct (sum_step n s e s' share HI Hs) as [(t & x & _ & E & H)|(t & e' & p & k & x & Hc & H1 & H2 & H3 & H4 & E)].
  - assert (share t x <= share t (tasks s t)); [|lia]. unfold share, is_blocked.
    destruct H as [[H1 ->]|[(H1 & H2 & ->)|[(k & H1 & H2 & ->)|[(i & k & H1 & H2 & [->|[c ->]])|[(i & k & H1 & H2 & [->|[c ->]])|[(c & H1 & ->)|[(c & H1 & ->)|[(k & w & _ & H1 & H2 & ->)|(w & H1 & ->)]]]]]]]]; cbn [rest st]; rewrite H1; rewrite ?H2; cbn [blockers own_get]; destruct (t =? 0); rewrite ?orb_true_r, ?orb_false_r; cbn; try lia; destruct (own_get _); cbn; lia.
  - assert (share t x + share (count s) (T p [] (if e' then OnStack else Queued)) <= share t (tasks s t)); [|lia]. unfold share, is_blocked. cbn [rest st]. rewrite H1, H2, H3, H4. cbn [blockers own_get].
    rewrite (proj2 (Nat.eqb_neq (count s) 0)) by lia. assert (Hb : match (if e' then OnStack else Queued) with Blocked _ => true | _ => false end = false) by (destruct e'; reflexivity). rewrite Hb. rewrite !orb_false_r. destruct (t =? 0), (own_get p), (own_get k); cbn; lia.
Qed.
Record Main (n : nat) (s : state) : Prop := {
  m_count : 0 < count s;
  m_plain : plain (rest (tasks s 0));
  m_st : match st (tasks s 0) with Queued | Suspended _ | Asleep _ => False | _ => True end;
  m_in : forall w, w < n -> ~ In 0 (stacks s w) }.
Lemma Main_step n s e s' : Inv n s -> Main n s -> step n s e = Some s' -> Main n s'.
Proof.
  intros HI [M1 M2 M3 M4] Hs. unfold step in Hs. destruct e as [w t|w|w|t|t].
  - destruct ((w <? n) && (t <? count s)); [|discriminate]. destruct (stacks s w) eqn:Ew; [|discriminate]. destruct (st (tasks s t)) eqn:Es; try discriminate. injection Hs as <-.
    assert (t <> 0) by (intros ->; rewrite Es in M3; exact M3). split; cbn; auto; rewrite ?upd_other by auto; auto. intros w' Hw'. unfold upd. destruct (w' =? w); [intros [?|[]]; congruence|auto].
  - destruct (stacks s w) as [|t r] eqn:Ew; [discriminate|].
    assert (Hpop : forall w', w' < n -> ~ In 0 (upd (stacks s) w r w')). { intros w' Hw'. unfold upd. destruct (Nat.eqb_spec w' w); [subst|auto]. intros G. apply (M4 w Hw'). rewrite Ew. right. exact G. }
    assert (Hstay : forall w', w' < n -> ~ In 0 (upd (stacks s) w (t :: r) w')). { intros w' Hw'. unfold upd. destruct (Nat.eqb_spec w' w); [subst|auto]. intros G. apply (M4 w Hw'). rewrite Ew. exact G. }
    destruct (st (tasks s t)) eqn:Es; try discriminate. destruct (rest (tasks s t)) as [|k|k|e p k|i k|i k] eqn:Er.
    + injection Hs as <-. split; cbn; auto; unfold upd; destruct (Nat.eqb_spec 0 t); cbn; auto.
    + injection Hs as <-. assert (t <> 0) by (intros ->; rewrite Er in M2; exact M2). split; cbn; auto; rewrite ?upd_other by auto; auto.
    + destruct (w <? n); [|discriminate]. injection Hs as <-. assert (t <> 0) by (intros ->; rewrite Er in M2; exact M2). split; cbn; auto; rewrite ?upd_other by auto; auto.
    + injection Hs as <-. split; cbn; [lia| | |].
      * rewrite upd_other by lia. unfold upd. destruct (Nat.eqb_spec 0 t); [subst; cbn|auto]. rewrite Er in M2. apply M2.
      * rewrite upd_other by lia. unfold upd. destruct (Nat.eqb_spec 0 t); cbn; auto.
      * destruct e; [|exact Hstay]. intros w' Hw'. specialize (Hstay w' Hw'). unfold upd in *. destruct (w' =? w); [|exact Hstay]. intros [G|G]; [lia|auto].
    + destruct (nth_error (kids (tasks s t)) i) as [c|]; [|discriminate]. injection Hs as <-. split; cbn; auto; unfold upd; destruct (Nat.eqb_spec 0 t); auto.
      * subst. cbn. rewrite Er in M2. exact M2.
      * cbn. destruct (is_done s c); exact I.
    + assert (t <> 0) by (intros ->; rewrite Er in M2; exact M2). destruct (nth_error (kids (tasks s t)) i) as [c|]; [|discriminate]. injection Hs as <-. destruct (is_done s c); split; cbn; auto; rewrite ?upd_other by auto; auto.
  - destruct (stacks s w) as [|t r] eqn:Ew; [discriminate|]. destruct (st (tasks s t)) eqn:Es; try discriminate. destruct (is_done s c); [|discriminate]. injection Hs as <-. split; cbn; auto.
    + unfold upd. destruct (Nat.eqb_spec 0 t); [subst; exact M2|exact M2].
    + unfold upd. destruct (Nat.eqb_spec 0 t); cbn; auto.
    + intros w' Hw'. unfold upd. destruct (Nat.eqb_spec w' w); [subst; rewrite <- Ew; auto|auto].
  - destruct (st (tasks s t)) eqn:Es; try discriminate. destruct (is_done s c); [|discriminate]. injection Hs as <-. assert (t <> 0) by (intros ->; rewrite Es in M3; exact M3). split; cbn; auto; rewrite ?upd_other by auto; auto.
  - destruct (st (tasks s t)) eqn:Es; try discriminate. destruct (stacks s w); [|discriminate]. injection Hs as <-. assert (t <> 0) by (intros ->; rewrite Es in M3; exact M3). split; cbn; auto; rewrite ?upd_other by auto; auto.
Qed.
Lemma plain_home p : plain p -> home p.
Proof. induction p; cbn; auto; try contradiction. intros [H1 H2]. auto. Qed.
Lemma Home_step n s e s' : Inv n s -> Home n s -> step n s e = Some s' -> Home n s'.
Proof.
  intros HI HH Hs. unfold Home in *. unfold step in Hs. destruct e as [w t|w|w|t|t].
  - destruct ((w <? n) && (t <? count s)) eqn:E; [|discriminate]. apply andb_true_iff in E as [E _]. apply Nat.ltb_lt in E. destruct (stacks s w) eqn:Ew; [|discriminate]. destruct (st (tasks s t)) eqn:Es; try discriminate. injection Hs as <-. cbn [set stacks tasks].
    rewrite upd_other by lia. intros t' Hin. specialize (HH t' Hin). unfold upd. destruct (Nat.eqb_spec t' t); [subst; exact HH|exact HH].
  - destruct (stacks s w) as [|t r] eqn:Ew; [discriminate|]. destruct (i_in _ _ HI w t) as (Hwn & Ht & _); [rewrite Ew; left; reflexivity|].
    assert (Hne : forall t', In t' r -> t' <> t). { intros t' Hin. assert (Hd := i_desc _ _ HI w). rewrite Ew in Hd. destruct Hd as [Hd _]. specialize (Hd t' Hin). lia. }
    assert (Hpop : forall x t', In t' (upd (stacks s) w r n) -> home (rest (upd (tasks s) t x t'))).
    { intros x t'. unfold upd at 1. destruct (Nat.eqb_spec n w) as [<-|Hw]; intros Hin.
      - rewrite upd_other by auto. apply HH. rewrite Ew. right. exact Hin.
      - rewrite upd_other; [auto|]. intros ->. apply Hw. apply (i_one _ _ HI n w t Hin). rewrite Ew. left. reflexivity. }
    assert (Hstay : forall x t', (home (rest (tasks s t)) -> home (rest x)) -> In t' (upd (stacks s) w (t :: r) n) -> home (rest (upd (tasks s) t x t'))).
    { intros x t' Hx. assert (Hsame : upd (stacks s) w (t :: r) n = stacks s n) by (unfold upd; destruct (Nat.eqb_spec n w); congruence). rewrite Hsame. intros Hin. unfold upd. destruct (Nat.eqb_spec t' t) as [->|]; auto. }
    destruct (st (tasks s t)) eqn:Es; try discriminate. destruct (rest (tasks s t)) as [|k|k|e p k|i k|i k] eqn:Er.
    + injection Hs as <-. apply Hpop.
    + injection Hs as <-. apply Hpop.
    + destruct (w <? n); [|discriminate]. injection Hs as <-. apply Hpop.
    + injection Hs as <-. cbn [stacks tasks]. intros t' Hin. unfold upd at 1. destruct (Nat.eqb_spec t' (count s)) as [->|Hc].
      * cbn. destruct e.
        -- unfold upd in Hin. destruct (Nat.eqb_spec n w) as [<-|]; [|destruct (i_in _ _ HI n _ Hin) as (_ & G & _); lia]. specialize (HH t). rewrite Ew, Er in HH. apply (HH (or_introl eq_refl)).
        -- exfalso. unfold upd in Hin. destruct (Nat.eqb_spec n w) as [<-|]; [rewrite <- Ew in Hin|]; destruct (i_in _ _ HI n _ Hin) as (_ & G & _); lia.
      * apply Hstay; [cbn; intros G; apply G|]. unfold upd in *. destruct (n =? w); [|exact Hin]. destruct e; [|exact Hin]. destruct Hin as [G|G]; [congruence|exact G].
    + destruct (nth_error (kids (tasks s t)) i) as [c|]; [|discriminate]. injection Hs as <-. intros t' Hin. apply Hstay; [cbn; auto|exact Hin].
    + destruct (nth_error (kids (tasks s t)) i) as [c|]; [|discriminate]. injection Hs as <-. destruct (is_done s c); [|apply Hpop]. intros t' Hin. apply Hstay; [cbn; auto|exact Hin].
  - destruct (stacks s w) as [|t r] eqn:Ew; [discriminate|]. destruct (st (tasks s t)) eqn:Es; try discriminate. destruct (is_done s c); [|discriminate]. injection Hs as <-. cbn [set stacks tasks].
    assert (Hsame : upd (stacks s) w (t :: r) n = stacks s n) by (unfold upd; destruct (Nat.eqb_spec n w); congruence). rewrite Hsame. intros t' Hin. specialize (HH t' Hin). unfold upd. destruct (Nat.eqb_spec t' t) as [->|]; exact HH.
  - destruct (st (tasks s t)) eqn:Es; try discriminate. destruct (is_done s c); [|discriminate]. injection Hs as <-. cbn [stacks tasks]. intros t' Hin. specialize (HH t' Hin). unfold upd. destruct (Nat.eqb_spec t' t) as [->|]; exact HH.
  - destruct (st (tasks s t)) eqn:Es; try discriminate. destruct (stacks s w); [|discriminate]. injection Hs as <-. cbn [stacks tasks]. intros t' Hin. specialize (HH t' Hin). unfold upd. destruct (Nat.eqb_spec t' t) as [->|]; exact HH.
Qed.
(** if nobody sleeps, nobody is asleep *)
Definition Still (s : state) : Prop := forall t, t < count s -> still (rest (tasks s t)) /\ forall w, st (tasks s t) <> Asleep w.
Lemma Still_step n s e s' : Inv n s -> Still s -> step n s e = Some s' -> Still s'.
Proof.
  intros HI HS Hs.
  assert (U : forall t x m stk, m = count s -> still (rest x) -> (forall w, st x <> Asleep w) -> Still (St m (upd (tasks s) t x) stk)).
  { intros t x m stk -> H1 H2 t' Ht'. cbn in *. unfold upd. destruct (t' =? t); auto. }
  unfold step in Hs. destruct e as [w t|w|w|t|t].
  - destruct ((w <? n) && (t <? count s)) eqn:E; [|discriminate]. apply andb_true_iff in E as [_ E]. apply Nat.ltb_lt in E. destruct (stacks s w); [|discriminate]. destruct (st (tasks s t)); try discriminate. injection Hs as <-. apply U; [reflexivity|apply (HS t E)|discriminate].
  - destruct (stacks s w) as [|t r] eqn:Ew; [discriminate|]. destruct (i_in _ _ HI w t) as (_ & Ht & _); [rewrite Ew; left; reflexivity|]. destruct (HS t Ht) as [G _].
    destruct (st (tasks s t)) eqn:Es; try discriminate. destruct (rest (tasks s t)) as [|k|k|e p k|i k|i k] eqn:Er; cbn in G.
    + injection Hs as <-. apply U; [reflexivity|exact I|discriminate].
    + injection Hs as <-. apply U; [reflexivity|exact G|discriminate].
    + contradiction.
    + injection Hs as <-. intros t' Ht'. cbn [tasks count] in *. unfold upd. destruct (Nat.eqb_spec t' (count s)); [cbn; split; [apply G|intros w'; destruct e; discriminate]|]. destruct (t' =? t); [cbn; split; [apply G|discriminate]|apply HS; lia].
    + destruct (nth_error (kids (tasks s t)) i) as [c|]; [|discriminate]. injection Hs as <-. apply U; [reflexivity|exact G|cbn; intros w'; destruct (is_done s c); discriminate].
    + destruct (nth_error (kids (tasks s t)) i) as [c|]; [|discriminate]. injection Hs as <-. destruct (is_done s c); (apply U; [reflexivity|exact G|discriminate]).
  - destruct (stacks s w) as [|t r] eqn:Ew; [discriminate|]. destruct (i_in _ _ HI w t) as (_ & Ht & _); [rewrite Ew; left; reflexivity|]. destruct (st (tasks s t)) eqn:Es; try discriminate. destruct (is_done s c); [|discriminate]. injection Hs as <-. apply U; [reflexivity|apply (HS t Ht)|discriminate].
  - destruct (st (tasks s t)) eqn:Es; try discriminate. destruct (is_done s c); [|discriminate]. injection Hs as <-. assert (Ht : t < count s). { destruct (lt_dec t (count s)); [assumption|]. rewrite (i_out _ _ HI t) in Es by lia. discriminate. } apply U; [reflexivity|apply (HS t Ht)|discriminate].
  - destruct (st (tasks s t)) eqn:Es; try discriminate. destruct (stacks s w); [|discriminate]. injection Hs as <-. assert (Ht : t < count s). { destruct (lt_dec t (count s)); [assumption|]. rewrite (i_out _ _ HI t) in Es by lia. discriminate. } apply U; [reflexivity|apply (HS t Ht)|discriminate].
Qed.
Lemma Still_run n main l s : wf 0 main -> still main -> run (step n) (init n main) l = Some s -> Still s.
Proof.
  intros Hwf Hst Hr. assert (H : Inv n s /\ Still s); [|apply H]. revert Hr. apply (run_inv _ (fun s => Inv n s /\ Still s)).
  - intros s0 e s1 (H1 & H2) Hs. split; [eapply Inv_step|eapply Still_step]; eauto.
  - split; [now apply Inv_init|]. intros t Ht. cbn in Ht. assert (t = 0) by lia. subst. cbn. split; [exact Hst|discriminate].
Qed.
Lemma filter_sum m (f : nat -> bool) : length (filter f (seq 0 m)) = sum_to m (fun t => if f t then 1 else 0).
Proof. induction m as [|m IH]; [reflexivity|]. rewrite seq_S, filter_app, app_length, IH. cbn. destruct (f m); cbn; lia. Qed.
Lemma sum_le m f g : (forall i, i < m -> f i <= g i) -> sum_to m f <= sum_to m g.
Proof. induction m as [|m IH]; intros H; cbn; [lia|]. pose proof (H m ltac:(lia)). specialize (IH ltac:(intros; apply H; lia)). lia. Qed.
Lemma not_all_blocked n s : Inv n s -> Main n s -> (forall w, w < n -> blocked s w) -> n <= total s.
Proof.
  intros HI HM Hb. set (f := fun t => negb (t =? 0) && is_blocked (tasks s t)).
  set (top := fun w => match stacks s w with t :: _ => t | [] => 0 end).
  assert (Htop : forall w, w < n -> exists r, stacks s w = top w :: r /\ is_blocked (tasks s (top w)) = true).
  { intros w Hw. destruct (Hb w Hw) as (t & r & c & H1 & H2 & _). unfold top. rewrite H1. exists r. split; [reflexivity|]. unfold is_blocked. rewrite H2. reflexivity. }
  assert (L : length (map top (seq 0 n)) <= length (filter f (seq 0 (count s)))).
  { apply NoDup_incl_length.
    - assert (G : forall l, NoDup l -> (forall w, In w l -> w < n) -> NoDup (map top l)).
      { induction 1 as [|w l Hni Hnd IH]; intros Hl; cbn; [constructor|]. constructor; [|apply IH; intros; apply Hl; right; auto]. intros Hin. apply in_map_iff in Hin as (w' & E & Hin). apply Hni.
        destruct (Htop w (Hl w (or_introl eq_refl))) as (r & E1 & _). destruct (Htop w' (Hl w' (or_intror Hin))) as (r' & E2 & _).
        assert (w = w') by (apply (i_one _ _ HI w w' (top w)); [rewrite E1; left; reflexivity|rewrite E2; left; exact E]). congruence. }
      apply G; [apply seq_NoDup|]. intros w Hw. apply in_seq in Hw. lia.
    - intros t Hin. apply in_map_iff in Hin as (w & <- & Hw). apply in_seq in Hw. destruct (Htop w ltac:(lia)) as (r & E & B).
      assert (Hin : In (top w) (stacks s w)) by (rewrite E; left; reflexivity). destruct (i_in _ _ HI w _ Hin) as (_ & Hc & _). apply filter_In. split; [apply in_seq; lia|]. unfold f. rewrite B, andb_true_r. apply negb_true_iff, Nat.eqb_neq.
      intros E0. apply (m_in _ _ HM w ltac:(lia)). rewrite <- E0. exact Hin. }
  rewrite map_length, seq_length, filter_sum in L. unfold total. eapply Nat.le_trans; [exact L|]. apply sum_le. intros t _. unfold f, share. destruct (t =? 0); cbn; [lia|]. destruct (is_blocked (tasks s t)); rewrite ?orb_true_r; lia.
Qed.
Lemma some_blocked n s w : Inv n s -> Main n s -> w < n -> blocked s w -> 1 <= total s.
Proof.
  intros HI HM Hw (t & r & c & H1 & H2 & _). assert (Hin : In t (stacks s w)) by (rewrite H1; left; reflexivity). destruct (i_in _ _ HI w t Hin) as (_ & Ht & _).
  assert (t <> 0) by (intros ->; exact (m_in _ _ HM w Hw Hin)). assert (G : share t (tasks s t) >= 1). { unfold share, is_blocked. rewrite H2, orb_true_r. rewrite (proj2 (Nat.eqb_neq t 0)) by assumption. lia. }
  unfold total. assert (K : forall m, t < m -> 1 <= sum_to m (fun i => share i (tasks s i))); [|auto]. induction m as [|m IH]; intros L; [lia|]. cbn. destruct (Nat.eq_dec t m) as [<-|]; [lia|]. specialize (IH ltac:(lia)). lia.
Qed.
Lemma Main_run n main l s : wf 0 main -> plain main -> run (step n) (init n main) l = Some s -> (Inv n s /\ Home n s) /\ Main n s /\ total s <= blockers main.
Proof.
  intros Hwf Hp. apply (run_inv _ (fun s => (Inv n s /\ Home n s) /\ Main n s /\ total s <= blockers main)).
  - intros s0 e s1 ((H1 & H0) & H2 & H3) Hs. split; [split; [eapply Inv_step|eapply Home_step]; eauto|]. split; [eapply Main_step; eauto|]. pose proof (total_step _ _ _ _ H1 Hs). lia.
  - split; [split; [now apply Inv_init|]; intros t; cbn; rewrite Nat.eqb_refl; intros [<-|[]]; now apply plain_home|]. split; [|unfold total, share; cbn; lia]. split; cbn; auto. intros w Hw. destruct (Nat.eqb_spec w n); [lia|auto].
Qed.
Lemma completes n main : 1 <= n -> wf 0 main -> plain main -> blockers main = 0 \/ (blockers main < n /\ still main) -> forall l s, run (step n) (init n main) l = Some s ->
  finished s \/ exists e s', step n s e = Some s'.
Proof.
  intros Hn Hwf Hp Hb l s Hr. destruct (Main_run _ _ _ _ Hwf Hp Hr) as ((HI & HH) & HM & Ht). destruct (progress n s HI HH) as [H|[H|[H|(w & Hw & H1 & t & H2 & H3)]]]; auto.
  - pose proof (not_all_blocked _ _ HI HM H). lia.
  - destruct Hb as [Hb|(_ & Hb)]; [pose proof (some_blocked _ _ _ HI HM Hw H1); lia|]. exfalso. exact (proj2 (Still_run _ _ _ _ Hwf Hb Hr t H2) w H3).
Qed.
Lemma can_finish n main : 1 <= n -> wf 0 main -> plain main -> blockers main = 0 \/ (blockers main < n /\ still main) -> forall m l s, measure s <= m -> run (step n) (init n main) l = Some s -> exists l' s', run (step n) s l' = Some s' /\ finished s'.
Proof.
  intros Hn Hwf Hp Hb m. induction m as [|m IH]; intros l s Hm Hr; destruct (Main_run _ _ _ _ Hwf Hp Hr) as ((HI & _) & _ & _); (destruct (completes n main Hn Hwf Hp Hb l s Hr) as [H|(e & s1 & H)]; [exists [], s; auto|]); pose proof (measure_step _ _ _ _ HI H); [lia|].
  destruct (IH (l ++ [e]) s1) as (l' & s' & G1 & G2); [lia|rewrite (run_app _ _ _ _ _ Hr); cbn; rewrite H; reflexivity|]. exists (e :: l'), s'. split; [|exact G2]. cbn [run]. rewrite H. exact G1.
Qed.

(** C119: a program whose tasks sleep, do I/O and wait for each other only by co_await runs to completion on any pool with at least one worker, whatever the schedule, and so the get()s of main() return:
    no schedule is longer than [3 * size main + 1], it can be continued to the end from every point, and it cannot get stuck before. *)
Theorem C119_cooperative_programs_complete : forall n main, 1 <= n -> wf 0 main -> plain main -> blockers main = 0 ->
  forall l s, run (step n) (init n main) l = Some s ->
  length l <= 3 * size main + 1 /\ (stuck n s -> finished s) /\ exists l' s', run (step n) s l' = Some s' /\ finished s'.
Proof.
  intros n main Hn Hwf Hp Hb l s Hr. assert (HB : blockers main = 0 \/ (blockers main < n /\ still main)) by auto. pose proof (measure_run _ _ _ _ (Inv_init n main Hwf) Hr). rewrite measure_init in H. split; [lia|]. split.
  - intros Hs. destruct (completes n main Hn Hwf Hp HB l s Hr) as [G|(e & s' & G)]; [exact G|]. rewrite Hs in G. discriminate.
  - eapply (can_finish n main); eauto.
Qed.
Print Assumptions C119_cooperative_programs_complete.
(** a task that starts an eager and a lazy one that sleeps, yields, sleeps and awaits both; main() waits for it *)
Definition fork := Spawn true (Yield (Sleep Ret)) (Spawn false (Spawn false (Sleep Ret) (Await 0 Ret)) (Yield (Sleep (Await 0 (Await 1 Ret))))).
Definition coop_main := Spawn false fork (Spawn true fork (Get 0 (Get 1 Ret))).
Example C119_case_hyps : wf 0 coop_main /\ plain coop_main /\ blockers coop_main = 0.
Proof. cbn. repeat split; lia. Qed.
Example C119_case : exists s, run (step 1) (init 1 coop_main) (repeat (Act 1) 7) = Some s /\ st (tasks s 0) = Blocked 1 /\ count s = 5.
Proof. eexists. split; [reflexivity|]. split; reflexivity. Qed.

(** C120: tasks may also wait by a blocking get() or result(). What holds: as long as fewer tasks do so than there are workers and none sleeps or does I/O, everything completes as in C119. *)
Theorem C120_blocking_programs_complete_partial : forall n main, wf 0 main -> plain main -> blockers main < n -> still main ->
  forall l s, run (step n) (init n main) l = Some s ->
  length l <= 3 * size main + 1 /\ (stuck n s -> finished s) /\ exists l' s', run (step n) s l' = Some s' /\ finished s'.
Proof.
  intros n main Hwf Hp Hb Hst l s Hr. assert (Hn : 1 <= n) by lia. assert (HB : blockers main = 0 \/ (blockers main < n /\ still main)) by auto. pose proof (measure_run _ _ _ _ (Inv_init n main Hwf) Hr). rewrite measure_init in H. split; [lia|]. split.
  - intros Hs. destruct (completes n main Hn Hwf Hp HB l s Hr) as [G|(e & s' & G)]; [exact G|]. rewrite Hs in G. discriminate.
  - eapply (can_finish n main); eauto.
Qed.
Print Assumptions C120_blocking_programs_complete_partial.
(** Whatever the program: if nothing can happen any more and not everything has ended, then every worker is blocked in get(), for a task that has not ended, or one of them is whose event loop holds a task. *)
Theorem C120_stuck_only_if_all_blocked_partial : forall n main l s, wf 0 main -> plain main -> run (step n) (init n main) l = Some s -> stuck n s ->
  finished s \/ (forall w, w < n -> blocked s w) \/ exists w, loop_blocked n s w.
Proof. intros n main l s Hwf Hp Hr Hs. destruct (Main_run _ _ _ _ Hwf Hp Hr) as ((HI & HH) & _). destruct (progress n s HI HH) as [H|[(e & s' & H)|H]]; auto. rewrite Hs in H. discriminate. Qed.
Print Assumptions C120_stuck_only_if_all_blocked_partial.

(** ** [n] of them *)
Definition unit_ := Spawn false Ret (Get 0 Ret).
Fixpoint spawns (m : nat) (k : prog) : prog := match m with O => k | S m' => Spawn false unit_ (spawns m' k) end.
Definition main_ (n : nat) := spawns n (Get 0 Ret).
Definition same_as (s : state) (c : nat) (tk : nat -> task) (sk : nat -> list nat) : Prop := count s = c /\ (forall t, tasks s t = tk t) /\ forall w, stacks s w = sk w.
Definition none_ := T Ret [] Done.
Definition tk1 (n j t : nat) : task := if t =? 0 then T (spawns (n - j) (Get 0 Ret)) (seq 1 j) OnStack else if t <=? j then T unit_ [] Queued else none_.
Definition sk1 (n w : nat) : list nat := if w =? n then [0] else [].
Definition tk2 (n j t : nat) : task :=
  if t =? 0 then T Ret (seq 1 n) (Blocked 1) else if t <=? j then T Ret [n + t] (Blocked (n + t)) else if t <=? n then T unit_ [] Queued else if t <=? n + j then T Ret [] Queued else none_.
Definition sk2 (n j w : nat) : list nat := if w =? n then [0] else if w <? j then [S w] else [].
Ltac cases := repeat (match goal with |- context [?a =? ?b] => destruct (Nat.eqb_spec a b) | |- context [?a <=? ?b] => destruct (Nat.leb_spec a b) | |- context [?a <? ?b] => destruct (Nat.ltb_spec a b) end; subst; try lia; try reflexivity; try congruence).
Lemma phase1 n j : j <= n -> exists s, run (step n) (init n (main_ n)) (repeat (Act n) j) = Some s /\ same_as s (1 + j) (tk1 n j) (sk1 n).
Proof.
  induction j as [|j IH]; intros Hj.
  - eexists. split; [reflexivity|]. split; [reflexivity|]. split; [|reflexivity]. intros t. unfold tk1, main_. cbn -[Nat.leb]. rewrite Nat.sub_0_r. cases.
  - destruct (IH ltac:(lia)) as (s & Hr & H1 & H2 & H3). replace (repeat (Act n) (S j)) with (repeat (Act n) j ++ [Act n]) by (rewrite <- repeat_cons; reflexivity). rewrite (run_app _ _ _ _ _ Hr). cbn [run step].
    rewrite H3. unfold sk1 at 1. rewrite Nat.eqb_refl. rewrite H2. unfold tk1 at 1 2. cbn [Nat.eqb st rest]. replace (n - j) with (S (n - S j)) by lia. cbn [spawns].
    eexists. split; [reflexivity|]. split; [cbn; lia|]. cbn [tasks stacks]. rewrite H1. split.
    + intros t. unfold upd. rewrite H2. unfold tk1. cbn [Nat.eqb kids]. rewrite seq_S. cases.
    + intros w. unfold upd. rewrite H3. unfold sk1. cases.
Qed.
Lemma phase1b n : 1 <= n -> exists s, run (step n) (init n (main_ n)) (repeat (Act n) n ++ [Act n]) = Some s /\ same_as s (1 + n) (tk2 n 0) (sk2 n 0).
Proof.
  intros Hn. destruct (phase1 n n (le_n _)) as (s & Hr & H1 & H2 & H3). rewrite (run_app _ _ _ _ _ Hr). cbn [run step]. rewrite H3. unfold sk1 at 1. rewrite Nat.eqb_refl. rewrite H2. unfold tk1 at 1 2. cbn [Nat.eqb st rest]. rewrite Nat.sub_diag. cbn [spawns].
  unfold tk1 at 1. cbn [Nat.eqb kids]. destruct n as [|n]; [lia|]. cbn [seq nth_error]. assert (Hd : is_done s 1 = false) by (unfold is_done; rewrite H2; reflexivity). rewrite Hd.
  eexists. split; [reflexivity|]. split; [cbn; exact H1|]. cbn [tasks stacks set]. split.
  - intros t. unfold upd. rewrite H2. unfold tk1, tk2. cbn [Nat.eqb kids]. cases.
  - intros w. unfold upd. rewrite H3. unfold sk1, sk2. cases.
Qed.
Fixpoint block_all (j : nat) : list event := match j with O => [] | S j' => block_all j' ++ [Take j' (S j'); Act j'; Act j'] end.
Lemma phase2 n j s0 : 1 <= n -> j <= n -> same_as s0 (1 + n) (tk2 n 0) (sk2 n 0) -> exists s, run (step n) s0 (block_all j) = Some s /\ same_as s (1 + n + j) (tk2 n j) (sk2 n j).
Proof.
  intros Hn Hj H0. induction j as [|j IH].
  - exists s0. split; [reflexivity|]. rewrite Nat.add_0_r. exact H0.
  - destruct (IH ltac:(lia)) as (s & Hr & H1 & H2 & H3). cbn [block_all]. rewrite (run_app _ _ _ _ _ Hr). cbn [run].
    assert (T0 : tasks s (S j) = T unit_ [] Queued) by (rewrite H2; unfold tk2; cases). assert (K0 : stacks s j = []) by (rewrite H3; unfold sk2; cases).
    unfold step at 1. rewrite (proj2 (Nat.ltb_lt j n)), (proj2 (Nat.ltb_lt (S j) (count s))) by lia. cbn [andb]. rewrite K0, T0. cbn [st rest kids set count tasks stacks].
    unfold step at 1. cbn [set count tasks stacks]. rewrite !upd_same. cbn [st rest kids]. unfold unit_ at 1. cbn [app].
    unfold step at 1. cbn [count tasks stacks]. rewrite !upd_same. rewrite (upd_other _ (count s) (S j)) by lia. rewrite !upd_same. cbn [st rest kids app nth_error].
    assert (Hd : forall a b c, is_done (St a (upd b (count s) (T Ret [] Queued)) c) (count s) = false) by (intros; unfold is_done; cbn; rewrite upd_same; reflexivity). rewrite Hd.
    eexists. split; [reflexivity|]. split; [cbn; lia|]. cbn [tasks stacks set]. split.
    + intros t. unfold upd. rewrite H1, H2. unfold tk2. replace (1 + n + j) with (n + S j) by lia. cases.
    + intros w. unfold upd. rewrite H3. unfold sk2. cases.
Qed.

(** But for every number [n] of workers, [n] tasks that call result() of a task they start can stop everything for good: get() in main() never returns. (So the bound in the theorem above is exact.) *)
Theorem C120_all_workers_block_refuted : forall n, 1 <= n -> exists main l s, wf 0 main /\ plain main /\ blockers main = n /\ still main /\
  run (step n) (init n main) l = Some s /\ stuck n s /\ st (tasks s 0) = Blocked 1 /\ forall w, w < n -> blocked s w.
Proof.
  intros n Hn. destruct (phase1b n Hn) as (s0 & Hr0 & H0). destruct (phase2 n n s0 Hn (le_n _) H0) as (s & Hr & H1 & H2 & H3).
  exists (main_ n), ((repeat (Act n) n ++ [Act n]) ++ block_all n), s. split; [|split; [|split; [|split; [|split; [|split; [|split]]]]]].
  - unfold main_. assert (G : forall m d k, wf (d + m) k -> wf d (spawns m k)). { induction m as [|m IH]; intros d k Hk; cbn; [rewrite Nat.add_0_r in Hk; exact Hk|]. split; [repeat split; lia|]. apply IH. replace (S d + m) with (d + S m) by lia. exact Hk. } apply G. cbn. split; [lia|exact I].
  - unfold main_. induction n as [|n IH]; cbn; auto. clear. induction n; cbn; auto.
  - unfold main_. clear. induction n as [|n IH]; cbn; auto.
  - unfold main_. clear. induction n as [|n IH]; cbn; auto.
  - rewrite (run_app _ _ _ _ _ Hr0). exact Hr.
  - assert (Hd : forall c, 0 < c <= n + n -> is_done s c = false) by (intros c Hc; unfold is_done; rewrite H2; unfold tk2; cases).
    intros [w t|w|w|t|t]; unfold step.
    + destruct (Nat.ltb_spec w n); [|reflexivity]. destruct (t <? count s); [|reflexivity]. cbn [andb]. rewrite H3. unfold sk2. cases.
    + rewrite H3. unfold sk2. destruct (Nat.eqb_spec w n); [rewrite H2; reflexivity|]. destruct (Nat.ltb_spec w n); [|reflexivity]. rewrite H2. unfold tk2. cases.
    + rewrite H3. unfold sk2. destruct (Nat.eqb_spec w n); [rewrite H2; cbn; rewrite Hd by lia; reflexivity|]. destruct (Nat.ltb_spec w n); [|reflexivity]. rewrite H2. unfold tk2. cases. cbn. rewrite Hd by lia. reflexivity.
    + rewrite H2. unfold tk2. cases.
    + rewrite H2. unfold tk2. cases.
  - rewrite H2. reflexivity.
  - intros w Hw. exists (S w), [], (n + S w). rewrite H3, !H2. unfold sk2, tk2. cases. repeat split. discriminate.
Qed.
Print Assumptions C120_all_workers_block_refuted.
(** one blocking task fits on two workers *)
Example C120_case : wf 0 (main_ 1) /\ plain (main_ 1) /\ blockers (main_ 1) < 2 /\ still (main_ 1) /\
  exists s, run (step 2) (init 2 (main_ 1)) [Act 2; Act 2; Take 0 1; Act 0; Act 0; Take 1 2; Act 1; Unblock 0; Act 0; Unblock 2; Act 2] = Some s /\ finished s.
Proof.
  split; [cbn; repeat split; lia|]. split; [cbn; auto|]. split; [cbn; lia|]. split; [cbn; auto|].
  destruct (run_check_ok (step 2) (init 2 (main_ 1)) [Act 2; Act 2; Take 0 1; Act 0; Act 0; Take 1 2; Act 1; Unblock 0; Act 0; Unblock 2; Act 2] (fun s => forallb (fun t => is_done s t && match rest (tasks s t) with Ret => true | _ => false end) (seq 0 (count s))) eq_refl) as (s & H1 & H2).
  exists s. split; [exact H1|]. intros t Ht. rewrite forallb_forall in H2. assert (E := H2 t ltac:(apply in_seq; lia)). apply andb_true_iff in E. destruct E as [E1 E2]. split; [now apply is_done_true|]. destruct (rest (tasks s t)); discriminate || reflexivity.
Qed.
