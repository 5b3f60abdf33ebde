From Coq Require Import List Arith Bool Lia.
From Verif.Common Require Import TS.
From Verif.Functional Require Import Model Spec Proofs.
Import ListNotations.

(** C35, co_await_all (and for_each, [lazy] = true): whatever order the items complete in, the awaiting coroutine ends with all results
    in range order, or with the exception of the first failing item. *)
Theorem C35_results_in_range_order : forall V X n (out : nat -> result V X) lazy l s r,
  run (next n out lazy) (init n lazy) l = Some s -> fin s = Some r -> r = await_in_order (map out (seq 0 n)).
Proof. intros V X n out lazy l s r. exact (fin_result n out lazy l s r). Qed.
Print Assumptions C35_results_in_range_order.

(** it never gets stuck: every schedule can be continued until it ends *)
Theorem C35_can_always_finish : forall V X n (out : nat -> result V X) lazy l s,
  run (next n out lazy) (init n lazy) l = Some s ->
  exists l' s', run (next n out lazy) s l' = Some s' /\ fin s' <> None.
Proof. intros V X n out lazy l s Hr. exact (can_finish n out lazy _ s (inv_run n out lazy l s Hr) eq_refl). Qed.
Print Assumptions C35_can_always_finish.

(** and it does end, in whatever order things happen: no schedule is longer than three steps per item and one, and one that cannot be continued has ended the awaiting coroutine, with everything that was launched complete *)
Theorem C35_always_ends : forall V X n (out : nat -> result V X) lazy l s,
  run (next n out lazy) (init n lazy) l = Some s ->
  length l <= 3 * n + 1 /\
  ((forall e, next n out lazy s e = None) -> fin s = Some (await_in_order (map out (seq 0 n))) /\ forall i, In i (launched s) -> In i (completed s)).
Proof.
  intros V X n out lazy l s Hr. pose proof (inv_run n out lazy l s Hr) as HI. split.
  - pose proof (run_bound n out lazy l _ s (inv_init n out lazy) Hr) as B. unfold left_, init in B. cbn [launched completed pos fin length] in B. lia.
  - intros St. destruct (stuck_ended n out lazy s HI St) as [F C]. split; [|exact C]. destruct (fin s) as [r|] eqn:E; [|congruence]. f_equal. exact (C35_results_in_range_order V X n out lazy l s r Hr E).
Qed.
Print Assumptions C35_always_ends.

(** C35, for_each: no element is run twice; if for_each ends normally, every element was run and has completed. *)
Theorem C35_for_each_once : forall V X n (out : nat -> result V X) l s,
  run (next n out true) (init n true) l = Some s ->
  NoDup (launched s) /\ (forall i, In i (launched s) -> i < n) /\
  (forall vs, fin s = Some (Val vs) -> forall i, i < n -> In i (launched s) /\ In i (completed s)).
Proof.
  intros V X n out l s Hr. destruct (inv_run n out true l s Hr). destruct v_launch as (k & Hk & Hkn & Hk2). repeat split.
  - rewrite Hk. apply NoDup_rev, seq_NoDup.
  - intros i Hi. rewrite Hk in Hi. apply in_rev, in_seq in Hi. lia.
  - rewrite H in v_fin. destruct v_fin as [H1 _]. apply v_sub, v_comp. lia.
  - rewrite H in v_fin. destruct v_fin as [H1 _]. apply v_comp. lia.
Qed.
Print Assumptions C35_for_each_once.

(** C35 refuted for for_each when an element throws: no later element is ever run, in any schedule. *)
Theorem C76_for_each_exception_refuted : forall V X n (out : nat -> result V X) i x l s,
  out i = Exc x -> run (next n out true) (init n true) l = Some s -> forall j, i < j -> ~ In j (launched s).
Proof.
  intros V X n out i x l s Ho Hr j Hj Hin. destruct (inv_run n out true l s Hr).
  destruct v_launch as (k & Hk & Hkn & Hk2). rewrite Hk in Hin. apply in_rev, in_seq in Hin.
  assert (Hp : i < pos s) by lia.
  assert (E : In (out i) (map out (seq 0 (pos s)))) by (apply in_map, in_seq; lia).
  rewrite v_acc, Ho in E. apply in_map_iff in E as (v & Ev & _). discriminate.
Qed.
Print Assumptions C76_for_each_exception_refuted.

(** C52 refuted: for_each, documented to run the elements in parallel, never has two of them in flight; element i+1 is launched
    only after element i completed. *)
Theorem C52_for_each_is_sequential_refuted : forall V X n (out : nat -> result V X) l s,
  run (next n out true) (init n true) l = Some s ->
  (forall i j, in_flight s i -> in_flight s j -> i = j) /\
  (forall i, In (S i) (launched s) -> In i (completed s)).
Proof.
  intros V X n out l s Hr. destruct (inv_run n out true l s Hr). destruct v_launch as (k & Hk & Hkn & Hk2).
  assert (K : forall i, in_flight s i -> i = pos s).
  { intros i [H1 H2]. rewrite Hk in H1. apply in_rev, in_seq in H1.
    destruct (Nat.lt_ge_cases i (pos s)) as [Hl|Hl]; [destruct H2; auto|lia]. }
  split.
  - intros i j Hi Hj. rewrite (K i Hi), (K j Hj). reflexivity.
  - intros i Hi. rewrite Hk in Hi. apply in_rev, in_seq in Hi. apply v_comp. lia.
Qed.
Print Assumptions C52_for_each_is_sequential_refuted.
(** C52 for futures obtained before co_await_all: all items may be in flight at once. *)
Theorem C52_co_await_all_is_parallel_partial : forall V X n (out : nat -> result V X),
  forall i, i < n -> in_flight (@init V X n false) i.
Proof. intros V X n out i Hi. split; cbn; [apply -> in_rev; apply in_seq; lia|easy]. Qed.
Print Assumptions C52_co_await_all_is_parallel_partial.

Definition ex_out (i : nat) : result nat nat := if i =? 3 then Exc 77 else Val (10 * i).
Example C35_case : exists s, run (next 3 ex_out false) (init 3 false) [EComplete 2; EComplete 0; EResume; EComplete 1; EResume; EResume; EEnd] = Some s /\
  fin s = Some (Val [0; 10; 20]).
Proof. apply run_proj_ok. vm_compute. reflexivity. Qed.
Example C35_case_exception : exists s, run (next 5 ex_out true) (init 5 true)
    [EDeref; EComplete 0; EResume; EDeref; EComplete 1; EResume; EDeref; EComplete 2; EResume; EDeref; EComplete 3; EResume] = Some s /\
  (fin s, launched s) = (Some (Exc 77), [3;2;1;0]).
Proof. apply run_proj_ok with (f := fun s => (fin s, launched s)). vm_compute. reflexivity. Qed.

(** C34: all callers together, any interleaving, any start value of the counter: as long as the counter does not wrap (2^64
    dispatches), each item goes to exactly one thread and the loads of any two threads differ by at most one when the
    counter started at a multiple of the number of threads ... *)
Theorem C34_even : forall W t l s i j,
  0 < t -> length l <= W -> 0 < W -> run (dnext W t) (dinit 0) l = Some s -> i < t -> j < t ->
  load i (log s) <= load j (log s) + 1.
Proof.
  intros W t l s i j Ht Hl HW Hr Hi Hj.
  pose proof (dinv_run W t l 0 0 _ s HW (dinv_init W t 0 HW) Hr) as (_ & H & _). cbn in H.
  pose proof (H Hl i) as A. pose proof (H Hl j) as B. rewrite hits_closed in A, B by assumption. clear H Hr.
  generalize dependent (length l mod t). generalize (length l / t). intros q r A B.
  destruct (i <? r), (j <? r); lia.
Qed.
Print Assumptions C34_even.
(** ... and for any window of dispatches starting anywhere (in particular one for_each_dispatch_evenly call that runs without
    others): *)
Theorem C34_even_window : forall W t c l s i j,
  0 < t -> c + length l <= W -> c < W -> run (dnext W t) (dinit c) l = Some s -> i < t -> j < t ->
  load i (log s) <= load j (log s) + 1.
Proof.
  intros W t c l s i j Ht Hl HW Hr Hi Hj.
  pose proof (dinv_run W t l c 0 _ s ltac:(lia) (dinv_init W t c HW) Hr) as (_ & H & _). cbn in H.
  pose proof (H Hl i) as A. pose proof (H Hl j) as B. rewrite !hits_closed in A, B by assumption.
  clear H Hr.
  generalize dependent ((c + length l) mod t). generalize ((c + length l) / t). generalize (c mod t). generalize (c / t). intros q0 r0 q1 r1 A B.
  destruct (Nat.ltb_spec i r1), (Nat.ltb_spec j r1), (Nat.ltb_spec i r0), (Nat.ltb_spec j r0); lia.
Qed.
Print Assumptions C34_even_window.
(** every dispatch goes to exactly one existing thread, none is lost *)
Theorem C34_complete : forall W t c l s,
  0 < t -> run (dnext W t) (dinit c) l = Some s ->
  (forall p, In p (log s) -> snd p < t) /\ length (log s) = length l /\
  list_sum (map (fun i => load i (log s)) (seq 0 t)) = length l /\ rev (map fst (log s)) = l.
Proof.
  intros W t c l s Ht Hr.
  assert (K : forall l s0 s, (forall p, In p (log s0) -> snd p < t) -> run (dnext W t) s0 l = Some s ->
     (forall p, In p (log s) -> snd p < t) /\ rev (map fst (log s)) = rev (map fst (log s0)) ++ l).
  { clear -Ht. induction l as [|e l IH]; cbn; intros s0 s H Hr.
    - inversion Hr; subst. now rewrite app_nil_r.
    - match type of Hr with run _ ?s1 _ = _ => assert (H0 : forall p, In p (log s1) -> snd p < t) end.
      { cbn. intros p [<-|Hp]; auto. cbn. apply Nat.mod_upper_bound. lia. }
      destruct (IH _ _ H0 Hr) as [H1 H2]. split; [exact H1|]. rewrite H2. cbn. now rewrite <- app_assoc. }
  destruct (K l (dinit c) s ltac:(cbn; easy) Hr) as [H1 H2]. cbn in H2.
  assert (E : length (log s) = length l) by (rewrite <- H2, rev_length, map_length; reflexivity).
  repeat split; auto. rewrite (total_load t (log s) H1). exact E.
Qed.
Print Assumptions C34_complete.

(** C53 refuted: the evenness is global, not per call: with two calls running at the same time, all items of one call may go
    to the same thread, however many there are. *)
Theorem C53_concurrent_calls_uneven_refuted : forall k W, 2 * k < W -> exists l s,
  run (dnext W 2) (dinit 0) l = Some s /\ load_of 0 0 (log s) = k /\ load_of 0 1 (log s) = 0.
Proof.
  intros k W HW.
  assert (K : forall k, 2 * k < W -> exists l s, run (dnext W 2) (dinit 0) l = Some s /\ load_of 0 0 (log s) = k /\ load_of 0 1 (log s) = 0 /\
     counter s = 2 * k).
  { clear. induction k as [|k IH]; intros HW.
    - exists [], (dinit 0). now repeat split.
    - destruct IH as (l & s & Hr & H1 & H2 & H3); [lia|]. exists (l ++ [0; 1]).
      rewrite (run_app (dnext W 2) _ _ _ _ Hr). cbn [run dnext]. eexists. split; [reflexivity|].
      cbn [counter log]. rewrite H3. rewrite (Nat.mod_small (S (2 * k)) W) by lia.
      assert (M0 : (2 * k) mod 2 = 0) by (rewrite Nat.mul_comm; apply Nat.mod_mul; lia).
      assert (M1 : S (2 * k) mod 2 = 1).
      { replace (S (2 * k)) with (1 + k * 2) by lia. rewrite Nat.mod_add by lia. reflexivity. }
      rewrite M0, M1. unfold load_of in *. cbn [filter fst snd Nat.eqb andb length]. rewrite H1, H2. repeat split.
      rewrite Nat.mod_small by lia. lia. }
  destruct (K k HW) as (l & s & ? & ? & ? & _). eauto.
Qed.
Print Assumptions C53_concurrent_calls_uneven_refuted.
(** ... but an uninterrupted call is even (C34_even_window with a single caller) *)
Example C34_case : exists s, run (dnext 100 3) (dinit 2) [7;7;8;7;8] = Some s /\
  log s = [(8,0);(7,2);(8,1);(7,0);(7,2)].
Proof. apply run_proj_ok. vm_compute. reflexivity. Qed.
