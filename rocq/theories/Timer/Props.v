From Coq Require Import List Arith ZArith Bool Permutation Sorted.
From Verif.Common Require Import TS.
From Verif.Timer Require Import Model Spec Proofs.
Import ListNotations.
Open Scope Z_scope.

(** Every theorem quantifies over all implementations [H] of std::push_heap/pop_heap that meet the C++
    standard's contract; [sorted_ops_ok] shows that the contract is satisfiable. *)

(** C11 and C13 before stop: the log of any history of any number of registered threads (poll split at its lock release) is
    one of the specification: a poll at [now] resumes exactly the due sleepers, each once; what is not due keeps
    sleeping; max_sleep_duration is exactly the distance to the earliest deadline. *)
Theorem C11_timer_exact : forall H, std_heap H -> forall l,
  run_all (next H) registered_use init l ->
  timer_ok (fun _ => []) (trace (next H) (observe H) init l).
Proof. exact log_ok_init. Qed.
Print Assumptions C11_timer_exact.

(** No undefined behaviour when only registered threads use the loop. *)
Theorem C11_registered_threads_safe : forall H, std_heap H -> forall l s,
  run_all (next H) registered_use init l -> run (next H) init l = Some s -> ub s = false.
Proof. exact no_ub. Qed.
Print Assumptions C11_registered_threads_safe.

(** A thread that is not a worker and adds a timer (or polls) dereferences a null pointer, always. *)
Theorem C68_foreign_thread_refuted : forall H s t now d x,
  ub s = false -> stop_requested s = false -> m_impl_ptrs s t = Absent ->
  exists s', next H s (EAdd t now d x) = Some s' /\ ub s' = true.
Proof.
  intros H s t now d x Hu Hs Ht. unfold next, step, deref. rewrite Hu, Hs, Ht. cbn. eexists. split; reflexivity.
Qed.
Print Assumptions C68_foreign_thread_refuted.

(** After stop() no sleeper is ever resumed, however long the loop keeps being polled. *)
Theorem C67_sleepers_at_stop_lost_refuted : forall H, std_heap H ->
  exists l s, run (next H) init l = Some s /\ slept (trace (next H) (observe H) init l) = [Ev 5 1] /\
    forall l', resumed (trace (next H) (observe H) init (l ++ l')) = [].
Proof.
  intros H HH. exists [EPrepare 0; EAdd 0 0 5 1; EStop].
  eexists. split; [reflexivity|]. split; [reflexivity|]. intros l'.
  erewrite (trace_app (next H) (observe H) init [EPrepare 0; EAdd 0 0 5 1; EStop] l'); [|reflexivity].
  cbn. apply stopped_quiet. split; [reflexivity|].
  intros [|t] i; cbn; intros E; inversion E; reflexivity.
Qed.
Print Assumptions C67_sleepers_at_stop_lost_refuted.

(** sleep_until never asks for more than the time left and does not suspend at all if the time has passed;
    sleep_for of a positive duration always suspends for that duration. *)
Theorem C11_sleep_until_duration : forall tp now,
  sleep_until tp now = if now <? tp then Some (tp - now) else None.
Proof.
  intros tp now. unfold sleep_until, sleep_for.
  destruct (Z.ltb_spec now tp); destruct (Z.ltb_spec 0 (tp - now)); try (exfalso; Lia.lia); try reflexivity.
  destruct (Z.eqb_spec (tp - now) 0); [exfalso; Lia.lia|reflexivity].
Qed.
Print Assumptions C11_sleep_until_duration.

(** Non-vacuity: two threads, ties, a poll between the deadlines. *)
Example C11_case :
  let l := [EPrepare 0; EPrepare 1; EAdd 0 0 5 1; EAdd 0 0 3 2; EAdd 1 0 1 3; EAdd 0 2 1 4; EMaxSleep 0 1;
            EPoll1 0 3; EPoll2 0; EMaxSleep 0 4; EPoll1 0 5; EPoll2 0] in
  trace (next sorted_ops) (observe sorted_ops) init l =
    [Registered 0; Registered 1; Sleeps 0 (Ev 5 1); Sleeps 0 (Ev 3 2); Sleeps 1 (Ev 1 3); Sleeps 0 (Ev 3 4);
     MaySleep 0 1 (Some 2); Resumed 0 3 [Ev 3 2; Ev 3 4]; MaySleep 0 4 (Some 1); Resumed 0 5 [Ev 5 1]] /\
  run_all (next sorted_ops) registered_use init l.
Proof.
  split; [reflexivity|].
  cbn. repeat (split; [try exact I; try (eexists; cbn; reflexivity) | let E := fresh in intros ? E; vm_compute in E; inversion E; subst; clear E]); exact I.
Qed.

(** C12 is false: within one poll the tasks are handed over in non-increasing order of deadline, for every
    implementation of the heap algorithms; so whenever two deadlines differ the order is reversed. *)
Theorem C12_descending_refuted : forall H, std_heap H -> forall l s t s' now r,
  run (next H) init l = Some s -> step H s (EPoll2 t) = Some (s', [Resumed t now r]) ->
  StronglySorted (fun a b => timeout_tp b <= timeout_tp a) r.
Proof. exact poll_descending. Qed.
Print Assumptions C12_descending_refuted.

Theorem C12_order_refuted : exists l log a b,
  trace (next sorted_ops) (observe sorted_ops) init l = log ++ [Resumed 0 9 [a; b]] /\
  timeout_tp b < timeout_tp a.
Proof.
  exists [EPrepare 0; EAdd 0 0 1 1; EAdd 0 0 2 2; EPoll1 0 9; EPoll2 0],
         [Registered 0; Sleeps 0 (Ev 1 1); Sleeps 0 (Ev 2 2)], (Ev 2 2), (Ev 1 1).
  split; reflexivity.
Qed.
Print Assumptions C12_order_refuted.

(** C13: the reported idle time is exactly the distance to the earliest pending deadline, for every
    state reachable by registered threads before stop; "infinite" iff nothing sleeps. *)
Theorem C13_max_sleep_exact : forall H, std_heap H -> forall l s t now s' d,
  run (next H) init l = Some s -> stop_requested s = false ->
  step H s (EMaxSleep t now) = Some (s', [MaySleep t now d]) ->
  earliest_distance (pending s t) now d.
Proof. exact max_sleep_exact. Qed.
Print Assumptions C13_max_sleep_exact.
(** three sleepers of thread 0, one of them already overdue: a poll resumed it, then the next one is 2 away; thread 1 has none *)
Example C13_case : let l := [EPrepare 0; EPrepare 1; EAdd 0 0 7 1; EAdd 0 0 3 2; EAdd 0 1 8 3; EPoll1 0 5; EPoll2 0] in exists s s' s'',
  run (next sorted_ops) init l = Some s /\ stop_requested s = false /\ step sorted_ops s (EMaxSleep 0 5) = Some (s', [MaySleep 0 5 (Some 2)]) /\
  step sorted_ops s (EMaxSleep 1 5) = Some (s'', [MaySleep 1 5 None]) /\ length (pending s 0) = 2%nat.
Proof. do 3 eexists. split; [reflexivity|]. repeat split; reflexivity. Qed.

(** Once stop was requested the answer is "infinite" although sleepers are pending. *)
Theorem C67_idle_time_after_stop_refuted : exists l s s',
  run (next sorted_ops) init l = Some s /\ pending s 0 = [Ev 5 1] /\
  step sorted_ops s (EMaxSleep 0 0) = Some (s', [MaySleep 0 0 None]).
Proof.
  exists [EPrepare 0; EAdd 0 0 5 1; EStop]. eexists. eexists. split; [reflexivity|]. split; reflexivity.
Qed.
Print Assumptions C67_idle_time_after_stop_refuted.
