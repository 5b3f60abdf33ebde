(** C121: how long one can sleep. include/koios/this_task.h 24-70 (sleep_for keeps the caller's duration type; sleep_until subtracts the reading of the caller's clock), include/koios/timer.h 70-74 (now + dura, in the
    common type of the two, nanoseconds on a 64-bit signed integer: what std::chrono's arithmetic does in libstdc++), src/timer.cc 23-50 (due when now >= deadline).
    Durations have 64-bit ticks of [unit] nanoseconds (1 for nanoseconds, 3600 * 10^9 for hours). A signed overflow is undefined behaviour. What the timer does with the deadline is Model.v. *)
From Coq Require Import ZArith Lia Bool.
Open Scope Z_scope.

(* environment, not code of /repo (int64_t) *)
Definition max := 2 ^ 63 - 1.
(* environment, not code of /repo (int64_t) *)
Definition min := - 2 ^ 63.
(* environment, not code of /repo (int64_t) *)
Definition fits (x : Z) : bool := (min <=? x) && (x <=? max).

Example C121_clock_end : (min, max) = (-9223372036854775808, 9223372036854775807).
Proof. reflexivity. Qed.

(* a deadline or undefined behaviour: timer.h 70-74 *)
Inductive outcome :=
| Continue            (* does not suspend *)
| Until (tp : Z)      (* suspended, with this deadline on the timer's clock *)
| UB.
(** timer.h 70-74 *)
Definition add_event (now unit count : Z) : outcome :=
  if fits (count * unit) then if fits (now + count * unit) then Until (now + count * unit) else UB else UB.
(** this_task.h 33-41: [now] is read when the timer is told *)
Definition sleep_for (unit count now : Z) : outcome := if count =? 0 then Continue else add_event now unit count.
(** this_task.h 64-70: [clock] is what the caller's clock shows in sleep_until(), [now] what the timer's shows a little later; all in nanoseconds *)
Definition sleep_until (tp clock now : Z) : outcome :=
  if fits (tp - clock) then let dura := tp - clock in sleep_for 1 (if 0 <? dura then dura else 0) now else UB.

Lemma fits_iff x : fits x = true <-> min <= x <= max.
Proof. unfold fits. rewrite andb_true_iff, !Z.leb_le. tauto. Qed.
Lemma fits_no x : max < x -> fits x = false.
Proof. intros H. unfold fits. apply andb_false_iff. right. apply Z.leb_gt. exact H. Qed.

(** C121: a coroutine can sleep for any duration and until any time point. What holds: a positive duration sleeps until exactly [now] plus the duration, if and only if that moment is before the end
    of the timer's clock (the year 2262); sleep_until wakes at [tp], late by what passed between the two readings, or does not sleep if [tp] has passed. *)
Theorem C121_exact_partial : forall unit count now, 1 <= unit -> 0 < count <= max -> 0 <= now <= max ->
  (now + count * unit <= max <-> sleep_for unit count now = Until (now + count * unit)) /\
  (max < now + count * unit <-> sleep_for unit count now = UB).
Proof.
  intros unit count now Hu Hc Hn. assert (0 < count * unit) by nia. unfold sleep_for. rewrite (proj2 (Z.eqb_neq count 0)) by lia. unfold add_event.
  destruct (Z.le_gt_cases (now + count * unit) max).
  - rewrite (proj2 (fits_iff (count * unit))), (proj2 (fits_iff (now + count * unit))) by (unfold min; lia). split; split; intros; try reflexivity; try lia; discriminate.
  - assert (E : (if fits (count * unit) then if fits (now + count * unit) then Until (now + count * unit) else UB else UB) = UB) by (destruct (fits (count * unit)); [rewrite (fits_no (now + _)) by lia|]; reflexivity).
    rewrite E. split; split; intros; try reflexivity; try lia; discriminate.
Qed.
Print Assumptions C121_exact_partial.
Theorem C121_until_partial : forall tp clock now, 0 <= clock <= max -> 0 <= now <= max -> min + clock <= tp <= max ->
  (tp <= clock -> sleep_until tp clock now = Continue) /\
  (clock < tp -> tp + (now - clock) <= max -> sleep_until tp clock now = Until (tp + (now - clock))).
Proof.
  intros tp clock now Hc Hn Ht. unfold sleep_until. rewrite (proj2 (fits_iff (tp - clock))) by (unfold min in *; lia). cbv zeta. split.
  - intros H. rewrite (proj2 (Z.ltb_ge 0 (tp - clock))) by lia. reflexivity.
  - intros H1 H2. rewrite (proj2 (Z.ltb_lt 0 (tp - clock))) by lia. replace (tp + (now - clock)) with (now + (tp - clock) * 1) by lia. apply C121_exact_partial; lia.
Qed.
Print Assumptions C121_until_partial.
(** one day, on 18 November 2026 *)
Example C121_case : sleep_for (3600 * 10 ^ 9) 24 (1795000000 * 10 ^ 9) = Until ((1795000000 + 24 * 3600) * 10 ^ 9) /\ sleep_until (1795000001 * 10 ^ 9) (1795000000 * 10 ^ 9) (1795000000 * 10 ^ 9 + 700) = Until (1795000001 * 10 ^ 9 + 700).
Proof. split; reflexivity. Qed.

(** "For ever" is undefined behaviour: duration::max() of every unit, at any time after 1970. *)
Theorem C121_sleep_for_max_refuted : forall unit now, 1 <= unit -> 0 < now <= max -> sleep_for unit max now = UB.
Proof. intros unit now Hu Hn. apply (C121_exact_partial unit max now); try (unfold max in *; lia). Qed.
Print Assumptions C121_sleep_for_max_refuted.
(** time_point::max() as well: as soon as any time passes between the two clock readings; and always if the caller's clock shows less than the timer's (steady_clock does: it counts from boot). *)
Theorem C121_sleep_until_max_refuted : forall clock now, 0 <= clock < now -> now <= max -> sleep_until max clock now = UB.
Proof.
  intros clock now Hc Hn. unfold sleep_until. rewrite (proj2 (fits_iff (max - clock))) by (unfold min, max in *; lia). cbv zeta. destruct (Z.ltb_spec 0 (max - clock)); [|lia].
  apply (C121_exact_partial 1 (max - clock) now); lia.
Qed.
Print Assumptions C121_sleep_until_max_refuted.
(** And the earliest time point, which is long past, does not let the caller continue. *)
Theorem C121_sleep_until_min_refuted : forall clock now, 0 < clock -> sleep_until min clock now = UB.
Proof. intros clock now Hc. unfold sleep_until. assert (E : fits (min - clock) = false) by (unfold fits; apply andb_false_iff; left; apply Z.leb_gt; lia). rewrite E. reflexivity. Qed.
Print Assumptions C121_sleep_until_min_refuted.
