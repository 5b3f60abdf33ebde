(** C65: from a timeout argument to a deadline; and the arithmetic used by C38.

    std::chrono on libstdc++: system_clock::time_point counts nanoseconds in a signed 64-bit integer, milliseconds are a signed 64-bit
    integer; adding them converts milliseconds to nanoseconds first; signed overflow is undefined behaviour. *)
From Coq Require Import ZArith List Bool Lia.
Import ListNotations.
Open Scope Z_scope.

(* environment, not code of /repo (int64_t) *)
Definition i64_max := 2 ^ 63 - 1.
(* environment, not code of /repo (int64_t) *)
Definition in_i64 (x : Z) : bool := (- 2 ^ 63 <=? x) && (x <=? i64_max).
(** [now + ms], None = undefined behaviour *)
(* system_clock::now() + milliseconds, as in iouring_op_functions.cc 11-330 *)
Definition add_ms (now ms : Z) : option Z :=
  if in_i64 (ms * 10 ^ 6) then if in_i64 (now + ms * 10 ^ 6) then Some (now + ms * 10 ^ 6) else None else None.

(** what the operation gets *)
(* the time point handed to op_batch::timeout: iouring_op_functions.cc 11-330 *)
Inductive deadline := NoDeadline | Deadline (tp : Z) | Undefined.

(** op_batch::timeout(time_point), src/iouring_op_batch.cc 357-361: time_point::max() means none *)
Definition timeout_tp (tp : Z) : deadline := if tp =? i64_max then NoDeadline else Deadline tp.
(** op_batch::timeout(duration), include/koios/iouring_op_batch.h 313-318, at milliseconds *)
Definition timeout_dura (now ms : Z) : deadline :=
  if ms =? i64_max then NoDeadline
  else match add_ms now ms with Some tp => timeout_tp tp | None => Undefined end.

(** The functions that take a timeout in milliseconds *)
Inductive api :=
| ReadBytes | WriteBytes | SendBytes | RecvBytes   (* std::byte spans, src/iouring_op_functions.cc 22-31, 62-71, 111-120, 151-160 *)
| BatchTimeout                                     (* op_batch::timeout *)
| ReadChars | WriteChars | SendChars | RecvChars   (* char spans, 42-49, 82-89, 122-129, 162-169 *)
| Connect | Accept                                 (* include/koios/iouring_op_functions.h 161-168, 190-195 *)
| RecvFill | ReadFill.                             (* src/iouring_awaitables.cc 158-168, 194-204 *)
Definition through_batch (f : api) : bool :=
  match f with ReadBytes | WriteBytes | SendBytes | RecvBytes | BatchTimeout => true | _ => false end.

(** the deadline a call made when the clock shows [now] gives its operation. The second group computes
    [tmot + system_clock::now()] itself and calls the time_point overload *)
(* iouring_op_functions.cc 11-330, tcp_server.cc 36-86 (each function's own use is named by [api]) *)
Definition deadline_of (f : api) (now ms : Z) : deadline :=
  if through_batch f then timeout_dura now ms
  else match add_ms now ms with Some tp => timeout_tp tp | None => Undefined end.

(** ** C65 *)
(** When the sum is representable (and is not by accident the largest time point), every function gives its operation
    exactly the deadline now + timeout. *)
Theorem C65_deadline_exact :
  forall f now ms, 0 <= now -> 0 <= ms -> now + ms * 10 ^ 6 < i64_max ->
    deadline_of f now ms = Deadline (now + ms * 10 ^ 6).
Proof.
  intros f now ms Hn Hms Hlt. unfold i64_max in *.
  assert (E : add_ms now ms = Some (now + ms * 10 ^ 6)).
  { unfold add_ms, in_i64, i64_max. destruct (Z.leb_spec (- 2 ^ 63) (ms * 10 ^ 6)); [|lia]. destruct (Z.leb_spec (ms * 10 ^ 6) (2 ^ 63 - 1)); [|lia]. cbn [andb].
    destruct (Z.leb_spec (- 2 ^ 63) (now + ms * 10 ^ 6)); [|lia]. destruct (Z.leb_spec (now + ms * 10 ^ 6) (2 ^ 63 - 1)); [|lia]. reflexivity. }
  assert (T : timeout_tp (now + ms * 10 ^ 6) = Deadline (now + ms * 10 ^ 6)).
  { unfold timeout_tp, i64_max. destruct (Z.eqb_spec (now + ms * 10 ^ 6) (2 ^ 63 - 1)); [lia|reflexivity]. }
  unfold deadline_of, timeout_dura. rewrite E, T. unfold i64_max. destruct (Z.eqb_spec ms (2 ^ 63 - 1)); [lia|]. now destruct (through_batch f).
Qed.
Print Assumptions C65_deadline_exact.
(** a 50 ms accept in the year 2024 *)
Example C65_accept_50ms : deadline_of Accept 1700000000000000000 50 = Deadline 1700000000050000000.
Proof. vm_compute. reflexivity. Qed.

(** milliseconds::max() means "no timeout" in the functions that go through op_batch::timeout(duration) ... *)
Theorem C87_max_means_none_partial :
  forall f now, In f [ReadBytes; WriteBytes; SendBytes; RecvBytes; BatchTimeout] -> deadline_of f now i64_max = NoDeadline.
Proof. intros f now H. assert (E : through_batch f = true) by (cbn in H; intuition (subst; reflexivity)). unfold deadline_of, timeout_dura. rewrite E, Z.eqb_refl. reflexivity. Qed.
Print Assumptions C87_max_means_none_partial.

(** ... but in all the others it is undefined behaviour, whatever the clock shows; and so is, everywhere, every timeout
    from about 292 years on that is not exactly max(). *)
Theorem C87_max_overflows_refuted :
  forall f now, In f [ReadChars; WriteChars; SendChars; RecvChars; Connect; Accept; RecvFill; ReadFill] -> deadline_of f now i64_max = Undefined.
Proof.
  intros f now H0. assert (H : through_batch f = false) by (cbn in H0; intuition (subst; reflexivity)). unfold deadline_of, add_ms. rewrite H. replace (in_i64 (i64_max * 10 ^ 6)) with false by reflexivity. reflexivity.
Qed.
Print Assumptions C87_max_overflows_refuted.
Theorem C87_long_timeouts_overflow_refuted :
  forall f now ms, 2 ^ 63 <= ms * 10 ^ 6 -> ms < i64_max -> deadline_of f now ms = Undefined.
Proof.
  intros f now ms H Hm. unfold deadline_of, timeout_dura.
  assert (E : add_ms now ms = None). { unfold add_ms, in_i64. unfold i64_max at 1. destruct (Z.leb_spec (ms * 10 ^ 6) (2 ^ 63 - 1)); [lia|]. now rewrite andb_false_r. }
  rewrite E. destruct (Z.eqb_spec ms i64_max); [lia|]. now destruct (through_batch f).
Qed.
Print Assumptions C87_long_timeouts_overflow_refuted.

(** A timeout that reaches exactly the last representable moment is no timeout either (op_batch::timeout(time_point) takes that moment for "none"). *)
Theorem C87_last_moment_means_none_partial : forall f now ms, 0 <= now -> 0 <= ms -> now + ms * 10 ^ 6 = i64_max -> deadline_of f now ms = NoDeadline.
Proof.
  intros f now ms Hn Hms H. assert (E : add_ms now ms = Some i64_max).
  { unfold add_ms. rewrite H. unfold in_i64, i64_max in *. destruct (Z.leb_spec (- 2 ^ 63) (ms * 10 ^ 6)); [|lia]. destruct (Z.leb_spec (ms * 10 ^ 6) (2 ^ 63 - 1)); [|lia]. reflexivity. }
  unfold deadline_of, timeout_dura. rewrite E. unfold timeout_tp. rewrite Z.eqb_refl. destruct (through_batch f); [|reflexivity]. now destruct (ms =? i64_max).
Qed.
Print Assumptions C87_last_moment_means_none_partial.
Example C87_last_moment_case : deadline_of Accept 1000775807 9223372035854 = NoDeadline.
Proof. vm_compute. reflexivity. Qed.
