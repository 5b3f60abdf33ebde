(** C73: exactly when the reported error is the kernel's. *)
From Coq Require Import ZArith Bool Lia.
From Verif.Errors Require Import Model Props.
Open Scope Z_scope.

(** C73, refuted for every leftover errno: a kernel answer of -1 (EPERM) is reported as whatever error the polling thread happened to have seen before, unless that was none or EPERM itself. *)
Theorem C73_every_stale_errno_refuted : forall errno, errno <> 0 -> errno <> 1 ->
  exists o, make_ioret (-1) errno = Some o /\ error_code_of o = Ec errno System /\ error_code_of o <> Ec 1 System.
Proof.
  intros errno H0 H1. unfold make_ioret. cbn. rewrite (proj2 (Z.eqb_neq _ _) H0). cbn. eexists. split; [reflexivity|]. unfold error_code_of. cbn. split; [reflexivity|]. congruence.
Qed.
Print Assumptions C73_every_stale_errno_refuted.
(** ... and over all failures and all values of errno, this is the only case in which the report is not exact. *)
Theorem C73_exact_iff_partial : forall r errno, int32 r -> r <> INT_MIN -> r < 0 ->
  ((exists o, make_ioret r errno = Some o /\ error_code_of o = Ec (- r) System) <-> (r = -1 -> errno = 0 \/ errno = 1)).
Proof.
  intros r errno Hi Hm Hn. split; [|apply C73_error_exact_partial; assumption]. intros (o & Ho & He) ->. destruct (Z.eq_dec errno 0); [auto|]. destruct (Z.eq_dec errno 1); [auto|].
  destruct (C73_every_stale_errno_refuted errno) as (o' & Ho' & _ & N); auto. rewrite Ho in Ho'. injection Ho' as <-. contradiction.
Qed.
Print Assumptions C73_exact_iff_partial.
Example C73_exact_case : int32 (-1) /\ int32 (-32) /\ (exists o, make_ioret (-32) 11 = Some o /\ error_code_of o = Ec 32 System) /\ (exists o, make_ioret (-1) 11 = Some o /\ error_code_of o = Ec 11 System).
Proof. split; [split; discriminate|]. split; [split; discriminate|]. split; (eexists; split; reflexivity). Qed.
