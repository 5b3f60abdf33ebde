From Coq Require Import ZArith List Bool Lia.
From Verif.Common Require Import TS.
From Verif.Errors Require Import Model.
Import ListNotations.
Open Scope Z_scope.

Ltac zb := repeat match goal with
  | H : (_ && _)%bool = true |- _ => apply andb_true_iff in H; destruct H
  | H : (_ <? _) = true |- _ => apply Z.ltb_lt in H
  | H : (_ <? _) = false |- _ => apply Z.ltb_ge in H
  | H : (_ <=? _) = true |- _ => apply Z.leb_le in H
  | H : (_ <=? _) = false |- _ => apply Z.leb_gt in H
  | H : (_ =? _) = true |- _ => apply Z.eqb_eq in H
  | H : (_ =? _) = false |- _ => apply Z.eqb_neq in H
  | H : negb _ = true |- _ => apply negb_true_iff in H
  | H : negb _ = false |- _ => apply negb_false_iff in H
  end.

(** C25: success is reported iff the kernel's return value is non-negative, whatever errno is. *)
Theorem C25_success_iff : forall r errno, int32 r -> r <> INT_MIN ->
  exists o, make_ioret r errno = Some o /\ (ec_true (error_code_of o) = false <-> 0 <= r).
Proof.
  intros r errno [H1 H2] Hm. unfold make_ioret.
  destruct (r <? 0) eqn:E0; zb.
  - destruct ((r =? -1) && negb (errno =? 0)) eqn:E1; zb.
    + eexists; split; [reflexivity|]. unfold error_code_of, ec_true; cbn [ret m_errno].
      destruct (0 <=? r) eqn:E2; zb; cbn; split; intros; zb; lia.
    + rewrite (proj2 (Z.eqb_neq _ _) Hm). eexists; split; [reflexivity|]. unfold error_code_of, ec_true; cbn [ret m_errno].
      destruct (0 <=? r) eqn:E2; zb; cbn [value]; [lia|]. split; intros; zb; lia.
  - eexists; split; [reflexivity|]. unfold error_code_of, ec_true; cbn [ret m_errno].
    destruct (0 <=? r) eqn:E2; zb; [|lia]. cbn. split; intros; [lia|reflexivity].
Qed.
Print Assumptions C25_success_iff.

(** C25: byte count. *)
Theorem C25_nbytes : forall r errno o, make_ioret r errno = Some o ->
  (0 <= r -> nbytes_delivered o = r) /\ (r < 0 -> nbytes_delivered o = 0).
Proof.
  intros r errno o H. assert (Hr : ret o = r).
  { unfold make_ioret in H. destruct (r <? 0); [destruct ((r =? -1) && negb (errno =? 0)); [|destruct (r =? INT_MIN); [discriminate|]]|]; now inversion H. }
  unfold nbytes_delivered. rewrite Hr. split; intros; destruct (0 <=? r) eqn:E; zb; lia.
Qed.
Print Assumptions C25_nbytes.

(** C25, the error value: exact for every failure except -1 (EPERM) with a foreign errno. *)
Theorem C73_error_exact_partial : forall r errno, int32 r -> r <> INT_MIN -> r < 0 ->
  (r = -1 -> errno = 0 \/ errno = 1) ->
  exists o, make_ioret r errno = Some o /\ error_code_of o = Ec (- r) System.
Proof.
  intros r errno [H1 H2] Hm Hn Hp. unfold make_ioret. rewrite (proj2 (Z.ltb_lt _ _) Hn).
  destruct ((r =? -1) && negb (errno =? 0)) eqn:E1.
  - zb. subst r. eexists; split; [reflexivity|]. unfold error_code_of; cbn [ret m_errno]. cbn.
    destruct (Hp eq_refl) as [?|?]; [congruence|]. now subst.
  - rewrite (proj2 (Z.eqb_neq _ _) Hm). eexists; split; [reflexivity|]. unfold error_code_of; cbn [ret m_errno].
    destruct (0 <=? r) eqn:E; zb; [lia|reflexivity].
Qed.
Print Assumptions C73_error_exact_partial.

(** C25 is false in full: the kernel answers -EPERM while the thread's errno still holds EAGAIN (11) from earlier,
    and the result object reports EAGAIN. *)
Theorem C73_stale_errno_refuted : exists o,
  make_ioret (-1) 11 = Some o /\ error_code_of o = Ec 11 System /\ error_code_of o <> Ec 1 System.
Proof. eexists; repeat split; easy. Qed.
Print Assumptions C73_stale_errno_refuted.
Example C25_case : exists o, make_ioret (-110) 11 = Some o /\ error_code_of o = Ec 110 System /\ nbytes_delivered o = 0.
Proof. eexists; repeat split. Qed.

(** C48: a descriptor produced by an operation has one owner and is closed exactly once: holds if the program calls
    get_fd()/get_client() exactly once on the result (and lets the owner go). *)
Definition gets (l : list fdevent) : nat := length (filter (fun e => match e with GetFd => true | _ => false end) l).
Lemma fd_balance l : forall s s', run fdstep s l = Some s' ->
  (open_owners s' + closes s' = open_owners s + closes s + gets l)%nat.
Proof.
  induction l as [|e l IH]; intros s s' H; cbn in H.
  - inversion H; subst. cbn. lia.
  - unfold gets in *. destruct e; cbn [fdstep filter] in *.
    + apply IH in H. cbn [open_owners closes length] in *. lia.
    + destruct (open_owners s) eqn:E; [discriminate|]. apply IH in H. cbn [open_owners closes length] in *. lia.
Qed.
Theorem C48_closed_exactly_once : forall l s',
  run fdstep (Fd 0 0) l = Some s' -> gets l = 1%nat -> open_owners s' = 0%nat -> closes s' = 1%nat.
Proof. intros l s' H Hg Ho. apply fd_balance in H. cbn in H. lia. Qed.
Print Assumptions C48_closed_exactly_once.
Example C48_case : run fdstep (Fd 0 0) [GetFd; DropOwner] = Some (Fd 0 1).
Proof. reflexivity. Qed.

(** C48 is false in full: a second get_fd() makes a second owner of the same descriptor, so it is closed twice; and a
    result nobody asks is never closed. *)
Theorem C90_double_close_refuted :
  run fdstep (Fd 0 0) [GetFd; GetFd; DropOwner; DropOwner] = Some (Fd 0 2) /\ run fdstep (Fd 0 0) [] = Some (Fd 0 0) /\
  (forall r errno o, 0 <= r -> make_ioret r errno = Some o -> get_fd o = GotFd r).
Proof.
  repeat split. intros r errno o Hr H. unfold make_ioret in H.
  destruct (r <? 0) eqn:E; zb; [lia|]. inversion H; subst. unfold get_fd, error_code_of; cbn [ret].
  rewrite (proj2 (Z.leb_le _ _) Hr). reflexivity.
Qed.
Print Assumptions C90_double_close_refuted.

(** get_fd/get_client and number_canceled throw exactly on failure, carrying the decoded error; on success they give the
    kernel's return value. *)
Theorem C25_get_throws_iff_error : forall o get, get = get_fd \/ get = number_canceled ->
  ((exists e, get o = Thrown e) <-> ec_true (error_code_of o) = true) /\
  (forall e, get o = Thrown e -> e = error_code_of o) /\
  (ec_true (error_code_of o) = false -> get o = GotFd (ret o)).
Proof.
  intros o get [-> | ->]; unfold get_fd, number_canceled; destruct (ec_true (error_code_of o)); repeat split; intros; try discriminate; eauto;
    try (destruct H; discriminate); now inversion H.
Qed.
Print Assumptions C25_get_throws_iff_error.

(** C40: the error an exception was built from is the one it reports, for every class except uring_exception and
    its subclass socket_exception. *)
Theorem C40_error_code_kept : forall c e x, c <> CUring -> c <> CSocket ->
  exn_of_ec c e = Some x -> error_code_virtual x = e /\ exn_to_ec x = e.
Proof. intros c e x H1 H2 H. destruct c; cbn in H; try congruence; inversion H; subst; now cbn. Qed.
Print Assumptions C40_error_code_kept.

Theorem C40_int_code_kept : forall c v x, c <> CUring ->
  exn_of_int c v = Some x -> value (error_code_virtual x) = v.
Proof. intros c v x H1 H. destruct c; cbn in H; try congruence; inversion H; subst; now cbn. Qed.
Print Assumptions C40_int_code_kept.

(** C40, built from an int: the class decides the category (system for exception and thread_pool_stopped_exception, the category of
    expected for expected_exception); built from a message or from nothing, the code is KOIOS_EXCEPTION_CATCHED (1) of koios' category. *)
Theorem C40_int_category : forall v,
  (exists x, exn_of_int CException v = Some x /\ exn_to_ec x = Ec v System) /\
  (exists x, exn_of_int CStopped v = Some x /\ exn_to_ec x = Ec v System) /\
  (exists x, exn_of_int CExpected v = Some x /\ exn_to_ec x = Ec v ExpectedCat) /\
  (forall c, c <> CUring -> c <> CSocket -> exn_to_ec (exn_plain c) = Ec 1 Koios).
Proof. intros v. repeat split; try (eexists; split; reflexivity). intros c H1 H2. destruct c; try congruence; reflexivity. Qed.
Print Assumptions C40_int_category.
(** uring_exception(int) keeps the code in the generic category in the base class (what() is its message), where error_code() does not look. *)
Theorem C81_uring_exception_of_int_refuted : forall v, exists x, exn_of_int CUring v = Some x /\ e_ec x = Ec v Generic /\ exn_to_ec x = Ec 0 System.
Proof. intros v. eexists. repeat split; reflexivity. Qed.
Print Assumptions C81_uring_exception_of_int_refuted.

(** C40 is false for uring_exception and socket_exception: whatever error they are built from they report "no error", and
    has_error_code() reads an indeterminate value. *)
Theorem C81_uring_exception_loses_code_refuted : forall c e x,
  c = CUring \/ c = CSocket -> exn_of_ec c e = Some x ->
  error_code_virtual x = ec_ok /\ ec_true (exn_to_ec x) = false /\ has_error_code x = None.
Proof. intros c e x [-> | ->] H; cbn in H; inversion H; subst; now cbn. Qed.
Print Assumptions C81_uring_exception_loses_code_refuted.
Example C40_case : (exists x, exn_of_ec CException (Ec 5 System) = Some x /\ error_code_virtual x = Ec 5 System) /\
                   (exists x, exn_of_ec CUring (Ec 5 System) = Some x /\ error_code_virtual x <> Ec 5 System).
Proof. split; eexists; split; try reflexivity. easy. Qed.
