From Coq Require Import List ZArith Bool Lia.
From Verif.Prep Require Import Spec Model Proofs Chain.
Import ListNotations.
Open Scope Z_scope.

Ltac vals := repeat (apply Forall_cons; [cbn [valid]; repeat match goal with |- _ /\ _ => split end; auto; try (unfold int_, uint_, u64_; lia)|]); apply Forall_nil.

(** C102: whatever is put into a batch - any number of operations, of any kind, with arguments in the ranges of [valid], mixed with any
    number of timeouts in any order - what the kernel is asked to do is exactly that: the operations in order with their arguments,
    then the last deadline given; each entry is linked to the next. (A batch with nothing in it must not be executed: None is
    an access to an element that does not exist.) *)
Theorem C102_batch_asks_for_what_was_prepared : forall cs,
  Forall valid cs -> asked cs <> [] ->
  submitted cs = Some (asked cs, repeat true (length (asked cs) - 1) ++ [false]).
Proof. intros cs Hv Ha. rewrite submitted_ok by auto. destruct (asked cs); [contradiction|reflexivity]. Qed.
Print Assumptions C102_batch_asks_for_what_was_prepared.

Theorem C102_empty_batch_must_not_be_executed : forall cs, Forall valid cs -> asked cs = [] -> submitted cs = None.
Proof. intros cs Hv Ha. rewrite submitted_ok by auto. rewrite Ha. reflexivity. Qed.
Print Assumptions C102_empty_batch_must_not_be_executed.

(** C102: the operation functions. What a call of each of them means, written out. *)
Definition api_valid (a : api) : Prop :=
  match a with
  | ARead fd b l o _ | AWrite fd b l o _ => int_ fd /\ u64_ b /\ uint_ l /\ 0 <= o < 2 ^ 64 - 1
  | ASend fd b l f _ | ARecv fd b l f _ => int_ fd /\ u64_ b /\ uint_ l /\ int_ f
  | ASendmsg fd m f _ | ARecvmsg fd m f _ => int_ fd /\ u64_ m /\ int_ f
  | AConnect fd x _ => int_ fd /\ uint_ (snd x)
  | AAccept fd _ | AFsync fd | AFdatasync fd => int_ fd
  | ARename o n => name_ o /\ name_ n
  | ARenameat od o nd n f => int_ od /\ name_ o /\ int_ nd /\ name_ n /\ uint_ f
  | ARenameatNoreplace od o nd n => int_ od /\ name_ o /\ int_ nd /\ name_ n
  | ASocket d t p f => int_ d /\ int_ t /\ int_ p /\ uint_ f
  | AOpenat d p f m => int_ d /\ name_ p /\ int_ f /\ uint_ m
  | AUnlink p f => name_ p /\ int_ f
  | AUnlinkat d p f => int_ d /\ name_ p /\ int_ f
  | ASyncFileRange fd l o f => int_ fd /\ uint_ l /\ u64_ o /\ uint_ f
  | ANop => True
  end.
Definition api_means (a : api) : request * option Z :=
  match a with
  | ARead fd b l o tp => (RRead fd b l o, tp) | AWrite fd b l o tp => (RWrite fd b l o, tp)
  | ASend fd b l f tp => (RSend fd b l f, tp) | ARecv fd b l f tp => (RRecv fd b l f, tp)
  | ASendmsg fd m f tp => (RSendmsg fd m f, tp) | ARecvmsg fd m f tp => (RRecvmsg fd m f, tp)
  | AConnect fd x tp => (RConnect fd x, tp) | AAccept fd tp => (RAccept fd 0, tp)
  | ARename o n => (RRenameat AT_FDCWD o AT_FDCWD n 0, None)
  | ARenameat od o nd n f => (RRenameat od o nd n f, None)
  | ARenameatNoreplace od o nd n => (RRenameat od o nd n RENAME_NOREPLACE, None)
  | ASocket d t p f => (RSocket d (Z.lor t SOCK_NONBLOCK) p f, None)         (* always non-blocking *)
  | AOpenat d p f m => (ROpenat d p f m, None)
  | AUnlink p f => (RUnlinkat AT_FDCWD p f, None) | AUnlinkat d p f => (RUnlinkat d p f, None)
  | AFsync fd => (RFsync fd, None) | AFdatasync fd => (RFdatasync fd, None)
  | ASyncFileRange fd l o f => (RSyncFileRange fd l o f, None)
  | ANop => (RNop, None)
  end.
Lemma lor_int t : int_ t -> int_ (Z.lor t SOCK_NONBLOCK).
Proof.
  unfold int_, SOCK_NONBLOCK. intros H. split.
  - destruct (Z_lt_ge_dec t 0) as [Hn|Hp].
    + assert (Z.lor t 2048 = t + (Z.land (Z.lnot t) 2048)) as ->.
      { rewrite Z.add_nocarry_lxor.
        - apply Z.bits_inj'. intros n Hn'. rewrite Z.lxor_spec, Z.land_spec, Z.lor_spec, Z.lnot_spec by lia.
          destruct (Z.testbit t n), (Z.testbit 2048 n); reflexivity.
        - apply Z.bits_inj'. intros n Hn'. rewrite !Z.land_spec, Z.lnot_spec, Z.bits_0 by lia.
          destruct (Z.testbit t n), (Z.testbit 2048 n); reflexivity. }
      assert (0 <= Z.land (Z.lnot t) 2048) by (apply Z.land_nonneg; right; lia). lia.
    + assert (0 <= Z.lor t 2048) by (apply Z.lor_nonneg; lia). lia.
  - destruct (Z_lt_ge_dec t 0) as [Hn|Hp].
    + assert (Z.lor t 2048 < 0) by (apply Z.lor_neg; left; lia). lia.
    + destruct (Z.eq_dec (Z.lor t 2048) 0) as [->|Hz]; [lia|].
      assert (0 <= Z.lor t 2048) by (apply Z.lor_nonneg; lia).
      apply Z.log2_lt_pow2; [lia|]. rewrite Z.log2_lor by lia. apply Z.max_lub_lt; [|reflexivity].
      destruct (Z.eq_dec t 0) as [->|]; [reflexivity|]. apply Z.log2_lt_pow2; lia.
Qed.
Theorem C102_operation_functions : forall a,
  api_valid a ->
  submitted (calls_of a) = match api_means a with
                           | (r, None) => Some ([r], [false])
                           | (r, Some d) => Some ([r; RTimeout d], [true; false])
                           end.
Proof.
  intros a Hv.
  assert (H : Forall valid (calls_of a)).
  { destruct a; cbn in Hv; repeat match goal with H : _ /\ _ |- _ => destruct H end; apply Forall_forall; intros c Hc; cbn in Hc;
      repeat destruct Hc as [<-|Hc]; try contradiction; cbn [valid]; repeat match goal with |- _ /\ _ => split end; auto using lor_int; try lia; exact I. }
  rewrite submitted_ok by exact H. destruct a; cbn; try reflexivity; destruct tp; reflexivity.
Qed.
Print Assumptions C102_operation_functions.

(** The added flag changes nothing else: every other bit of the socket type is the caller's, and the descriptor is non-blocking. *)
Theorem C102_socket_is_nonblocking : forall t, 0 <= t -> Z.testbit (Z.lor t SOCK_NONBLOCK) 11 = true /\
  (forall i, i <> 11 -> 0 <= i -> Z.testbit (Z.lor t SOCK_NONBLOCK) i = Z.testbit t i).
Proof.
  intros t Ht. split; [rewrite Z.lor_spec; cbn; apply orb_true_r|]. intros i Hi Hp. rewrite Z.lor_spec.
  change SOCK_NONBLOCK with (2 ^ 11). rewrite Z.pow2_bits_false by lia. apply orb_false_r.
Qed.
Print Assumptions C102_socket_is_nonblocking.

Definition bytes (l : list nat) : path := map Z.of_nat l.
Example C102_case : let cs := [Timeout (Some 100); Openat AT_FDCWD (bytes [47; 97])%nat 66 420; Write 5 4096 3000000000 (2 ^ 40); Timeout None; Rename (bytes [97])%nat (bytes [98])%nat; Timeout (Some 50); Fdatasync 5] in
  Forall valid cs /\
  asked cs = [ROpenat AT_FDCWD (bytes [47; 97])%nat 66 420; RWrite 5 4096 3000000000 (2 ^ 40); RRenameat AT_FDCWD (bytes [97])%nat AT_FDCWD (bytes [98])%nat 0; RFdatasync 5; RTimeout 50] /\
  submitted cs = Some (asked cs, [true; true; true; true; false]).
Proof.
  cbv zeta. split; [|split; reflexivity].
  repeat constructor; unfold int_, uint_, u64_, AT_FDCWD, bytes; cbn; try lia.
Qed.
Example C102_api_case : api_valid (ARecv 7 4096 1500 0 (Some 12)) /\ submitted (calls_of (ARecv 7 4096 1500 0 (Some 12))) = Some ([RRecv 7 4096 1500 0; RTimeout 12], [true; false]).
Proof. split; [|reflexivity]. cbn. unfold int_, uint_, u64_. lia. Qed.

(** C103 refuted: buffers of 4 GiB or more. The kernel is asked for the length modulo 2^32; for exactly 4 GiB that is nothing at all. *)
Theorem C103_long_buffers_refuted : forall fd b l o f, int_ fd -> u64_ b -> 0 <= o < 2 ^ 64 - 1 -> int_ f -> 2 ^ 32 <= l ->
  (exists l', l' < l /\ submitted [Read fd b l o] = Some ([RRead fd b l' o], [false])) /\
  (exists l', l' < l /\ submitted [Write fd b l o] = Some ([RWrite fd b l' o], [false])) /\
  (exists l', l' < l /\ submitted [Send fd b l f] = Some ([RSend fd b l' f], [false])) /\
  (exists l', l' < l /\ submitted [Recv fd b l f] = Some ([RRecv fd b l' f], [false])).
Proof.
  intros fd b l o f Hf Hb Ho Hfl Hl.
  pose proof (Z.mod_pos_bound l (2 ^ 32)) as Hm. assert (Hu : uint_ (l mod 2 ^ 32)) by (unfold uint_; lia).
  repeat split; exists (l mod 2 ^ 32); (split; [lia|]).
  - assert (E : submitted [Read fd b l o] = submitted [Read fd b (l mod 2 ^ 32) o]).
    { unfold submitted, prep_all, prep, execute, io_uring_prep_read, prep_rw, u32. rewrite !Z.mod_mod by lia. reflexivity. }
    rewrite E, submitted_ok; [reflexivity|]. vals.
  - assert (E : submitted [Write fd b l o] = submitted [Write fd b (l mod 2 ^ 32) o]).
    { unfold submitted, prep_all, prep, execute, io_uring_prep_write, prep_rw, u32. rewrite !Z.mod_mod by lia. reflexivity. }
    rewrite E, submitted_ok; [reflexivity|]. vals.
  - assert (E : submitted [Send fd b l f] = submitted [Send fd b (l mod 2 ^ 32) f]).
    { unfold submitted, prep_all, prep, execute, io_uring_prep_send, prep_rw, u32. rewrite !Z.mod_mod by lia. reflexivity. }
    rewrite E, submitted_ok; [reflexivity|]. vals.
  - assert (E : submitted [Recv fd b l f] = submitted [Recv fd b (l mod 2 ^ 32) f]).
    { unfold submitted, prep_all, prep, execute, io_uring_prep_recv, prep_rw, u32. rewrite !Z.mod_mod by lia. reflexivity. }
    rewrite E, submitted_ok; [reflexivity|]. vals.
Qed.
Print Assumptions C103_long_buffers_refuted.
Theorem C103_four_gib_asks_for_nothing_refuted :
  submitted [Write 5 4096 (2 ^ 32) 0] = Some ([RWrite 5 4096 0 0], [false]) /\
  submitted [Send 5 4096 (2 ^ 32) 0] = Some ([RSend 5 4096 0 0], [false]).
Proof. split; reflexivity. Qed.
Print Assumptions C103_four_gib_asks_for_nothing_refuted.
(** Offset 2^64-1 is not that offset for the kernel but "the current position". *)
Theorem C103_last_offset_refuted : forall fd b l, submitted [Read fd b l (2 ^ 64 - 1)] = Some ([RUnknown], [false]).
Proof. intros. reflexivity. Qed.
Print Assumptions C103_last_offset_refuted.
(** Below 4 GiB the length is exact. *)
Theorem C103_buffers_partial : forall fd b l o f, int_ fd -> u64_ b -> 0 <= o < 2 ^ 64 - 1 -> int_ f -> 0 <= l < 2 ^ 32 ->
  submitted [Read fd b l o] = Some ([RRead fd b l o], [false]) /\ submitted [Write fd b l o] = Some ([RWrite fd b l o], [false]) /\
  submitted [Send fd b l f] = Some ([RSend fd b l f], [false]) /\ submitted [Recv fd b l f] = Some ([RRecv fd b l f], [false]).
Proof.
  intros. assert (uint_ l) by (unfold uint_; lia).
  repeat split; rewrite submitted_ok; try reflexivity; vals.
Qed.
Print Assumptions C103_buffers_partial.

(** C104 refuted: "Set the timeout time point of the whole operation batch" (iouring_op_batch.h 304). The deadline is armed only when the
    last operation starts: a batch whose first operation does not finish never completes, however long the deadline has passed, *)
Theorem C104_never_completes_refuted : forall t d fd fd' b l o, valid (Recv fd b l 0) -> valid (Write fd' b l o) -> forall rest,
  let cs := [Recv fd b l 0; Write fd' b l o; Timeout (Some d)] in
  Forall valid cs /\ deadline cs = Some d /\ batch_end cs t ((None, false) :: rest) = None.
Proof.
  intros t d fd fd' b l o H1 H2 rest cs. assert (Hv : Forall valid cs) by (unfold cs; repeat (apply Forall_cons; [first [exact H1|exact H2|exact I]|]); apply Forall_nil).
  split; [exact Hv|]. split; [reflexivity|]. unfold batch_end. rewrite submitted_ok by exact Hv. reflexivity.
Qed.
Print Assumptions C104_never_completes_refuted.
(** and one whose first operation takes long completes successfully, arbitrarily late. *)
Theorem C104_late_success_refuted : forall t d late, t < d -> d < late ->
  let cs := [Recv 3 4096 100 0; Nop; Timeout (Some d)] in
  batch_end cs t [(Some (late - t), true); (Some 0, true)] = Some late.
Proof.
  intros t d late H1 H2 cs. unfold batch_end. rewrite submitted_ok by (unfold cs; vals).
  cbn. replace (t + (late - t)) with late by lia. rewrite Z.max_l by lia.
  destruct (Z.leb_spec (late + 0) late); [|lia]. f_equal. lia.
Qed.
Print Assumptions C104_late_success_refuted.
(** With one operation - all the operation functions - the deadline holds: whatever the operation does, the batch is complete at the
    deadline (or at once, if the deadline has already passed). *)
Theorem C104_one_operation_partial : forall cs t beh d r, Forall valid cs -> operations cs = [r] -> deadline cs = Some d -> nonneg beh ->
  exists e, batch_end cs t beh = Some e /\ e <= Z.max t d.
Proof.
  intros cs t beh d r Hv Ho Hd Hn. destruct (batch_end_deadline cs t beh d 0) as (e & E & He); auto.
  - rewrite Ho. discriminate.
  - rewrite Ho. reflexivity.
  - exists e. split; [exact E|lia].
Qed.
Print Assumptions C104_one_operation_partial.
(** In general it bounds the last operation: if the others need [s] together, the batch is complete by the deadline or [s] after
    the start. *)
Theorem C104_last_operation_partial : forall cs t beh d s, Forall valid cs -> operations cs <> [] -> deadline cs = Some d -> nonneg beh ->
  total (length (operations cs) - 1) beh = Some s ->
  exists e, batch_end cs t beh = Some e /\ e <= Z.max d (t + s).
Proof. intros. apply batch_end_deadline; auto. Qed.
Print Assumptions C104_last_operation_partial.
(** The timeout does not cut an operation short that is done before the deadline. *)
Theorem C104_in_time_partial : forall a r d t dur g rest, api_valid a -> api_means a = (r, Some d) -> 0 <= dur -> t + dur <= d ->
  batch_end (calls_of a) t ((Some dur, g) :: rest) = Some (t + dur).
Proof.
  intros a r d t dur g rest Hv Hm H0 H1. unfold batch_end. rewrite C102_operation_functions by exact Hv. rewrite Hm.
  cbn [combine]. rewrite chain_op.
  - cbn. rewrite Z.max_r by lia. destruct (Z.leb_spec (t + dur) d); [|lia]. destruct g; reflexivity.
  - destruct a; cbn in Hm; inversion Hm; exact I.
Qed.
Print Assumptions C104_in_time_partial.
Example C104_case : let cs := [Recv 3 4096 100 0; Timeout (Some 50)] in
  Forall valid cs /\ operations cs = [RRecv 3 4096 100 0] /\ deadline cs = Some 50 /\ nonneg [(None, false)] /\ batch_end cs 10 [(None, false)] = Some 50 /\
  batch_end cs 10 [(Some 5, true)] = Some 15.
Proof. repeat split; repeat constructor; unfold int_, uint_, u64_; cbn; lia. Qed.
