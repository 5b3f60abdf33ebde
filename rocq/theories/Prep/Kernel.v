(** What the kernel insists on before it even looks at an operation (the io_uring prep functions of the kernel answer EINVAL
    otherwise): the fields an operation does not use are zero, a message is one message, a timeout is one timeout, flags are known ones;
    and where an unused field would be given a meaning (the destination of a send, the place where accept stores the peer's address,
    the range of an fsync) it is zero as well. Environment, not koios code. *)
From Coq Require Import List ZArith Bool Lia.
From Verif.Prep Require Import Spec Model Proofs.
Import ListNotations.
Open Scope Z_scope.

(* environment, not code of /repo *)
Definition AT_REMOVEDIR := 512.
(* environment, not code of /repo (the checks of the kernel) *)
Definition kernel_takes (q : sqe) : Prop :=
  match op q with
  | OP_NOP | OP_OPENAT | OP_RENAMEAT | OP_READ | OP_WRITE => True
  | OP_FSYNC => addr q = User 0 /\ off q = inl 0 /\ len q = 0 /\ (opflags q = 0 \/ opflags q = 1)       (* off, len: the whole file *)
  | OP_SYNC_FILE_RANGE => addr q = User 0
  | OP_SENDMSG | OP_RECVMSG => off q = inl 0 /\ len q = 1
  | OP_SEND | OP_RECV => off q = inl 0                                                               (* send: no destination address *)
  | OP_ACCEPT => addr q = User 0 /\ off q = inl 0 /\ len q = 0                                       (* the peer's address is not stored *)
  | OP_CONNECT => len q = 0 /\ opflags q = 0
  | OP_ASYNC_CANCEL => off q = inl 0 /\ len q = 0 /\ (opflags q = 0 \/ opflags q = 1 \/ opflags q = 4)
  | OP_LINK_TIMEOUT => off q = inl 0 /\ len q = 1 /\ opflags q = 9                                   (* absolute, realtime clock *)
  | OP_UNLINKAT => off q = inl 0 /\ len q = 0 /\ (opflags q = 0 \/ opflags q = AT_REMOVEDIR)
  | OP_SOCKET => addr q = User 0 /\ opflags q = 0
  end.
(** the caller's part: flags the kernel knows *)
(* specification, no counterpart in /repo *)
Definition known (c : call) : Prop :=
  match c with
  | Unlink _ f | Unlinkat _ _ f => f = 0 \/ f = AT_REMOVEDIR
  | Socket _ _ _ f => f = 0
  | _ => True
  end.

Lemma get_takes b q b' : Forall kernel_takes (sqes b) -> kernel_takes q -> get_sqe b q = Some b' -> Forall kernel_takes (sqes b').
Proof.
  intros H Hq E. unfold get_sqe in E. destruct (timeout_set b).
  - destruct (rev (sqes b)) as [|lst pre] eqn:Er; [discriminate|]. injection E as <-. cbn.
    assert (E' : sqes b = rev pre ++ [lst]) by (rewrite <- (rev_involutive (sqes b)), Er; reflexivity).
    rewrite E' in H. apply Forall_app in H as [H1 H2]. inversion H2; subst. apply Forall_app. split; [exact H1|]. auto.
  - injection E as <-. cbn. apply Forall_app. auto.
Qed.
Lemma prep_takes b c b' : Forall kernel_takes (sqes b) -> known c -> prep b c = Some b' -> Forall kernel_takes (sqes b').
Proof.
  intros H Hk E. destruct c; cbn [prep] in E;
    try (refine (get_takes _ _ _ _ _ E); [exact H|]; cbn; cbn in Hk; try rewrite Hk; repeat split; auto; fail);
    try (refine (get_takes _ _ _ _ _ E); [exact H|]; destruct Hk as [-> | ->]; cbn; repeat split; auto; fail).
  destruct tp as [t|]; [|now injection E as <-]. cbn in E.
  assert (Hq : forall i, kernel_takes (io_uring_prep_link_timeout (Copy i) (TIMEOUT_REALTIME + TIMEOUT_ABS))) by (intros i; repeat split).
  destruct (timeout_set b).
  - destruct (rev (sqes b)) as [|lst pre] eqn:Er; [discriminate|]. injection E as <-. cbn.
    assert (E' : sqes b = rev pre ++ [lst]) by (rewrite <- (rev_involutive (sqes b)), Er; reflexivity).
    rewrite E' in H. apply Forall_app in H as [H1 H2]. apply Forall_app. split; [exact H1|]. constructor; [apply Hq|constructor].
  - injection E as <-. cbn. apply Forall_app. split; [exact H|]. constructor; [apply Hq|constructor].
Qed.
Lemma prep_all_takes cs : forall b b', Forall kernel_takes (sqes b) -> Forall known cs -> prep_all b cs = Some b' -> Forall kernel_takes (sqes b').
Proof.
  induction cs as [|c cs IH]; intros b b' H Hk E; [now injection E as <-|]. inversion Hk; subst. cbn [prep_all] in E.
  destruct (prep b c) as [b1|] eqn:E1; [|discriminate]. eapply IH; [|eassumption|exact E]. eapply prep_takes; eauto.
Qed.

(** C102: every entry of every batch is one the kernel takes. *)
Theorem C102_kernel_takes_every_entry : forall cs b qs,
  Forall known cs -> prep_all empty cs = Some b -> execute b = Some qs -> Forall kernel_takes qs.
Proof.
  intros cs b qs Hk E Ex. assert (H : Forall kernel_takes (sqes b)) by (refine (prep_all_takes cs empty b _ Hk E); constructor).
  unfold execute in Ex. destruct (rev (sqes b)) as [|lst pre] eqn:Er; [discriminate|]. injection Ex as <-.
  assert (E' : sqes b = rev pre ++ [lst]) by (rewrite <- (rev_involutive (sqes b)), Er; reflexivity).
  rewrite E' in H. apply Forall_app in H as [H1 H2]. inversion H2 as [|x y H3]; subst. apply Forall_app. split; [exact H1|]. constructor; [|constructor].
  destruct lst; exact H3.
Qed.
Print Assumptions C102_kernel_takes_every_entry.
(** socket(): the flags the caller gives reach a field the kernel insists is zero, so any flags but 0 make it fail ([known] is needed). *)
Theorem C102_socket_flags_must_be_zero : forall d t p f, uint_ f -> f <> 0 ->
  exists b q, prep_all empty [Socket d t p f] = Some b /\ execute b = Some [q] /\ ~ kernel_takes q.
Proof.
  intros d t p f Hf Hz. do 2 eexists. split; [reflexivity|]. split; [reflexivity|]. cbn. intros [_ H]. rewrite u32_id in H; auto.
Qed.
Print Assumptions C102_socket_flags_must_be_zero.
(** cancelling: which of the kernel's cancel requests each function makes *)
Theorem C102_cancel_entries : forall f k, int_ f -> u64_ k ->
  (exists b q, prep_all empty [CancelAny f k] = Some b /\ execute b = Some [q] /\ op q = OP_ASYNC_CANCEL /\ addr q = User k /\ fd q = f /\ opflags q = 4) /\
  (exists b q, prep_all empty [CancelAnyFd f] = Some b /\ execute b = Some [q] /\ op q = OP_ASYNC_CANCEL /\ addr q = User 0 /\ fd q = f /\ opflags q = 4) /\
  (exists b q, prep_all empty [CancelAll k] = Some b /\ execute b = Some [q] /\ op q = OP_ASYNC_CANCEL /\ addr q = User k /\ fd q = -1 /\ opflags q = 1) /\
  (exists b q, prep_all empty [CancelFirst k] = Some b /\ execute b = Some [q] /\ op q = OP_ASYNC_CANCEL /\ addr q = User k /\ fd q = -1 /\ opflags q = 0).
Proof.
  intros f k Hf Hk. repeat split; do 2 eexists; (split; [reflexivity|]); (split; [reflexivity|]); cbn;
    rewrite ?u64_id, ?s32_id by auto; repeat split.
Qed.
Print Assumptions C102_cancel_entries.
Example C102_kernel_case : let cs := [Accept 3; Send 4 4096 10 0; Fdatasync 5; Connect 6 (7, 16); Sendmsg 4 4096 0; Timeout (Some 100); Unlink [97] 512; Socket 2 1 0 0; CancelAll 77] in
  Forall known cs /\ exists b qs, prep_all empty cs = Some b /\ execute b = Some qs /\ length qs = 9%nat.
Proof. cbv zeta. split; [repeat (apply Forall_cons; [cbn; unfold AT_REMOVEDIR; auto|]); apply Forall_nil|]. do 2 eexists. split; [reflexivity|]. split; reflexivity. Qed.
