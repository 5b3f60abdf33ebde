(** Model of the cancellation entry points.
    /repo/src/iouring_op_functions.cc 301-321, src/iouring_op_batch.cc 137-203 (the prep_cancel functions). *)
From Coq Require Import List Arith ZArith Bool Lia.
Import ListNotations.

(** ::io_uring_prep_cancel(64): user data, flags (IORING_ASYNC_CANCEL_ALL / _ANY), and the fd field. *)
(* a cancel request: what src/iouring_op_batch.cc 137-203 fills in *)
Record cancel_sqe := CancelSqe { cs_user_data : nat; cs_all : bool; cs_any : bool; cs_fd : option nat }.

(** iouring_op_batch.cc 137-167 *)
Definition prep_cancel_any (fd u : nat) : cancel_sqe := CancelSqe u false true (Some fd).
(* prep_cancel_any(fd), src/iouring_op_batch.cc 137-203 *)
Definition prep_cancel_any_fd (fd : nat) : cancel_sqe := CancelSqe 0 false true (Some fd).
(** iouring_op_batch.cc 169-185 *)
Definition prep_cancel_all (u : nat) : cancel_sqe := CancelSqe u true false None.
(** iouring_op_batch.cc 187-203 *)
Definition prep_cancel_first (u : nat) : cancel_sqe := CancelSqe u false false None.

(** iouring_op_functions.cc 301-307 *)
Definition cancel_any (fd u : nat) : cancel_sqe := if u =? 0 then prep_cancel_any_fd fd else prep_cancel_any fd u.
(** iouring_op_functions.cc 309-314 *)
Definition cancel_first (u : nat) : cancel_sqe := prep_cancel_first u.
(** iouring_op_functions.cc 316-321 *)
Definition cancel_all (u : nat) : cancel_sqe := prep_cancel_first u.

(** * Environment: what the kernel does with such a request, from io_uring_prep_cancel(3).
    [pending]: the (user data, fd) of the requests pending on the ring, oldest first. Result: the requests that stay, and the
    completion value. IORING_ASYNC_CANCEL_FD is never set by koios, so the fd field is not consulted. *)
Fixpoint remove_first (u : nat) (l : list (nat * nat)) : option (list (nat * nat)) :=
  match l with
  | [] => None
  | p :: l' => if fst p =? u then Some l' else match remove_first u l' with Some r => Some (p :: r) | None => None end
  end.
Definition ENOENT : Z := 2%Z.
Definition kernel_cancel (q : cancel_sqe) (pending : list (nat * nat)) : list (nat * nat) * Z :=
  if cs_any q then ([], Z.of_nat (length pending))
  else if cs_all q
  then (filter (fun p => negb (fst p =? cs_user_data q)) pending, Z.of_nat (length (filter (fun p => fst p =? cs_user_data q) pending)))
  else match remove_first (cs_user_data q) pending with Some r => (r, 0%Z) | None => (pending, (- ENOENT)%Z) end.

(** * What the caller asked for *)
Definition one_cancelled (u : nat) (before after : list (nat * nat)) : Prop :=
  exists l1 fd l2, before = l1 ++ (u, fd) :: l2 /\ after = l1 ++ l2 /\ (forall p, In p l1 -> fst p <> u).
Definition all_cancelled (u : nat) (before after : list (nat * nat)) : Prop :=
  forall p, In p after <-> In p before /\ fst p <> u.

Lemma remove_first_spec u l r : remove_first u l = Some r -> one_cancelled u l r.
Proof.
  revert r; induction l as [|[k fd] l IH]; cbn; intros r H; [discriminate|]. destruct (Nat.eqb_spec k u) as [->|Hne].
  - inversion H; subst. exists [], fd, r. now repeat split.
  - destruct (remove_first u l) as [r'|]; [|discriminate]. inversion H; subst. destruct (IH r' eq_refl) as (l1 & f & l2 & -> & -> & Hl).
    exists ((k, fd) :: l1), f, l2. repeat split. intros p [<-|Hp]; [easy|auto].
Qed.
Lemma remove_first_None u l : remove_first u l = None <-> ~ In u (map fst l).
Proof.
  induction l as [|[k fd] l IH]; cbn; [easy|]. destruct (Nat.eqb_spec k u) as [->|Hne].
  - split; [discriminate|]. intros H. exfalso. apply H. now left.
  - destruct (remove_first u l) as [r'|]; [|split; [intros _ [?|?]; [easy|now apply IH]|easy]].
    split; [discriminate|]. intros H. assert (Some r' = None) by (apply IH; intros Hin; apply H; now right). discriminate.
Qed.

(** C43: cancel_first(u) cancels exactly one pending operation with user data [u], if there is one, and reports
    not-found otherwise. *)
Theorem C43_cancel_first : forall u pending,
  (In u (map fst pending) -> one_cancelled u pending (fst (kernel_cancel (cancel_first u) pending))) /\
  (~ In u (map fst pending) -> kernel_cancel (cancel_first u) pending = (pending, (-2)%Z)).   (* -ENOENT *)
Proof.
  intros u pending. unfold kernel_cancel, cancel_first, prep_cancel_first. cbn [cs_any cs_all cs_user_data].
  destruct (remove_first u pending) as [r|] eqn:E.
  - split; [intros _; cbn [fst]; now apply remove_first_spec|]. intros H. apply remove_first_None in H. congruence.
  - split; [|easy]. intros H. apply remove_first_None in E. easy.
Qed.
Print Assumptions C43_cancel_first.
Example C43_cancel_first_case : kernel_cancel (cancel_first 7) [(3,1);(7,2);(7,4)] = ([(3,1);(7,4)], 0%Z).
Proof. reflexivity. Qed.

(** C43: op_batch::prep_cancel_all(u), unlike cancel_all(u), cancels all operations with user data [u] and no other. *)
Theorem C43_batch_cancel_all : forall u pending,
  all_cancelled u pending (fst (kernel_cancel (prep_cancel_all u) pending)).
Proof.
  intros u pending p. unfold kernel_cancel, prep_cancel_all. cbn [cs_any cs_all cs_user_data fst]. rewrite filter_In.
  destruct (Nat.eqb_spec (fst p) u); cbn [negb]; intuition; discriminate.
Qed.
Print Assumptions C43_batch_cancel_all.
Example C43_batch_cancel_all_case : kernel_cancel (prep_cancel_all 7) [(3,1);(7,2);(7,4)] = ([(3,1)], 2%Z).
Proof. reflexivity. Qed.

(** C43 is false of cancel_all: whenever two operations with this user data are pending, one of them survives. *)
Theorem C79_cancel_all_refuted : forall u l1 l2 l3 f1 f2,
  let pending := l1 ++ (u, f1) :: l2 ++ (u, f2) :: l3 in
  ~ all_cancelled u pending (fst (kernel_cancel (cancel_all u) pending)) /\
  In u (map fst (fst (kernel_cancel (cancel_all u) pending))).
Proof.
  intros u l1 l2 l3 f1 f2 pending. set (after := fst (kernel_cancel (cancel_all u) pending)).
  assert (Hin : In u (map fst after)).
  { unfold after, kernel_cancel, cancel_all, prep_cancel_first. cbn [cs_any cs_all cs_user_data].
    destruct (remove_first u pending) as [r|] eqn:E.
    - cbn [fst]. apply remove_first_spec in E. destruct E as (a & f & b & Hp & -> & Ha). unfold pending in Hp.
      assert (Hc : length (filter (fun p => fst p =? u) (l1 ++ (u, f1) :: l2 ++ (u, f2) :: l3)) >= 2).
      { rewrite filter_app. cbn [filter fst]. rewrite Nat.eqb_refl, app_length. cbn [length]. rewrite filter_app. cbn [filter fst]. rewrite Nat.eqb_refl, app_length. cbn [length]. lia. }
      rewrite Hp, filter_app in Hc. cbn [filter fst] in Hc. rewrite Nat.eqb_refl, app_length in Hc. cbn [length] in Hc.
      rewrite map_app. apply in_app_iff. right.
      destruct (filter (fun p => fst p =? u) a) as [|x y] eqn:Ea.
      + cbn [length] in Hc. destruct (filter (fun p => fst p =? u) b) as [|x' y'] eqn:Eb; [cbn [length] in Hc; lia|].
        assert (Hx : In x' (filter (fun p => fst p =? u) b)) by (rewrite Eb; now left). apply filter_In in Hx. destruct Hx as [Hx1 Hx2]. apply Nat.eqb_eq in Hx2.
        rewrite <- Hx2. now apply in_map.
      + exfalso. assert (Hx : In x (filter (fun p => fst p =? u) a)) by (rewrite Ea; now left). apply filter_In in Hx. destruct Hx as [Hx1 Hx2]. apply Nat.eqb_eq in Hx2. now apply (Ha x).
    - exfalso. apply remove_first_None in E. apply E. unfold pending. rewrite map_app. apply in_app_iff. right. now left. }
  split; [|exact Hin]. intros H. apply in_map_iff in Hin. destruct Hin as (p & Hp & Hf). apply H in Hf. easy.
Qed.
Print Assumptions C79_cancel_all_refuted.

(** C43: cancel_any(fd, u) is not restricted to its arguments: it cancels every pending operation of the ring, whatever
    the descriptor and user data given (IORING_ASYNC_CANCEL_FD is not set). *)
Theorem C79_cancel_any_ignores_arguments_refuted : forall fd u pending, fst (kernel_cancel (cancel_any fd u) pending) = [].
Proof. intros fd u pending. unfold cancel_any. destruct (u =? 0); reflexivity. Qed.
Print Assumptions C79_cancel_any_ignores_arguments_refuted.

(** C43: ioret_for_cancel::number_canceled() (iouring_ioret.cc, returns the completion value) reports 0 after cancel_first or
    cancel_all did cancel an operation. *)
Theorem C79_number_canceled_refuted : forall u pending, In u (map fst pending) ->
  snd (kernel_cancel (cancel_first u) pending) = 0%Z /\ snd (kernel_cancel (cancel_all u) pending) = 0%Z /\
  length (fst (kernel_cancel (cancel_first u) pending)) + 1 = length pending.
Proof.
  intros u pending H. unfold kernel_cancel, cancel_first, cancel_all, prep_cancel_first. cbn [cs_any cs_all cs_user_data].
  destruct (remove_first u pending) as [r|] eqn:E; [|apply remove_first_None in E; easy]. cbn [fst snd]. repeat split.
  apply remove_first_spec in E. destruct E as (a & f & b & -> & -> & _). rewrite !app_length. cbn [length]. lia.
Qed.
Print Assumptions C79_number_canceled_refuted.
