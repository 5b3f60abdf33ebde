From Coq Require Import ZArith List Bool Arith Lia.
From Verif.Errors Require Import Model Props.
From Verif.Transfer Require Import Model Spec Proofs.
Import ListNotations.
Open Scope Z_scope.

(** C26, on a device where every write appends (pipe, socket, file opened with O_APPEND), for every buffer and every
    legal behaviour of the kernel: what was accepted is always a prefix of the buffer, and if append_all completes
    without error it is exactly the buffer. *)
Theorem C26_append_all_exact : forall buffer kernel st cs,
  append_all buffer ec_ok kernel = (st, cs) -> all_legal cs ->
  st <> Undefined /\ prefix (accepted cs) buffer /\
  (forall ec, st = Finished ec -> ec_true ec = false -> accepted cs = buffer).
Proof.
  intros buffer kernel st cs H Hl. destruct (append_all_spec _ _ _ _ _ H Hl) as (H1 & H2 & H3 & _). repeat split; auto.
  intros ec E He. exact (H3 ec eq_refl E He).
Qed.
Print Assumptions C26_append_all_exact.

(** C26: it ends, if the kernel never answers 0 (after at most one answer per byte). *)
Theorem C26_append_all_terminates : forall buffer kernel st cs,
  append_all buffer ec_ok kernel = (st, cs) -> all_legal cs ->
  (forall a, In a kernel -> res a <> 0) -> (length buffer <= length kernel)%nat -> exists ec, st = Finished ec.
Proof. intros. eapply append_all_terminates; eauto. Qed.
Print Assumptions C26_append_all_terminates.

Example C26_case : exists st cs,
  append_all [1;2;3;4;5] ec_ok [Ans 2 0; Ans 1 0; Ans 2 0] = (st, cs) /\ st = Finished ec_ok /\ accepted cs = [1;2;3;4;5] /\ all_legal cs.
Proof.
  do 2 eexists. split; [vm_compute; reflexivity|]. split; [reflexivity|]. split; [reflexivity|].
  intros c [<-|[<-|[<-|[]]]]; unfold legal; vm_compute; split; discriminate.
Qed.

(** C26 is false in full, three ways. (1) On a regular file not opened with O_APPEND every short write is followed
    by a write at offset 0 again: append_all reports success although the file does not contain the buffer. *)
Theorem C82_plain_file_refuted : exists buffer kernel st cs,
  append_all buffer ec_ok kernel = (st, cs) /\ all_legal cs /\ st = Finished ec_ok /\ file_after [] cs = [3;4] /\ buffer = [1;2;3;4].
Proof.
  exists [1;2;3;4], [Ans 2 0; Ans 2 0]. do 2 eexists. split; [vm_compute; reflexivity|]. split.
  - intros c [<-|[<-|[]]]; unfold legal; vm_compute; split; discriminate.
  - repeat split.
Qed.
Print Assumptions C82_plain_file_refuted.
(** (2) If the kernel accepts 0 bytes it asks again, without end. *)
Theorem C82_zero_write_spins_refuted : forall buffer n, buffer <> [] ->
  append_all buffer ec_ok (repeat (Ans 0 0) n) = (Waiting, repeat (Call 0 buffer (Ans 0 0)) n).
Proof. intros. now apply append_all_zero. Qed.
Print Assumptions C82_zero_write_spins_refuted.
(** (3) And it does have to answer 0 for a buffer of 2^32 bytes, because the length is truncated to 32 bits: such an
    append_all never completes unless it fails, and writes nothing. *)
Theorem C82_huge_buffer_refuted : exists buffer : list byte, zlen buffer = 2 ^ 32 /\
  forall kernel st cs, append_all buffer ec_ok kernel = (st, cs) -> all_legal cs ->
  (forall a, In a kernel -> 0 <= res a) -> st = Waiting /\ accepted cs = [].
Proof.
  assert (Hex : exists b : list byte, zlen b = 2 ^ 32).
  { exists (repeat 0 (Z.to_nat (2 ^ 32))). unfold zlen. rewrite repeat_length. apply Z2Nat.id. lia. }
  destruct Hex as [b Hz]. exists b. split; [exact Hz|]. intros kernel st cs H Hl Hp.
  refine (append_all_4gib kernel b ec_ok st cs _ _ H Hl Hp).
  - intros ->. cbn in Hz. lia.
  - rewrite Hz. reflexivity.
Qed.
Print Assumptions C82_huge_buffer_refuted.

(** C27: whatever the kernel does (short reads, errors, timeouts, end of file), for the calls that receive no exception:
    the returned count is at most the size, the buffer's first n bytes are exactly what was received, in order, nothing
    else was written, and a short count means an error was reported or the deadline passed (by the loop's clock or as an ETIME answer). *)
Theorem C27_fill_prefix : forall offset timeout size rounds s f cs,
  0 <= size -> fill_buffer offset timeout size ec_ok rounds = (s, f, cs) -> all_rlegal cs -> no_throw cs ->
  s <> FUndefined /\ f = delivered cs /\
  forall n ec, s = FDone n ec ->
    n <= size /\ zlen f = n /\
    (n < size -> ec_true ec = true \/ (exists c, In c cs /\ says_time c) \/ (exists now r, In (now, r) rounds /\ timeout <= now)).
Proof.
  intros offset timeout size rounds s f cs Hs H Hl Hn. unfold fill_buffer in H.
  destruct (fill_spec _ _ _ _ _ _ ec_ok _ _ _ Hs eq_refl H Hl Hn) as (H1 & H2 & H3 & H4 & _). cbn [app] in H2. subst f.
  split; [exact H1|]. split; [reflexivity|]. intros n ec E. destruct (H4 n ec E) as [H5 H6]. rewrite Z.add_0_l in H5. subst n.
  repeat split; auto.
Qed.
Print Assumptions C27_fill_prefix.

(** C27 for read_fill_buffer on a file that does not change meanwhile: the buffer holds the n bytes of the file from the
    requested offset. *)
Theorem C27_read_file_section : forall file offset timeout size rounds s f cs,
  0 <= size -> 0 <= offset -> fill_buffer offset timeout size ec_ok rounds = (s, f, cs) -> all_rlegal cs -> no_throw cs ->
  (forall c, In c cs -> from_file file c) ->
  f = firstn (length f) (skipn (Z.to_nat offset) file).
Proof.
  intros file offset timeout size rounds s f cs Hs Ho H Hl Hn Hf. unfold fill_buffer in H.
  destruct (fill_spec _ _ _ _ _ _ ec_ok _ _ _ Hs eq_refl H Hl Hn) as (_ & H2 & _ & _ & H5). cbn [app] in H2. subst f.
  apply file_chain; auto. intros c1 c c2 E. rewrite (H5 c1 c c2 E). lia.
Qed.
Print Assumptions C27_read_file_section.

Definition fill_demo := fill_buffer 10 1000 6 ec_ok [(1, RBytes [7;8]); (2, RBytes []); (3, RBytes [9]); (4, RFail (Ans (-104) 0))].
Example C27_case : exists s f cs, fill_demo = (s, f, cs) /\
  s = FDone 3 (Ec 104 System) /\ f = [7;8;9] /\ map roff cs = [10;12;12;13] /\ map rroom cs = [6;4;4;3] /\ all_rlegal cs /\ no_throw cs.
Proof.
  do 3 eexists. split; [vm_compute; reflexivity|]. split; [reflexivity|]. split; [reflexivity|]. split; [reflexivity|]. split; [reflexivity|].
  split; intros c [<-|[<-|[<-|[<-|[]]]]]; vm_compute; easy.
Qed.

(** C27 is false when the awaited operation throws: bytes already received are in the buffer but 0 is reported ... *)
Theorem C83_exception_loses_count_refuted : exists rounds f cs,
  fill_buffer 0 1000 4 ec_ok rounds = (FDone 0 catched, f, cs) /\ f = [1;2] /\ all_rlegal cs.
Proof.
  exists [(1, RBytes [1;2]); (2, RThrowOther)]. do 2 eexists. split; [vm_compute; reflexivity|]. split; [reflexivity|].
  intros c [<-|[<-|[]]]; vm_compute; easy.
Qed.
Print Assumptions C83_exception_loses_count_refuted.
(** ... and when it is a uring_exception not even an error is reported (its error code is lost, C40). *)
Theorem C83_uring_exception_silent_refuted : exists rounds x f cs,
  exn_of_ec CUring (Ec 5 System) = Some x /\ rounds = [(1, RThrow x)] /\
  fill_buffer 0 1000 4 ec_ok rounds = (FDone 0 ec_ok, f, cs) /\ all_rlegal cs /\ (forall now r, In (now, r) rounds -> now < 1000).
Proof.
  do 4 eexists. split; [reflexivity|]. split; [reflexivity|]. split; [vm_compute; reflexivity|].
  split; [intros c [<-|[]]; vm_compute; easy|]. intros now r [E|[]]. inversion E; subst. lia.
Qed.
Print Assumptions C83_uring_exception_silent_refuted.
(** The throwing overloads swallow ECANCELED whoever cancelled the operation: a short count, no exception, the
    deadline not reached. *)
Theorem C83_cancel_swallowed_refuted : exists rounds f cs,
  fill_buffer 0 1000 4 ec_ok rounds = (FDone 1 (Ec 125 System), f, cs) /\
  throwing (FDone 1 (Ec 125 System)) = TReturned 1 /\ (forall now r, In (now, r) rounds -> now < 1000) /\
  (forall c, In c cs -> ~ says_time c).
Proof.
  exists [(1, RBytes [1]); (2, RFail (Ans (-125) 0))]. do 2 eexists. split; [vm_compute; reflexivity|]. split; [reflexivity|]. split.
  - intros now r [E|[E|[]]]; inversion E; subst; lia.
  - intros c [<-|[<-|[]]] (a & o & E1 & E2 & E3); cbn in E1; inversion E1; subst. vm_compute in E2. inversion E2; subst. vm_compute in E3. discriminate.
Qed.
Print Assumptions C83_cancel_swallowed_refuted.

(** C27, the throwing overloads: no error: the count is returned; an error other than a cancellation: an exception made from that
    error is thrown; a call still waiting is still waiting. (Cancellation: C83.) *)
Theorem C27_throwing_overloads : forall s,
  (forall n ec, s = FDone n ec -> ec_true ec = false -> throwing s = TReturned n) /\
  (forall n ec, s = FDone n ec -> ec_true ec = true -> ec <> Ec 125 System (* ECANCELED *) -> throwing s = TThrown (exn_of_ec CUring ec)) /\
  (s = FWaiting <-> throwing s = TWaiting).
Proof.
  intros s. split; [|split].
  - intros n ec -> H. cbn. now rewrite H.
  - intros n [v c] -> H Hne. cbn in *. rewrite H. destruct (Z.eqb_spec v ECANCELED) as [->|]; [|reflexivity].
    destruct c; try reflexivity. now elim Hne.
  - destruct s as [n ec| |]; cbn; split; intros E; try discriminate; try reflexivity.
    destruct (_ && _) in E; discriminate.
Qed.
Print Assumptions C27_throwing_overloads.

(** C49: a fill call returns once the peer has closed the connection (or the file ended). False: an end-of-file answer
    (0 bytes) is retried without end as long as the deadline is not reached - forever with the default deadline. *)
Theorem C49_eof_spins_refuted : forall size n now timeout, 0 < size -> now < timeout ->
  exists cs, fill_buffer 0 timeout size ec_ok (repeat (now, RBytes []) n) = (FWaiting, [], cs) /\ length cs = n.
Proof. intros size n now timeout Hs Ht. unfold fill_buffer. apply fill_zero; lia. Qed.
Print Assumptions C49_eof_spins_refuted.

(** Partial: it does return if every successful answer carries at least one byte: after at most [size]+1 rounds. *)
Theorem C49_returns_partial : forall rounds offset timeout room wrote filled ec s f cs,
  0 <= room -> fill offset timeout room wrote filled ec rounds = (s, f, cs) -> all_rlegal cs ->
  (forall now r, In (now, r) rounds -> r <> RBytes []) ->
  room < Z.of_nat (length rounds) -> s <> FWaiting.
Proof.
  induction rounds as [|[now r] rounds IH]; intros offset timeout room wrote filled ec s f cs Hr H Hl Hz Hlen.
  - cbn in Hlen. lia.
  - cbn [fill] in H. destruct (ec_true ec || (room =? 0)) eqn:E0; [inversion H; discriminate|].
    destruct (timeout <=? now); [inversion H; discriminate|].
    apply orb_false_iff in E0. destruct E0 as [Ee E0]. zb.
    destruct r as [d|a|x|]; [| |inversion H; discriminate|inversion H; discriminate].
    + destruct (fill offset timeout (room - Z.min (zlen d) room) (wrote + zlen d) (filled ++ d) ec rounds) as [[s' f'] cs'] eqn:Er.
      inversion H; subst. assert (Hr0 : 0 <= room - Z.min (zlen d) room) by lia. eapply (IH _ _ _ _ _ _ _ _ _ Hr0 Er).
      * intros c Hc. apply Hl. now right.
      * intros now' r' Hin. apply (Hz now' r'). now right.
      * cbn [length] in Hlen. assert (0 < zlen d).
        { destruct d; [exfalso; apply (Hz now (RBytes [])); [now left|reflexivity]|]. unfold zlen; cbn [length]; lia. }
        lia.
    + destruct (decode a) as [o|] eqn:Ed; [|inversion H; discriminate].
      assert (Hra : -4095 <= res a < 0).
      { assert (Hin : In (RCall (offset + wrote) room (RFail a)) cs).
        { destruct (value (error_code_of o) =? 0); [|destruct (value (error_code_of o) =? ETIME)];
          destruct (fill _ _ _ _ _ _ rounds) as [[s' f'] cs']; inversion H; now left. }
        exact (Hl _ Hin). }
      destruct (decode_fail a Hra) as (o' & Ed' & Et & En). rewrite Ed in Ed'. inversion Ed'; subst o'.
      unfold ec_true in Et. zb. rewrite (proj2 (Z.eqb_neq _ _) Et) in H.
      assert (Hd : forall e, fill offset timeout 0 wrote filled e rounds = (FDone wrote e, filled, [])).
      { intros e. destruct rounds as [|[]]; cbn [fill]; rewrite orb_true_r; reflexivity. }
      destruct (value (error_code_of o) =? ETIME); rewrite Hd in H; inversion H; discriminate.
Qed.
Print Assumptions C49_returns_partial.
Example C49_case : exists f cs, fill_buffer 0 100 3 ec_ok [(1, RBytes [1;2]); (2, RBytes [3]); (3, RBytes [4]); (4, RBytes [5])] = (FDone 3 ec_ok, f, cs) /\ f = [1;2;3].
Proof. do 2 eexists. split; [vm_compute; reflexivity|reflexivity]. Qed.

(** C28: unique_file_state. If the kernel takes the whole buffer in one write (or fails), append is exact. *)
Theorem C28_complete_write_partial : forall buffer a kernel st cs,
  buffer <> [] -> zlen buffer < 2 ^ 32 ->
  append_async buffer (zlen buffer) ec_ok (a :: kernel) = (st, cs) -> (res a = zlen buffer \/ -4095 <= res a < 0) ->
  (res a = zlen buffer -> st = Finished ec_ok /\ accepted cs = buffer) /\
  (res a < 0 -> (exists e, st = Finished e /\ ec_true e = true) /\ accepted cs = []).
Proof. intros buffer a kernel st cs H1 H2 H3 H4. exact (append_async_one buffer ec_ok a kernel st cs eq_refl H1 H2 H3 H4). Qed.
Print Assumptions C28_complete_write_partial.
Example C28_case : exists st cs, append_async [1;2;3] 3 ec_ok [Ans 3 0] = (st, cs) /\ st = Finished ec_ok /\ accepted cs = [1;2;3].
Proof. do 2 eexists. split; [vm_compute; reflexivity|]. now split. Qed.

(** C28, for every behaviour of the kernel: each write hands over the whole buffer from its start (at file offset 0), one write after the other;
    the call ends with the first error answered, or successfully when the accepted counts add up to the size of the buffer - modulo 2^64 -
    and goes on writing until then. *)
Theorem C28_what_is_written : forall buffer kernel st cs,
  zlen buffer < 2 ^ 64 -> append_async buffer (zlen buffer) ec_ok kernel = (st, cs) -> all_legal cs ->
  (forall c, In c cs -> off c = 0 /\ data c = buffer) /\
  (exists k', kernel = map ans cs ++ k' /\ (st = Waiting -> k' = [])) /\
  match st with
  | Undefined => False
  | Waiting => (forall c, In c cs -> 0 <= res (ans c)) /\ (zlen buffer - fold_right (fun c n => res (ans c) + n) 0 cs) mod 2 ^ 64 <> 0
  | Finished e => if ec_true e then exists pre c, cs = pre ++ [c] /\ (forall c', In c' pre -> 0 <= res (ans c')) /\ res (ans c) < 0 /\
                                      (exists r, decode (ans c) = Some r /\ e = error_code_of r)
                  else (forall c, In c cs -> 0 <= res (ans c)) /\ (zlen buffer - fold_right (fun c n => res (ans c) + n) 0 cs) mod 2 ^ 64 = 0
  end.
Proof.
  intros buffer kernel st cs Hb H Hl. destruct (append_async_calls _ _ _ _ _ _ H) as [H1 H2]. split; [exact H1|]. split; [exact H2|].
  refine (append_async_count _ _ _ _ _ _ _ _ H Hl); [|reflexivity]. pose proof (zlen_nonneg buffer). lia.
Qed.
Print Assumptions C28_what_is_written.

(** C28 is false with short writes: success is reported and the file got the wrong bytes. *)
Theorem C28_short_write_refuted : exists kernel st cs,
  append_async [1;2;3;4] 4 ec_ok kernel = (st, cs) /\ all_legal cs /\ st = Finished ec_ok /\ accepted cs = [1;2;1;2].
Proof.
  exists [Ans 2 0; Ans 2 0]. do 2 eexists. split; [vm_compute; reflexivity|]. split.
  - intros c [<-|[<-|[]]]; unfold legal; vm_compute; split; discriminate.
  - repeat split.
Qed.
Print Assumptions C28_short_write_refuted.
(** After an overshoot the remaining-bytes counter wraps below zero: 2 accepted, then all 4. *)
Theorem C28_counter_wraps_refuted : exists kernel st cs,
  append_async [1;2;3;4] 4 ec_ok kernel = (st, cs) /\ all_legal cs /\ accepted cs = [1;2;1;2;3;4] /\ st = Waiting.
Proof.
  exists [Ans 2 0; Ans 4 0]. do 2 eexists. split; [vm_compute; reflexivity|]. split.
  - intros c [<-|[<-|[]]]; unfold legal; vm_compute; split; discriminate.
  - repeat split.
Qed.
Print Assumptions C28_counter_wraps_refuted.
(** And the object cannot be built for an existing file in the first place: the constructor opens the moved-from
    (empty) path; were that openable, the descriptor would be read-only. *)
Theorem C28_constructor_refuted : forall fs p,
  (fs [] = false -> construct fs p = None) /\
  (forall q fl, construct fs p = Some (q, fl) -> Z.land fl O_ACCMODE = O_RDONLY).
Proof.
  intros fs p. unfold construct. split; [intros ->; reflexivity|].
  intros q fl H. destruct (fs []); inversion H; subst. reflexivity.
Qed.
Print Assumptions C28_constructor_refuted.
