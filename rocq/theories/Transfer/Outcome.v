(** C27: when a fill call ends, and when it is still waiting (iouring_awaitables.cc 104-156, over Model.v). *)
From Coq Require Import ZArith List Bool Lia.
From Verif.Errors Require Import Model.
From Verif.Transfer Require Import Model Spec Proofs.
Import ListNotations.
Open Scope Z_scope.

(** an answer "this operation failed", other than by its deadline *)
(* specification, no counterpart in /repo *)
Definition says_error (c : rcall) : Prop := exists a o, rans_of c = RFail a /\ decode a = Some o /\ value (error_code_of o) <> 62.   (* ETIME *)

Lemma fill_outcome offset timeout rounds : forall room wrote filled ec s f cs, 0 <= room -> ec_true ec = false ->
  fill offset timeout room wrote filled ec rounds = (s, f, cs) -> all_rlegal cs -> no_throw cs ->
  (s = FWaiting -> zlen (delivered cs) < room /\ map rans_of cs = map snd rounds /\ (forall now r, In (now, r) rounds -> now < timeout) /\ forall c, In c cs -> exists d, rans_of c = RBytes d) /\
  (forall n e, s = FDone n e -> ec_true e = true -> exists c, In c cs /\ says_error c).
Proof.
  induction rounds as [|[now r] rounds IH]; intros room wrote filled ec s f cs Hroom Hec H Hl Hn.
  - cbn in H. rewrite Hec in H. cbn [orb] in H. destruct (Z.eqb_spec room 0) as [E0|E0]; inversion H; subst; (split; [intros E; try discriminate|intros n e E Ht; inversion E; subst; congruence]).
    split; [cbn; lia|]. split; [reflexivity|]. split; intros; contradiction.
  - cbn [fill] in H. rewrite Hec in H. cbn [orb] in H. destruct (Z.eqb_spec room 0) as [E0|E0].
    { inversion H; subst. split; [discriminate|]. intros n e E Ht. inversion E; subst. congruence. }
    destruct (Z.leb_spec timeout now) as [E1|E1].
    { inversion H; subst. split; [discriminate|]. intros n e E Ht. inversion E; subst. congruence. }
    destruct r as [d|a|x|].
    + destruct (fill offset timeout (room - Z.min (zlen d) room) (wrote + zlen d) (filled ++ d) ec rounds) as [[s' f'] cs'] eqn:Er. inversion H; subst; clear H.
      assert (Hd : zlen d <= room).
      { specialize (Hl _ (or_introl eq_refl)). pose proof (Z.mod_le room (2^32) Hroom eq_refl) as Hml. unfold rlegal in Hl. cbn [rans_of rroom] in Hl. lia. }
      rewrite Z.min_l in Er by lia. assert (Hr0 : 0 <= room - zlen d) by lia.
      destruct (IH _ _ _ _ _ _ _ Hr0 Hec Er) as (H1 & H2); [intros c Hc; apply Hl; now right|intros c Hc; apply Hn; now right|]. split.
      * intros Es. destruct (H1 Es) as (A & B & C & D). unfold delivered in *. cbn [map concat]. change (bytes_of (RCall (offset + wrote) room (RBytes d))) with d. rewrite zlen_app.
        split; [lia|]. split; [cbn; now rewrite B|]. split.
        -- intros nw rr [E|Hin]; [inversion E; subst; lia|eauto].
        -- intros c [<-|Hin]; [now exists d|eauto].
      * intros n e Es Ht. destruct (H2 n e Es Ht) as (c & Hc & Hs). exists c. split; [now right|exact Hs].
    + assert (Hra : -4095 <= res a < 0).
      { assert (Hin : In (RCall (offset + wrote) room (RFail a)) cs).
        { destruct (decode a) as [o|]; [|inversion H; now left].
          destruct (value (error_code_of o) =? 0); [|destruct (value (error_code_of o) =? ETIME)]; destruct (fill _ _ _ _ _ _ rounds) as [[s' f'] cs']; inversion H; now left. }
        exact (Hl _ Hin). }
      destruct (decode_fail a Hra) as (o & Ed & Ee & En). rewrite Ed in H. unfold ec_true in Ee. apply negb_true_iff in Ee. rewrite Ee in H.
      assert (F0 : forall e, ec_true e = true \/ True -> fill offset timeout 0 wrote filled e rounds = (FDone wrote e, filled, [])) by (intros e _; destruct rounds as [|[? ?] ?]; cbn [fill]; now rewrite orb_true_r).
      destruct (Z.eqb_spec (value (error_code_of o)) ETIME) as [Et|Et]; rewrite F0 in H by auto; inversion H; subst; (split; [discriminate|]); intros n e E Ht; inversion E; subst; [congruence|].
      eexists. split; [now left|]. exists a, o. split; [reflexivity|]. split; [exact Ed|exact Et].
    + exfalso. inversion H; subst. apply (Hn _ (or_introl eq_refl)).
    + exfalso. inversion H; subst. apply (Hn _ (or_introl eq_refl)).
Qed.

(** C27: a fill call is still waiting exactly when it needs another answer: every answer so far brought bytes, fewer than asked for in total, and the deadline
    had not passed at any of them; and it reports an error only if an answer was one. *)
Theorem C27_fill_waits_only_for_bytes : forall offset timeout size rounds s f cs,
  0 <= size -> fill_buffer offset timeout size ec_ok rounds = (s, f, cs) -> all_rlegal cs -> no_throw cs ->
  (s = FWaiting -> zlen f < size /\ map rans_of cs = map snd rounds /\ (forall now r, In (now, r) rounds -> now < timeout) /\ forall c, In c cs -> exists d, rans_of c = RBytes d) /\
  (forall n e, s = FDone n e -> ec_true e = true -> exists c, In c cs /\ says_error c).
Proof.
  intros offset timeout size rounds s f cs Hs H Hl Hn. unfold fill_buffer in H. destruct (fill_spec _ _ _ _ _ _ ec_ok _ _ _ Hs eq_refl H Hl Hn) as (_ & Hf & _). cbn [app] in Hf. subst f.
  exact (fill_outcome _ _ _ _ _ _ ec_ok _ _ _ Hs eq_refl H Hl Hn).
Qed.
Print Assumptions C27_fill_waits_only_for_bytes.
Example C27_fill_waits_case : exists cs, fill_buffer 0 100 5 ec_ok [(1, RBytes [7; 8]); (2, RBytes [9])] = (FWaiting, [7; 8; 9], cs) /\ all_rlegal cs /\ no_throw cs.
Proof.
  eexists. split; [vm_compute; reflexivity|]. split; intros c [<-|[<-|[]]]; vm_compute; intuition discriminate.
Qed.
