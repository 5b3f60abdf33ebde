(** C38: deplete_send_buffer, src/tcp_util.cc 14-49.

    The loop runs against an arbitrary socket (the answers of ioctl(SIOCOUTQ)) and an arbitrary clock. One round: the answer
    of the ioctl, and the clock reading behind it (line 34), used if the function has not returned. *)
From Coq Require Import ZArith List Bool Lia.
From Verif.Tcp Require Import Deadline.
Import ListNotations.
Open Scope Z_scope.

(* the answer of ioctl(SIOCOUTQ), tcp_util.cc 14-49 *)
Inductive ioctl := QError (errno : Z) | QLen (outstanding : Z).
Inductive result :=
| DTrue                 (* 30 *)
| DError (errno : Z)    (* 24-25: false, with the error code *)
| DTimeout              (* 39: false, error code untouched *)
| DWaiting              (* the rounds are used up: still in sleep_for(1ms) *)
| DUndef.               (* clock arithmetic overflows *)

Definition wait_dura : Z := 1.   (* line 18, milliseconds *)

(** lines 20-38; returns the result and the number of rounds begun *)
Fixpoint loop (deadline : Z) (rounds : list (ioctl * Z)) : result * nat :=
  match rounds with
  | [] => (DWaiting, O)
  | (q, now) :: rounds' =>
      match q with
      | QError e => (DError e, 1%nat)
      | QLen n =>
          if n =? 0 then (DTrue, 1%nat)
          else match add_ms now wait_dura with
               | None => (DUndef, 1%nat)
               | Some t =>
                   if t <? deadline then let (r, k) := loop deadline rounds' in (r, S k)
                   else (DTimeout, 1%nat)
               end
      end
  end.
(** lines 16-17: [start] is the first clock reading *)
Definition deplete (start timeout_ms : Z) (rounds : list (ioctl * Z)) : result * nat :=
  match add_ms start timeout_ms with
  | None => (DUndef, O)
  | Some deadline => loop deadline rounds
  end.

(** ** Specification vocabulary *)
Definition ms : Z := 10 ^ 6.
(** the last round the call looked at *)
Definition last_round (rounds : list (ioctl * Z)) (k : nat) : option (ioctl * Z) := nth_error rounds (k - 1).
(** the clock is a 64-bit nanosecond clock that stays clear of its end by more than a millisecond *)
Definition sane_clock (rounds : list (ioctl * Z)) : Prop := Forall (fun r => - 2 ^ 63 <= snd r /\ snd r + ms <= i64_max) rounds.
(** sleep_for(1ms) takes at least 1 ms (C11), and the function is back at the clock at most [late] after the millisecond *)
Fixpoint sleeps_between (lo hi : Z) (rounds : list (ioctl * Z)) : Prop :=
  match rounds with
  | r :: ((r' :: _) as rest) => snd r + lo <= snd r' /\ snd r' <= snd r + hi /\ sleeps_between lo hi rest
  | _ => True
  end.

Lemma add_wait now : - 2 ^ 63 <= now -> now + ms <= i64_max -> add_ms now wait_dura = Some (now + ms).
Proof.
  intros H1 H2. unfold add_ms, wait_dura, in_i64, i64_max, ms in *. change (1 * 10 ^ 6) with (10 ^ 6).
  replace ((- 2 ^ 63 <=? 10 ^ 6) && (10 ^ 6 <=? 2 ^ 63 - 1)) with true by reflexivity.
  destruct (Z.leb_spec (- 2 ^ 63) (now + 10 ^ 6)); [|lia]. destruct (Z.leb_spec (now + 10 ^ 6) (2 ^ 63 - 1)); [|lia]. reflexivity.
Qed.

Lemma loop_spec deadline : forall rounds r k, sane_clock rounds -> loop deadline rounds = (r, k) ->
  r <> DUndef /\ (k <= length rounds)%nat /\
  (forall i q now, (S i < k)%nat -> nth_error rounds i = Some (q, now) -> (exists n, q = QLen n /\ n <> 0) /\ now + ms < deadline) /\
  match r with
  | DTrue => exists now, last_round rounds k = Some (QLen 0, now)
  | DError e => exists now, last_round rounds k = Some (QError e, now)
  | DTimeout => exists n now, last_round rounds k = Some (QLen n, now) /\ n <> 0 /\ deadline - ms <= now
  | DWaiting => k = length rounds /\ forall q now, last_round rounds k = Some (q, now) -> k <> O -> (exists n, q = QLen n /\ n <> 0) /\ now + ms < deadline
  | DUndef => True
  end /\ (r <> DWaiting -> (1 <= k)%nat).
Proof.
  unfold last_round. induction rounds as [|[q now] rounds IH]; intros r k Hs HL; cbn [loop] in HL.
  - inversion HL; subst. split; [discriminate|]. split; [cbn; lia|]. split; [intros; lia|]. split; [|congruence]. split; [reflexivity|congruence].
  - inversion Hs as [|? ? [H1 H2] Hs']; subst. cbn [snd] in *. destruct q as [e|n].
    + inversion HL; subst. split; [discriminate|]. split; [cbn; lia|]. split; [intros; lia|]. split; [exists now; reflexivity|lia].
    + destruct (Z.eqb_spec n 0) as [->|Hn].
      { inversion HL; subst. split; [discriminate|]. split; [cbn; lia|]. split; [intros; lia|]. split; [exists now; reflexivity|lia]. }
      rewrite add_wait in HL by easy. destruct (Z.ltb_spec (now + ms) deadline) as [Hd|Hd].
      2:{ inversion HL; subst. split; [discriminate|]. split; [cbn; lia|]. split; [intros; lia|]. split; [exists n, now; split; [reflexivity|]; split; [exact Hn|lia]|lia]. }
      destruct (loop deadline rounds) as [r0 k0] eqn:E. inversion HL; subst r0 k; clear HL. destruct (IH r k0 Hs' eq_refl) as (H3 & H4 & H5 & H6 & H7).
      split; [exact H3|]. split; [cbn; lia|]. split.
      { intros [|i] q' now' Hi Hx; [cbn in Hx; inversion Hx; subst; split; [exists n; auto|lia]|]. apply (H5 i); [lia|exact Hx]. }
      split; [|lia].
      assert (Hl : forall x, (1 <= k0)%nat -> nth_error rounds (k0 - 1) = x -> nth_error ((QLen n, now) :: rounds) (S k0 - 1) = x).
      { intros x Hk Hx. destruct k0 as [|k0]; [lia|]. cbn [Nat.sub] in *. rewrite Nat.sub_0_r in *. exact Hx. }
      destruct r; try exact I.
      * destruct H6 as (t & H6). exists t. apply Hl; [apply H7; discriminate|exact H6].
      * destruct H6 as (t & H6). exists t. apply Hl; [apply H7; discriminate|exact H6].
      * destruct H6 as (n' & t & H6 & H8). exists n', t. split; [|exact H8]. apply Hl; [apply H7; discriminate|exact H6].
      * destruct H6 as [-> H6]. split; [reflexivity|]. intros q' now' Hx _. destruct (length rounds) as [|m] eqn:El.
        -- cbn in Hx. inversion Hx; subst. split; [exists n; auto|lia].
        -- cbn [Nat.sub] in *. rewrite ?Nat.sub_0_r in *. apply H6; [exact Hx|discriminate].
Qed.

(** C38, first half: true is returned exactly when the last look at the queue found it empty, all earlier looks having found
    it non-empty; an error code exactly when the last ioctl failed; and false without error only when the last look found
    data outstanding and less than a millisecond (one polling period) was left. For every sequence of queue lengths and
    errors, every clock, every timeout for which start + timeout is representable. *)
Theorem C38_result_exact :
  forall start timeout_ms deadline rounds r k,
    add_ms start timeout_ms = Some deadline -> sane_clock rounds -> deplete start timeout_ms rounds = (r, k) ->
    r <> DUndef /\
    (forall i q now, (S i < k)%nat -> nth_error rounds i = Some (q, now) -> exists n, q = QLen n /\ n <> 0) /\
    (r = DTrue -> exists now, last_round rounds k = Some (QLen 0, now)) /\
    (forall e, r = DError e -> exists now, last_round rounds k = Some (QError e, now)) /\
    (r = DTimeout -> exists n now, last_round rounds k = Some (QLen n, now) /\ n <> 0 /\ deadline - ms <= now).
Proof.
  intros start tm deadline rounds r k Hd Hs H. unfold deplete in H. rewrite Hd in H.
  destruct (loop_spec deadline rounds r k Hs H) as (H1 & H2 & H3 & H4 & _). split; [exact H1|]. split.
  - intros i q now Hi Hx. now destruct (H3 i q now Hi Hx).
  - split; [intros ->; exact H4|]. split; [intros e ->; exact H4|intros ->; exact H4].
Qed.
Print Assumptions C38_result_exact.

Lemma sleeps_nth lo hi : forall rounds i r r', sleeps_between lo hi rounds -> nth_error rounds i = Some r -> nth_error rounds (S i) = Some r' ->
  snd r + lo <= snd r' <= snd r + hi.
Proof.
  induction rounds as [|x rounds IH]; intros i r r' HS Hi Hi'; [destruct i; discriminate|].
  destruct rounds as [|y rounds]; [destruct i; discriminate|]. destruct HS as (H1 & H2 & HS).
  destruct i as [|i]; cbn in Hi, Hi'; [inversion Hi; inversion Hi'; subst; lia|]. eapply IH; [exact HS|exact Hi|exact Hi'].
Qed.

(** C38, second half: if every sleep of 1 ms is over at most 1 ms + [late] after it began, the call looks at the clock for the
    last time before deadline + late, unless it slept not at all (then it returns right after its first reading). *)
Theorem C38_returns_in_time :
  forall start timeout_ms deadline rounds r k late,
    0 <= late -> add_ms start timeout_ms = Some deadline -> sane_clock rounds -> deplete start timeout_ms rounds = (r, k) ->
    sleeps_between 0 (ms + late) rounds ->
    forall i q now, (0 < i < k)%nat -> nth_error rounds i = Some (q, now) -> now < deadline + late.
Proof.
  intros start tm deadline rounds r k late Hl Hd Hs H HS i q now Hi Hx. unfold deplete in H. rewrite Hd in H.
  destruct (loop_spec deadline rounds r k Hs H) as (_ & H2 & H3 & _ & _).
  destruct i as [|i]; [lia|]. destruct (nth_error rounds i) as [[q0 now0]|] eqn:E; [|apply nth_error_None in E; assert (nth_error rounds (S i) = None) by (apply nth_error_None; lia); congruence].
  destruct (H3 i q0 now0 ltac:(lia) E) as [_ Hn]. pose proof (sleeps_nth _ _ _ _ _ _ HS E Hx) as Hb. cbn [snd] in Hb. lia.
Qed.
Print Assumptions C38_returns_in_time.

(** C38: it does return: as the timer is never early (C11), a call polls at most timeout + 1 times, however long the queue
    stays non-empty. *)
Theorem C38_polls_bounded :
  forall start timeout_ms deadline rounds r k now0,
    0 <= timeout_ms -> add_ms start timeout_ms = Some deadline -> sane_clock rounds -> deplete start timeout_ms rounds = (r, k) ->
    sleeps_between ms i64_max rounds -> (forall q now, nth_error rounds 0 = Some (q, now) -> now = now0) -> start <= now0 ->
    Z.of_nat k <= timeout_ms + 1.
Proof.
  intros start tm deadline rounds r k now0 Ht Hd Hs H HS H0 Hst. unfold deplete in H. rewrite Hd in H.
  destruct (loop_spec deadline rounds r k Hs H) as (_ & H2 & H3 & _ & _).
  assert (Hdl : deadline = start + tm * ms).
  { unfold add_ms in Hd. fold ms in Hd. destruct (in_i64 (tm * ms)); [|discriminate]. destruct (in_i64 (start + tm * ms)); inversion Hd. reflexivity. }
  assert (G : forall i q now, (i < k)%nat -> nth_error rounds i = Some (q, now) -> now0 + Z.of_nat i * ms <= now).
  { induction i as [|i IH]; intros q now Hi Hx; [rewrite (H0 q now Hx); lia|].
    destruct (nth_error rounds i) as [[q1 now1]|] eqn:E; [|apply nth_error_None in E; assert (nth_error rounds (S i) = None) by (apply nth_error_None; lia); congruence].
    specialize (IH q1 now1 ltac:(lia) eq_refl). pose proof (sleeps_nth _ _ _ _ _ _ HS E Hx) as Hb. cbn [snd] in Hb. rewrite Nat2Z.inj_succ. lia. }
  destruct k as [|[|k]]; [lia|lia|].
  destruct (nth_error rounds k) as [[q now]|] eqn:E; [|apply nth_error_None in E; lia].
  destruct (H3 k q now ltac:(lia) E) as [_ Hn]. specialize (G k q now ltac:(lia) E). unfold ms in *. lia.
Qed.
Print Assumptions C38_polls_bounded.

(** A call of 3 ms on a queue that drains in its third poll. *)
Definition demo : list (ioctl * Z) := [(QLen 5, 100); (QLen 2, 100 + ms); (QLen 0, 100 + 2 * ms)].
Example C38_demo : deplete 0 4 demo = (DTrue, 3%nat) /\ sane_clock demo /\ sleeps_between ms (ms + 0) demo.
Proof. split; [vm_compute; reflexivity|]. split; [unfold demo, sane_clock, ms, i64_max; repeat constructor; cbn [snd]; lia|cbn; lia]. Qed.
(** ... and one on a queue that does not drain *)
Definition demo2 : list (ioctl * Z) := [(QLen 5, 100); (QLen 5, 100 + ms); (QLen 5, 100 + 2 * ms); (QLen 5, 100 + 3 * ms)].
Example C38_demo2 : deplete 0 3 demo2 = (DTimeout, 3%nat).
Proof. vm_compute. reflexivity. Qed.

(** With milliseconds::max() as "wait for ever" the deadline computation overflows at once. *)
Theorem C87_deplete_max_overflows_refuted : forall start rounds, deplete start i64_max rounds = (DUndef, O).
Proof. intros start rounds. unfold deplete, add_ms. replace (in_i64 (i64_max * 10 ^ 6)) with false by reflexivity. reflexivity. Qed.
Print Assumptions C87_deplete_max_overflows_refuted.

(** C87 refuted: in the last millisecond of the clock's range, too. *)
Theorem C87_deplete_clock_end_refuted : forall start timeout_ms deadline n now rounds,
  add_ms start timeout_ms = Some deadline -> n <> 0 -> now <= i64_max < now + ms -> deplete start timeout_ms ((QLen n, now) :: rounds) = (DUndef, 1%nat).
Proof.
  intros start tm d n now rounds Hd Hn Hnow. unfold deplete. rewrite Hd. cbn [loop]. destruct (Z.eqb_spec n 0); [contradiction|].
  replace (add_ms now wait_dura) with (@None Z); [reflexivity|]. unfold add_ms, in_i64, wait_dura, ms in *. change (1 * 10 ^ 6) with (10 ^ 6).
  replace ((- 2 ^ 63 <=? 10 ^ 6) && (10 ^ 6 <=? i64_max)) with true by reflexivity.
  destruct (Z.leb_spec (now + 10 ^ 6) i64_max); [lia|]. now rewrite andb_false_r.
Qed.
Print Assumptions C87_deplete_clock_end_refuted.
Example C87_deplete_clock_end_case : deplete 0 1 [(QLen 7, i64_max)] = (DUndef, 1%nat).
Proof. vm_compute. reflexivity. Qed.
