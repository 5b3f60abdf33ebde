(** C39: send_pb_message / recv_pb_message, include/koios/iouring_protobuf.h 27-91.

    (The header ends with an #endif that has no #if, so no translation unit that includes it compiles; the model follows the text.)
    toolpex::encode_big_endian_to / decode_big_endian_from are not in the repository: taken to be the usual 4-byte
    big-endian encoding. A protobuf message is its serialisation [rep] (SerializeAsString) and ParseFromArray an arbitrary
    function. recv_fill_buffer is the model of Verif.Transfer (C27). *)
From Coq Require Import ZArith List Bool Lia Arith.
From Verif.Errors Require Import Model.
From Verif.Transfer Require Import Model Spec Proofs Outcome.
Import ListNotations.
Open Scope Z_scope.

(* toolpex::encode_big_endian_to: environment, not code of /repo *)
Definition encode_be32 (n : Z) : list byte := [n / 2 ^ 24 mod 256; n / 2 ^ 16 mod 256; n / 2 ^ 8 mod 256; n mod 256].
(* toolpex::decode_big_endian_from: environment, not code of /repo *)
Definition decode_be32 (b : list byte) : Z := fold_left (fun a x => 256 * a + x) b 0.

(** ** send_pb_message, 27-70 *)
(** the answer to one uring::send without deadline *)
(* the result of one send, iouring_protobuf.h 27-71 *)
Inductive sans := SOk (n : nat) | STimeout (* is_timeout_ec *) | SErr.
(* how send_pb_message ends, iouring_protobuf.h 27-71 *)
Inductive sres := SFalse | STrue | SWaiting (* for the answer to the next send *) | SUndefined (* subspan beyond the end *).

(** 56-67: [left], [retry_count]; returns the result and the bytes the kernel took *)
Fixpoint send_body (left : list byte) (retry : nat) (kernel : list sans) : sres * list byte :=
  match left with
  | [] => (STrue, [])
  | _ =>
      if (10 <? retry)%nat then (STrue, [])     (* break *)
      else match kernel with
           | [] => (SWaiting, [])
           | SErr :: _ => (STrue, [])           (* break *)
           | SOk n :: k => if (n <=? length left)%nat
                           then let (r, w) := send_body (skipn n left) retry k in (r, firstn n left ++ w)
                           else (SUndefined, [])
           | STimeout :: k => send_body left (S retry) k
           end
  end.
(** 41-50: the do-while on the prefix; [retry] = retry_count before the increment *)
Fixpoint send_prefix (buf rep : list byte) (retry : nat) (kernel : list sans) : sres * list byte :=
  match kernel with
  | [] => (SWaiting, [])
  | a :: k =>
      let taken := match a with SOk n => firstn n buf | _ => [] end in
      if (5 <? S retry)%nat then (SFalse, taken)
      else match a with
           | STimeout => send_prefix buf rep (S retry) k
           | _ => let (r, w) := send_body rep 0 k in (r, taken ++ w)
           end
  end.
(** 27-40; static_cast<uint32_t>(msg_rep.size()) *)
Definition send_pb (initialized : bool) (rep : list byte) (kernel : list sans) : sres * list byte :=
  if initialized then send_prefix (encode_be32 (zlen rep mod 2 ^ 32)) rep 0 kernel else (SFalse, []).

(** ** recv_pb_message, 72-91 *)
Inductive rres := RFalse | RParse (bytes : list byte) (size : Z) (* co_return msg.ParseFromArray(bytes, size) *) | RWaiting | RUndefined.
(* size_t to int, as ParseFromArray takes it: iouring_protobuf.h 74-91 *)
Definition to_int32 (n : Z) : Z := if n <? 2 ^ 31 then n else n - 2 ^ 32.

(** [prefix_buf] starts as four zero bytes (76); the two fills have their own rounds (clock readings and answers).
    Returns also the exchanges with the kernel. *)
(* the 4-byte buffer of the length, of which a prefix was filled: iouring_protobuf.h 74-91 *)
Definition pad4 (f : list byte) : list byte := f ++ repeat 0 (4 - length f).
(* recv_pb_message, iouring_protobuf.h 74-91 *)
Definition recv_pb (tmo1 tmo2 : Z) (rounds1 rounds2 : list (Z * rans)) : rres * list rcall * list rcall :=
  match fill_buffer 0 tmo1 4 ec_ok rounds1 with
  | (FDone _ ec, f, cs1) =>
      if ec_true ec then (RFalse, cs1, [])
      else
        let prefix_len := decode_be32 (pad4 f) in
        match fill_buffer 0 tmo2 prefix_len ec rounds2 with
        | (FDone received ec2, body, cs2) =>
            if ec_true ec2 || negb (received =? prefix_len) then (RFalse, cs1, cs2)
            else (RParse body (to_int32 prefix_len), cs1, cs2)
        | (FWaiting, _, cs2) => (RWaiting, cs1, cs2)
        | (FUndefined, _, cs2) => (RUndefined, cs1, cs2)
        end
  | (FWaiting, _, cs1) => (RWaiting, cs1, [])
  | (FUndefined, _, cs1) => (RUndefined, cs1, [])
  end.

(** ** Specification vocabulary *)
(** the frame of a message: 4-byte big-endian length, then the serialisation *)
Definition frame (rep : list byte) : list byte := encode_be32 (zlen rep) ++ rep.
Definition bytes_ok (l : list byte) : Prop := Forall (fun b => 0 <= b <= 255) l.
(** what a receiver has been given by the kernel is the beginning of the stream *)
Definition consumes (stream : list byte) (cs1 cs2 : list rcall) (rest : list byte) : Prop :=
  stream = delivered cs1 ++ delivered cs2 ++ rest.
(** the calls met no error that leaves the length prefix incomplete without an error code: no deadline passed on the prefix *)
Definition no_deadline (tmo : Z) (rounds : list (Z * rans)) (cs : list rcall) : Prop :=
  (forall c, In c cs -> ~ says_time c) /\ (forall now r, In (now, r) rounds -> now < tmo).

(** ** The length prefix round-trips *)
Lemma decode_encode n : 0 <= n < 2 ^ 32 -> decode_be32 (encode_be32 n) = n.
Proof.
  intros H. unfold decode_be32, encode_be32. cbn [fold_left].
  change (2 ^ 24) with (256 * 256 * 256). change (2 ^ 16) with (256 * 256). change (2 ^ 8) with 256. change (2 ^ 32) with (256 * 256 * 256 * 256) in H.
  rewrite <- !Zdiv.Zdiv_Zdiv by lia.
  pose proof (Z.div_mod n 256 ltac:(lia)) as E1. pose proof (Z.div_mod (n / 256) 256 ltac:(lia)) as E2. pose proof (Z.div_mod (n / 256 / 256) 256 ltac:(lia)) as E3.
  assert (E4 : n / 256 / 256 / 256 mod 256 = n / 256 / 256 / 256).
  { apply Z.mod_small. split; [repeat apply Z.div_pos; lia|]. repeat apply Z.div_lt_upper_bound; lia. }
  rewrite E4. lia.
Qed.
Theorem C39_length_prefix_round_trips : forall n, 0 <= n < 2 ^ 32 -> decode_be32 (encode_be32 n) = n /\ bytes_ok (encode_be32 n).
Proof.
  intros n H. split; [now apply decode_encode|]. unfold bytes_ok, encode_be32.
  repeat constructor; match goal with |- context [?a mod 256] => pose proof (Z.mod_pos_bound a 256 ltac:(lia)) end; lia.
Qed.
Print Assumptions C39_length_prefix_round_trips.

(** ** Sender *)
Lemma send_body_intact rep : forall kernel left retry r w,
  (forall a, In a kernel -> a <> SErr) -> send_body left retry kernel = (r, w) -> r <> SUndefined ->
  (retry + length (filter (fun a => match a with STimeout => true | _ => false end) kernel) <= 10)%nat ->
  rep = left -> exists q, left = w ++ q /\ (r = STrue <-> q = []) /\ r <> SFalse.
Proof.
  intros kernel. revert rep. induction kernel as [|a kernel IH]; intros rep left retry r w Hk H Hu Hr ->.
  - cbn [send_body] in H. destruct left as [|b left]; [inversion H; subst; exists []; split; [reflexivity|split; [easy|discriminate]]|].
    destruct (Nat.ltb_spec 10 retry) as [Hx|Hx]; [cbn in Hr; lia|]. inversion H; subst. exists (b :: left). split; [reflexivity|split; [split; discriminate|discriminate]].
  - cbn [send_body] in H. destruct left as [|b left]; [inversion H; subst; exists []; split; [reflexivity|split; [easy|discriminate]]|].
    destruct (Nat.ltb_spec 10 retry) as [Hx|Hx]; [cbn in Hr; lia|].
    destruct a as [n| |].
    + destruct (Nat.leb_spec n (length (b :: left))) as [Hn|Hn]; [|inversion H; subst; congruence].
      destruct (send_body (skipn n (b :: left)) retry kernel) as [r0 w0] eqn:E. inversion H; subst; clear H.
      destruct (IH _ _ _ _ _ (fun a Ha => Hk a (or_intror Ha)) E Hu Hr eq_refl) as (q & E1 & E2 & E3). exists q.
      split; [|now split]. rewrite <- app_assoc, <- E1. symmetry. apply firstn_skipn.
    + cbn [filter length] in Hr. apply (IH (b :: left) _ _ _ _ (fun a Ha => Hk a (or_intror Ha)) H Hu); [lia|reflexivity].
    + exfalso. apply (Hk SErr); [now left|reflexivity].
Qed.

(** the kernel takes the prefix whole, at latest at the fifth attempt, reports no error, and times out at most ten times during the
    body *)
Definition smooth (kernel : list sans) : Prop :=
  exists k body, (k <= 4)%nat /\ kernel = repeat STimeout k ++ SOk 4 :: body /\
    (forall a, In a body -> a <> SErr) /\ (length (filter (fun a => match a with STimeout => true | _ => false end) body) <= 10)%nat.

(** bytes the kernel says it took *)
Fixpoint took (kernel : list sans) : nat := match kernel with [] => 0%nat | SOk n :: k => (n + took k)%nat | _ :: k => took k end.
Lemma send_body_defined : forall kernel left retry, (took kernel <= length left)%nat -> fst (send_body left retry kernel) <> SUndefined.
Proof.
  induction kernel as [|a kernel IH]; intros left retry H; (destruct left as [|b left]; [cbn; discriminate|]); cbn [send_body]; (destruct (10 <? retry)%nat; [cbn; discriminate|]); [cbn; discriminate|].
  destruct a as [n| |]; cbn [took] in H; [|now apply IH|cbn; discriminate]. destruct (Nat.leb_spec n (length (b :: left))) as [Hn|Hn]; [|lia].
  specialize (IH (skipn n (b :: left)) retry). rewrite skipn_length in IH. specialize (IH ltac:(lia)). destruct (send_body (skipn n (b :: left)) retry kernel) as [r w]. exact IH.
Qed.
(** C39, sender, what holds: if the kernel's answers are smooth and it does not claim to have taken more than it was given, then what is on the wire at any time is
    a prefix of the frame, the call reports success exactly when it is the whole frame, and until then it waits for the next answer. Missing: errors, short prefix
    writes and repeated timeouts, for which the call reports success all the same (below). *)
Theorem C88_send_success_means_sent_partial :
  forall rep kernel r w, zlen rep < 2 ^ 32 -> smooth kernel -> (took kernel <= 4 + length rep)%nat -> send_pb true rep kernel = (r, w) ->
    (exists q, frame rep = w ++ q /\ (r = STrue <-> q = [])) /\ (r = STrue \/ r = SWaiting).
Proof.
  intros rep kernel r w Hlen (k & body & Hk & -> & Herr & Hto) Htk H. unfold send_pb in H.
  assert (Hz : zlen rep mod 2 ^ 32 = zlen rep) by (apply Z.mod_small; pose proof (zlen_nonneg rep); lia). rewrite Hz in H.
  assert (Htk' : (took body <= length rep)%nat). { clear -Htk. induction k as [|k IH]; cbn in *; [lia|apply IH; exact Htk]. }
  assert (G : forall j, (j + k <= 4)%nat -> send_prefix (encode_be32 (zlen rep)) rep j (repeat STimeout k ++ SOk 4 :: body) = (r, w) ->
    (exists q, frame rep = w ++ q /\ (r = STrue <-> q = [])) /\ (r = STrue \/ r = SWaiting)).
  { clear H Hk Htk. induction k as [|k IH]; intros j Hj H; cbn [repeat app send_prefix] in H.
    - destruct (Nat.ltb_spec 5 (S j)) as [Hx|Hx]; [lia|]. pose proof (send_body_defined body rep 0 Htk') as Hu. destruct (send_body rep 0 body) as [r0 w0] eqn:E. cbn in H, Hu. inversion H; subst; clear H.
      destruct (send_body_intact rep body rep 0 r w0 Herr E Hu) as (q & E1 & E2 & E3); [cbn; lia|reflexivity|].
      split; [|destruct r; auto; congruence]. exists q. split; [|exact E2]. unfold frame. rewrite E1 at 2. reflexivity.
    - destruct (Nat.ltb_spec 5 (S j)) as [Hx|Hx]; [lia|]. apply (IH (S j)); [lia|exact H]. }
  apply (G 0%nat); [lia|exact H].
Qed.
Print Assumptions C88_send_success_means_sent_partial.

(** ... also while the prefix is being sent: before it was taken the call waits; and at the sixth attempt it reports failure, even if that attempt succeeded and the
    length of a message that will not follow is now on the wire. *)
Theorem C88_send_prefix_waits : forall rep k, (k <= 5)%nat -> send_pb true rep (repeat STimeout k) = (SWaiting, []).
Proof. intros rep k Hk. do 6 (destruct k as [|k]; [reflexivity|]). lia. Qed.
Print Assumptions C88_send_prefix_waits.
Theorem C88_send_sixth_attempt_refuted : forall rep a kernel, zlen rep < 2 ^ 32 ->
  send_pb true rep (repeat STimeout 5 ++ a :: kernel) = (SFalse, match a with SOk n => firstn n (encode_be32 (zlen rep)) | _ => [] end).
Proof.
  intros rep a kernel H. unfold send_pb. assert (Hz : zlen rep mod 2 ^ 32 = zlen rep) by (apply Z.mod_small; pose proof (zlen_nonneg rep); lia). rewrite Hz. destruct a; reflexivity.
Qed.
Print Assumptions C88_send_sixth_attempt_refuted.

(** a message of three bytes sent with a prefix timeout, a body timeout and two short writes *)
Example C39_smooth_send :
  smooth [STimeout; SOk 4; SOk 1; STimeout; SOk 2] /\ send_pb true [7; 8; 9] [STimeout; SOk 4; SOk 1; STimeout; SOk 2] = (STrue, [0; 0; 0; 3; 7; 8; 9]).
Proof.
  split; [|vm_compute; reflexivity]. exists 1%nat, [SOk 1; STimeout; SOk 2]. split; [lia|]. split; [reflexivity|]. split; [|cbn; lia].
  intros a Ha. cbn in Ha. intuition; subst; discriminate.
Qed.

(** C39: a message with missing required fields is refused and nothing at all is sent. *)
Theorem C39_incomplete_message_is_not_sent : forall rep kernel, send_pb false rep kernel = (SFalse, []).
Proof. reflexivity. Qed.
Print Assumptions C39_incomplete_message_is_not_sent.
(** C39, sender, full statement "reports success only if the whole frame was handed to the kernel": false, for every message
    that is not empty, in three ways: a failing body write, a failing prefix write (the body is then sent without a
    prefix), a short prefix write. *)
Theorem C88_send_success_refuted :
  forall rep, rep <> [] ->
    send_pb true rep [SOk 4; SErr] = (STrue, encode_be32 (zlen rep mod 2 ^ 32)) /\
    send_pb true rep [SErr; SOk (length rep)] = (STrue, rep) /\
    (forall n, (n < 4)%nat -> send_pb true rep [SOk n; SOk (length rep)] = (STrue, firstn n (encode_be32 (zlen rep mod 2 ^ 32)) ++ rep)).
Proof.
  intros rep Hne. assert (Hb : forall k, send_body rep 0 (SOk (length rep) :: k) = (STrue, rep)).
  { intros k. destruct rep as [|b rep]; [easy|]. cbn [send_body]. destruct (Nat.ltb_spec 10 0); [lia|]. rewrite Nat.leb_refl, skipn_all, firstn_all.
    destruct k; cbn; now rewrite app_nil_r. }
  unfold send_pb. split; [|split].
  - cbn [send_prefix]. destruct rep as [|b rep]; [easy|]. cbn. reflexivity.
  - cbn [send_prefix]. rewrite Hb. reflexivity.
  - intros n Hn. cbn [send_prefix]. rewrite Hb. reflexivity.
Qed.
Print Assumptions C88_send_success_refuted.

(** ... and eleven timeouts in a row end the body early, again with "true". *)
Theorem C88_send_gives_up_silently_refuted :
  forall rep, rep <> [] -> send_pb true rep (SOk 4 :: repeat STimeout 11) = (STrue, encode_be32 (zlen rep mod 2 ^ 32)).
Proof. intros [|b rep] H; [easy|]. unfold send_pb. cbn [send_prefix repeat send_body Nat.ltb Nat.leb]. reflexivity. Qed.
Print Assumptions C88_send_gives_up_silently_refuted.

(** The length of a message of 2^32 bytes or more does not fit the prefix: the frame announces another length. *)
Theorem C88_long_message_refuted :
  forall rep kernel r w, 2 ^ 32 <= zlen rep -> send_pb true rep (SOk 4 :: kernel) = (r, w) ->
    exists w', w = encode_be32 (zlen rep mod 2 ^ 32) ++ w' /\ decode_be32 (firstn 4 w) <> zlen rep.
Proof.
  intros rep kernel r w Hlen H. unfold send_pb in H. cbn [send_prefix] in H. destruct (Nat.ltb_spec 5 1); [lia|].
  destruct (send_body rep 0 kernel) as [r0 w0]. assert (Hw : w = encode_be32 (zlen rep mod 2 ^ 32) ++ w0) by (injection H as _ <-; reflexivity).
  exists w0. split; [exact Hw|]. assert (H4 : firstn 4 w = encode_be32 (zlen rep mod 2 ^ 32)) by (rewrite Hw; reflexivity).
  pose proof (Z.mod_pos_bound (zlen rep) (2 ^ 32) ltac:(lia)) as Hb. rewrite H4, decode_encode by exact Hb. lia.
Qed.
Print Assumptions C88_long_message_refuted.

(** ** Receiver *)
Lemma full_prefix (a b c d : list byte) : a ++ b = c ++ d -> length a = length c -> a = c /\ b = d.
Proof. revert c. induction a as [|x a IH]; intros [|y c] H Hl; cbn in *; try discriminate; [easy|]. inversion H; subst. destruct (IH c H2 ltac:(lia)) as [-> ->]. easy. Qed.

(** C39, receiver: on a stream that begins with the frame of a message, in whatever pieces the kernel delivers it and
    with whatever follows it, if no deadline passes while the prefix is being read (and no co_await throws), the call
    hands the parser exactly the serialisation, its true length, and leaves exactly what follows the frame; otherwise it
    reports failure or is still waiting. Messages up to 2^31 - 1 bytes, which is what protobuf allows. *)
Theorem C39_received_intact :
  forall rep rest tmo1 tmo2 rounds1 rounds2 r cs1 cs2 rest',
    zlen rep < 2 ^ 31 ->
    recv_pb tmo1 tmo2 rounds1 rounds2 = (r, cs1, cs2) ->
    all_rlegal (cs1 ++ cs2) -> no_throw (cs1 ++ cs2) -> no_deadline tmo1 rounds1 cs1 ->
    consumes (frame rep ++ rest) cs1 cs2 rest' ->
    r = RFalse \/ r = RWaiting \/ (r = RParse rep (zlen rep) /\ rest' = rest).
Proof.
  intros rep rest tmo1 tmo2 rounds1 rounds2 r cs1 cs2 rest' Hlen H Hleg Hnt [Hnd1 Hnd2] Hst.
  assert (Hl1 : all_rlegal cs1) by (intros c Hc; apply Hleg, in_app_iff; now left). assert (Hl2 : all_rlegal cs2) by (intros c Hc; apply Hleg, in_app_iff; now right).
  assert (Hn1 : no_throw cs1) by (intros c Hc; apply Hnt, in_app_iff; now left). assert (Hn2 : no_throw cs2) by (intros c Hc; apply Hnt, in_app_iff; now right).
  pose proof (zlen_nonneg rep) as Hz. unfold recv_pb in H. destruct (fill_buffer 0 tmo1 4 ec_ok rounds1) as [[s1 f1] c1] eqn:E1.
  assert (Ec : c1 = cs1).
  { destruct s1 as [n1 ec1| |]; [|inversion H; reflexivity..]. destruct (ec_true ec1); [inversion H; reflexivity|].
    destruct (fill_buffer 0 tmo2 (decode_be32 (pad4 f1)) ec1 rounds2) as [[s2 f2] c2]. destruct s2 as [n2 ec2| |]; [destruct (ec_true ec2 || negb (n2 =? _))|..]; inversion H; reflexivity. }
  subst c1. unfold fill_buffer in E1. destruct (fill_spec 0 tmo1 rounds1 4 0 [] ec_ok _ _ _ ltac:(lia) eq_refl E1 Hl1 Hn1) as (A1 & A2 & A3 & A4 & _). cbn [app] in A2. subst f1.
  destruct s1 as [n1 ec1| |]; [|inversion H; subst; tauto|congruence].
  destruct (A4 n1 ec1 eq_refl) as [A5 A6]. rewrite Z.add_0_l in A5. subst n1. destruct (ec_true ec1) eqn:Ee; [inversion H; subst; tauto|].
  assert (Hfull : zlen (delivered cs1) = 4).
  { destruct (Z.eq_dec (zlen (delivered cs1)) 4) as [|Hne]; [easy|]. destruct (A6 ltac:(lia)) as [A|[(c & Hc & Ht)|(now & x & Hin & Hge)]]; [congruence|exfalso; eapply Hnd1; eassumption|].
    specialize (Hnd2 now x Hin). lia. }
  unfold consumes, frame in Hst. rewrite <- app_assoc in Hst.
  destruct (full_prefix (encode_be32 (zlen rep)) (rep ++ rest) (delivered cs1) (delivered cs2 ++ rest') Hst) as [Hd1 Hd2].
  { unfold zlen in Hfull. cbn. lia. }
  assert (Hp : decode_be32 (pad4 (delivered cs1)) = zlen rep).
  { rewrite <- Hd1. unfold pad4. cbn [length encode_be32 Nat.sub repeat]. rewrite app_nil_r. apply decode_encode. lia. }
  rewrite Hp in H. destruct (fill_buffer 0 tmo2 (zlen rep) ec1 rounds2) as [[s2 f2] c2] eqn:E2. unfold fill_buffer in E2.
  assert (Ec2 : c2 = cs2) by (destruct s2 as [n2 ec2| |]; [destruct (ec_true ec2 || negb (n2 =? _))|..]; inversion H; reflexivity). subst c2.
  destruct (fill_spec _ _ _ _ _ _ ec1 _ _ _ Hz Ee E2 Hl2 Hn2) as (B1 & B2 & B3 & B4 & _). cbn [app] in B2. subst f2.
  destruct s2 as [n2 ec2| |]; [|inversion H; subst; tauto|congruence]. destruct (B4 n2 ec2 eq_refl) as [B5 _]. rewrite Z.add_0_l in B5. subst n2.
  destruct (ec_true ec2); [inversion H; subst; tauto|]. cbn [orb] in H. destruct (Z.eqb_spec (zlen (delivered cs2)) (zlen rep)) as [El|El]; cbn [negb] in H; [|inversion H; subst; tauto].
  inversion H; subst. right; right. destruct (full_prefix rep rest (delivered cs2) rest' Hd2) as [Hr1 Hr2]; [unfold zlen in El; lia|].
  rewrite <- Hr1, <- Hr2. unfold to_int32. destruct (Z.ltb_spec (zlen rep) (2 ^ 31)); [|lia]. split; reflexivity.
Qed.
Print Assumptions C39_received_intact.

(** C39, receiver, when it does not succeed: it is still waiting only while the frame has not been delivered whole; and it reports failure only if an operation
    failed, or the deadline passed before the body was complete. So a frame that is delivered whole, in time and without an error is handed to the parser. *)
Theorem C39_receiver_outcome :
  forall rep rest tmo1 tmo2 rounds1 rounds2 r cs1 cs2 rest',
    zlen rep < 2 ^ 31 ->
    recv_pb tmo1 tmo2 rounds1 rounds2 = (r, cs1, cs2) ->
    all_rlegal (cs1 ++ cs2) -> no_throw (cs1 ++ cs2) -> no_deadline tmo1 rounds1 cs1 ->
    consumes (frame rep ++ rest) cs1 cs2 rest' ->
    (r = RWaiting -> zlen (delivered cs1) + zlen (delivered cs2) < 4 + zlen rep) /\
    (r = RFalse -> (exists c, In c (cs1 ++ cs2) /\ says_error c) \/ (exists c, In c cs2 /\ says_time c) \/ exists now x, In (now, x) rounds2 /\ tmo2 <= now).
Proof.
  intros rep rest tmo1 tmo2 rounds1 rounds2 r cs1 cs2 rest' Hlen H Hleg Hnt [Hnd1 Hnd2] Hst.
  assert (Hl1 : all_rlegal cs1) by (intros c Hc; apply Hleg, in_app_iff; now left). assert (Hl2 : all_rlegal cs2) by (intros c Hc; apply Hleg, in_app_iff; now right).
  assert (Hn1 : no_throw cs1) by (intros c Hc; apply Hnt, in_app_iff; now left). assert (Hn2 : no_throw cs2) by (intros c Hc; apply Hnt, in_app_iff; now right).
  pose proof (zlen_nonneg rep) as Hz. unfold recv_pb in H. destruct (fill_buffer 0 tmo1 4 ec_ok rounds1) as [[s1 f1] c1] eqn:E1.
  assert (Ec : c1 = cs1).
  { destruct s1 as [n1 ec1| |]; [|inversion H; reflexivity..]. destruct (ec_true ec1); [inversion H; reflexivity|].
    destruct (fill_buffer 0 tmo2 (decode_be32 (pad4 f1)) ec1 rounds2) as [[s2 f2] c2]. destruct s2 as [n2 ec2| |]; [destruct (ec_true ec2 || negb (n2 =? _))|..]; inversion H; reflexivity. }
  subst c1. unfold fill_buffer in E1. destruct (fill_spec 0 tmo1 rounds1 4 0 [] ec_ok _ _ _ ltac:(lia) eq_refl E1 Hl1 Hn1) as (A1 & A2 & A3 & A4 & _). cbn [app] in A2. subst f1.
  destruct (fill_outcome 0 tmo1 rounds1 4 0 [] ec_ok _ _ _ ltac:(lia) eq_refl E1 Hl1 Hn1) as (A7 & A8).
  destruct s1 as [n1 ec1| |]; [| |congruence].
  2:{ inversion H; subst. split; [intros _|discriminate]. destruct (A7 eq_refl) as (X & _). change (zlen (delivered [])) with 0. lia. }
  destruct (A4 n1 ec1 eq_refl) as [A5 A6]. rewrite Z.add_0_l in A5. subst n1. destruct (ec_true ec1) eqn:Ee.
  { inversion H; subst. split; [discriminate|]. intros _. left. destruct (A8 _ _ eq_refl Ee) as (c & Hc & Hs). exists c. split; [apply in_app_iff; now left|exact Hs]. }
  assert (Hfull : zlen (delivered cs1) = 4).
  { destruct (Z.eq_dec (zlen (delivered cs1)) 4) as [|Hne]; [easy|]. destruct (A6 ltac:(lia)) as [A|[(c & Hc & Ht)|(now & x & Hin & Hge)]]; [congruence|exfalso; eapply Hnd1; eassumption|].
    specialize (Hnd2 now x Hin). lia. }
  unfold consumes, frame in Hst. rewrite <- app_assoc in Hst.
  destruct (full_prefix (encode_be32 (zlen rep)) (rep ++ rest) (delivered cs1) (delivered cs2 ++ rest') Hst) as [Hd1 Hd2].
  { unfold zlen in Hfull. cbn. lia. }
  assert (Hp : decode_be32 (pad4 (delivered cs1)) = zlen rep).
  { rewrite <- Hd1. unfold pad4. cbn [length encode_be32 Nat.sub repeat]. rewrite app_nil_r. apply decode_encode. lia. }
  rewrite Hp in H. destruct (fill_buffer 0 tmo2 (zlen rep) ec1 rounds2) as [[s2 f2] c2] eqn:E2. unfold fill_buffer in E2.
  assert (Ec2 : c2 = cs2) by (destruct s2 as [n2 ec2| |]; [destruct (ec_true ec2 || negb (n2 =? _))|..]; inversion H; reflexivity). subst c2.
  destruct (fill_spec _ _ _ _ _ _ ec1 _ _ _ Hz Ee E2 Hl2 Hn2) as (B1 & B2 & B3 & B4 & _). cbn [app] in B2. subst f2.
  destruct (fill_outcome _ _ _ _ _ _ ec1 _ _ _ Hz Ee E2 Hl2 Hn2) as (B7 & B8).
  destruct s2 as [n2 ec2| |]; [| |congruence].
  2:{ inversion H; subst. split; [intros _|discriminate]. destruct (B7 eq_refl) as (X & _). lia. }
  destruct (B4 n2 ec2 eq_refl) as [B5 B6]. rewrite Z.add_0_l in B5. subst n2.
  destruct (ec_true ec2) eqn:Ee2; cbn [orb] in H.
  { inversion H; subst. split; [discriminate|]. intros _. left. destruct (B8 _ _ eq_refl Ee2) as (c & Hc & Hs). exists c. split; [apply in_app_iff; now right|exact Hs]. }
  destruct (Z.eqb_spec (zlen (delivered cs2)) (zlen rep)) as [El|El]; cbn [negb] in H; inversion H; subst; (split; [discriminate|]); [discriminate|].
  intros _. right. destruct (B6 ltac:(lia)) as [A|[A|A]]; [congruence|now left|now right].
Qed.
Print Assumptions C39_receiver_outcome.

(** C39: a frame delivered whole, without error and in time, is handed to the parser. *)
Theorem C39_whole_frame_is_parsed :
  forall rep tmo1 tmo2 rounds1 rounds2 r cs1 cs2,
    zlen rep < 2 ^ 31 ->
    recv_pb tmo1 tmo2 rounds1 rounds2 = (r, cs1, cs2) ->
    all_rlegal (cs1 ++ cs2) -> no_throw (cs1 ++ cs2) -> no_deadline tmo1 rounds1 cs1 -> no_deadline tmo2 rounds2 cs2 -> (forall c, In c (cs1 ++ cs2) -> ~ says_error c) ->
    delivered cs1 ++ delivered cs2 = frame rep -> r = RParse rep (zlen rep).
Proof.
  intros rep tmo1 tmo2 rounds1 rounds2 r cs1 cs2 Hlen H Hleg Hnt Hnd1 Hnd2 Hne Hd.
  assert (Hc : consumes (frame rep ++ []) cs1 cs2 []) by (unfold consumes; rewrite !app_nil_r; now rewrite Hd).
  destruct (C39_received_intact rep [] tmo1 tmo2 rounds1 rounds2 r cs1 cs2 [] Hlen H Hleg Hnt Hnd1 Hc) as [E|[E|[E _]]]; [| |exact E];
    destruct (C39_receiver_outcome rep [] tmo1 tmo2 rounds1 rounds2 r cs1 cs2 [] Hlen H Hleg Hnt Hnd1 Hc) as [A B].
  - exfalso. destruct (B E) as [(c & Hc1 & Hs)|[(c & Hc1 & Hs)|(now & x & Hin & Hge)]]; [exact (Hne c Hc1 Hs)|exact (proj1 Hnd2 c Hc1 Hs)|]. specialize (proj2 Hnd2 now x Hin). lia.
  - exfalso. specialize (A E). assert (L : length (delivered cs1 ++ delivered cs2) = length (frame rep)) by now rewrite Hd. rewrite app_length in L. unfold frame in L. rewrite app_length in L. cbn [length encode_be32] in L.
    unfold zlen in A. lia.
Qed.
Print Assumptions C39_whole_frame_is_parsed.

(** C39: the size handed to the parser is the number of bytes received, up to 2^31 - 1; a frame of 2^31 bytes or more is handed over with a negative size
    (which the parser refuses). *)
Theorem C39_size_of_any_frame : forall tmo1 tmo2 rounds1 rounds2 body size cs1 cs2,
  recv_pb tmo1 tmo2 rounds1 rounds2 = (RParse body size, cs1, cs2) -> all_rlegal (cs1 ++ cs2) -> no_throw (cs1 ++ cs2) ->
  Forall (fun b => 0 <= b <= 255) (delivered cs1) ->
  body = delivered cs2 /\ (zlen body < 2 ^ 31 -> size = zlen body) /\ (2 ^ 31 <= zlen body -> size = zlen body - 4294967296 /\ size < 0).
Proof.
  intros tmo1 tmo2 rounds1 rounds2 body size cs1 cs2 H Hleg Hnt Hb.
  assert (Hl1 : all_rlegal cs1) by (intros c Hc; apply Hleg, in_app_iff; now left). assert (Hl2 : all_rlegal cs2) by (intros c Hc; apply Hleg, in_app_iff; now right).
  assert (Hn1 : no_throw cs1) by (intros c Hc; apply Hnt, in_app_iff; now left). assert (Hn2 : no_throw cs2) by (intros c Hc; apply Hnt, in_app_iff; now right).
  unfold recv_pb in H. destruct (fill_buffer 0 tmo1 4 ec_ok rounds1) as [[s1 f1] c1] eqn:E1. destruct s1 as [n1 ec1| |]; [|discriminate..].
  destruct (ec_true ec1) eqn:Ee; [discriminate|].
  destruct (fill_buffer 0 tmo2 (decode_be32 (pad4 f1)) ec1 rounds2) as [[s2 f2] c2] eqn:E2. destruct s2 as [n2 ec2| |]; [|discriminate..].
  destruct (ec_true ec2); [discriminate|]. cbn [orb] in H. destruct (Z.eqb_spec n2 (decode_be32 (pad4 f1))) as [En|]; cbn [negb] in H; [|discriminate].
  injection H as <- <- <- <-. unfold fill_buffer in E1, E2.
  destruct (fill_spec 0 tmo1 rounds1 4 0 [] ec_ok _ _ _ ltac:(lia) eq_refl E1 Hl1 Hn1) as (_ & A2 & A3 & _ & _). cbn [app] in A2. subst f1.
  assert (Hp : 0 <= decode_be32 (pad4 (delivered c1)) < 2 ^ 32).
  { assert (L : (length (delivered c1) <= 4)%nat) by (unfold zlen in A3; lia).
    destruct (delivered c1) as [|b1 [|b2 [|b3 [|b4 [|b5 d]]]]]; cbn in L; try lia;
      repeat match goal with H : Forall _ (_ :: _) |- _ => inversion H; subst; clear H end; unfold decode_be32, pad4; cbn [length Nat.sub repeat app fold_left]; change (2 ^ 32) with 4294967296; lia. }
  destruct (fill_spec _ _ _ _ _ _ ec1 _ _ _ (proj1 Hp) Ee E2 Hl2 Hn2) as (_ & B2 & _ & B4 & _). cbn [app] in B2. subst f2.
  destruct (B4 n2 ec2 eq_refl) as [B5 _]. rewrite Z.add_0_l in B5. split; [reflexivity|]. rewrite <- B5, En. unfold to_int32.
  split; intros Hs; destruct (Z.ltb_spec (decode_be32 (pad4 (delivered c1))) (2 ^ 31)); try lia.
Qed.
Print Assumptions C39_size_of_any_frame.

(** the frame of [7;8;9] arriving in three pieces, followed by another byte *)
Example C39_received_demo :
  let r := recv_pb 100 100 [(1, RBytes [0; 0]); (2, RBytes [0; 3])] [(3, RBytes [7]); (4, RBytes [8; 9])] in
  fst (fst r) = RParse [7; 8; 9] 3 /\ consumes (frame [7; 8; 9] ++ [55]) (snd (fst r)) (snd r) [55] /\
  all_rlegal (snd (fst r) ++ snd r) /\ no_throw (snd (fst r) ++ snd r).
Proof.
  cbv zeta. split; [vm_compute; reflexivity|]. split; [vm_compute; reflexivity|].
  split; intros c Hc; vm_compute in Hc; intuition; subst; vm_compute; intuition discriminate.
Qed.

(** A message sequence: any number of such calls, one after the other on one stream, hand over the messages in order. *)
Fixpoint receives (stream : list byte) (calls : list (list rcall * list rcall * rres)) : Prop :=
  match calls with
  | [] => True
  | (cs1, cs2, r) :: calls' =>
      exists tmo1 tmo2 rounds1 rounds2 rest,
        recv_pb tmo1 tmo2 rounds1 rounds2 = (r, cs1, cs2) /\ all_rlegal (cs1 ++ cs2) /\ no_throw (cs1 ++ cs2) /\ no_deadline tmo1 rounds1 cs1 /\
        consumes stream cs1 cs2 rest /\ receives rest calls'
  end.
Theorem C39_stream_of_messages :
  forall reps tail calls, Forall (fun rep => zlen rep < 2 ^ 31) reps -> (length calls <= length reps)%nat ->
    receives (concat (map frame reps) ++ tail) calls ->
    (forall cs1 cs2 r, In (cs1, cs2, r) calls -> r <> RFalse /\ r <> RWaiting) ->
    map (fun c => snd c) calls = map (fun rep => RParse rep (zlen rep)) (firstn (length calls) reps).
Proof.
  induction reps as [|rep reps IH]; intros tail calls Hf Hl HR Hok; [destruct calls; [reflexivity|cbn in Hl; lia]|].
  destruct calls as [|[[cs1 cs2] r] calls]; [reflexivity|]. inversion Hf as [|? ? Hrep Hf']; subst.
  destruct HR as (t1 & t2 & r1 & r2 & rest & Hrv & Hleg & Hnt & Hnd & Hc & HR). cbn [map concat] in Hc. rewrite <- app_assoc in Hc.
  destruct (C39_received_intact rep (concat (map frame reps) ++ tail) t1 t2 r1 r2 r cs1 cs2 rest Hrep Hrv Hleg Hnt Hnd Hc) as [E|[E|[E Er]]].
  - exfalso. eapply (proj1 (Hok cs1 cs2 r (or_introl eq_refl))); exact E.
  - exfalso. eapply (proj2 (Hok cs1 cs2 r (or_introl eq_refl))); exact E.
  - subst r rest. cbn [map length firstn snd]. f_equal. apply (IH tail); [exact Hf'|cbn in Hl; lia|exact HR|intros c1 c2 r' Hin; apply (Hok c1 c2); now right].
Qed.
Print Assumptions C39_stream_of_messages.

(** The hypothesis on the deadline matters: if the one-minute deadline of the prefix passes before anything arrived, the call
    does not fail; it takes the length to be 0 and hands the parser an empty message, which any message type without
    required fields accepts. *)
Theorem C88_timeout_is_an_empty_message_refuted :
  forall tmo1 tmo2 now rounds rounds2, tmo1 <= now -> recv_pb tmo1 tmo2 ((now, RBytes []) :: rounds) rounds2 = (RParse [] 0, [], []).
Proof.
  intros tmo1 tmo2 now rounds rounds2 H. unfold recv_pb, fill_buffer. cbn [fill ec_true ec_ok value Z.eqb negb orb].
  destruct (Z.leb_spec tmo1 now); [|lia]. cbn [ec_true ec_ok value Z.eqb negb]. change (decode_be32 (pad4 [])) with 0. destruct rounds2 as [|[? ?] ?]; reflexivity.
Qed.
Print Assumptions C88_timeout_is_an_empty_message_refuted.
