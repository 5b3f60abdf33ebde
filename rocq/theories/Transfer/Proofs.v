From Coq Require Import ZArith List Bool Arith Lia.
From Verif.Errors Require Import Model.
From Verif.Errors Require Import Props.
From Verif.Transfer Require Import Model Spec.
Import ListNotations.
Open Scope Z_scope.

Lemma zlen_nonneg {A} (l : list A) : 0 <= zlen l. Proof. unfold zlen. lia. Qed.
Lemma zlen_app {A} (l m : list A) : zlen (l ++ m) = zlen l + zlen m.
Proof. unfold zlen. rewrite app_length. lia. Qed.
Lemma len32_le {A} (l : list A) : len32 l <= zlen l.
Proof. unfold len32. apply Z.mod_le; [apply zlen_nonneg|lia]. Qed.

(** decoding of a legal answer *)
Lemma decode_ok a len : legal len a -> 0 <= res a ->
  exists r, decode a = Some r /\ ec_true (error_code_of r) = false /\ nbytes_delivered r = res a /\ error_code_of r = ec_ok.
Proof.
  intros _ H. unfold decode, make_ioret. destruct (res a <? 0) eqn:E; zb; [lia|].
  eexists; split; [reflexivity|]. unfold error_code_of, nbytes_delivered; cbn [ret]. rewrite (proj2 (Z.leb_le _ _) H). easy.
Qed.
Lemma decode_fail a : -4095 <= res a < 0 ->
  exists r, decode a = Some r /\ ec_true (error_code_of r) = true /\ nbytes_delivered r = 0.
Proof.
  intros H. destruct (C25_success_iff (res a) (errno a)) as (o & Ho & Hi).
  - unfold int32, INT_MIN, INT_MAX; lia.
  - unfold INT_MIN; lia.
  - exists o. split; [exact Ho|]. split.
    + destruct (ec_true (error_code_of o)) eqn:E; [reflexivity|]. destruct Hi as [Hi _]. specialize (Hi eq_refl). lia.
    + apply (proj2 (C25_nbytes _ _ _ Ho)). lia.
Qed.

Lemma taken_len a left o : 0 <= res a <= zlen left -> taken (Call o left a) = firstn (Z.to_nat (res a)) left.
Proof. intros H. unfold taken; cbn. destruct (res a <? 0) eqn:E; zb; [lia|reflexivity]. Qed.

(** append_all on an appending device *)
Lemma answer_cases (sp : list byte) a : legal (len32 sp) a ->
  (exists r, decode a = Some r /\ ec_true (error_code_of r) = true /\ -4095 <= res a < 0) \/
  (exists r, decode a = Some r /\ ec_true (error_code_of r) = false /\ nbytes_delivered r = res a /\
             error_code_of r = ec_ok /\ 0 <= res a <= zlen sp).
Proof.
  intros [H1 H2]. pose proof (len32_le sp) as Hle.
  destruct (Z.lt_ge_cases (res a) 0) as [Hn|Hn].
  - left. destruct (decode_fail a) as (r & E1 & E2 & E3); [lia|]. exists r. auto.
  - right. destruct (decode_ok a (len32 sp)) as (r & E1 & E2 & E3 & E4); [split; lia|lia|]. exists r. repeat split; auto; lia.
Qed.

Lemma append_all_logs b left result a kernel st cs :
  append_all (b :: left) result (a :: kernel) = (st, cs) -> exists cs', cs = Call 0 (b :: left) a :: cs'.
Proof.
  cbn [append_all]. destruct (decode a) as [r|]; [|intros H; inversion H; eauto].
  destruct (ec_true (error_code_of r)); [intros H; inversion H; eauto|].
  destruct (nbytes_delivered r <=? zlen (b :: left)); [|intros H; inversion H; eauto].
  destruct (append_all _ _ kernel). intros H; inversion H; eauto.
Qed.

Lemma append_all_spec kernel : forall left result st cs,
  append_all left result kernel = (st, cs) -> all_legal cs ->
  st <> Undefined /\ prefix (accepted cs) left /\
  (forall ec, ec_true result = false -> st = Finished ec -> (ec_true ec = false -> accepted cs = left)) /\
  (st = Waiting -> length cs = length kernel).
Proof.
  induction kernel as [|a kernel IH]; intros left result st cs H Hl.
  - destruct left as [|b left]; cbn in H; inversion H; subst; clear H; cbn.
    + repeat split; try discriminate. now exists [].
    + repeat split; try discriminate. now exists (b :: left).
  - destruct left as [|b left]; [cbn in H; inversion H; subst; repeat split; try discriminate; now exists []|].
    destruct (append_all_logs _ _ _ _ _ _ _ H) as [cs' Hcs].
    assert (Ha : legal (len32 (b :: left)) a) by (apply (Hl (Call 0 (b :: left) a)); rewrite Hcs; now left). clear Hcs cs'.
    cbn [append_all] in H. set (sp := b :: left) in *.
    destruct (answer_cases sp a Ha) as [(r & Ed & Ee & Hr)|(r & Ed & Ee & En & Eok & Hr)]; rewrite Ed, Ee in H.
    + inversion H; subst. clear H. unfold accepted, taken; cbn. destruct (res a <? 0) eqn:E; zb; [|lia]. cbn.
      repeat split; try discriminate; [now exists sp|]. intros ec _ He Hf. inversion He; subst. congruence.
    + rewrite En in H. rewrite (proj2 (Z.leb_le _ _)) in H by lia.
      destruct (append_all (skipn (Z.to_nat (res a)) sp) (error_code_of r) kernel) as [st' cs2] eqn:Er.
      inversion H; subst. clear H.
      destruct (IH _ _ _ _ Er) as (H1 & H2 & H3 & H4).
      { intros c Hc. apply Hl. now right. }
      split; [exact H1|]. rewrite Eok in *. unfold accepted in *. cbn [map concat]. rewrite (taken_len a sp 0) by lia.
      split.
      { destruct H2 as [q Hq]. exists q. rewrite <- app_assoc, <- Hq. symmetry. apply firstn_skipn. }
      split.
      { intros ec _ He Hf. rewrite (H3 ec eq_refl He Hf). apply firstn_skipn. }
      { intros Hw. cbn [length]. rewrite (H4 Hw). reflexivity. }
Qed.

(** every answer positive or an error: done within [length buffer] answers *)
Lemma append_all_terminates kernel : forall left result st cs,
  append_all left result kernel = (st, cs) -> all_legal cs ->
  (forall a, In a kernel -> res a <> 0) -> (length left <= length kernel)%nat -> exists ec, st = Finished ec.
Proof.
  induction kernel as [|a kernel IH]; intros left result st cs H Hl Hz Hlen.
  - destruct left; [|cbn in Hlen; lia]. cbn in H. inversion H. eauto.
  - destruct left as [|b left]; [cbn in H; inversion H; eauto|].
    destruct (append_all_logs _ _ _ _ _ _ _ H) as [cs' Hcs].
    assert (Ha : legal (len32 (b :: left)) a) by (apply (Hl (Call 0 (b :: left) a)); rewrite Hcs; now left). clear Hcs cs'.
    cbn [append_all] in H. set (sp := b :: left) in *.
    destruct (answer_cases sp a Ha) as [(r & Ed & Ee & Hr)|(r & Ed & Ee & En & Eok & Hr)]; rewrite Ed, Ee in H.
    + inversion H; eauto.
    + rewrite En in H. rewrite (proj2 (Z.leb_le _ _)) in H by lia.
      destruct (append_all (skipn (Z.to_nat (res a)) sp) (error_code_of r) kernel) as [st' cs2] eqn:Er.
      inversion H; subst. clear H. eapply IH; [exact Er| | |].
      { intros c Hc. apply Hl. now right. }
      { intros x Hx. apply Hz. now right. }
      { assert (res a <> 0) by (apply Hz; now left). rewrite skipn_length. cbn [length] in *. lia. }
Qed.

(** answers of zero bytes: no progress, ever *)
Lemma append_all_zero left : left <> [] -> forall n result,
  append_all left result (repeat (Ans 0 0) n) = (Waiting, repeat (Call 0 left (Ans 0 0)) n).
Proof.
  intros Hne. induction n as [|n IH]; intros result; destruct left as [|b left]; try congruence; [reflexivity|].
  cbn [repeat append_all]. cbn [decode make_ioret res errno]. cbn.
  specialize (IH (Ec 0 System)). cbn in IH. unfold ec_ok. now rewrite IH.
Qed.

(** a span whose size is a multiple of 2^32: the kernel is asked to write 0 bytes *)
Lemma append_all_4gib kernel : forall left result st cs,
  left <> [] -> zlen left mod 2 ^ 32 = 0 ->
  append_all left result kernel = (st, cs) -> all_legal cs ->
  (forall a, In a kernel -> 0 <= res a) -> st = Waiting /\ accepted cs = [].
Proof.
  induction kernel as [|a kernel IH]; intros left result st cs Hne Hm H Hl Hp.
  - destruct left; [congruence|]. cbn in H. now inversion H.
  - destruct left as [|b left]; [congruence|].
    destruct (append_all_logs _ _ _ _ _ _ _ H) as [cs' Hcs].
    assert (Ha : legal (len32 (b :: left)) a) by (apply (Hl (Call 0 (b :: left) a)); rewrite Hcs; now left). clear Hcs cs'.
    pose proof Ha as [_ Hle]. unfold len32 in Hle. rewrite Hm in Hle.
    assert (Hge : 0 <= res a) by (apply Hp; now left). assert (H0 : res a = 0) by lia.
    cbn [append_all] in H. set (sp := b :: left) in *.
    destruct (answer_cases sp a Ha) as [(r & Ed & Ee & Hr)|(r & Ed & Ee & En & Eok & Hr)]; rewrite Ed, Ee in H; [lia|].
    rewrite En, H0 in H. rewrite (proj2 (Z.leb_le _ _)) in H by (apply zlen_nonneg).
    cbn [Z.to_nat skipn] in H. destruct (append_all sp (error_code_of r) kernel) as [st' cs2] eqn:Er.
    inversion H; subst. destruct (IH sp _ _ _ Hne Hm Er) as [H1 H2].
    { intros c Hc. apply Hl. now right. }
    { intros x Hx. apply Hp. now right. }
    split; [exact H1|]. unfold accepted in *. cbn [map concat]. rewrite H2, app_nil_r. unfold taken; cbn. rewrite H0. reflexivity.
Qed.

(** unique_file_state::append_async when every write is complete *)
Lemma append_async_one buffer ec a kernel st cs :
  ec_true ec = false -> buffer <> [] -> zlen buffer < 2 ^ 32 ->
  append_async buffer (zlen buffer) ec (a :: kernel) = (st, cs) -> (res a = zlen buffer \/ -4095 <= res a < 0) ->
  (res a = zlen buffer -> st = Finished ec_ok /\ accepted cs = buffer) /\
  (res a < 0 -> (exists e, st = Finished e /\ ec_true e = true) /\ accepted cs = []).
Proof.
  intros He Hne Hlt H Hr. cbn [append_async] in H.
  assert (Hz : (zlen buffer =? 0) = false).
  { apply Z.eqb_neq. destruct buffer; [congruence|]. unfold zlen; cbn [length]. lia. }
  rewrite Hz in H. pose proof (zlen_nonneg buffer) as Hnn. destruct Hr as [Hr|Hr].
  - destruct (decode_ok a (zlen buffer)) as (r & E1 & E2 & E3 & E4); [unfold legal; lia|lia|].
    rewrite E1, E2, E3, Hr in H. unfold size_t_sub in H. rewrite Z.sub_diag in H. change (0 mod 2 ^ 64) with 0 in H.
    destruct kernel; cbn [append_async] in H; rewrite E4 in H; cbn in H; inversion H; subst;
    (split; [intros _|lia]); (split; [reflexivity|]); unfold accepted; cbn [map concat];
    rewrite (taken_len a buffer 0) by lia; rewrite app_nil_r, Hr; unfold zlen; rewrite Nat2Z.id; apply firstn_all.
  - destruct (decode_fail a) as (r & E1 & E2 & E3); [lia|]. rewrite E1, E2 in H. inversion H; subst.
    split; [lia|]. intros _. split; [eauto|]. unfold accepted, taken; cbn. destruct (res a <? 0) eqn:E; zb; [reflexivity|lia].
Qed.

(** append_async, whatever the kernel answers *)
Definition sum_res (cs : list call) : Z := fold_right (fun c n => res (ans c) + n) 0 cs.
Lemma append_async_calls buffer kernel : forall left ec st cs,
  append_async buffer left ec kernel = (st, cs) ->
  (forall c, In c cs -> off c = 0 /\ data c = buffer) /\ (exists k', kernel = map ans cs ++ k' /\ (st = Waiting -> k' = [])).
Proof.
  induction kernel as [|a kernel IH]; intros left ec st cs H; cbn [append_async] in H.
  - destruct (left =? 0); inversion H; subst; (split; [intros c []|exists []; auto]).
  - destruct (left =? 0).
    { inversion H; subst. split; [intros c []|]. exists (a :: kernel). split; [reflexivity|discriminate]. }
    destruct (decode a) as [r|].
    2: { inversion H; subst. split; [intros c [<-|[]]; auto|]. exists kernel. split; [reflexivity|discriminate]. }
    destruct (ec_true _).
    { inversion H; subst. split; [intros c [<-|[]]; auto|]. exists kernel. split; [reflexivity|discriminate]. }
    destruct (append_async _ _ _ kernel) as [st' cs'] eqn:E. inversion H; subst.
    destruct (IH _ _ _ _ E) as [H1 (k' & H2 & H3)]. split.
    + intros c [<-|Hc]; auto.
    + exists k'. split; [cbn; congruence|exact H3].
Qed.
Lemma append_async_count buffer kernel : forall left ec st cs,
  0 <= left < 2 ^ 64 -> ec_true ec = false ->
  append_async buffer left ec kernel = (st, cs) -> all_legal cs ->
  match st with
  | Undefined => False
  | Waiting => (forall c, In c cs -> 0 <= res (ans c)) /\ (left - sum_res cs) mod 2 ^ 64 <> 0
  | Finished e => if ec_true e then exists pre c, cs = pre ++ [c] /\ (forall c', In c' pre -> 0 <= res (ans c')) /\ res (ans c) < 0 /\
                                      (exists r, decode (ans c) = Some r /\ e = error_code_of r)
                  else (forall c, In c cs -> 0 <= res (ans c)) /\ (left - sum_res cs) mod 2 ^ 64 = 0
  end.
Proof.
  induction kernel as [|a kernel IH]; intros left ec st cs Hb He H Hl; cbn [append_async] in H; destruct (Z.eqb_spec left 0) as [->|Hz].
  - inversion H; subst. rewrite He. split; [intros c []|reflexivity].
  - inversion H; subst. split; [intros c []|]. cbn. rewrite Z.sub_0_r, Z.mod_small by lia. exact Hz.
  - inversion H; subst. rewrite He. split; [intros c []|reflexivity].
  - destruct (decode a) as [r|] eqn:Ed.
    2: { inversion H; subst. assert (Ha := Hl _ (or_introl eq_refl)). destruct (answer_cases _ _ Ha) as [(r & Ed' & _)|(r & Ed' & _)]; cbn in Ed'; congruence. }
    destruct (ec_true (error_code_of r)) eqn:Ee.
    { inversion H; subst. rewrite Ee. exists [], (Call 0 buffer a). split; [reflexivity|]. split; [intros c []|].
      assert (Ha := Hl _ (or_introl eq_refl)). cbn in Ha.
      destruct (answer_cases _ _ Ha) as [(r' & Ed' & Ee' & Hr)|(r' & Ed' & Ee' & En & Eok & Hr)]; rewrite Ed' in Ed; injection Ed as ->; [|congruence].
      split; [cbn; lia|]. exists r. auto. }
    destruct (append_async _ _ _ kernel) as [st' cs'] eqn:E. inversion H; subst.
    assert (Ha := Hl _ (or_introl eq_refl)). cbn in Ha.
    destruct (answer_cases _ _ Ha) as [(r' & Ed' & Ee' & Hr)|(r' & Ed' & Ee' & En & Eok & Hr)]; rewrite Ed' in Ed; injection Ed as ->; [congruence|].
    rewrite En in E.
    assert (Hm : forall n, (left - (res a + n)) mod 2 ^ 64 = (size_t_sub left (res a) - n) mod 2 ^ 64).
    { intros n. unfold size_t_sub. rewrite Zminus_mod_idemp_l. f_equal. lia. }
    assert (Hb' : 0 <= size_t_sub left (res a) < 2 ^ 64) by (apply Z.mod_pos_bound; lia).
    specialize (IH _ _ _ _ Hb' Ee E (fun c Hc => Hl c (or_intror Hc))).
    assert (Hcons : forall l, (forall c, In c l -> 0 <= res (ans c)) -> forall c, In c (Call 0 buffer a :: l) -> 0 <= res (ans c)).
    { intros l Hx c [<-|Hc]; [cbn; lia|auto]. }
    destruct st as [e| |]; [|cbn [sum_res fold_right ans]|exact IH].
    + destruct (ec_true e).
      * destruct IH as (pre & c & -> & Hp & Hc). exists (Call 0 buffer a :: pre), c. split; [reflexivity|]. split; [exact (Hcons _ Hp)|exact Hc].
      * cbn [sum_res fold_right ans]. destruct IH as [H1 H2]. split; [exact (Hcons _ H1)|]. unfold sum_res in H2. rewrite Hm. exact H2.
    + destruct IH as [H1 H2]. split; [exact (Hcons _ H1)|]. unfold sum_res in H2. rewrite Hm. exact H2.
Qed.

(** fill loops *)
Lemma fill_spec offset timeout rounds : forall room wrote filled ec s f cs,
  0 <= room -> ec_true ec = false ->
  fill offset timeout room wrote filled ec rounds = (s, f, cs) -> all_rlegal cs -> no_throw cs ->
  s <> FUndefined /\ f = filled ++ delivered cs /\ zlen (delivered cs) <= room /\
  (forall n ec', s = FDone n ec' ->
     n = wrote + zlen (delivered cs) /\
     (zlen (delivered cs) < room -> ec_true ec' = true \/ (exists c, In c cs /\ says_time c) \/ (exists now r, In (now, r) rounds /\ timeout <= now))) /\
  (forall c1 c c2, cs = c1 ++ c :: c2 -> roff c = offset + wrote + zlen (delivered c1)).
Proof.
  induction rounds as [|[now r] rounds IH]; intros room wrote filled ec s f cs Hroom Hec H Hl Hn.
  - cbn in H. rewrite Hec in H. cbn [orb] in H. destruct (room =? 0) eqn:E0; inversion H; subst; cbn.
    + zb. rewrite app_nil_r. split; [discriminate|]. split; [reflexivity|]. split; [cbn; lia|]. split.
      * intros n ec' E. inversion E; subst. split; cbn; lia.
      * intros c1 c c2 Hx. destruct c1; discriminate.
    + rewrite app_nil_r. split; [discriminate|]. split; [reflexivity|]. split; [cbn; lia|]. split; [discriminate|].
      intros c1 c c2 Hx. destruct c1; discriminate.
  - cbn [fill] in H. rewrite Hec in H. cbn [orb] in H.
    assert (Hnil : forall n e, (FDone n e, filled, @nil rcall) = (s, f, cs) -> n = wrote -> e = ec ->
      (room = 0 \/ timeout <= now) ->
      s <> FUndefined /\ f = filled ++ delivered cs /\ zlen (delivered cs) <= room /\
      (forall n ec', s = FDone n ec' -> n = wrote + zlen (delivered cs) /\
         (zlen (delivered cs) < room -> ec_true ec' = true \/ (exists c, In c cs /\ says_time c) \/ (exists now0 r0, In (now0, r0) ((now, r) :: rounds) /\ timeout <= now0))) /\
      (forall c1 c c2, cs = c1 ++ c :: c2 -> roff c = offset + wrote + zlen (delivered c1))).
    { intros n e E En Ee Hor. inversion E; subst. cbn. rewrite app_nil_r. split; [discriminate|]. split; [reflexivity|]. split; [lia|].
      split.
      - intros n ec' E1. inversion E1; subst. split; [cbn; lia|]. intros Hlt. right. right. exists now, r. split; [now left|].
        destruct Hor; [cbn in Hlt; lia|lia].
      - intros c1 c c2 Hx. destruct c1; discriminate. }
    destruct (room =? 0) eqn:E0.
    { zb. eapply Hnil; eauto. }
    destruct (timeout <=? now) eqn:E1.
    { zb. eapply Hnil; eauto. }
    clear Hnil. zb. destruct r as [d|a|x|].
    + destruct (fill offset timeout (room - Z.min (zlen d) room) (wrote + zlen d) (filled ++ d) ec rounds) as [[s' f'] cs'] eqn:Er.
      inversion H; subst. clear H.
      assert (Hd : zlen d <= room).
      { specialize (Hl _ (or_introl eq_refl)). pose proof (Z.mod_le room (2^32) Hroom eq_refl) as Hml. unfold rlegal in Hl. cbn [rans_of rroom] in Hl. lia. }
      rewrite Z.min_l in Er by lia.
      assert (Hr0 : 0 <= room - zlen d) by lia. destruct (IH _ _ _ _ _ _ _ Hr0 Hec Er) as (H1 & H2 & H3 & H4 & H5).
      { intros c Hc. apply Hl. now right. } { intros c Hc. apply Hn. now right. }
      unfold delivered in *. cbn [map concat bytes_of rans_of]. rewrite zlen_app.
      split; [exact H1|]. split; [rewrite H2, app_assoc; reflexivity|]. split; [lia|]. split.
      * intros n ec' E. destruct (H4 n ec' E) as [Hn1 Hn2]. split; [lia|]. intros Hlt.
        destruct Hn2 as [?|[(c & Hc & Hs)|(nw & rr & Hin & Hge)]]; [lia|now left| |].
        -- right. left. exists c. split; [now right|exact Hs].
        -- right. right. exists nw, rr. split; [now right|exact Hge].
      * intros c1 c c2 Hx. destruct c1 as [|c0 c1]; inversion Hx; subst; cbn [map concat]; [cbn; lia|].
        rewrite zlen_app. cbn [bytes_of rans_of]. rewrite (H5 c1 c c2 eq_refl). unfold bytes_of. cbn [rans_of]. lia.
    + assert (Hra : -4095 <= res a < 0).
      { assert (Hin : In (RCall (offset + wrote) room (RFail a)) cs).
        { destruct (decode a) as [o|]; [|inversion H; now left].
          destruct (value (error_code_of o) =? 0); [|destruct (value (error_code_of o) =? ETIME)];
          destruct (fill _ _ _ _ _ _ rounds) as [[s' f'] cs']; inversion H; now left. }
        exact (Hl _ Hin). }
      destruct (decode_fail a Hra) as (o & Ed & Ee & En). rewrite Ed in H.
      unfold ec_true in Ee. zb. rewrite (proj2 (Z.eqb_neq _ _) Ee) in H.
      destruct (value (error_code_of o) =? ETIME) eqn:Et; zb.
      * destruct (fill offset timeout 0 wrote filled ec rounds) as [[s' f'] cs'] eqn:Er. inversion H; subst. clear H.
        assert (Hr0 : 0 <= 0) by lia. destruct (IH _ _ _ _ _ _ _ Hr0 Hec Er) as (H1 & H2 & H3 & H4 & H5).
        { intros c Hc. apply Hl. now right. } { intros c Hc. apply Hn. now right. }
        unfold delivered in *. cbn [map concat bytes_of rans_of app].
        split; [exact H1|]. split; [exact H2|]. split; [lia|]. split.
        -- intros n ec' E. destruct (H4 n ec' E) as [Hn1 _]. split; [exact Hn1|]. intros _. right. left.
           eexists. split; [now left|]. exists a, o. repeat split; auto.
        -- intros c1 c c2 Hx. destruct c1 as [|c0 c1]; inversion Hx; subst; cbn [map concat]; [cbn; lia|].
           rewrite (H5 c1 c c2 eq_refl). unfold bytes_of at 2. cbn [rans_of app]. lia.
      * assert (Hz : fill offset timeout 0 wrote filled (error_code_of o) rounds = (FDone wrote (error_code_of o), filled, [])).
        { destruct rounds as [|[]]; cbn [fill]; unfold ec_true; rewrite (proj2 (Z.eqb_neq _ _) Ee); reflexivity. }
        rewrite Hz in H. inversion H; subst. cbn [delivered map concat bytes_of rans_of app]. rewrite app_nil_r.
        split; [discriminate|]. split; [reflexivity|]. split; [cbn; lia|]. split.
        -- intros n ec' E. inversion E; subst. split; [cbn; lia|]. intros _. left. unfold ec_true. now rewrite (proj2 (Z.eqb_neq _ _) Ee).
        -- intros c1 c c2 Hx. destruct c1 as [|c0 c1]; inversion Hx; subst; [cbn; lia|]. destruct c1; discriminate.
    + inversion H; subst. exfalso. apply (Hn _ (or_introl eq_refl)).
    + inversion H; subst. exfalso. apply (Hn _ (or_introl eq_refl)).
Qed.

(** reads from a file *)
Lemma skipn_skipn' {A} (l : list A) a b : skipn a (skipn b l) = skipn (b + a) l.
Proof. revert l; induction b as [|b IH]; intros l; cbn; [reflexivity|]. destruct l; [now rewrite skipn_nil|]. apply IH. Qed.

Lemma file_chain file : forall cs offset, 0 <= offset ->
  (forall c1 c c2, cs = c1 ++ c :: c2 -> roff c = offset + zlen (delivered c1)) ->
  (forall c, In c cs -> from_file file c) ->
  delivered cs = firstn (length (delivered cs)) (skipn (Z.to_nat offset) file).
Proof.
  induction cs as [|c cs IH]; intros offset Ho Hoff Hf; [reflexivity|].
  assert (H0 : roff c = offset). { rewrite (Hoff [] c cs eq_refl). cbn. lia. }
  specialize (IH (offset + zlen (bytes_of c))).
  assert (Hb : bytes_of c = firstn (length (bytes_of c)) (skipn (Z.to_nat offset) file)).
  { specialize (Hf c (or_introl eq_refl)). unfold from_file, bytes_of in *. destruct (rans_of c); [|reflexivity..].
    rewrite H0 in Hf. apply Hf. }
  change (delivered (c :: cs)) with (bytes_of c ++ delivered cs).
  rewrite IH; [|pose proof (zlen_nonneg (bytes_of c)); lia| |intros c' Hc; apply Hf; now right].
  2:{ intros c1 c' c2 E. rewrite (Hoff (c :: c1) c' c2) by (now rewrite E).
      change (delivered (c :: c1)) with (bytes_of c ++ delivered c1). rewrite zlen_app. lia. }
  set (D := delivered cs) in *. set (B := bytes_of c) in *.
  rewrite Z2Nat.inj_add by (unfold zlen; lia). unfold zlen. rewrite Nat2Z.id.
  rewrite <- skipn_skipn'. set (F := skipn (Z.to_nat offset) file) in *.
  assert (HF : F = B ++ skipn (length B) F) by (rewrite Hb at 1; symmetry; apply firstn_skipn).
  rewrite HF at 3. rewrite !app_length, !firstn_length.
  rewrite firstn_app.
  set (m := Nat.min (length D) (length (skipn (length B) F))).
  replace (length B + m - length B)%nat with m by lia.
  rewrite (firstn_all2 B) by lia. f_equal. unfold m.
  destruct (Nat.le_ge_cases (length D) (length (skipn (length B) F))).
  - now rewrite Nat.min_l.
  - rewrite Nat.min_r by lia. now rewrite !firstn_all2 by lia.
Qed.

Lemma fill_zero offset timeout room wrote filled n now :
  room <> 0 -> 0 < room -> now < timeout ->
  exists cs, fill offset timeout room wrote filled ec_ok (repeat (now, RBytes []) n) = (FWaiting, filled, cs) /\ length cs = n.
Proof.
  intros H0 Hp Ht. revert wrote filled. induction n as [|n IH]; intros wrote filled.
  - exists []. cbn. rewrite (proj2 (Z.eqb_neq _ _) H0). now split.
  - cbn [repeat fill]. cbn [ec_true ec_ok value negb orb Z.eqb]. rewrite (proj2 (Z.eqb_neq _ _) H0).
    rewrite (proj2 (Z.leb_gt _ _) Ht). change (zlen []) with 0. rewrite Z.min_l by lia. rewrite Z.sub_0_r, Z.add_0_r, app_nil_r.
    destruct (IH wrote filled) as (cs & E & El). rewrite E. eexists. split; [reflexivity|]. cbn. now rewrite El.
Qed.
