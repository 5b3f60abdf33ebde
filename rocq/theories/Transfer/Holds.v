(** What holds of C82 (append_all on plain files) and C83 (exceptions and cancellation in the fill calls). *)
From Coq Require Import ZArith List Bool Arith Lia.
From Verif.Errors Require Import Model Props.
From Verif.Transfer Require Import Model Spec Proofs.
Import ListNotations.
Open Scope Z_scope.

(** If the kernel takes the whole buffer in the first write, a plain file holds the buffer at its start, followed by what was
    behind it before; append_all reports success and asks for nothing more. *)
Theorem C82_taken_at_once_partial : forall file buffer a kernel st cs,
  buffer <> [] -> zlen buffer < 2 ^ 32 -> res a = zlen buffer ->
  append_all buffer ec_ok (a :: kernel) = (st, cs) ->
  (exists ec, st = Finished ec /\ ec_true ec = false) /\ length cs = 1%nat /\
  file_after file cs = buffer ++ skipn (length buffer) file.
Proof.
  intros file buffer a kernel st cs Hne Hlt Hr H. destruct buffer as [|b left] eqn:Eb; [congruence|]. rewrite <- Eb in *. clear Hne.
  pose proof (zlen_nonneg buffer) as Hnn.
  destruct (decode_ok a (zlen buffer)) as (r & E1 & E2 & E3 & E4); [unfold legal; lia|lia|].
  assert (H' : append_all buffer ec_ok (a :: kernel) = (Finished (error_code_of r), [Call 0 buffer a])).
  { rewrite Eb at 1. cbn [append_all]. rewrite <- Eb. rewrite E1. rewrite E2. rewrite E3, Hr. rewrite Z.leb_refl.
    unfold zlen. rewrite Nat2Z.id, skipn_all. destruct kernel; reflexivity. }
  rewrite H' in H. injection H as <- <-. split; [eauto|]. split; [reflexivity|].
  unfold file_after. cbn [fold_left off]. unfold pwrite. cbn [Z.to_nat firstn app].
  rewrite (taken_len a buffer 0) by lia. rewrite Hr. unfold zlen. rewrite Nat2Z.id, firstn_all. reflexivity.
Qed.
Print Assumptions C82_taken_at_once_partial.
Example C82_case : exists st cs, append_all [1;2;3] ec_ok [Ans 3 0] = (st, cs) /\ file_after [7;7;7;8;9] cs = [1;2;3;8;9].
Proof. do 2 eexists. split; [vm_compute; reflexivity|]. reflexivity. Qed.

Definition ends_with (r : rans) (n : Z) (s : fstatus) : Prop :=
  match r with
  | RThrowOther => s = FDone 0 catched
  | RThrow x => s = FDone 0 (error_code_virtual x)
  | RFail a => res a = -125 -> s = FDone n (Ec 125 System)
  | RBytes _ => True
  end.
Lemma fill_ends offset timeout rounds : forall room wrote filled ec s f cs,
  ec_true ec = false -> fill offset timeout room wrote filled ec rounds = (s, f, cs) -> all_rlegal cs ->
  f = filled ++ delivered cs /\ forall c, In c cs -> ends_with (rans_of c) (wrote + zlen (delivered cs)) s.
Proof.
  induction rounds as [|[now r] rounds IH]; intros room wrote filled ec s f cs He H Hl; cbn [fill] in H; rewrite He in H; cbn [orb] in H.
  - destruct (room =? 0); injection H as <- <- <-; cbn; rewrite app_nil_r; split; [reflexivity|intros c []|reflexivity|intros c []].
  - destruct (room =? 0); [injection H as <- <- <-; cbn; rewrite app_nil_r; split; [reflexivity|intros c []]|].
    destruct (timeout <=? now); [injection H as <- <- <-; cbn; rewrite app_nil_r; split; [reflexivity|intros c []]|].
    destruct r as [d|a|x|].
    + destruct (fill offset timeout (room - Z.min (zlen d) room) (wrote + zlen d) (filled ++ d) ec rounds) as [[s' f'] cs'] eqn:Er.
      injection H as <- <- <-. destruct (IH _ _ _ _ _ _ _ He Er) as [F G]; [intros c Hc; apply Hl; now right|].
      unfold delivered in *. cbn [map concat bytes_of rans_of]. split; [rewrite F, app_assoc; reflexivity|].
      intros c [<-|Hc]; [exact I|]. specialize (G c Hc).
      replace (wrote + zlen (d ++ concat (map bytes_of cs'))) with (wrote + zlen d + zlen (concat (map bytes_of cs'))); [exact G|].
      unfold zlen. rewrite app_length, Nat2Z.inj_add. lia.
    + assert (Hd : forall e rs, fill offset timeout 0 wrote filled e rs = (FDone wrote e, filled, [])).
      { intros e rs. destruct rs as [|[]]; cbn [fill]; rewrite orb_true_r; reflexivity. }
      destruct (decode a) as [o|] eqn:Ed.
      * assert (Hra : -4095 <= res a < 0).
        { assert (Hin : In (RCall (offset + wrote) room (RFail a)) cs).
          { destruct (value (error_code_of o) =? 0); [|destruct (value (error_code_of o) =? ETIME)];
            destruct (fill _ _ _ _ _ _ rounds) as [[s' f'] cs']; injection H as <- <- <-; now left. }
          exact (Hl _ Hin). }
        destruct (decode_fail a Hra) as (o' & Ed' & Et & En). rewrite Ed in Ed'. injection Ed' as <-.
        unfold ec_true in Et. zb. rewrite (proj2 (Z.eqb_neq _ _) Et) in H.
        destruct (value (error_code_of o) =? ETIME) eqn:Ev; rewrite Hd in H; injection H as <- <- <-; cbn; (split; [now rewrite app_nil_r|]);
          intros c [<-|[]]; cbn; intros R.
        -- exfalso. unfold decode in Ed. rewrite R in Ed. cbn in Ed. injection Ed as <-. discriminate.
        -- unfold decode in Ed. rewrite R in Ed. cbn in Ed. injection Ed as <-. cbn. f_equal; unfold zlen; cbn; lia.
      * exfalso. assert (Hin : In (RCall (offset + wrote) room (RFail a)) cs) by (injection H as <- <- <-; now left).
        destruct (decode_fail a (Hl _ Hin)) as (o & Eo & _). congruence.
    + injection H as <- <- <-. cbn. rewrite app_nil_r. split; [reflexivity|]. intros c [<-|[]]. reflexivity.
    + injection H as <- <- <-. cbn. rewrite app_nil_r. split; [reflexivity|]. intros c [<-|[]]. reflexivity.
Qed.

(** The overloads with an error code, whatever the kernel does, and whatever is thrown meanwhile: the buffer starts with
    exactly the bytes received so far; an exception that is not a koios::exception ends the call with an error; a koios::exception ends
    it with the code its error_code() gives; a cancellation is reported as ECANCELED together with the exact number of bytes. *)
Theorem C83_reported_by_the_code_partial : forall offset timeout size rounds s f cs c,
  fill_buffer offset timeout size ec_ok rounds = (s, f, cs) -> all_rlegal cs -> In c cs ->
  f = delivered cs /\
  match rans_of c with
  | RThrowOther => exists ec, s = FDone 0 ec /\ ec_true ec = true
  | RThrow x => s = FDone 0 (error_code_virtual x)
  | RFail a => res a = -125 -> s = FDone (zlen f) (Ec 125 System)
  | RBytes _ => True
  end.
Proof.
  intros offset timeout size rounds s f cs c H Hl Hc. destruct (fill_ends _ _ _ _ _ _ ec_ok _ _ _ eq_refl H Hl) as [F G]. cbn [app] in F. subst f.
  split; [reflexivity|]. specialize (G c Hc). unfold ends_with in G. destruct (rans_of c); auto. exists catched. split; [exact G|reflexivity].
Qed.
Print Assumptions C83_reported_by_the_code_partial.
Example C83_case : exists f cs, fill_buffer 0 1000 4 ec_ok [(1, RBytes [1;2]); (2, RFail (Ans (-125) 0))] = (FDone 2 (Ec 125 System), f, cs) /\ f = [1;2].
Proof. do 2 eexists. split; [vm_compute; reflexivity|reflexivity]. Qed.
