(** What holds of C79 (cancel_all, cancel_any, number_canceled). *)
From Coq Require Import List Arith ZArith Bool Lia.
From Verif.IoUring Require Import Cancel.
Import ListNotations.

(** As long as at most one operation with this user data is pending, cancel_all(u) cancels all of them and no other. *)
Theorem C79_cancel_all_single_partial : forall u pending, length (filter (fun p => fst p =? u) pending) <= 1 ->
  all_cancelled u pending (fst (kernel_cancel (cancel_all u) pending)).
Proof.
  intros u pending H. unfold kernel_cancel, cancel_all, prep_cancel_first. cbn [cs_any cs_all cs_user_data].
  destruct (remove_first u pending) as [r|] eqn:E; cbn [fst].
  - apply remove_first_spec in E. destruct E as (a & f & b & -> & -> & Ha). rewrite filter_app in H. cbn [filter fst] in H. rewrite Nat.eqb_refl, app_length in H. cbn [length] in H.
    assert (Hb : forall p, In p b -> fst p <> u).
    { intros p Hp E. assert (Hf : In p (filter (fun p => fst p =? u) b)) by (apply filter_In; split; [exact Hp|apply Nat.eqb_eq; exact E]).
      destruct (filter (fun p => fst p =? u) b); [destruct Hf|cbn [length] in H; lia]. }
    intros p. rewrite !in_app_iff. cbn [In]. split.
    + intros [Hp|Hp]; [split; [now left|now apply Ha]|split; [now right; right|now apply Hb]].
    + intros [[Hp|[<-|Hp]] Hn]; [now left|now elim Hn|now right].
  - apply remove_first_None in E. intros p. split; [|easy]. intros Hp. split; [exact Hp|]. intros K. apply E. rewrite <- K. now apply in_map.
Qed.
Print Assumptions C79_cancel_all_single_partial.
(** In general cancel_all(u) cancels the oldest of them, and never an operation with other user data. *)
Theorem C79_cancel_all_never_others_partial : forall u pending p, In p pending -> fst p <> u ->
  In p (fst (kernel_cancel (cancel_all u) pending)).
Proof.
  intros u pending p Hp Hn. unfold kernel_cancel, cancel_all, prep_cancel_first. cbn [cs_any cs_all cs_user_data].
  destruct (remove_first u pending) as [r|] eqn:E; cbn [fst]; [|exact Hp].
  apply remove_first_spec in E. destruct E as (a & f & b & -> & -> & _). apply in_app_iff. apply in_app_iff in Hp. destruct Hp as [Hp|[<-|Hp]]; [now left|now elim Hn|now right].
Qed.
Print Assumptions C79_cancel_all_never_others_partial.
(** The number reported after a batch with prep_cancel_all(u) is the number of operations cancelled; for cancel_first and cancel_all a
    number below zero is reported exactly if nothing was cancelled. *)
Theorem C79_number_of_batch_cancel_all_partial : forall u pending,
  snd (kernel_cancel (prep_cancel_all u) pending) = (Z.of_nat (length pending) - Z.of_nat (length (fst (kernel_cancel (prep_cancel_all u) pending))))%Z.
Proof.
  intros u pending. unfold kernel_cancel, prep_cancel_all. cbn [cs_any cs_all cs_user_data fst snd].
  induction pending as [|[k f] l IH]; [reflexivity|]. cbn [filter fst]. destruct (k =? u); cbn [negb length]; rewrite ?Nat2Z.inj_succ; lia.
Qed.
Print Assumptions C79_number_of_batch_cancel_all_partial.
Theorem C79_nothing_cancelled_is_reported_partial : forall u pending,
  ((snd (kernel_cancel (cancel_all u) pending) < 0)%Z <-> fst (kernel_cancel (cancel_all u) pending) = pending).
Proof.
  intros u pending. unfold kernel_cancel, cancel_all, prep_cancel_first. cbn [cs_any cs_all cs_user_data].
  destruct (remove_first u pending) as [r|] eqn:E; cbn [fst snd].
  - split; [lia|]. intros ->. apply remove_first_spec in E. destruct E as (a & f & b & E1 & E2 & _). exfalso.
    assert (length (a ++ (u, f) :: b) = length (a ++ b)) by congruence. rewrite !app_length in H. cbn in H. lia.
  - split; [reflexivity|]. intros _. reflexivity.
Qed.
Print Assumptions C79_nothing_cancelled_is_reported_partial.
Example C79_case : kernel_cancel (cancel_all 7) [(3,1);(7,2);(8,4)] = ([(3,1);(8,4)], 0%Z) /\ length (filter (fun p => fst p =? 7) [(3,1);(7,2);(8,4)]) <= 1.
Proof. split; [reflexivity|]. cbn. lia. Qed.
