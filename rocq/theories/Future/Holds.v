(** What holds of C93: with several futures of one promise, one of them gets the result. *)
From Coq Require Import List Arith Bool Lia.
From Verif.Common Require Import TS.
From Verif.Future Require Import Model Spec Proofs.
Import ListNotations.

Definition deliveries (log : list obs) : nat := length (filter takes log).

Lemma faithful_once log : forall st b, faithful st b log -> deliveries log <= (if b then 0 else 1).
Proof.
  induction log as [|o log IH]; intros st b H; [cbn; lia|]. unfold deliveries in *. destruct o as [r|i o|i r]; cbn [filter takes faithful] in *.
  - destruct H as [_ H]. exact (IH _ _ H).
  - destruct o; cbn [length].
    + destruct H as (_ & -> & H). specialize (IH _ _ H). cbn in IH. lia.
    + destruct H as (_ & -> & H). specialize (IH _ _ H). cbn in IH. lia.
    + exact (IH _ _ H).
    + destruct H as [_ H]. exact (IH _ _ H).
  - destruct H as [_ H]. exact (IH _ _ H).
Qed.

(** Any number [n] of futures of one promise, any schedule: the result is delivered to at most one of them, once; *)
Theorem C93_at_most_one_gets_it_partial : forall n sp l, deliveries (trace (step n sp) observe init l) <= 1.
Proof. intros n sp l. exact (faithful_once _ _ _ (faithful_delivery n sp l)). Qed.
Print Assumptions C93_at_most_one_gets_it_partial.

Lemma goto_futs x k p j : m_ff (futs (goto x k p) j) = m_ff (futs x j) /\ m_has_got (futs (goto x k p) j) = m_has_got (futs x j).
Proof. unfold goto, set_fut. cbn [futs]. updc j k; auto. Qed.
Lemma set_value_ss s r w : ss_ff (set_value s r w) = Some r.
Proof. unfold set_value, wake. destruct (ss_waiting s); destruct (at_ _); reflexivity. Qed.
Lemma set_value_futs s r w j : m_ff (futs (set_value s r w) j) = m_ff (futs s j) /\ m_has_got (futs (set_value s r w) j) = m_has_got (futs s j).
Proof.
  unfold set_value. cbv zeta. set (y := match ss_waiting s with Some i => _ | None => _ end).
  assert (Y : m_ff (futs y j) = m_ff (futs s j) /\ m_has_got (futs y j) = m_has_got (futs s j)).
  { unfold y, wake. destruct (ss_waiting s) as [k|]; [|auto]. destruct (goto_futs (St (Some r) None (futs s) (Some r) (asserted s)) k Woken j) as [-> ->]. auto. }
  destruct (at_ (futs y w)); try exact Y. destruct (goto_futs y w Notified j) as [-> ->]. exact Y.
Qed.

(** and the first future that asks after the promise was fulfilled gets exactly what the promise was fulfilled with. *)
Theorem C93_first_asker_gets_it_partial : forall n sp l r w i s, run (step n sp) init (l ++ [ESet r w]) = Some s ->
  asserted s = false -> i < n -> at_ (futs s i) = Idle ->
  trace (step n sp) observe s [EGetNonblk i] = [Got i (as_outcome r)] /\
  exists log, trace (step n sp) observe init (l ++ [ESet r w; EGetNonblk i]) = log ++ [Fulfilled r; Got i (as_outcome r)].
Proof.
  intros n sp l r w i s Hr Ha Hi Hidle.
  destruct (run_app_inv _ _ _ _ _ Hr) as (s1 & R1 & R2). cbn [run] in R2. destruct (step n sp s1 (ESet r w)) as [s2|] eqn:E; [|discriminate]. injection R2 as ->.
  assert (HI : Inv s1) by (refine (run_inv (step n sp) Inv _ l init s1 Inv_init R1); intros; eapply Inv_step; eauto).
  assert (E0 := E). unfold step in E. destruct (asserted s1); [discriminate|]. destruct (fulfilled s1) eqn:F; [discriminate|]. destruct (_ || _); [|discriminate]. injection E as E.
  destruct (i_none _ HI F) as [_ N].
  assert (Hss : ss_ff s = Some r) by (rewrite <- E; apply set_value_ss).
  assert (Hff : forall j, m_ff (futs s j) = None /\ m_has_got (futs s j) = m_has_got (futs s1 j)).
  { intros j. rewrite <- (N j), <- E. apply set_value_futs. }
  assert (Hg : m_has_got (futs s i) = false).
  { rewrite (proj2 (Hff i)). destruct (m_has_got (futs s1 i)) eqn:K; [|reflexivity]. exfalso. exact (i_got _ HI i K (N i)). }
  assert (T : snd (get_nonblk s i) = as_outcome r).
  { unfold get_nonblk, fetch. rewrite (proj1 (Hff i)). cbn [futs]. rewrite upd_same. cbn [m_ff m_has_got]. rewrite Hss, Hg. reflexivity. }
  assert (T1 : trace (step n sp) observe s [EGetNonblk i] = [Got i (as_outcome r)]).
  { cbn [trace]. unfold step. rewrite Ha, (proj2 (Nat.ltb_lt i n) Hi), Hidle. cbn [observe app]. now rewrite T. }
  split; [exact T1|]. exists (trace (step n sp) observe init l). rewrite (trace_app (step n sp) observe init l _ s1 R1). f_equal.
  change [ESet r w; EGetNonblk i] with ([ESet r w] ++ [EGetNonblk i]). rewrite (trace_app (step n sp) observe s1 [ESet r w] _ s); [|cbn [run]; now rewrite E0].
  rewrite T1. cbn [trace]. rewrite E0. reflexivity.
Qed.
Print Assumptions C93_first_asker_gets_it_partial.
Example C93_case : exists s, run (step 2 false) init ([EGetNonblk 0] ++ [ESet (Value 7) 0]) = Some s /\ asserted s = false /\ at_ (futs s 1) = Idle /\
  trace (step 2 false) observe s [EGetNonblk 1] = [Got 1 (Returns 7)].
Proof. eexists. split; [reflexivity|]. repeat split. Qed.
