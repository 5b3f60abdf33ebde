(** What holds of C12: the order of deadlines across polls. *)
From Coq Require Import List Arith ZArith Bool Permutation Sorted Lia.
From Verif.Common Require Import TS.
From Verif.Timer Require Import Model Spec Proofs.
Import ListNotations.
Open Scope Z_scope.

Lemma split_filter now h : Permutation h (filter (due now) h ++ filter (not_due now) h).
Proof.
  induction h as [|x h IH]; [constructor|]. cbn [filter]. unfold not_due at 1. destruct (due now x); cbn [negb app].
  - now constructor.
  - now apply Permutation_cons_app.
Qed.

(** Any history (any number of threads): everything a poll hands over has an earlier deadline than everything that goes on sleeping
    on that thread's timer; so two sleepers handed over by different polls, both asleep at the first of them, are handed
    over in the order of their deadlines. *)
Theorem C12_across_polls_partial : forall H, std_heap H -> forall l s t s' now r,
  run (next H) init l = Some s -> step H s (EPoll2 t) = Some (s', [Resumed t now r]) ->
  Permutation (pending s t) (r ++ pending s' t) /\
  forall a b, In a r -> In b (pending s' t) -> timeout_tp a < timeout_tp b.
Proof.
  intros H HH l s t s' now r Hr Hs. pose proof (heaps_run H HH l s Hr) as Hh. unfold step in Hs. destruct (ub s); [discriminate|].
  destruct (m_impl_ptrs s t) as [| |i] eqn:E; try discriminate. destruct (polling i) as [now'|]; [|discriminate].
  assert (Hhi : is_heap (m_timer_heap i)) by (pose proof (Hh t) as X; unfold pending in X; now rewrite E in X).
  destruct (take_expired_spec H HH now' (m_timer_heap i) Hhi) as (h' & l' & Et & A & B & C & D).
  rewrite Et in Hs. injection Hs as <- <- <-. unfold pending. rewrite E. cbn [set_slot m_impl_ptrs contents m_timer_heap]. rewrite upd_same. cbn [contents m_timer_heap].
  split.
  - rewrite B, C. apply split_filter.
  - intros a b Ia Ib. rewrite C in Ia. rewrite B in Ib. apply filter_In in Ia, Ib. destruct Ia as [_ Ia], Ib as [_ Ib]. unfold due, not_due in *.
    apply negb_true_iff, Z.leb_gt in Ib. apply Z.leb_le in Ia. lia.
Qed.
Print Assumptions C12_across_polls_partial.
(** two sleepers handed over by different polls *)
Example C12_case : exists s s', run (next sorted_ops) init [EPrepare 0; EAdd 0 0 5 1; EAdd 0 0 3 2; EPoll1 0 4] = Some s /\
  step sorted_ops s (EPoll2 0) = Some (s', [Resumed 0 4 [Ev 3 2]]) /\ pending s' 0 = [Ev 5 1].
Proof. do 2 eexists. split; [reflexivity|]. split; reflexivity. Qed.
