(** What holds of C67, and how false the rest is: the sleepers that exist when stop() is called. *)
From Coq Require Import List Arith ZArith Bool Permutation Lia.
From Verif.Common Require Import TS.
From Verif.Timer Require Import Model Spec Proofs.
Import ListNotations.
Open Scope Z_scope.

Lemma stop_stays H s e s' : stop_requested s = true -> next H s e = Some s' -> stop_requested s' = true.
Proof.
  intros Hs Hn. unfold next, step in Hn. destruct (ub s); [discriminate|].
  destruct e as [t|t now d x|t now|t|t now| |]; unfold deref in Hn; rewrite ?Hs in Hn.
  - destruct (m_impl_ptrs s t); injection Hn as <-; exact Hs.
  - injection Hn as <-; exact Hs.
  - destruct (m_impl_ptrs s t); injection Hn as <-; exact Hs.
  - destruct (m_impl_ptrs s t) as [| |i]; try discriminate. destruct (polling i); [|discriminate]. destruct (take_expired H z (m_timer_heap i)) as [[h r]|]; injection Hn as <-; exact Hs.
  - injection Hn as <-; exact Hs.
  - injection Hn as <-; reflexivity.
  - injection Hn as <-; reflexivity.
Qed.
Lemma stopped H : forall l s, run (next H) init l = Some s -> In EStop l \/ In EQuickStop l -> stop_requested s = true.
Proof.
  intros l. induction l as [|e l IH] using rev_ind; intros s R [Hi|Hi]; try contradiction;
    (apply run_app_inv in R; destruct R as (s1 & R1 & R2); cbn in R2; destruct (next H s1 e) as [s2|] eqn:E; [|discriminate]; injection R2 as <-;
     apply in_app_iff in Hi; destruct Hi as [Hi|[->|[]]]; [eapply stop_stays; [|exact E]; apply IH; auto|]);
    unfold next, step in E; (destruct (ub s1); [discriminate|]); injection E as <-; reflexivity.
Qed.

(** every history with a stop() or quick_stop() in it, no poll being under way: nobody is resumed any more, whatever is done *)
Theorem C67_everybody_is_lost_refuted : forall H l s, run (next H) init l = Some s -> In EStop l \/ In EQuickStop l ->
  (forall t i, m_impl_ptrs s t = Ptr i -> polling i = None) -> forall l', resumed (trace (next H) (observe H) s l') = [].
Proof. intros H l s R Hi Hp l'. apply stopped_quiet. split; [eapply stopped; eauto|exact Hp]. Qed.
Print Assumptions C67_everybody_is_lost_refuted.
(** every history with a stop() in it: any thread, at any time, is told that nothing is pending *)
Theorem C67_idle_time_infinite_refuted : forall H l s t now s' o, run (next H) init l = Some s -> In EStop l \/ In EQuickStop l ->
  step H s (EMaxSleep t now) = Some (s', o) -> o = [MaySleep t now None].
Proof. intros H l s t now s' o R Hi Hs. pose proof (stopped H l s R Hi) as S. unfold step in Hs. destruct (ub s); [discriminate|]. rewrite S in Hs. now injection Hs as _ <-. Qed.
Print Assumptions C67_idle_time_infinite_refuted.
(** stop() during a poll: that poll still resumes all the sleepers of its thread that are due *)
Theorem C67_poll_under_way_partial : forall H, std_heap H -> forall l s t i now, run (next H) init l = Some s -> ub s = false -> m_impl_ptrs s t = Ptr i -> polling i = Some now ->
  exists s1 s2 r, run (next H) s [EStop] = Some s1 /\ step H s1 (EPoll2 t) = Some (s2, [Resumed t now r]) /\ Permutation r (filter (due now) (pending s t)).
Proof.
  intros H HH l s t i now R Hu Hi Hp. pose proof (heaps_run H HH l s R t) as Hh. unfold pending in *. rewrite Hi in *. cbn [contents] in *.
  destruct (take_expired_spec H HH now (m_timer_heap i) Hh) as (h' & r & E & _ & _ & P & _).
  exists (St (m_impl_ptrs s) true (ub s)). eexists. exists r. split; [cbn; unfold next, step; rewrite Hu; reflexivity|]. split; [|exact P].
  unfold step. cbn [ub m_impl_ptrs]. rewrite Hu, Hi, Hp, E. reflexivity.
Qed.
Print Assumptions C67_poll_under_way_partial.
(** two threads with a sleeper each; stop() comes while thread 0 polls: its sleeper is resumed, that of thread 1 never *)
Example C67_case : exists s s', run (next sorted_ops) init [EPrepare 0; EPrepare 1; EAdd 0 0 3 1; EAdd 1 0 3 2; EPoll1 0 4; EStop] = Some s /\
  step sorted_ops s (EPoll2 0) = Some (s', [Resumed 0 4 [Ev 3 1]]) /\ (forall t i, m_impl_ptrs s' t = Ptr i -> polling i = None) /\ pending s' 1 = [Ev 3 2] /\
  trace (next sorted_ops) (observe sorted_ops) s' [EMaxSleep 1 9; EPoll1 1 9] = [MaySleep 1 9 None; Resumed 1 9 []].
Proof.
  do 2 eexists. split; [reflexivity|]. split; [reflexivity|]. split; [|split; reflexivity].
  intros [|[|t]] i; cbn; intros E; inversion E; reflexivity.
Qed.
