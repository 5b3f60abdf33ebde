(** What holds of C77, and how false the rest is: the idle time after a stop. *)
From Coq Require Import List Arith ZArith Bool Lia.
From Verif.Common Require Import TS.
From Verif.IoUring Require Import Model Spec Proofs Props Props2.
Import ListNotations.

Lemma cleaning_mono s e s' : next s e = Some s' -> m_cleaning s' = m_cleaning s || match e with EStop _ g => g | _ => false end.
Proof.
  intros E. unfold next in E. destruct (fault s); [discriminate|]. destruct e as [w|b c|b|w a b k|w i v|w|w| |t g]; rewrite ?orb_false_r.
  - destruct (m_impl s w); [discriminate|]. injection E as <-. reflexivity.
  - destruct (do_call (reps s b) c); injection E as <-; reflexivity.
  - injection E as <-. reflexivity.
  - destruct (susp s a); [discriminate|]. destruct (m_impl s w) as [r|]; [|injection E as <-; reflexivity]. destruct (polling r =? 0); [|discriminate].
    destruct (arm (reps s b) a) as [bt|]; [|injection E as <-; reflexivity]. unfold add_event in E. destruct (m_stoped r); [injection E as <-; reflexivity|].
    destruct (find_key a (m_opreps r)); [injection E as <-; reflexivity|]. destruct (sq_entries <? _); [injection E as <-; reflexivity|]. destruct (k <=? _); [|discriminate]. injection E as <-. reflexivity.
  - destruct (m_impl s w) as [r|]; [|discriminate]. destruct (take_nth i (inflight r)) as [[it rest]|]; [|discriminate]. injection E as <-. reflexivity.
  - destruct (m_impl s w) as [r|]; [|injection E as <-; reflexivity]. destruct (polling r =? 0); [|discriminate]. destruct (m_stoped r); [injection E as <-; reflexivity|]. destruct (cq r); injection E as <-; reflexivity.
  - destruct (m_impl s w) as [r|]; [|discriminate]. destruct (polling r); [discriminate|]. destruct (cq r) as [|c q]; injection E as <-; [reflexivity|].
    unfold dealwith_cqe. cbn [m_opreps]. destruct (find_key (c_ud c) (m_opreps r)) as [e|]; [|reflexivity]. destruct (has_enough_ret _); reflexivity.
  - destruct (runq s); [discriminate|]. injection E as <-. reflexivity.
  - destruct (m_impl s t) as [r|]; [|injection E as <-; reflexivity]. destruct (polling r =? 0); [|discriminate]. injection E as <-. reflexivity.
Qed.
(** every history with a stop() in it: any thread is offered 10 s, whatever is outstanding *)
Theorem C77_always_ten_seconds_refuted : forall l s w t, run next init l = Some s -> In (EStop t true) l -> max_sleep_duration s w = Some 10000%Z.
Proof.
  intros l s w t R Hi. assert (C : m_cleaning s = true); [|unfold max_sleep_duration; now rewrite C]. revert s R Hi.
  induction l as [|e l IH] using rev_ind; intros s R Hi; [contradiction|]. apply run_app_inv in R. destruct R as (s1 & R1 & R2). cbn in R2. destruct (next s1 e) as [s2|] eqn:E; [|discriminate]. injection R2 as <-.
  rewrite (cleaning_mono _ _ _ E). apply in_app_iff in Hi. destruct Hi as [Hi|[->|[]]]; [now rewrite (IH s1 R1 Hi)|apply orb_true_r].
Qed.
Print Assumptions C77_always_ten_seconds_refuted.
(** quick_stop() only: the idle time is zero while an operation is outstanding, on the thread that called it too *)
Theorem C77_after_quick_stop_partial : forall l s w x a ops, run_all next proper init l -> run next init l = Some s -> (exists t, In (EStop t false) l) -> no_graceful_stop l ->
  outstanding s x w a ops -> max_sleep_duration s w = Some 0%Z.
Proof. intros l s w x a ops HP HR _ Hn Ho. eapply C42_no_idling_while_outstanding; eauto. Qed.
Print Assumptions C77_after_quick_stop_partial.
Example C77_case : exists s, run_all next proper init [EPrepare 0; ECall 1 (Prep 10); EExec 0 50 1 1; EStop 0 false] /\ run next init [EPrepare 0; ECall 1 (Prep 10); EExec 0 50 1 1; EStop 0 false] = Some s /\
  submitted s = [(0, (0, 50, [Oper 10]))] /\ resumed s = [] /\ max_sleep_duration s 0 = Some 0%Z.
Proof.
  set (l := [EPrepare 0; ECall 1 (Prep 10); EExec 0 50 1 1; EStop 0 false]).
  destruct (run_proj_ok next (fun s => (submitted s, resumed s, max_sleep_duration s 0)) init l ([(0, (0, 50, [Oper 10]))], [], Some 0%Z)) as (s & Hr & Hp); [vm_compute; reflexivity|].
  exists s. split; [apply proper_two_threads; vm_compute; reflexivity|]. split; [exact Hr|]. inversion Hp. auto.
Qed.
