(** C138: what a worker does between two looks at the queues; C44: how often stop() returns (over Model.v). *)
From Coq Require Import List Arith Bool Lia.
From Verif.Common Require Import TS.
From Verif.ThreadPool Require Import Model Spec.
Import ListNotations.
#[local] Arguments upd : simpl never.

Section Turns.
Variable n : nat.
Variable ord : list nat.

(** ** what is counted along a history *)
(** worker [w] begins to poll and to look for a task (thread_pool.cc 74) *)
Definition polls (w : nat) (s : state) (e : event) (s' : state) : list unit := match wpcs s' w, wpcs s w with WBody, WBody => [] | WBody, _ => [tt] | _, _ => [] end.
(** worker [w] goes to sleep (98) *)
Definition sleeps (w : nat) (s : state) (e : event) (s' : state) : list unit := match wpcs s' w, wpcs s w with WSleep, WSleep => [] | WSleep, _ => [tt] | _, _ => [] end.
(** worker [w] begins a task (104) *)
Definition begins (w : nat) (s : state) (e : event) (s' : state) : list unit := flat_map (fun o => match o with Begin v _ => if Nat.eqb v w then [tt] else [] | _ => [] end) (observe n ord s e s').
Definition times (obs : state -> event -> state -> list unit) (l : list event) : nat := length (trace (next n ord) obs init l).

(** looking: began, found nothing so far *)
Definition looking (p : wpc) : nat := match p with WBody | WSteal _ | WDone1 true | WDone2 true | WScan true _ => 1 | _ => 0 end.
(** the last look ended with the worker's end *)
Definition balance (p : wpc) (np ns nb : nat) : Prop := match p with WExit => ns + nb <= np <= S (ns + nb) | _ => np = ns + nb + looking p end.

Lemma wset s w p v : wpcs (set_w s w p) v = if Nat.eqb v w then p else wpcs s v.
Proof. reflexivity. Qed.
Lemma qset s w p v : wpcs (set_q s w p) v = wpcs s v.
Proof. reflexivity. Qed.

Lemma balance_step s e s' w np ns nb : next n ord s e = Some s' -> balance (wpcs s w) np ns nb ->
  balance (wpcs s' w) (np + length (polls w s e s')) (ns + length (sleeps w s e s')) (nb + length (begins w s e s')).
Proof.
  intros Hn Hb. unfold begins, observe. unfold next in Hn. destruct (step n ord s e) as [[s1 o]|] eqn:Hs; [|discriminate]. cbn in Hn. injection Hn as ->.
  assert (Q : wpcs s' w = wpcs s w -> length (flat_map (fun o0 => match o0 with Begin v _ => if Nat.eqb v w then [tt] else [] | _ => [] end) o) = 0 ->
              balance (wpcs s' w) (np + length (polls w s e s')) (ns + length (sleeps w s e s')) (nb + length (flat_map (fun o0 => match o0 with Begin v _ => if Nat.eqb v w then [tt] else [] | _ => [] end) o))).
  { intros E Eo. unfold polls, sleeps. rewrite E, Eo. destruct (wpcs s w) eqn:Ew; cbn [length]; rewrite !Nat.add_0_r; exact Hb. }
  unfold step in Hs. destruct (terminated s); [discriminate|]. destruct e.
  - destruct (Nat.ltb w0 n); [|discriminate]. unfold worker_step in Hs. unfold polls, sleeps in *.
    destruct (Nat.eqb_spec w w0) as [->|N].
    + destruct (wpcs s w0) as [[|]|[|]|[|] [|i rest]| |[|i rest]| | |] eqn:Ew; cbn [balance looking] in Hb; try discriminate.
      all: try (injection Hs as <- <-; rewrite ?wset, ?Nat.eqb_refl; unfold after_done; destruct (stop_req s) eqn:R1; destruct (stop_now s) eqn:R2; cbn in *; rewrite ?R1, ?R2; cbn; lia).
      * injection Hs as <- <-. rewrite wset, Nat.eqb_refl. destruct (queues s i); cbn; lia.
      * injection Hs as <- <-. rewrite wset, Nat.eqb_refl. destruct (queues s i); cbn; lia.
      * destruct (enq_passed s w0); [discriminate|]. destruct (queues s w0) as [|y q]; [injection Hs as <- <-; rewrite wset, Nat.eqb_refl; cbn; lia|].
        destruct (take_nth k (y :: q)) as [[x r]|]; [|discriminate]. injection Hs as <- <-. rewrite wset, Nat.eqb_refl. cbn. rewrite Nat.eqb_refl. cbn. lia.
      * destruct (queues s i) as [|y q]; [injection Hs as <- <-; rewrite wset, Nat.eqb_refl; cbn; lia|].
        destruct (take_nth k (y :: q)) as [[x r]|]; [|discriminate]. injection Hs as <- <-. rewrite wset, Nat.eqb_refl. cbn. rewrite Nat.eqb_refl. cbn. lia.
    + assert (E : wpcs s' w = wpcs s w /\ forall v x, In (Begin v x) o -> v <> w).
      { destruct (wpcs s w0) as [[|]|[|]|[|] [|i rest]| |[|i rest]| | |] eqn:Ew; try discriminate.
        all: try (injection Hs as <- <-; rewrite ?wset; destruct (Nat.eqb_spec w w0); [congruence|]; split; [reflexivity|intros ? ? []]).
        - destruct (enq_passed s w0); [discriminate|]. destruct (queues s w0) as [|y q]; [injection Hs as <- <-; rewrite wset; destruct (Nat.eqb_spec w w0); [congruence|]; split; [reflexivity|intros ? ? []]|].
          destruct (take_nth k (y :: q)) as [[x r]|]; [|discriminate]. injection Hs as <- <-. rewrite wset. destruct (Nat.eqb_spec w w0); [congruence|]. split; [reflexivity|]. intros v z [F|[]]. injection F as <- <-. congruence.
        - destruct (queues s i) as [|y q]; [injection Hs as <- <-; rewrite wset; destruct (Nat.eqb_spec w w0); [congruence|]; split; [reflexivity|intros ? ? []]|].
          destruct (take_nth k (y :: q)) as [[x r]|]; [|discriminate]. injection Hs as <- <-. rewrite wset. destruct (Nat.eqb_spec w w0); [congruence|]. split; [reflexivity|]. intros v z [F|[]]. injection F as <- <-. congruence. }
      destruct E as [E Eo]. apply Q; [exact E|]. clear - Eo. induction o as [|x o IH]; [reflexivity|]. cbn [flat_map]. rewrite app_length, IH by (intros v z F; apply (Eo v z); now right).
      destruct x; try reflexivity. destruct (Nat.eqb_spec w0 w); [|reflexivity]. destruct (Eo w0 x (or_introl eq_refl) e).
  - destruct (may_call n s a && negb (enq_passed s a)); [|discriminate]. destruct (stop_now s); injection Hs as <- <-; apply Q; reflexivity.
  - destruct (may_call n s a && enq_passed s a && Nat.ltb i n); [|discriminate]. injection Hs as <- <-. apply Q; reflexivity.
  - destruct (Nat.ltb w0 n); [|discriminate]. destruct (wpcs s w0) eqn:Ew; try discriminate. destruct (enq_passed s w0); [discriminate|].
    destruct (Nat.eqb_spec w w0) as [->|N].
    + rewrite Ew in Hb. cbn in Hb. unfold polls, sleeps. rewrite Ew. destruct (spcs s w0); try discriminate; injection Hs as <- <-; rewrite wset, Nat.eqb_refl; cbn; lia.
    + destruct (spcs s w0); try discriminate; injection Hs as <- <-; (apply Q; [rewrite wset; now destruct (Nat.eqb_spec w w0)|reflexivity]).
  - destruct (may_call n s a && negb (enq_passed s a)); [|discriminate]. injection Hs as <- <-; apply Q; reflexivity.
  - destruct (may_call n s a && negb (enq_passed s a)); [|discriminate]. destruct (once s); [destruct (Nat.ltb a n)|]; injection Hs as <- <-; apply Q; reflexivity.
  - destruct (spcs s a); try discriminate; [destruct (all_exited n s)|destruct (once_done s)]; try discriminate; injection Hs as <- <-; apply Q; reflexivity.
Qed.
Lemma balance_run w l : forall s s' np ns nb, run (next n ord) s l = Some s' -> balance (wpcs s w) np ns nb ->
  balance (wpcs s' w) (np + length (trace (next n ord) (polls w) s l)) (ns + length (trace (next n ord) (sleeps w) s l)) (nb + length (trace (next n ord) (begins w) s l)).
Proof.
  induction l as [|e l IH]; intros s s' np ns nb Hr Hb; cbn [run trace] in *; [injection Hr as <-; cbn; rewrite !Nat.add_0_r; exact Hb|].
  destruct (next n ord s e) as [s1|] eqn:E; [|discriminate]. rewrite !app_length, !Nat.add_assoc. apply (IH s1 s' _ _ _ Hr). now apply balance_step.
Qed.

(** ** stop() *)
Definition stop_calls (a : nat) (l : list event) : nat := list_sum (map (fun e => match e with EStop b => if Nat.eqb b a then 1 else 0 | _ => 0 end) l).
Definition returned (a : nat) (log : list obs) : nat := list_sum (map (fun o => match o with StopReturned b => if Nat.eqb b a then 1 else 0 | _ => 0 end) log).
Definition pending (p : spc) : nat := match p with SActive | SBlocked => 1 | _ => 0 end.
Lemma returned_app a x y : returned a (x ++ y) = returned a x + returned a y.
Proof. unfold returned. now rewrite map_app, list_sum_app. Qed.

Lemma stop_step s e s' o a : step n ord s e = Some (s', o) -> terminated s' = false ->
  returned a o + pending (spcs s' a) = pending (spcs s a) + stop_calls a [e].
Proof.
  intros Hs Ht. unfold step in Hs. destruct (terminated s) eqn:Et; [discriminate|]. unfold stop_calls, returned. destruct e; cbn [map list_sum fold_right].
  - destruct (Nat.ltb w n); [|discriminate]. unfold worker_step in Hs.
    destruct (wpcs s w) as [sec|sec|sec [|i rest]| |[|i rest]| | |]; try discriminate; try (injection Hs as <- <-; cbn; lia).
    + destruct (enq_passed s w); [discriminate|]. destruct (queues s w) as [|y q]; [injection Hs as <- <-; cbn; lia|]. destruct (take_nth k (y :: q)) as [[x r]|]; [|discriminate]. injection Hs as <- <-. cbn. lia.
    + destruct (queues s i) as [|y q]; [injection Hs as <- <-; cbn; lia|]. destruct (take_nth k (y :: q)) as [[x r]|]; [|discriminate]. injection Hs as <- <-. cbn. lia.
  - destruct (may_call n s a0 && negb (enq_passed s a0)); [|discriminate]. destruct (stop_now s); injection Hs as <- <-; cbn; lia.
  - destruct (may_call n s a0 && enq_passed s a0 && Nat.ltb i n); [|discriminate]. injection Hs as <- <-. cbn. lia.
  - destruct (Nat.ltb w n); [|discriminate]. destruct (wpcs s w); try discriminate. destruct (enq_passed s w); [discriminate|]. destruct (spcs s w); try discriminate; injection Hs as <- <-; cbn; lia.
  - destruct (may_call n s a0 && negb (enq_passed s a0)); [|discriminate]. injection Hs as <- <-. cbn. lia.
  - destruct (may_call n s a0 && negb (enq_passed s a0)) eqn:Em; [|discriminate]. assert (P0 : pending (spcs s a0) = 0) by (apply andb_true_iff in Em as [Em _]; unfold may_call in Em; destruct (spcs s a0); try discriminate; reflexivity).
    destruct (once s); [destruct (Nat.ltb a0 n)|]; injection Hs as <- <-; try discriminate; cbn; unfold upd; rewrite (Nat.eqb_sym a a0); (destruct (Nat.eqb_spec a0 a); [subst a0; cbn; lia|lia]).
  - destruct (spcs s a0) eqn:Ea; try discriminate; [destruct (all_exited n s)|destruct (once_done s)]; try discriminate; injection Hs as <- <-; cbn; unfold upd; rewrite (Nat.eqb_sym a a0); (destruct (Nat.eqb_spec a0 a); [subst a0; rewrite Ea; cbn; lia|lia]).
Qed.
Lemma stop_run a l : forall s s', run (next n ord) s l = Some s' -> terminated s' = false ->
  returned a (trace (next n ord) (observe n ord) s l) + pending (spcs s' a) = pending (spcs s a) + stop_calls a l.
Proof.
  induction l as [|e l IH]; intros s s' Hr Ht; cbn [run trace] in *; [injection Hr as <-; cbn; lia|].
  destruct (next n ord s e) as [s1|] eqn:E; [|discriminate]. specialize (IH _ _ Hr Ht). rewrite returned_app. unfold next in E. unfold observe at 1. destruct (step n ord s e) as [[s2 o]|] eqn:Hs; [|discriminate]. cbn in E. injection E as ->.
  assert (T1 : terminated s1 = false).
  { destruct (terminated s1) eqn:T; [|reflexivity]. destruct l as [|e2 l]; cbn [run] in Hr; [congruence|]. unfold next at 1, step at 1 in Hr. rewrite T in Hr. discriminate. }
  pose proof (stop_step _ _ _ _ a Hs T1) as H. change (stop_calls a (e :: l)) with (stop_calls a ([e] ++ l)). unfold stop_calls in *. rewrite map_app, list_sum_app. lia.
Qed.
End Turns.

(** C138: in every history, for every worker: each time it polled the event loops and looked for a task, it then began a task or went to sleep (or ended, or is still
    looking); and it never goes to sleep or begins a task without having looked. So an idle worker does not spin, and no worker sleeps twice, or
    after a task, without looking again. *)
Theorem C138_polls_then_works_or_sleeps : forall n ord l s w, run (next n ord) init l = Some s ->
  let p := times n ord (polls w) l in let z := times n ord (sleeps w) l in let b := times n ord (begins n ord w) l in
  z + b <= p <= z + b + 1 /\ (wpcs s w = WSleep \/ (exists x, wpcs s w = WExec x) -> p = z + b).
Proof.
  intros n ord l s w Hr. cbv zeta. pose proof (balance_run n ord w l init s 0 0 0 Hr) as H. cbn [Nat.add] in H. specialize (H eq_refl).
  unfold times. destruct (wpcs s w) as [[|]|[|]|[|] ?| |?| |x|]; cbn [balance looking] in H; (split; [lia|]); intros [F|[y F]]; try discriminate; lia.
Qed.
Print Assumptions C138_polls_then_works_or_sleeps.
Definition case138 := [EEnqCheck 5; EEnqPut 5 0 42; EWorker 0 0; EWorker 0 0; EFinish 0; EWorker 0 0; EWorker 0 0; EWorker 0 0; EWorker 0 0; EWorker 0 0].
Example C138_case : option_map (fun s => wpcs s 0) (run (next 1 [0]) init case138) = Some WSleep /\ times 1 [0] (polls 0) case138 = 2 /\ times 1 [0] (sleeps 0) case138 = 1 /\ times 1 [0] (begins 1 [0] 0) case138 = 1.
Proof. vm_compute. repeat split. Qed.

(** C44: every call of stop() returns at most once: as many calls of a thread returned as it made, except the one it is inside. *)
Theorem C44_every_call_returns_once : forall n ord l s a, run (next n ord) init l = Some s -> terminated s = false ->
  returned a (trace (next n ord) (observe n ord) init l) + pending (spcs s a) = stop_calls a l.
Proof. intros n ord l s a Hr Ht. exact (stop_run n ord a l init s Hr Ht). Qed.
Print Assumptions C44_every_call_returns_once.
