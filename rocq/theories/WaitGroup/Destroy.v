(** C133: destroying a koios::wait_group after wait().

    done() (wait_group.h 20-26) goes on using the object after the fetch_sub that reaches zero: wake_up_all() (56-63) dequeues from m_waitings until it is empty. The steps are those of Model.v; every one of them but the resumption of a waiter (49, await_resume does nothing) uses the object. *)
From Coq Require Import List Arith NArith Bool Lia.
From Verif.Common Require Import TS.
From Verif.WaitGroup Require Import Model.
Import ListNotations.

(* what the state keeps of wait_group.h 15-63 *)
Record dstate := DSt { wg : state; alive : bool; bad : bool }.  (* bad: the object was used after its destruction *)
(* before anything has happened; wait_group.h 15-63 *)
Definition dinit : dstate := {| wg := init; alive := true; bad := false |}.
(* the steps of wait_group.h 15-63 *)
Inductive devent := Op (e : event) | Destroy (i : nat).
(* every step but await_resume() (wait_group.h 49) touches the object: wait_group.h 15-63 *)
Definition uses (e : event) : bool := match e with EResume _ => false | _ => true end.
(* what each step does: wait_group.h 15-63 *)
Definition dstep (s : dstate) (e : devent) : option dstate :=
  match e with
  | Op e => match step (wg s) e with Some m => Some (DSt m (alive s) (bad s || (uses e && negb (alive s)))) | None => None end
  | Destroy i => match at_ (wg s) i with Idle => if alive s then Some (DSt (wg s) false (bad s)) else None | _ => None end
  end.

(** ** specification: how a wait group is used *)
Inductive seen := Added (n : N) | DoneOf (n : N) | Completed (i : nat) | Other.  (* Completed: a co_await of wait() completes *)
Definition observe (s : dstate) (e : devent) (s' : dstate) : list seen :=
  match e with
  | Op (EAdd _ n) => [Added n] | Op (EDone _ n) => [DoneOf n] | Op (EResume i) => [Completed i]
  | Op (EWait i) => [match at_ (wg s') i with Idle => Completed i | _ => Other end]
  | _ => [Other] end.
(** every unit added has been handed back by a call of done(), and nobody waits any more; calls of done() may not have returned yet *)
Definition finished (s : state) : Prop := count s = 0%N /\ forall j, match at_ s j with Idle | Draining => True | _ => False end.
Definition begins (e : event) : bool := match e with EAdd _ _ | EDone _ _ | EWait _ => true | _ => false end.
Definition well_used (s : dstate) (e : devent) : Prop :=
  match e with
  | Op (EDone _ n) => alive s = true /\ (1 <= n <= count (wg s))%N
  | Op e => alive s = false -> begins e = false
  | Destroy _ => finished (wg s) end.
Definition all_returned (s : dstate) (e : devent) : Prop := match e with Destroy _ => forall j, at_ (wg s) j = Idle | _ => True end.
(** one thread executes all: nothing in these operations suspends, so they are not interrupted *)
Definition inside (p : pc) : bool := match p with Enqueuing | Draining => true | _ => false end.
Definition who (e : devent) : nat := match e with Op (EAdd i _) | Op (EDone i _) | Op (EDrain i _) | Op (EDrainEnd i) | Op (EWait i) | Op (EEnqueue i) | Op (EResume i) | Destroy i => i end.
Definition one_worker (s : dstate) (e : devent) : Prop := forall i, inside (at_ (wg s) i) = true -> who e = i.

(** C133: refuted, in both ways in which wait() completes: the waiter 0, whose wait() has completed, destroys the wait group while 1 is still in done(). *)
Definition l_ready := [Op (EAdd 0 1); Op (EDone 1 1); Op (EWait 0); Destroy 0; Op (EDrainEnd 1)].
Definition l_resumed := [Op (EAdd 0 1); Op (EWait 0); Op (EEnqueue 0); Op (EDone 1 1); Op (EDrain 1 0); Op (EResume 0); Destroy 0; Op (EDrainEnd 1)].
Lemma well_used_ready : run_all dstep well_used dinit l_ready /\ run_all dstep well_used dinit l_resumed.
Proof.
  split; unfold l_ready, l_resumed; cbn [run_all];
  repeat (split; [first [intros H; discriminate H | intros _; reflexivity | split; [reflexivity|split; discriminate] | split; [reflexivity|]; intros j; vm_compute; repeat (destruct j as [|j]; [exact I|]); exact I]|intros s' Hs'; vm_compute in Hs'; injection Hs' as <-]); exact I.
Qed.
Theorem C133_refuted :
  (exists s, run_all dstep well_used dinit l_ready /\ run dstep dinit l_ready = Some s /\ trace dstep observe dinit l_ready = [Added 1; DoneOf 1; Completed 0; Other; Other] /\ bad s = true) /\
  (exists s, run_all dstep well_used dinit l_resumed /\ run dstep dinit l_resumed = Some s /\ trace dstep observe dinit l_resumed = [Added 1; Other; Other; DoneOf 1; Other; Completed 0; Other; Other] /\ bad s = true).
Proof.
  split; eexists; (split; [apply well_used_ready|]); (split; [reflexivity|split; reflexivity]).
Qed.
Print Assumptions C133_refuted.

Definition D (s : dstate) : Prop := bad s = false /\ (alive s = false -> forall j, at_ (wg s) j = Idle).
Lemma D_step s e s' : D s -> well_used s e -> all_returned s e -> dstep s e = Some s' -> D s'.
Proof.
  intros [D1 D2] Hw Ha Hs. destruct e as [e|i]; cbn in Hs.
  - destruct (step (wg s) e) as [m|] eqn:E; [|discriminate]. injection Hs as <-. destruct (alive s) eqn:Al.
    + split; cbn; [now rewrite D1, andb_false_r|discriminate].
    + exfalso. specialize (D2 eq_refl). destruct e; cbn in E, Hw; rewrite Al in Hw; rewrite D2 in E; try discriminate; try (specialize (Hw eq_refl); discriminate). now destruct Hw.
  - destruct (at_ (wg s) i); try discriminate. destruct (alive s); [|discriminate]. injection Hs as <-. split; cbn; auto.
Qed.
(** C133: it is safe when the done() calls have returned ... *)
Theorem C133_after_return_partial : forall l s, run_all dstep (fun s e => well_used s e /\ all_returned s e) dinit l -> run dstep dinit l = Some s -> bad s = false.
Proof.
  intros l s Hd Hr. apply (run_inv_cond dstep (fun s e => well_used s e /\ all_returned s e) D) with (3 := Hd) in Hr; [apply Hr| |split; [reflexivity|discriminate]].
  intros s0 e s1 HD [H1 H2] Hs. eapply D_step; eauto.
Qed.
Print Assumptions C133_after_return_partial.
(** ... and always on one worker. *)
Theorem C133_one_worker_partial : forall l s, run_all dstep (fun s e => well_used s e /\ one_worker s e) dinit l -> run dstep dinit l = Some s -> bad s = false.
Proof.
  intros l s Hd Hr. apply (run_inv_cond dstep (fun s e => well_used s e /\ one_worker s e) D) with (3 := Hd) in Hr; [apply Hr| |split; [reflexivity|discriminate]].
  intros s0 e s1 HD [H1 H2] Hs. eapply D_step; eauto. destruct e as [e|i]; cbn in *; [exact I|].
  intros j. destruct H1 as [_ H1]. specialize (H1 j). destruct (at_ (wg s0) j) eqn:E; try contradiction; auto. specialize (H2 j). rewrite E in H2. rewrite <- (H2 eq_refl) in E. cbn in E. rewrite E in Hs. discriminate.
Qed.
Print Assumptions C133_one_worker_partial.
Definition l_fine := [Op (EAdd 0 2); Op (EWait 0); Op (EEnqueue 0); Op (EDone 1 1); Op (EDone 2 1); Op (EDrain 2 0); Op (EDrainEnd 2); Op (EResume 0); Destroy 0].
Example C133_case : run_all dstep (fun s e => well_used s e /\ one_worker s e) dinit l_fine /\ option_map alive (run dstep dinit l_fine) = Some false.
Proof.
  split; [|vm_compute; reflexivity]. unfold l_fine. cbn [run_all].
  repeat (split; [split; [first [intros H; discriminate H | intros _; reflexivity | split; [reflexivity|split; discriminate] | split; [reflexivity|]; intros j; vm_compute; do 4 (destruct j as [|j]; [exact I|]); exact I]|
    intros x; vm_compute; do 4 (destruct x as [|x]; try discriminate; try reflexivity)]|intros s' Hs'; vm_compute in Hs'; injection Hs' as <-]); exact I.
Qed.
