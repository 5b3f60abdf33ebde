(** C134: destroying a koios::mutex after its last use.

    release() (coroutine_mutex.h 86-90) goes on using the object after m_flag.clear(): try_wake_up_next() (coroutine_mutex.cc 39-52) does test_and_set, try_dequeue and clear. The steps are those of Model.v; every one of them but the resumption of a waiter (acq_lk_aw.h 38-41, which only copies the reference) uses the object. *)
From Coq Require Import List Arith Bool Lia.
From Verif.Common Require Import TS.
From Verif.Mutex Require Import Model Spec Proofs Single.
Import ListNotations.

(* what the state keeps of coroutine_mutex.h 69-90, coroutine_mutex.cc 33-52 *)
Record dstate := DSt { mx : state; alive : bool; bad : bool }.  (* bad: the object was used after its destruction *)
(* before anything has happened; coroutine_mutex.h 69-90, coroutine_mutex.cc 33-52 *)
Definition dinit : dstate := {| mx := init; alive := true; bad := false |}.
(* the steps of coroutine_mutex.h 69-90, coroutine_mutex.cc 33-52 *)
Inductive devent := Op (e : event) | Destroy (i : nat).
(* every step but await_resume() (acq_lk_aw.h 38-41) touches the object: coroutine_mutex.h 69-90, coroutine_mutex.cc 39-52 *)
Definition uses (e : event) : bool := match e with EResume _ => false | _ => true end.
(* what each step does: coroutine_mutex.h 69-90, coroutine_mutex.cc 33-52 *)
Definition dstep (sp : bool) (s : dstate) (e : devent) : option dstate :=
  match e with
  | Op e => match step sp (mx s) e with Some m => Some (DSt m (alive s) (bad s || (uses e && negb (alive s)))) | None => None end
  | Destroy i => match at_ (mx s) i with Idle => if alive s then Some (DSt (mx s) false (bad s)) else None | _ => None end
  end.

(** ** specification: the user's side of the bargain, as for std::mutex *)
(** nobody owns the mutex or waits for it; unlock() calls may not have returned yet *)
Definition released_by_all (s : state) : Prop := forall j, match at_ s j with Idle | RelCleared | RelHeld | RelEmpty => True | _ => False end.
Definition begins (e : event) : bool := match e with EAcquire _ | ETry _ => true | _ => false end.
(** destroyed only when released by all; nobody begins to use it afterwards *)
Definition well_used (s : dstate) (e : devent) : Prop :=
  match e with Op e => alive s = false -> begins e = false | Destroy _ => released_by_all (mx s) end.
(** in addition no unlock() is still running *)
Definition all_returned (s : dstate) (e : devent) : Prop := match e with Destroy _ => forall j, at_ (mx s) j = Idle | _ => True end.
Definition one_worker (s : dstate) (e : devent) : Prop :=
  match e with Op e => one_thread (mx s) e | Destroy i => forall j, inside (at_ (mx s) j) = true -> j = i end.

(** C134: refuted. 0 unlocks; 1 takes the lock as soon as the flag is clear, unlocks, and as the last user destroys the mutex; 0, still in unlock(), then uses it. *)
Definition l_destroy := [Op (EAcquire 0); Op (EClear 0); Op (EAcquire 1); Op (EClear 1); Op (ERelTAS 1); Op (ERelNone 1); Op (ERelClear 1); Destroy 1; Op (ERelTAS 0)].
Theorem C134_refuted : exists s, run_all (dstep false) well_used dinit l_destroy /\ run (dstep false) dinit l_destroy = Some s /\ bad s = true.
Proof.
  eexists. split; [|split; [reflexivity|reflexivity]]. unfold l_destroy. cbn [run_all].
  repeat (split; [try (intros H; first [discriminate H | reflexivity]); try (intros j; cbn; repeat (destruct j as [|j]; [exact I|]); exact I)|intros s' Hs'; vm_compute in Hs'; injection Hs' as <-]). exact I.
Qed.
Print Assumptions C134_refuted.

Definition D (s : dstate) : Prop := bad s = false /\ (alive s = false -> forall j, at_ (mx s) j = Idle).
Lemma D_step sp s e s' : D s -> well_used s e -> all_returned s e -> dstep sp s e = Some s' -> D s'.
Proof.
  intros [D1 D2] Hw Ha Hs. destruct e as [e|i]; cbn in Hs.
  - destruct (step sp (mx s) e) as [m|] eqn:E; [|discriminate]. injection Hs as <-. destruct (alive s) eqn:Al.
    + split; cbn; [now rewrite D1, andb_false_r|discriminate].
    + exfalso. specialize (Hw Al). specialize (D2 eq_refl). destruct e; cbn in E, Hw; try discriminate; rewrite D2 in E; discriminate.
  - destruct (at_ (mx s) i); try discriminate. destruct (alive s); [|discriminate]. injection Hs as <-. split; cbn; auto.
Qed.
(** C134: it is safe when all unlock() calls have returned ... *)
Theorem C134_after_return_partial : forall sp l s, run_all (dstep sp) (fun s e => well_used s e /\ all_returned s e) dinit l -> run (dstep sp) dinit l = Some s -> bad s = false.
Proof.
  intros sp l s Hd Hr. apply (run_inv_cond (dstep sp) (fun s e => well_used s e /\ all_returned s e) D) with (3 := Hd) in Hr; [apply Hr| |split; [reflexivity|discriminate]].
  intros s0 e s1 HD [H1 H2] Hs. eapply D_step; eauto.
Qed.
Print Assumptions C134_after_return_partial.
(** ... and always on one worker: there unlock() returns before anybody else does anything. *)
Theorem C134_one_worker_partial : forall l s, run_all (dstep false) (fun s e => well_used s e /\ one_worker s e) dinit l -> run (dstep false) dinit l = Some s -> bad s = false.
Proof.
  intros l s Hd Hr. apply (run_inv_cond (dstep false) (fun s e => well_used s e /\ one_worker s e) D) with (3 := Hd) in Hr; [apply Hr| |split; [reflexivity|discriminate]].
  intros s0 e s1 HD [H1 H2] Hs. eapply D_step; eauto. destruct e as [e|i]; cbn in *; [exact I|].
  intros j. specialize (H1 j). destruct (at_ (mx s0) j) eqn:E; try contradiction; auto; exfalso; specialize (H2 j); rewrite E in H2; rewrite (H2 eq_refl) in E; rewrite E in Hs; discriminate.
Qed.
Print Assumptions C134_one_worker_partial.
(** A case: lock passed on through the queue, then destroyed by the last user. *)
Definition l_fine := [Op (EAcquire 0); Op (EAcquire 1); Op (EEnqueue 1); Op (EClear 0); Op (ERelTAS 0); Op (ERelDeq 0 0); Op (EResume 1); Op (EClear 1); Op (ERelTAS 1); Op (ERelNone 1); Op (ERelClear 1); Destroy 1].
Example C134_case : run_all (dstep false) (fun s e => well_used s e /\ one_worker s e) dinit l_fine /\ option_map alive (run (dstep false) dinit l_fine) = Some false.
Proof.
  split; [|vm_compute; reflexivity]. unfold l_fine. cbn [run_all].
  repeat (split; [split; [try (intros H; discriminate H); try (intros j; cbn; repeat (destruct j as [|j]; [exact I|]); exact I)|
    try (split; [intros x; vm_compute; repeat (destruct x as [|x]; try discriminate; try reflexivity)|try exact I; try reflexivity]); try (intros x; vm_compute; repeat (destruct x as [|x]; try discriminate; try reflexivity))]|intros s' Hs'; vm_compute in Hs'; injection Hs' as <-]). exact I.
Qed.
