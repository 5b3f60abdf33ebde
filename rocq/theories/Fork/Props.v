(** C148: programs whose coroutines share nothing but futures compute the same on every schedule, and always end. The programs, and what they compute one call after another, are in Spec.v. *)
From Coq Require Import List Arith Bool Lia Permutation.
From Verif.Common Require Import TS Sum.
From Verif.Fork Require Import Spec Model Proofs Steps Steps2 Runs Futures Refine.
From Verif Require Future.Model Future.Spec.
Import ListNotations.

(** On any number of workers and on every schedule, what result() returns (or throws) is what the program computes one call after another; in every execution what has become observable is part of what becomes observable then. *)
Theorem C148_deterministic n eager c l s : wf 0 c -> run (step n) (init n eager c) l = Some s ->
  (forall r, ret s = Some r -> r = meaning c []) /\ next s <= tasks c [] /\ exists rest, Permutation (out s ++ rest) (effects c []).
Proof.
  intros W R. destruct (run_ok n l _ s _ _ _ (Inv_init n eager c W) R) as (spec & owner & pos & HI & Z & P & C & _). destruct (init_sums n eager c) as (E1 & E2 & _). rewrite E1 in P. rewrite E2 in C. split; [|split].
  - intros r Hr. destruct (i_ret _ _ _ _ _ HI r Hr) as [X _]. pose proof (i_good _ _ _ _ _ HI 0 (i_zero _ _ _ _ _ HI)) as (_ & Y & G & _). destruct (st s 0) eqn:S0; try (rewrite Y in X by discriminate; discriminate). congruence.
  - rewrite <- C. unfold count. assert (T : forall q e, 1 <= tasks q e) by (induction q as [| |? ? H|? H|? m ? H ? H'|? ? H]; intros e; cbn; [lia|lia|apply H|apply H|specialize (H (moved m e)); lia|apply H]).
    assert (X : forall m, m <= sum_to m (fun i => measure tasks 1 spec (st s i) (env s i))); [|apply X]. induction m as [|m IH]; cbn [sum_to]; [lia|]. assert (1 <= measure tasks 1 spec (st s m) (env s m)) by (destruct (st s m); cbn [measure]; auto). lia.
  - eexists. exact P.
Qed.
(** It always gets there: however the threads are scheduled an execution has at most so many steps; and when nothing can happen any more result() has returned, everything has been done, every coroutine that was started has ended and no thread is busy. *)
Theorem C148_completes n eager c l s : 0 < n -> wf 0 c -> run (step n) (init n eager c) l = Some s ->
  length l <= cost c [] + 2 /\
  ((forall e, step n s e = None) -> ret s = Some (meaning c []) /\ Permutation (out s) (effects c []) /\ next s = tasks c [] /\ (forall i, i < next s -> st s i = Done) /\ forall t, thr s t = []).
Proof.
  intros Hn W R. destruct (run_ok n l _ s _ _ _ (Inv_init n eager c W) R) as (spec & owner & pos & HI & Z & P & C & L). destruct (init_sums n eager c) as (E1 & E2 & E3). rewrite E1 in P. rewrite E2 in C. split; [lia|].
  intros St. destruct (stuck_done n s spec owner pos Hn HI St) as (T & D & Rt). destruct (done_sums s spec D) as [F1 F2]. rewrite F1 in P. rewrite F2 in C. split; [congruence|]. auto.
Qed.
(** Every future of such a program is the future of Future/Model.v, with one consumer: what the program has done with it is a run of that model, which ends in the state that fits what the program is doing with it now, and in which the result
    was stored once and taken at most once. So everything proved of every run there (C09, C10) holds of every future here. *)
Theorem C148_futures_refine n eager c l s : wf 0 c -> run (step n) (init n eager c) l = Some s -> forall j, j < next s ->
  exists fl fs ph, run (Future.Model.step 1 false) Future.Model.init fl = Some fs /\ at_phase s j ph /\ future_at fs (omap (res s j)) ph /\
    trace (Future.Model.step 1 false) Future.Spec.observe Future.Model.init fl = seen (omap (res s j)) ph.
Proof.
  intros W R. apply (fun Z T => proj2 (run_tracked n l _ s _ _ _ (Inv_init n eager c W) Z T R)).
  - intros i p Hi H. destruct p; cbn in H; try contradiction; destruct eager, H; discriminate.
  - intros j Hj. cbn in Hj. assert (j = 0) as -> by lia. exists [], Future.Model.init, Held. split; [reflexivity|]. split; [left; repeat split|]. split; [|reflexivity]. repeat split.
Qed.

(** An example: an eager coroutine [a] that suspends, a lazy one [b] that gets the future of [a] and waits for it, and one that throws; the first catches the exception, and adds. *)
Definition orelse (r : result) (f : nat -> code) : code := match r with Val v => f v | Exn x => Throw x end.
Definition demo : code :=
  Fork true [] (Emit 1 (Suspend (Emit 2 (Ret 3))))                                        (* a *)
 (Fork false [true] (Await 0 (fun r => orelse r (fun v => Emit 3 (Ret (v + 4)))))         (* b(std::move(a)) *)
 (Fork false [] (Suspend (Throw 9))                                                       (* c *)
 (Await 1 (fun r => match r with Exn 9 => Emit 4 (Await 0 (fun r => orelse r (fun v => Ret (v + 100)))) | _ => Ret 0 end)))).
Example C148_case : wf 0 demo /\ meaning demo [] = Val 107 /\ effects demo [] = [1; 2; 3; 4] /\ tasks demo [] = 4 /\ cost demo [] = 29 /\
  exists l s, run (step 2) (init 2 true demo) l = Some s /\ ret s = Some (Val 107) /\ out s = [1; 4; 2; 3] /\ next s = 4 /\ forall i, i < 4 -> st s i = Done.
Proof.
  split; [|split; [reflexivity|split; [reflexivity|split; [reflexivity|split; [reflexivity|]]]]].
  { cbn. repeat split; auto with arith; try (intros [v|x]; cbn; auto). do 10 (destruct x as [|x]; cbn; auto). repeat split; auto with arith. intros [v|y]; cbn; auto. }
  set (l := [Go 2; Go 2; Go 2; Go 2; Go 2; Go 2; Go 2; Take 0 2; Go 0; Go 0; Take 1 3; Go 1; Wake 3; Take 1 3; Go 1; Take 1 0; Go 1; Go 1; Go 1; Wake 1; Take 0 1; Go 0; Go 0; Take 0 2; Go 0; Go 0; Take 1 0; Go 1; Get]).
  set (done := fun s i => match st s i with Done => true | _ => false end).
  assert (X : option_map (fun s => (ret s, out s, next s, (done s 0, done s 1, done s 2, done s 3))) (run (step 2) (init 2 true demo) l) = Some (Some (Val 107), [1; 4; 2; 3], 4, (true, true, true, true))) by (vm_compute; reflexivity).
  apply run_proj_ok in X. destruct X as (s & R & E). rewrite !pair_equal_spec in E. destruct E as (((E1 & E2) & E3) & ((D0 & D1) & D2) & D3). exists l, s. split; [exact R|]. split; [exact E1|]. split; [exact E2|]. split; [exact E3|].
  assert (Q : forall i, done s i = true -> st s i = Done) by (intros i; unfold done; destruct (st s i); congruence). intros i Hi. apply Q. do 4 (destruct i as [|i]; [assumption|]). lia.
Qed.
Print Assumptions C148_deterministic. Print Assumptions C148_completes. Print Assumptions C148_futures_refine. Print Assumptions C148_case.
