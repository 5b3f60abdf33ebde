(** C148: what it means that the futures of a program behave like the future of Future/Model.v (include/koios/future.h 30-215, future_aw.h 18-48): the result as that model writes it, what a program does with a future, what state the
    future of that model is in then, and what its only consumer has seen. *)
From Coq Require Import List Arith.
From Verif.Common Require Import TS.
From Verif.Fork Require Import Spec Model.
From Verif Require Future.Model Future.Spec.
Import ListNotations.

Definition conv (r : result) : Future.Model.result := match r with Val v => Future.Model.Value v | Exn x => Future.Model.Exception x end.
Definition omap (r : option result) : option Future.Model.result := match r with Some r => Some (conv r) | None => None end.
(** What happens to the future of coroutine [j], and what state the future is in then *)
Inductive phase := Held | Susp | Wait | Woke | Used.
(** coroutine [i] holds the future, or is in a co_await of it *)
Definition has (s : state) (i j : nat) (ph : phase) : Prop :=
  match ph with Held => In j (env s i) | Susp => exists k, st s i = Suspending k j | Wait => exists k, st s i = Waiting k j | Woke => exists k, st s i = Woken k j | Used => False end.
(** the thread in result() holds the future of the first one until it gets the result *)
Definition main_has (s : state) (j : nat) (ph : phase) : Prop := ph = Held /\ j = 0 /\ ret s = None.
Definition at_phase (s : state) (j : nat) (ph : phase) : Prop :=
  match ph with Used => forall p, ~ main_has s j p /\ forall i, i < next s -> ~ has s i j p | _ => main_has s j ph \/ exists i, i < next s /\ has s i j ph end.
Definition future_at (fs : Future.Model.state) (r : option Future.Model.result) (ph : phase) : Prop :=
  Future.Model.asserted fs = false /\ Future.Model.fulfilled fs = r /\
  match ph with
  | Held => Future.Model.ss_ff fs = r /\ Future.Model.ss_waiting fs = None /\ Future.Model.futs fs 0 = Future.Model.Fut None false Future.Model.Idle
  | Susp => Future.Model.ss_ff fs = r /\ Future.Model.ss_waiting fs = None /\ Future.Model.futs fs 0 = Future.Model.Fut None false Future.Model.Suspending
  | Wait => r = None /\ Future.Model.ss_ff fs = None /\ Future.Model.ss_waiting fs = Some 0 /\ Future.Model.futs fs 0 = Future.Model.Fut None false Future.Model.Waiting
  | Woke => r <> None /\ Future.Model.ss_ff fs = r /\ Future.Model.ss_waiting fs = None /\ Future.Model.futs fs 0 = Future.Model.Fut None false Future.Model.Woken
  | Used => r <> None /\ Future.Model.futs fs 0 = Future.Model.Fut r true Future.Model.Idle
  end.
(** what has been seen of it: the result is stored at most once, and taken at most once, after that *)
Definition seen (r : option Future.Model.result) (ph : phase) : list Future.Spec.obs :=
  match r with None => [] | Some x => Future.Spec.Fulfilled x :: match ph with Used => [Future.Spec.Got 0 (Future.Spec.as_outcome x)] | _ => [] end end.

