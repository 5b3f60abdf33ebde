(** What users of a wait_group observe, and the abstract automaton that says which logs are legal.
    The automaton knows nothing about queues or atomics: a counter, who is suspended, who has been
    resumed, and who is inside a done() call that brought the counter to zero. *)
From Coq Require Import List Arith NArith Bool.
From Verif.Common Require Import TS.
From Verif.WaitGroup Require Import Model.
Import ListNotations.
Local Open Scope N_scope.

Inductive obs :=
| OAdd (i : nat) (n : N)       (* i called add(n) *)
| ODone (i : nat) (n : N)      (* i called done(n): counter decremented *)
| OWakes (i w : nat)           (* that done() call of i resumes waiter w *)
| ODoneRet (i : nat)           (* i's done() returned *)
| OPasses (w : nat)            (* w's wait() completed without suspending *)
| OSuspends (w : nat)          (* w's wait() suspended *)
| OResumed (w : nat).          (* w continues after wait() *)

Definition observe (s : state) (e : event) (s' : state) : list obs :=
  match e with
  | EAdd i n => [OAdd i n]
  | EDone i n => ODone i n :: match at_ s' i with Draining => [] | _ => [ODoneRet i] end
  | EDrain i k => match take_nth k (waitings s) with Some (w, _) => [OWakes i w] | None => [] end
  | EDrainEnd i => [ODoneRet i]
  | EWait i => match at_ s' i with Enqueuing => [OSuspends i] | _ => [OPasses i] end
  | EEnqueue _ => []
  | EResume i => [OResumed i]
  end.

Record spec := Sp {
  counter : N;
  suspended : nat -> bool;   (* waiting to be resumed *)
  resumed : nat -> bool;     (* resumption ordered, not yet running *)
  zeroing : nat -> bool      (* is inside a done() that brought the counter to zero *)
}.
Definition spec_init : spec :=
  {| counter := 0; suspended := fun _ => false; resumed := fun _ => false; zeroing := fun _ => false |}.

Inductive spec_step : spec -> obs -> spec -> Prop :=
| sp_add c sus res z i n :
    spec_step (Sp c sus res z) (OAdd i n) (Sp (c + n) sus res z)
| sp_done c sus res z i n :
    n <= c ->
    spec_step (Sp c sus res z) (ODone i n) (Sp (c - n) sus res (upd z i (c - n =? 0)))
| sp_wakes c sus res z i w :
    z i = true -> sus w = true -> res w = false ->
    spec_step (Sp c sus res z) (OWakes i w) (Sp c (upd sus w false) (upd res w true) z)
| sp_done_ret c sus res z i :
    spec_step (Sp c sus res z) (ODoneRet i) (Sp c sus res (upd z i false))
| sp_passes c sus res z w :
    c = 0 -> sus w = false -> res w = false ->
    spec_step (Sp c sus res z) (OPasses w) (Sp c sus res z)
| sp_suspends c sus res z w :
    c <> 0 -> sus w = false -> res w = false ->
    spec_step (Sp c sus res z) (OSuspends w) (Sp c (upd sus w true) res z)
| sp_resumed c sus res z w :
    res w = true ->
    spec_step (Sp c sus res z) (OResumed w) (Sp c sus (upd res w false) z).

Inductive accepts : spec -> list obs -> Prop :=
| acc_nil sp : accepts sp []
| acc_cons sp o sp' log : spec_step sp o sp' -> accepts sp' log -> accepts sp (o :: log).

(** Documented use: done() is called with a positive amount that was registered before, and the
    counter does not overflow its size_t. *)
Definition legal (s : state) (e : event) : Prop :=
  match e with
  | EAdd _ n => count s + n < 2 ^ 64
  | EDone _ n => 1 <= n <= count s
  | _ => True
  end.

Definition quiescent (s : state) : Prop := forall i, at_ s i = Idle \/ at_ s i = Waiting.

(** done() never jumps over the value 1 to zero, and a waiter enqueues only while the counter is
    positive or some done() is still draining the queue. *)
Definition in_time (s : state) (e : event) : Prop :=
  legal s e /\
  match e with
  | EDone _ n => n = count s -> n = 1
  | EEnqueue _ => count s <> 0 \/ exists j, at_ s j = Draining
  | _ => True
  end.

(** No add() while a done() is still resuming waiters. *)
Definition no_reuse_while_draining (s : state) (e : event) : Prop :=
  legal s e /\
  match e with EAdd _ n => n = 0 \/ forall j, at_ s j <> Draining | _ => True end.
