From Coq Require Import List Arith Bool.
From Verif.Common Require Import TS.
From Verif.Functional Require Import Model.
Import ListNotations.

(** The result of awaiting items in range order: all values, or the exception of the first failing item. *)
Fixpoint await_in_order {V X} (l : list (result V X)) : result (list V) X :=
  match l with
  | [] => Val []
  | Exc x :: _ => Exc x
  | Val v :: l' => match await_in_order l' with Val vs => Val (v :: vs) | Exc x => Exc x end
  end.

(** items launched but not completed *)
Definition in_flight {V X} (s : @state V X) (i : nat) : Prop := In i (launched s) /\ ~ In i (completed s).

(** number of dispatches to thread [i], over all callers *)
Definition load (i : nat) (l : list (nat * nat)) : nat := length (filter (fun p => Nat.eqb (snd p) i) l).
Definition load_of (c i : nat) (l : list (nat * nat)) : nat :=
  length (filter (fun p => Nat.eqb (fst p) c && Nat.eqb (snd p) i) l).
