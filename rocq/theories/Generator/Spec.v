From Coq Require Import List Arith Bool.
From Verif.Common Require Import TS.
From Verif.Generator Require Import Model.
Import ListNotations.

(** The sequence of answers a consumer must see: the values, then "no value" for ever. *)
Definition answer {V} (vals : list V) (k : nat) : option V := nth_error vals k.

(** [runs] decomposes a list into its maximal runs of equivalent consecutive elements *)
Fixpoint is_runs {V} (equal : V -> V -> bool) (runs : list (list V)) : Prop :=
  match runs with
  | [] => True
  | run1 :: runs' =>
      match run1 with
      | [] => False
      | x :: xs => (forall y, In y xs -> equal x y = true) /\
                   match runs' with
                   | (y :: _) :: _ => equal x y = false
                   | _ => True
                   end
      end /\ is_runs equal runs'
  end.
Definition heads {V} (runs : list (list V)) : list V := flat_map (fun r => match r with [] => [] | x :: _ => [x] end) runs.

(** [m] is made of [a] and [b], each in its own order *)
Inductive interleaving {V} : list V -> list V -> list V -> Prop :=
| I_nil : interleaving [] [] []
| I_left x a b m : interleaving a b m -> interleaving (x :: a) b (x :: m)
| I_right x a b m : interleaving a b m -> interleaving a (x :: b) (x :: m).

(** std::merge of two sequences: on ties the first sequence comes first *)
Fixpoint std_merge {V} (comp : V -> V -> bool) (a : list V) : list V -> list V :=
  fix go (b : list V) : list V :=
    match a, b with
    | [], _ => b
    | _, [] => a
    | x :: a', y :: b' => if comp y x then y :: go b' else x :: std_merge comp a' b
    end.

(** strict weak order, as the standard library asks of a comparator *)
Definition strict_weak {V} (comp : V -> V -> bool) : Prop :=
  (forall x, comp x x = false) /\
  (forall x y z, comp x y = true -> comp y z = true -> comp x z = true) /\
  (forall x y z, comp x y = false -> comp y x = false -> comp y z = false -> comp z y = false -> comp x z = false /\ comp z x = false).
(** sorted: no later element is less than an earlier one *)
Fixpoint sorted {V} (comp : V -> V -> bool) (l : list V) : Prop :=
  match l with [] => True | x :: l' => (forall y, In y l' -> comp y x = false) /\ sorted comp l' end.
