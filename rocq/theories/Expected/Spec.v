From Coq Require Import List.
From Verif.Expected Require Import Model.
Import ListNotations.

(** Two computations are the same if they end the same way and leave the same world, from every world. *)
Definition same {W X A} (c d : comp W X A) : Prop := forall w, c w = d w.

(** Instrument a function: record its argument in a list before running it. The list is the history of calls. *)
Definition recorded {W X T B} (f : T -> comp W X B) : T -> comp (W * list T) X B :=
  fun v wl => let (w, l) := wl in let (r, w') := f v w in (r, (w', l ++ [v])).

(** Calls made by a computation on a recorded function, and its result *)
Definition calls {W X T B} (c : comp (W * list T) X B) (w : W) : list T := snd (snd (c (w, []))).
Definition result {W X T B} (c : comp (W * list T) X B) (w : W) : outcome X B := fst (c (w, [])).
Definition effect {W X T B} (c : comp (W * list T) X B) (w : W) : W := fst (snd (c (w, []))).
