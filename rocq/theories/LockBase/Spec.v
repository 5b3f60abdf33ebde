(** What the mutex sees of the handles: acquisitions and releases, in order. *)
From Coq Require Import List Arith.
From Verif.Common Require Import TS ListX.
From Verif.LockBase Require Import Model.
Import ListNotations.

Definition is_acq (m : nat) (a : act) : nat :=
  match a with Acq m' => if Nat.eqb m m' then 1 else 0 | Rel _ => 0 end.
Definition is_rel (m : nat) (a : act) : nat :=
  match a with Rel m' => if Nat.eqb m m' then 1 else 0 | Acq _ => 0 end.

(** number of acquisitions / releases of mutex [m] in a log *)
Definition acquired (m : nat) (l : list act) : nat := sumf (is_acq m) l.
Definition released (m : nat) (l : list act) : nat := sumf (is_rel m) l.

(** A live handle that holds an acquisition of [m]: it points to [m] and says it owns it. *)
Definition holds (m : nat) (x : option handle) : nat :=
  match x with
  | Some {| m_mutex := Some m'; m_owns := true |} => if Nat.eqb m m' then 1 else 0
  | _ => 0
  end.
Definition holders (m : nat) (s : state) : nat := sumf (holds m) (handles s).

(** No handle object is left. *)
Definition all_gone (s : state) : Prop := forall h, get s h = None.
