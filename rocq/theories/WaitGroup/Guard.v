(** Model of koios::wait_group_guard: /repo/include/koios/wait_group.h 70-112.
    Guards live in a table (index = object identity, [None] = destroyed). The groups are reduced to
    the log of add/done calls they receive. *)
From Coq Require Import List Arith Bool.
From Verif.Common Require Import TS ListX.
Import ListNotations.

(** wait_group.h 110-111 *)
Record guard := G { m_parent : option nat; m_count : nat }.

(* what the group sees: add() and done() calls, wait_group.h 70-112 *)
Inductive act := Add (g n : nat) | Done (g n : nat).
(* what the state keeps of wait_group.h 70-112 *)
Record state := St { guards : list (option guard); log : list act }.
(* before anything has happened; wait_group.h 70-112 *)
Definition init : state := {| guards := []; log := [] |}.

Inductive op :=
| ODefault                     (* 76 *)
| ONew (g n : nat)             (* 78-82 *)
| OMoveCtor (src : nat)        (* 84-88 *)
| OMoveAssign (dst src : nat)  (* 90-96 *)
| OClear (h : nat)             (* 107-110, public *)
| ODestroy (h : nat).          (* 98-105 *)

(* bookkeeping of the model, no counterpart in /repo *)
Definition get (s : state) (h : nat) : option guard :=
  match nth_error (guards s) h with Some (Some x) => Some x | _ => None end.
(* bookkeeping of the model, no counterpart in /repo *)
Definition put (s : state) (h : nat) (x : option guard) : state :=
  {| guards := set_nth h x (guards s); log := log s |}.
(* bookkeeping of the model, no counterpart in /repo *)
Definition new (s : state) (x : guard) : state := {| guards := guards s ++ [Some x]; log := log s |}.
(* bookkeeping of the model, no counterpart in /repo *)
Definition emit (s : state) (a : act) : state := {| guards := guards s; log := log s ++ [a] |}.

(** 107-110: m_parent = nullptr. Note: no done(). *)
Definition clear (s : state) (h : nat) : state :=
  match get s h with Some x => put s h (Some {| m_parent := None; m_count := m_count x |}) | None => s end.

(** 90-96: clear(); m_parent = exchange(other.m_parent, nullptr); m_count = other.m_count. *)
Definition move_assign (s : state) (dst src : nat) : state :=
  let s1 := clear s dst in
  let p := match get s1 src with Some x => m_parent x | None => None end in
  let s2 := clear s1 src in
  let s3 := match get s2 dst with
            | Some y => put s2 dst (Some {| m_parent := p; m_count := m_count y |}) | None => s2 end in
  let c := match get s3 src with Some x => m_count x | None => 0 end in
  match get s3 dst with
  | Some y => put s3 dst (Some {| m_parent := m_parent y; m_count := c |}) | None => s3 end.

(* what each step does: wait_group.h 70-112 *)
Definition step (s : state) (o : op) : option state :=
  match o with
  | ODefault => Some (new s {| m_parent := None; m_count := 0 |})
  | ONew g n => Some (new (emit s (Add g n)) {| m_parent := Some g; m_count := n |})
  | OMoveCtor src =>
      match get s src with
      | Some x => Some (new (clear s src) x)
      | None => None
      end
  | OMoveAssign dst src =>
      match get s dst, get s src with
      | Some _, Some _ => Some (move_assign s dst src)
      | _, _ => None
      end
  | OClear h => match get s h with Some _ => Some (clear s h) | None => None end
  | ODestroy h =>
      match get s h with
      | Some x => match m_parent x with
                  | Some g => Some (put (emit s (Done g (m_count x))) h None)
                  | None => Some (put s h None)
                  end
      | None => None
      end
  end.

(** ** Specification vocabulary *)
Definition is_add (g : nat) (a : act) : nat :=
  match a with Add g' n => if Nat.eqb g g' then n else 0 | Done _ _ => 0 end.
Definition is_done (g : nat) (a : act) : nat :=
  match a with Done g' n => if Nat.eqb g g' then n else 0 | Add _ _ => 0 end.
Definition added (g : nat) (l : list act) : nat := sumf (is_add g) l.
Definition undone (g : nat) (l : list act) : nat := sumf (is_done g) l.
Definition registered_of (g : nat) (x : option guard) : nat :=
  match x with
  | Some {| m_parent := Some g'; m_count := n |} => if Nat.eqb g g' then n else 0
  | _ => 0
  end.
Definition registered (g : nat) (s : state) : nat := sumf (registered_of g) (guards s).
Definition all_gone (s : state) : Prop := forall h, get s h = None.

(** The programs the balance theorem is about: nobody calls clear() on, or move-assigns over, a
    guard that still has a registration. *)
Definition no_overwrite (s : state) (o : op) : Prop :=
  match o with
  | OMoveAssign dst _ => forall x, get s dst = Some x -> m_parent x = None
  | OClear h => forall x, get s h = Some x -> m_parent x = None
  | _ => True
  end.
