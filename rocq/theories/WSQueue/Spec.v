From Coq Require Import List Arith Permutation.
From Verif.Common Require Import TS.
From Verif.WSQueue Require Import Model.
Import ListNotations.

(** tasks handed in / handed out, from the log *)
Fixpoint ins (log : list obs) : list nat :=
  match log with [] => [] | In_ x :: l => x :: ins l | _ :: l => ins l end.
Fixpoint outs (log : list obs) : list nat :=
  match log with [] => [] | Out _ (Some x) :: l => x :: outs l | _ :: l => outs l end.

(** everything that is in the queue *)
Fixpoint contents (l : list tid) (f : tid -> list nat) : list nat :=
  match l with [] => [] | t :: l' => f t ++ contents l' f end.

Definition quiet (s : state) : Prop := forall t, at_ s t = Idle.

(** the queue is used by registered consumers, after at least one registered *)
Definition proper_use (s : state) (e : event) : Prop :=
  match e with
  | EEnqueue _ _ _ => keys s <> []
  | EDeqOwn t _ _ => In t (keys s)
  | _ => True
  end.
