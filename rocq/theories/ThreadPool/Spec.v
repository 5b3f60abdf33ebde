From Coq Require Import List Arith Bool Permutation.
From Verif.Common Require Import TS.
From Verif.ThreadPool Require Import Model.
Import ListNotations.

Fixpoint accepted (log : list obs) : list nat :=
  match log with [] => [] | Accepted _ x :: l => x :: accepted l | _ :: l => accepted l end.
Fixpoint executed (log : list obs) : list nat :=
  match log with [] => [] | Begin _ x :: l => x :: executed l | _ :: l => executed l end.

(** what is still in the queues of the n workers *)
Fixpoint queued (n : nat) (s : state) : list nat :=
  match n with O => [] | S m => queues s m ++ queued m s end.

(** Only running tasks enqueue after stop was requested, nobody calls quick_stop. *)
Definition graceful (n : nat) (s : state) (e : event) : Prop :=
  match e with
  | EEnqPut a _ _ => stop_req s = true -> a < n
  | EQuick _ => False
  | _ => True
  end.

Definition all_workers_exited (n : nat) (s : state) : Prop := forall w, w < n -> wpcs s w = WExit.
