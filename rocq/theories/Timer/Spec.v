(** What a timer must do, stated on the log alone. [P] is the bag of sleeping coroutines of each thread. *)
From Coq Require Import List ZArith Bool Permutation.
From Verif.Common Require Import TS.
From Verif.Timer Require Import Model.
Import ListNotations.
Open Scope Z_scope.

Definition due (now : Z) (e : timer_event) : bool := timeout_tp e <=? now.
Definition not_due (now : Z) (e : timer_event) : bool := negb (due now e).

(** [d] is the distance from [now] to the earliest deadline in [P] *)
Definition earliest_distance (P : list timer_event) (now : Z) (d : option Z) : Prop :=
  match d with
  | None => P = []
  | Some d => (exists e, In e P /\ timeout_tp e = now + d) /\ (forall e, In e P -> now + d <= timeout_tp e)
  end.

(** Before stop: a poll of thread [t] at [now] resumes exactly the sleepers of [t] that are due, each once, and no
    other thread's sleepers; the rest keep sleeping. After stop nothing is constrained here. *)
Fixpoint timer_ok (P : nat -> list timer_event) (log : list obs) : Prop :=
  match log with
  | [] => True
  | Registered t :: log' => P t = [] /\ timer_ok P log'
  | Sleeps t te :: log' => timer_ok (upd P t (te :: P t)) log'
  | Dropped x :: log' => False
  | Resumed t now l :: log' =>
      Permutation l (filter (due now) (P t)) /\ timer_ok (upd P t (filter (not_due now) (P t))) log'
  | MaySleep t now d :: log' => earliest_distance (P t) now d /\ timer_ok P log'
  | Stopped :: _ => True
  | Cleared :: _ => True
  end.

(** All tasks put to sleep / resumed in a log. *)
Fixpoint slept (log : list obs) : list timer_event :=
  match log with
  | [] => []
  | Sleeps _ te :: log' => te :: slept log'
  | _ :: log' => slept log'
  end.
Fixpoint resumed (log : list obs) : list timer_event :=
  match log with
  | [] => []
  | Resumed _ _ l :: log' => l ++ resumed log'
  | _ :: log' => resumed log'
  end.

(** Use of the loop by registered threads only. *)
Definition registered_use (s : state) (e : event) : Prop :=
  match e with
  | EAdd t _ _ _ | EPoll1 t _ | EMaxSleep t _ => exists i, m_impl_ptrs s t = Ptr i
  | _ => True
  end.
