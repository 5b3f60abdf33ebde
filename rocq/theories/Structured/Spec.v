(** The programs C139 is about. *)
From Coq Require Import List Arith Bool.
From Verif.Structured Require Import Model.
Import ListNotations.

Definition res_eq_dec : forall a b : res, {a = b} + {a <> b}.
Proof. decide equality; apply Nat.eq_dec. Defined.
(** one occurrence less *)
Fixpoint less (r : res) (l : list res) : list res := match l with [] => [] | x :: l' => if res_eq_dec x r then l' else x :: less r l' end.
Fixpoint give (gs : list nat) (l : list res) : option (list res) :=
  match gs with [] => Some l | g :: gs' => if in_dec res_eq_dec (G g) l then give gs' (less (G g) l) else None end.

Section Ordered.
  (** an order on mutexes, groups and tasks *)
  Variable rank : res -> nat.
  (** the done() calls that a task owes when it is started: its starter added them *)
  Variable given : nat -> list nat.
  (** Task [self] has locked the mutexes and owes the done() calls in [held], and has the futures of [futs]: it can wait for [r]. Its own result counts as
      something others may wait for. *)
  Definition may_wait (self : nat) (held : list res) (r : res) : Prop := rank (F self) < rank r /\ forall h, In h held -> rank h < rank r.
  (** unlocks what it locked, pays the done() calls it owes or hands them to the tasks it starts, awaits only futures it has, once, waits only for what comes later in the order than all
      it holds and owes, and ends holding and owing nothing *)
  Fixpoint ordered (self : nat) (held : list res) (futs : list nat) (p : list action) : Prop :=
    match p with
    | [] => held = []
    | Lock m :: p => may_wait self held (M m) /\ ordered self (M m :: held) futs p
    | Unlock m :: p => In (M m) held /\ ordered self (less (M m) held) futs p
    | Add g k :: p => ordered self (repeat (G g) k ++ held) futs p
    | Done g :: p => In (G g) held /\ ordered self (less (G g) held) futs p
    | Wait g :: p => may_wait self held (G g) /\ ordered self held futs p
    | Spawn t :: p => exists held', give (given t) held = Some held' /\ ordered self held' (t :: futs) p
    | Join t :: p => In t futs /\ may_wait self held (F t) /\ ordered self held (remove Nat.eq_dec t futs) p
    | Pause :: p => ordered self held futs p
    end.
End Ordered.

Fixpoint starts (p : list action) : list nat := match p with [] => [] | Spawn t :: p => t :: starts p | _ :: p => starts p end.
(** [n] tasks, those of [roots] started from outside; every other one is started at most once, by one other *)
Record well_formed (n : nat) (roots : nat -> bool) (progs : nat -> list action) (rank : res -> nat) (given : nat -> list nat) : Prop := {
  wf_ordered : forall i, i < n -> ordered rank given i (if roots i then [] else map G (given i)) [] (progs i);
  wf_roots : forall i, roots i = true -> i < n;
  wf_starts : forall i t, i < n -> In t (starts (progs i)) -> t < n /\ roots t = false;
  wf_once : forall i, i < n -> NoDup (starts (progs i));
  wf_one : forall i j t, i < n -> j < n -> In t (starts (progs i)) -> In t (starts (progs j)) -> i = j }.
(** started, if all goes well *)
Inductive reached (roots : nat -> bool) (progs : nat -> list action) : nat -> Prop :=
| r_root i : roots i = true -> reached roots progs i
| r_start i t : reached roots progs i -> In t (starts (progs i)) -> reached roots progs t.
Definition stuck (n : nat) (s : state) : Prop := forall e, step n s e = None.
