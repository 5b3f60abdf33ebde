(** What the programs of Scoped.v mean, one task at a time, without scheduler; and the programs C145 is about. *)
From Coq Require Import List Arith.
From Verif.Structured Require Import Model Spec Scoped.
Import ListNotations.

Section S.
  Variable bodies : nat -> code.
  (** [means c o st]: [c] ends normally (o = None) or with exception x (o = Some x), and starts the tasks [st]. Nothing in it depends on other tasks but the results of those it awaits. *)
  Inductive means : code -> option nat -> list nat -> Prop :=
  | m_skip : means Skip None []
  | m_seq a b s1 o s2 : means a None s1 -> means b o s2 -> means (Seq a b) o (s1 ++ s2)
  | m_seq_x a b x s1 : means a (Some x) s1 -> means (Seq a b) (Some x) s1
  | m_suspend : means Suspend None []
  | m_throw x : means (Throw x) (Some x) []
  | m_locked m c o s : means c o s -> means (Locked m c) o s
  | m_wait g : means (WaitFor g) None []
  | m_start t : means (Start t) None [t]
  | m_with t c o s s' : means c None s -> means (bodies t) o s' -> means (With t c) o (t :: s)       (* co_await gives the task's result *)
  | m_with_x t c x s : means c (Some x) s -> means (With t c) (Some x) (t :: s)
  | m_try c h s : means c None s -> means (Try c h) None s
  | m_try_x c h x s o s' : means c (Some x) s -> means h o s' -> means (Try c h) o (s ++ s').
  Variable roots : nat -> bool.
  Inductive begun : nat -> Prop :=
  | b_root i : roots i = true -> begun i
  | b_start i o st t : begun i -> means (bodies i) o st -> In t st -> begun t.

  Variable rank : res -> nat.
  Variable given : nat -> list nat.
  (** waits only for what comes later in the order than its own result, the mutexes it has and the groups it reports to *)
  Fixpoint ok (self : nat) (held : list res) (c : code) : Prop :=
    match c with
    | Skip | Suspend | Throw _ | Start _ => True
    | Seq a b => ok self held a /\ ok self held b
    | Locked m c => may_wait rank self held (M m) /\ ok self (M m :: held) c
    | WaitFor g => may_wait rank self held (G g)
    | With t c => may_wait rank self held (F t) /\ ok self held c
    | Try c h => ok self held c /\ ok self held h
    end.
  (** the tasks it can start *)
  Fixpoint starts_of (c : code) : list nat :=
    match c with
    | Skip | Suspend | Throw _ | WaitFor _ => []
    | Seq a b | Try a b => starts_of a ++ starts_of b
    | Locked _ c => starts_of c
    | Start t => [t]
    | With t c => t :: starts_of c
    end.
  Record well_scoped (n : nat) : Prop := {
    ws_ok : forall i, i < n -> ok i (map G (given i)) (bodies i);
    ws_roots : forall i, roots i = true -> i < n /\ given i = [];
    ws_starts : forall i t, i < n -> In t (starts_of (bodies i)) -> t < n /\ roots t = false;
    ws_once : forall i, i < n -> NoDup (starts_of (bodies i));
    ws_one : forall i j t, i < n -> j < n -> In t (starts_of (bodies i)) -> In t (starts_of (bodies j)) -> i = j }.
End S.
Definition stuck n given (s : Scoped.state) : Prop := forall e, Scoped.step n given s e = None.
Fixpoint size (c : code) : nat :=
  match c with
  | Skip | Suspend | Throw _ | WaitFor _ | Start _ => 1
  | Seq a b => 1 + size a + size b
  | Locked _ c => 2 + size c
  | With _ c => 3 + size c
  | Try c h => 2 + size c + size h
  end.
