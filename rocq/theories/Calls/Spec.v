(** C146: what a coroutine that awaits its calls means, read as a program of ordinary function calls. *)
From Coq Require Import List Arith.
Import ListNotations.

Inductive result := Val (v : nat) | Exn (x : nat).
(** An observable effect: of a body, or of the destructor of a local variable that exists when a body ends. *)
Inductive obs := Eff (o : nat) | Dtor (d : nat).
(** A coroutine body that ends, with whatever control flow between its effects: what it does next may depend on all results it got. *)
Inductive code :=
| Ret (v : nat)                                                     (* co_return v *)
| Throw (x : nat)
| Emit (o : nat) (c : code)
| Suspend (c : code)                                                (* a co_await that comes back by itself: sleep, I/O, ... *)
| Call (eager : bool) (callee : code) (locals : list nat) (k : result -> code).   (* co_await f(...): task<> or lazy_task<>; the destructors of the locals of f, in the order they run; k: what the caller does with the value, or the exception *)

(** As function calls: the callee, then its destructors, then the rest of the caller. *)
Fixpoint meaning (c : code) : list obs * result :=
  match c with
  | Ret v => ([], Val v)
  | Throw x => ([], Exn x)
  | Emit o c => (Eff o :: fst (meaning c), snd (meaning c))
  | Suspend c => meaning c
  | Call _ c ds k => (fst (meaning c) ++ map Dtor ds ++ fst (meaning (k (snd (meaning c)))), snd (meaning (k (snd (meaning c)))))
  end.
(** of a whole program: a body and its locals *)
Definition program (c : code) (ds : list nat) : list obs := fst (meaning c) ++ map Dtor ds.
Definition is_eff (x : obs) : bool := match x with Eff _ => true | Dtor _ => false end.
(** [delayed p q]: [q] is [p], but for destructors that run later than in [p] (whatever ran between). *)
Inductive delayed (p : list obs) : list obs -> Prop :=
| d_same : delayed p p
| d_late l1 d x l2 : delayed p (l1 ++ Dtor d :: x :: l2) -> delayed p (l1 ++ x :: Dtor d :: l2).
Definition prefix {A} (a b : list A) : Prop := exists c, b = a ++ c.
(** how many steps it can take *)
Fixpoint cost (c : code) : nat :=
  match c with
  | Ret _ | Throw _ => 1
  | Emit _ c => 1 + cost c
  | Suspend c => 3 + cost c
  | Call _ c ds k => 8 + cost c + length ds + cost (k (snd (meaning c)))
  end.
