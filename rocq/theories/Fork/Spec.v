(** C148: programs whose coroutines share nothing but results, and what such a program computes when nothing runs concurrently. *)
From Coq Require Import List Arith.
Import ListNotations.

Inductive result := Val (v : nat) | Exn (x : nat).
(** A coroutine that holds some futures, in the order it got them. What it does next may depend on every result it has seen. *)
Inductive code :=
| Ret (v : nat)
| Throw (x : nat)
| Emit (o : nat) (c : code)                                     (* something observable *)
| Suspend (c : code)                                            (* sleep, yield, I/O, ... *)
| Fork (eager : bool) (mask : list bool) (callee : code) (k : code)   (* auto f = callee(std::move(...)).run_and_get_future(): the new coroutine gets the futures in the mask; f is now the last one of the caller *)
| Await (a : nat) (k : result -> code).                         (* co_await of the a-th future: its value, or the exception rethrown; the future is used up *)

Fixpoint moved {A} (mask : list bool) (l : list A) : list A :=
  match mask, l with true :: m, x :: l => x :: moved m l | false :: m, _ :: l => moved m l | _, _ => [] end.
Fixpoint kept {A} (mask : list bool) (l : list A) : list A :=
  match mask, l with true :: m, _ :: l => kept m l | false :: m, x :: l => x :: kept m l | [], l => l | _, [] => [] end.
Definition without {A} (a : nat) (l : list A) : list A := firstn a l ++ skipn (S a) l.
(** every future that is awaited is there *)
Fixpoint wf (m : nat) (c : code) : Prop :=
  match c with
  | Ret _ | Throw _ => True
  | Emit _ c | Suspend c => wf m c
  | Fork _ mask c k => wf (length (moved mask (repeat tt m))) c /\ wf (S (length (kept mask (repeat tt m)))) k
  | Await a k => a < m /\ forall r, wf (m - 1) (k r)
  end.

(** What a coroutine returns or throws if everything it starts is run to its end at once; [env] are the results its futures will have. *)
Fixpoint meaning (c : code) (env : list result) : result :=
  match c with
  | Ret v => Val v
  | Throw x => Exn x
  | Emit _ c | Suspend c => meaning c env
  | Fork _ mask c k => meaning k (kept mask env ++ [meaning c (moved mask env)])
  | Await a k => let r := nth a env (Val 0) in meaning (k r) (without a env)
  end.
(** everything observable that it and the coroutines it starts do *)
Fixpoint effects (c : code) (env : list result) : list nat :=
  match c with
  | Ret _ | Throw _ => []
  | Emit o c => o :: effects c env
  | Suspend c => effects c env
  | Fork _ mask c k => effects c (moved mask env) ++ effects k (kept mask env ++ [meaning c (moved mask env)])
  | Await a k => let r := nth a env (Val 0) in effects (k r) (without a env)
  end.
Fixpoint cost (c : code) (env : list result) : nat :=
  match c with
  | Ret _ | Throw _ => 1
  | Emit _ c => 1 + cost c env
  | Suspend c => 3 + cost c env
  | Fork _ mask c k => 2 + cost c (moved mask env) + cost k (kept mask env ++ [meaning c (moved mask env)])
  | Await a k => let r := nth a env (Val 0) in 3 + cost (k r) (without a env)
  end.
(** how many coroutines there are in the end *)
Fixpoint tasks (c : code) (env : list result) : nat :=
  match c with
  | Ret _ | Throw _ => 1
  | Emit _ c | Suspend c => tasks c env
  | Fork _ mask c k => tasks c (moved mask env) + tasks k (kept mask env ++ [meaning c (moved mask env)])
  | Await a k => let r := nth a env (Val 0) in tasks (k r) (without a env)
  end.
