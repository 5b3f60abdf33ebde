(** Model of include/koios/functional.h: co_await_all over a range (61-86), for_each (96-110) and for_each_dispatch_evenly
    (123-143).

    The items of the range are numbered 0..n-1; what the coroutine called on item i ends with is [out i]: a value or an
    exception. The futures of plain co_await_all were obtained before the call ([launched] contains all items); the
    futures of for_each come from a views::transform, whose function launches item i when the loop dereferences the
    iterator at i (transform views are lazy). Items complete at any time after their launch, in any order.
    Simplifications: awaiting a future is atomic (C09/C10 model it); unordered results are not possible since results
    are pushed by the one awaiting coroutine. *)
From Coq Require Import List Arith Bool.
From Verif.Common Require Import TS.
Import ListNotations.

(* what a future answers with: functional.h 61-86 *)
Inductive result (V X : Type) := Val (v : V) | Exc (x : X).
Arguments Val {V X}. Arguments Exc {V X}.

Section F.
  Context {V X : Type}.
  Variable n : nat.                       (* length of the range *)
  Variable out : nat -> result V X.       (* what item i ends with *)
  Variable lazy : bool.                   (* for_each: true; co_await_all on futures: false *)

  Record state := St {
    pos : nat;                            (* items awaited so far = position of the iterator *)
    acc : list V;                         (* result, functional.h 67 *)
    launched : list nat;                  (* in launch order, latest first *)
    completed : list nat;
    fin : option (result (list V) X)      (* how the co_await_all coroutine ended *)
  }.

  (* before anything has happened; functional.h 61-110 *)
  Definition init : state := St 0 [] (if lazy then [] else rev (seq 0 n)) [] None.

  Inductive event :=
  | EDeref                (* dereference the iterator: launches the item if the range is a transform view, 105-110 *)
  | EComplete (i : nat)   (* item i ends *)
  | EResume               (* the awaiting coroutine gets the result of item pos, 68-71 / 82-85 *)
  | EEnd.                 (* iterator reached the end, 72 *)

  (* bookkeeping of the model, no counterpart in /repo *)
  Definition memb (i : nat) (l : list nat) : bool := existsb (Nat.eqb i) l.

  (* what each step does: functional.h 61-110 *)
  Definition next (s : state) (e : event) : option state :=
    match e with
    | EDeref => match fin s with
                | Some _ => None
                | None => if (pos s <? n) && lazy && negb (memb (pos s) (launched s))
                          then Some (St (pos s) (acc s) (pos s :: launched s) (completed s) None) else None
                end
    | EComplete i => if memb i (launched s) && negb (memb i (completed s))
                     then Some (St (pos s) (acc s) (launched s) (i :: completed s) (fin s)) else None
    | EResume => match fin s with
                 | Some _ => None
                 | None => if (pos s <? n) && memb (pos s) (completed s)
                           then match out (pos s) with
                                | Val v => Some (St (S (pos s)) (acc s ++ [v]) (launched s) (completed s) None)
                                | Exc x => Some (St (pos s) (acc s) (launched s) (completed s) (Some (Exc x)))
                                end
                           else None
                 end
    | EEnd => match fin s with
              | Some _ => None
              | None => if pos s =? n then Some (St (pos s) (acc s) (launched s) (completed s) (Some (Val (acc s)))) else None
              end
    end.
End F.

(** for_each_dispatch_evenly 129-140: the static counter shared by all calls in the program. [W] = 2^64 is the modulus of
    std::atomic_size_t, [t] = consumer_attrs().size(). A dispatch by any caller takes the counter and increments it
    (fetch_add); the item goes to thread counter mod t. *)
Section D.
  Variables (W t : nat).
  (* the counter of for_each_dispatch_evenly, functional.h 123-143 *)
  Record dstate := DSt { counter : nat; log : list (nat * nat) }.   (* (caller, thread), latest first *)
  (* functional.h 123-143 *)
  Definition dinit (c : nat) : dstate := DSt c [].
  (* one dispatch, functional.h 123-143 *)
  Definition dnext (s : dstate) (caller : nat) : option dstate :=
    Some (DSt (S (counter s) mod W) ((caller, counter s mod t) :: log s)).
End D.
