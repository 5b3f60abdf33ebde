(** What the consumers observe. *)
From Coq Require Import List Arith.
From Verif.Common Require Import TS.
From Verif.Future Require Import Model.
Import ListNotations.

Inductive obs :=
| Fulfilled (r : result)        (* the promise side stored r *)
| Got (i : nat) (o : outcome)   (* consumer i's get / get_nonblk / co_await ended like this *)
| SaysReady (i : nat) (b : bool).

Definition observe (s : state) (e : event) (s' : state) : list obs :=
  match e with
  | ESet r _ => [Fulfilled r]
  | EReady i => [SaysReady i (match m_ff (futs s' i) with Some _ => true | None => false end)]
  | EGetNonblk i => [Got i (snd (get_nonblk s i))]
  | EGet i => if m_has_got (futs s i) then [Got i AlreadyGot] else []
  | EGetRest i => [Got i (snd (get_nonblk (fetch s i) i))]
  | EAwait i => match at_ (futs s' i) with
                | Suspending => []
                | _ => [Got i (snd (get_nonblk (fetch s i) i))]
                end
  | EResume i => [Got i (snd (get_nonblk s i))]
  | _ => []
  end.

Definition as_outcome (r : result) : outcome :=
  match r with Value v => Returns v | Exception e => Rethrows e end.

(** A log delivers faithfully: results only come after fulfilment, are exactly the stored result, and are
    delivered at most once over all consumers. *)
Fixpoint faithful (stored : option result) (delivered : bool) (log : list obs) : Prop :=
  match log with
  | [] => True
  | Fulfilled r :: log' => stored = None /\ faithful (Some r) delivered log'
  | Got _ (Returns v) :: log' => stored = Some (Value v) /\ delivered = false /\ faithful stored true log'
  | Got _ (Rethrows e) :: log' => stored = Some (Exception e) /\ delivered = false /\ faithful stored true log'
  | Got _ NotReady :: log' => faithful stored delivered log'
  | Got _ AlreadyGot :: log' => delivered = true /\ faithful stored delivered log'
  | SaysReady _ b :: log' => (b = true -> stored <> None) /\ faithful stored delivered log'
  end.

(** Consumer [i] is inside a co_await that has not finished. *)
Definition awaiting (s : state) (i : nat) : Prop :=
  at_ (futs s i) = Suspending \/ at_ (futs s i) = Waiting \/ at_ (futs s i) = Woken.

(** Some consumer already took the result. *)
Definition takes (o : obs) : bool :=
  match o with Got _ (Returns _) | Got _ (Rethrows _) => true | _ => false end.
Definition taken (log : list obs) : bool := existsb takes log.

(** The promise has been fulfilled with this. *)
Fixpoint stored (log : list obs) : option result :=
  match log with
  | [] => None
  | Fulfilled r :: _ => Some r
  | _ :: log' => stored log'
  end.

(** What get_nonblk() must answer after the history [log] *)
Definition answer (log : list obs) : outcome :=
  match stored log with
  | None => NotReady
  | Some r => if taken log then AlreadyGot else as_outcome r
  end.
