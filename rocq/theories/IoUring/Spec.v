(** Specification vocabulary for C22-C24, C42, C58, C59. *)
From Coq Require Import List Arith ZArith Bool.
From Verif.IoUring Require Import Model.
Import ListNotations.

(** The operations asked for by a sequence of calls, in order; and the most recent deadline, if any was given. *)
Fixpoint operations (l : list call) : list nat :=
  match l with [] => [] | Prep n :: l' => n :: operations l' | _ :: l' => operations l' end.
Fixpoint deadline (l : list call) (acc : option Z) : option Z :=
  match l with [] => acc | Timeout (Some d) :: l' => deadline l' (Some d) | _ :: l' => deadline l' acc end.
Definition no_clear (l : list call) : Prop := ~ In Clear l.

Fixpoint do_calls (r : rep) (l : list call) : option rep :=
  match l with [] => Some r | c :: l' => match do_call r c with Some r' => do_calls r' l' | None => None end end.

(** What the kernel should be handed: the operations in order, then the deadline; every entry linked but the last. *)
Definition wanted (l : list call) : list opk :=
  map Oper (operations l) ++ match deadline l None with Some d => [LinkTimeout d] | None => [] end.
Definition linked_all_but_last (l : list sqe) : Prop :=
  forall i q, nth_error l i = Some q -> q_link q = negb (S i =? length l).

(** The completions the kernel produced for execution [x], in the order it produced them. *)
Definition completions (s : state) (x : nat) : list ret :=
  map snd (filter (fun p => fst p =? x) (klog s)).

(** Execution [x] was handed to a ring and its coroutine has not been put back on the scheduler's queue. *)
Definition outstanding (s : state) (x w a : nat) (ops : list opk) : Prop :=
  In (x, (w, a, ops)) (submitted s) /\ ~ In x (map fst (resumed s)).

(** How a program is expected to use batches: a batch is executed once (a new one is made for the next execution), is not
    touched while it is being executed, and fits the submission queue. *)
Definition registered_batch (s : state) (b : nat) : Prop :=
  exists w r e, m_impl s w = Some r /\ In e (m_opreps r) /\ e_b e = b.
Definition fits (s : state) (w b : nat) : Prop :=
  forall r, m_impl s w = Some r -> length (sq r) + length (m_sqes (reps s b)) <= sq_entries.
Definition proper (s : state) (ev : event) : Prop :=
  match ev with
  | ECall b c => ~ registered_batch s b /\ do_call (reps s b) c <> None
  | ENew b => ~ registered_batch s b
  | EExec w a b k => m_impl s w <> None /\ ~ registered_batch s b /\ m_rets (reps s b) = [] /\ m_sqes (reps s b) <> [] /\ fits s w b
  | EPollBegin w => m_impl s w <> None
  | _ => True
  end.
