(** Model of koios::timer_event_loop(_impl).

    /repo/include/koios/timer.h 33-215, src/timer.cc 20-131, include/koios/this_task.h 24-70.

    Simplifications: time points and durations are unbounded integers (int64 nanoseconds in the code); a
    task_on_the_fly is an identifier; the scheduler's enqueue is the observation "resumed".
    std::push_heap / std::pop_heap are not part of /repo: they are parameters of the model
    ([heap_ops]), constrained in the theorems only by what the C++ standard guarantees ([std_heap]). *)
From Coq Require Import List Arith ZArith Bool Permutation.
From Verif.Common Require Import TS.
Import ListNotations.
Open Scope Z_scope.

(** timer.h 33-43; operator<=> timer.cc 127-131 compares time points only *)
Record timer_event := Ev { timeout_tp : Z; task : nat }.

(** std::push_heap(begin, end, greater): the whole range, last element new.
    std::pop_heap(begin, end, greater): the whole range. *)
(* std::push_heap, std::pop_heap: environment, not code of /repo *)
Record heap_ops := { push_heap : list timer_event -> list timer_event; pop_heap : list timer_event -> list timer_event }.

(** is_heap with std::greater: no element is smaller than its parent. *)
(* C++ standard, environment, not code of /repo *)
Definition is_heap (l : list timer_event) : Prop :=
  forall i x p, (0 < i)%nat -> nth_error l i = Some x -> nth_error l ((i - 1) / 2) = Some p -> timeout_tp p <= timeout_tp x.

(** [push.heap], [pop.heap] of the C++ standard. *)
(* C++ standard, environment, not code of /repo *)
Record std_heap (H : heap_ops) : Prop := {
  push_ok : forall l x, is_heap l -> is_heap (push_heap H (l ++ [x])) /\ Permutation (push_heap H (l ++ [x])) (l ++ [x]);
  pop_ok : forall x l, is_heap (x :: l) ->
    exists l', pop_heap H (x :: l) = l' ++ [x] /\ is_heap l' /\ Permutation l' l
}.

Section Timer.
Variable H : heap_ops.

(** one thread's timer (m_timer_heap); [polling]: a do_occured_nonblk call of this thread between its two lock
    acquisitions, with the [now] it read *)
(* timer_event_loop_impl, timer.h 50-125; polling: inside do_occured_nonblk, timer.cc 20-59 *)
Record impl := Impl { m_timer_heap : list timer_event; polling : option Z }.

(** timer.cc 73-83 (add_event_impl) *)
Definition add_event_impl (h : list timer_event) (te : timer_event) : list timer_event :=
  push_heap H (h ++ [te]).

(** timer.cc 44-50: the pop loop. [live] is [begin, heap_end), [exp] is [heap_end, end). [fuel] bounds the
    iterations by the number of elements ([None] = exhausted, shown impossible). *)
Fixpoint pop_loop (fuel : nat) (now : Z) (live exp : list timer_event) : option (list timer_event * list timer_event) :=
  match live with
  | [] => None                                   (* m_timer_heap.front() of an empty range: excluded by the code *)
  | f :: _ =>
      if timeout_tp f <=? now then
        match fuel with
        | O => None
        | S fuel' =>
            let popped := pop_heap H live in
            let live' := removelast popped in     (* --heap_end *)
            let exp' := last popped f :: exp in
            match live' with
            | [] => Some ([], exp')               (* == begin: break *)
            | _ => pop_loop fuel' now live' exp'
            end
        end
      else Some (live, exp)
  end.

(** timer.cc 38-58: under the unique lock. Result: new heap, tasks enqueued in order. *)
Definition take_expired (now : Z) (h : list timer_event) : option (list timer_event * list timer_event) :=
  match h with
  | [] => Some ([], [])
  | _ => pop_loop (length h) now h []
  end.

(** timer.h 94-100; [None] is nanoseconds::max() *)
Definition impl_max_sleep (now : Z) (h : list timer_event) : option Z :=
  match h with [] => None | f :: _ => Some (timeout_tp f - now) end.

(** The map thread id -> unique_ptr: absent, present but null, or an impl. *)
(* an entry of m_impl_ptrs, timer.h 193-212 *)
Inductive slot := Absent | Null | Ptr (i : impl).

(* what the state keeps of timer.h 33-215, timer.cc 20-131 *)
Record state := St { m_impl_ptrs : nat -> slot; stop_requested : bool; ub : bool }.
(* before anything has happened; timer.h 33-215, timer.cc 20-131 *)
Definition init : state := {| m_impl_ptrs := fun _ => Absent; stop_requested := false; ub := false |}.

Inductive event :=
| EPrepare (t : nat)                          (* thread_specific_preparation, timer.h 176-185 *)
| EAdd (t : nat) (now dura : Z) (x : nat)     (* add_event(duration, task) on thread t, timer.h 70-74, 145-159 *)
| EPoll1 (t : nat) (now : Z)                  (* do_occured_nonblk up to lk.unlock(), timer.cc 20-36 *)
| EPoll2 (t : nat)                            (* the rest, timer.cc 38-59 *)
| EMaxSleep (t : nat) (now : Z)               (* max_sleep_duration, timer.h 161-168 *)
| EStop                                       (* stop, timer.h 171 *)
| EQuickStop.                                 (* quick_stop, timer.cc 99-108 *)

(* bookkeeping of the model, no counterpart in /repo *)
Definition set_slot (s : state) t x := St (upd (m_impl_ptrs s) t x) (stop_requested s) (ub s).
(* undefined behaviour is recorded: bookkeeping of the model, no counterpart in /repo *)
Definition boom (s : state) : state := St (m_impl_ptrs s) (stop_requested s) true.

(* specification, no counterpart in /repo (what a user can observe) *)
Inductive obs :=
| Registered (t : nat)
| Sleeps (t : nat) (te : timer_event)         (* a coroutine put itself to sleep on t's timer *)
| Dropped (x : nat)                           (* add_event after stop: the task is destroyed *)
| Resumed (t : nat) (now : Z) (l : list timer_event)  (* one poll at [now] handed these to the scheduler, in this order *)
| MaySleep (t : nat) (now : Z) (d : option Z)
| Stopped
| Cleared.

(** cur_thread_ptr (timer.h 193-206): m_impl_ptrs[id] inserts a null pointer if absent; the [contains] test
    that follows is then always true, so the null pointer is returned and dereferenced. *)
Definition deref (s : state) (t : nat) (k : impl -> state * list obs) : state * list obs :=
  match m_impl_ptrs s t with
  | Ptr i => k i
  | _ => (boom (set_slot s t Null), [])
  end.

(* what each step does: timer.h 33-215, timer.cc 20-131 *)
Definition step (s : state) (e : event) : option (state * list obs) :=
  if ub s then None else
  match e with
  | EPrepare t => match m_impl_ptrs s t with
                  | Absent => Some (set_slot s t (Ptr (Impl [] None)), [Registered t])
                  | _ => Some (s, [])                       (* insert: key exists, no effect *)
                  end
  | EAdd t now dura x =>
      if stop_requested s then Some (s, [Dropped x])
      else Some (deref s t (fun i =>
             let te := Ev (now + dura) x in
             (set_slot s t (Ptr (Impl (add_event_impl (m_timer_heap i) te) (polling i))), [Sleeps t te])))
  | EPoll1 t now =>
      Some (deref s t (fun i =>
        if stop_requested s then (s, [Resumed t now []])
        else match m_timer_heap i with
             | [] => (s, [Resumed t now []])
             | f :: _ => if now <? timeout_tp f then (s, [Resumed t now []])
                         else (set_slot s t (Ptr (Impl (m_timer_heap i) (Some now))), [])
             end))
  | EPoll2 t =>
      match m_impl_ptrs s t with
      | Ptr i => match polling i with
                 | Some now => match take_expired now (m_timer_heap i) with
                               | Some (h, l) => Some (set_slot s t (Ptr (Impl h None)), [Resumed t now l])
                               | None => Some (boom s, [])
                               end
                 | None => None
                 end
      | _ => None
      end
  | EMaxSleep t now =>
      if stop_requested s then Some (s, [MaySleep t now None])
      else Some (deref s t (fun i => (s, [MaySleep t now (impl_max_sleep now (m_timer_heap i))])))
  | EStop => Some (St (m_impl_ptrs s) true (ub s), [Stopped])
  | EQuickStop =>
      (* iterates over all entries; a null entry would be dereferenced (only present after [boom]) *)
      Some (St (fun t => match m_impl_ptrs s t with Ptr i => Ptr (Impl [] (polling i)) | x => x end) true (ub s), [Cleared])
  end.

(* bookkeeping of the model, no counterpart in /repo *)
Definition next (s : state) (e : event) : option state := option_map fst (step s e).
(* specification, no counterpart in /repo (what a user can observe) *)
Definition observe (s : state) (e : event) (_ : state) : list obs :=
  match step s e with Some (_, o) => o | None => [] end.

End Timer.

(** this_task.h 24-47: sleep_await: ready at once iff the duration is zero. [None] = does not suspend. *)
Definition sleep_for (dura : Z) : option Z := if dura =? 0 then None else Some dura.
(** this_task.h 64-70: clamp, then sleep_for. *)
Definition sleep_until (tp now : Z) : option Z :=
  let d := tp - now in sleep_for (if 0 <? d then d else 0).
