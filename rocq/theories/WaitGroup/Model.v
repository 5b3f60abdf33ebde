(** Model of koios::wait_group at the granularity of its atomic operations.

    /repo/include/koios/wait_group.h 12-71.

    Simplifications: sequentially consistent atomics; the moodycamel queue is a bag (any element
    may be dequeued); wake_up hands the coroutine to the scheduler, which resumes it later.
    The counter is a size_t: arithmetic is modulo 2^64. *)
From Coq Require Import List Arith NArith Bool.
From Verif.Common Require Import TS.
Import ListNotations.
Local Open Scope N_scope.

(* environment, not code of /repo (size_t) *)
Definition size_max1 : N := 2 ^ 64.

(** atomic_size_t::fetch_add / fetch_sub *)
(* environment, not code of /repo (size_t) *)
Definition add64 (a b : N) : N := (a + b) mod size_max1.
(* environment, not code of /repo (size_t) *)
Definition sub64 (a b : N) : N := (a + (size_max1 - b mod size_max1)) mod size_max1.

(* where a coroutine or thread is in wait_group.h 12-68 *)
Inductive pc :=
| Idle
| Enqueuing   (* wait(): await_ready() returned false, not yet enqueued *)
| Waiting     (* suspended; its handle is in m_waitings *)
| Woken       (* dequeued and passed to wake_up *)
| Draining.   (* inside done(): fetch_sub returned 1, executing wake_up_all() *)

(* what the state keeps of wait_group.h 12-68 *)
Record state := St { count : N; waitings : list nat; at_ : nat -> pc }.
(* before anything has happened; wait_group.h 12-68 *)
Definition init : state := {| count := 0; waitings := []; at_ := fun _ => Idle |}.

Inductive event :=
| EAdd (i : nat) (n : N)       (* wait_group.h 15-18 *)
| EDone (i : nat) (n : N)      (* wait_group.h 20-26, up to the call of wake_up_all *)
| EDrain (i : nat) (k : nat)   (* one iteration of the loop 60-63: k-th element *)
| EDrainEnd (i : nat)          (* the loop's try_dequeue returns false *)
| EWait (i : nat)              (* co_await wait(): await_ready, 39-42, 28-31 *)
| EEnqueue (i : nat)           (* await_suspend, 44-47 *)
| EResume (i : nat).           (* the scheduler resumes a woken coroutine *)

(* bookkeeping of the model, no counterpart in /repo *)
Definition goto (s : state) (i : nat) (p : pc) : state :=
  {| count := count s; waitings := waitings s; at_ := upd (at_ s) i p |}.
(* bookkeeping of the model, no counterpart in /repo *)
Definition set_count (s : state) (c : N) : state :=
  {| count := c; waitings := waitings s; at_ := at_ s |}.

(* what each step does: wait_group.h 12-68 *)
Definition step (s : state) (e : event) : option state :=
  match e with
  | EAdd i n => match at_ s i with
                | Idle => Some (set_count s (add64 (count s) n))
                | _ => None
                end
  | EDone i n => match at_ s i with
                 | Idle => let old := count s in
                           let s1 := set_count s (sub64 old n) in
                           Some (if old =? 1 then goto s1 i Draining else s1)
                 | _ => None
                 end
  | EDrain i k => match at_ s i with
                  | Draining =>
                      match take_nth k (waitings s) with
                      | Some (w, rest) =>
                          Some (goto {| count := count s; waitings := rest; at_ := at_ s |} w Woken)
                      | None => None
                      end
                  | _ => None
                  end
  | EDrainEnd i => match at_ s i with
                   | Draining => match waitings s with
                                 | [] => Some (goto s i Idle)
                                 | _ => None
                                 end
                   | _ => None
                   end
  | EWait i => match at_ s i with
               | Idle => Some (goto s i (if count s =? 0 then Idle else Enqueuing))
               | _ => None
               end
  | EEnqueue i => match at_ s i with
                  | Enqueuing => Some (goto {| count := count s; waitings := waitings s ++ [i];
                                               at_ := at_ s |} i Waiting)
                  | _ => None
                  end
  | EResume i => match at_ s i with
                 | Woken => Some (goto s i Idle)
                 | _ => None
                 end
  end.
