(** Model of event_loop<Loops...> (include/koios/event_loop.h) and user_event_loops (src/user_event_loop.cc). *)
From Coq Require Import List Arith Bool.
From Verif.Common Require Import TS.
Import ListNotations.

(** * One polling round, event_loop.h 53-59 and user_event_loop.cc 62-72. A component loop is a function from the state of the world
    to its answer and the new state; [polled] logs which loops were polled. *)
Section Poll.
  Context {Wd : Type}.
  (* one base class's do_occured_nonblk, event_loop.h 53-60 *)
  Definition loop := Wd -> bool * Wd.
  (** event_loop.h 55-58: fold over the comma operator; result = result || val *)
  Fixpoint poll_from (i : nat) (loops : list loop) (result : bool) (polled : list nat) (w : Wd) : bool * list nat * Wd :=
    match loops with
    | [] => (result, polled, w)
    | lp :: loops' => let '(val, w') := lp w in poll_from (S i) loops' (result || val) (polled ++ [i]) w'
    end.
  (* do_occured_nonblk, event_loop.h 53-60 *)
  Definition do_occured_nonblk (loops : list loop) (w : Wd) : bool * list nat * Wd := poll_from 0 loops false [] w.
  (** user_event_loop.cc 62-72: nothing is polled once quick_stop() was called *)
  Definition user_do_occured_nonblk (cleanning : bool) (loops : list loop) (w : Wd) : bool * list nat * Wd :=
    if cleanning then (false, [], w) else do_occured_nonblk loops w.
End Poll.

(** * max_sleep_duration, event_loop.h 131-143. The vector is a function-local static: one object for all event_loop objects of
    the same type. It is called by thread_pool::consumer while holding the pool's m_lock (thread_pool.cc 78-79).
    Workers are numbered; [pool w] is the pool worker w belongs to. Each access to the vector is one step. (Concurrent
    accesses are a data race, i.e. undefined behaviour, in C++; here they interleave at the granularity of vector operations, which is
    the most benign outcome.) *)
Section Sleep.
  Variable k : nat.                          (* sizeof...(Loops) *)
  Variable pool : nat -> nat.
  Variable ans : nat -> nat -> nat.          (* what loop i answers to worker w, in nanoseconds *)
  (* where a thread is in max_sleep_duration, event_loop.h 132-143 *)
  Inductive pc := SIdle | SLocked | SPush (i : nat) | SDone (r : option nat).
  (* the static vector duras (event_loop.h 134), a lock per pool (thread_pool.cc 78, m_lock, held by the caller), where each worker is *)
  Record sstate := SSt { duras : list nat; lock : nat -> option nat; spc : nat -> pc }.
  (* event_loop.h 134 *)
  Definition sinit : sstate := SSt [] (fun _ => None) (fun _ => SIdle).
  (* the steps of max_sleep_duration, event_loop.h 134-143, called under m_lock, thread_pool.cc 78-79 *)
  Inductive sevent := SLock (w : nat) | SClear (w : nat) | SPushNext (w : nat) | SMin (w : nat) | SUnlock (w : nat).
  (** ranges::min_element on the vector: the first smallest, none when empty *)
  (* ranges::min_element, event_loop.h 140-142 *)
  Fixpoint min_of (l : list nat) : option nat :=
    match l with [] => None | x :: l' => match min_of l' with None => Some x | Some m => Some (Nat.min x m) end end.
  Definition snext (s : sstate) (e : sevent) : option sstate :=
    match e with
    | SLock w => match spc s w, lock s (pool w) with
                 | SIdle, None => Some (SSt (duras s) (upd (lock s) (pool w) (Some w)) (upd (spc s) w SLocked))
                 | _, _ => None
                 end
    | SClear w => match spc s w with                                    (* 135 *)
                  | SLocked => Some (SSt [] (lock s) (upd (spc s) w (SPush 0)))
                  | _ => None
                  end
    | SPushNext w => match spc s w with                                 (* 136-139 *)
                     | SPush i => if i <? k then Some (SSt (duras s ++ [ans i w]) (lock s) (upd (spc s) w (SPush (S i)))) else None
                     | _ => None
                     end
    | SMin w => match spc s w with                                      (* 140-142; None stands for nanoseconds::max() *)
                | SPush i => if i =? k then Some (SSt (duras s) (lock s) (upd (spc s) w (SDone (min_of (duras s))))) else None
                | _ => None
                end
    | SUnlock w => match spc s w with
                   | SDone _ => Some (SSt (duras s) (upd (lock s) (pool w) None) (upd (spc s) w SIdle))
                   | _ => None
                   end
    end.
End Sleep.

(** * user_event_loops::max_sleep_duration, user_event_loop.cc 50-60, in milliseconds *)
Definition ten_s : nat := Nat.pow 10 4.   (* 10000, line 53 *)
Definition user_max_sleep (answers : list nat) : nat := fold_left (fun r a => Nat.min a r) answers ten_s.

(** * user_event_loops: registration of threads and loops. Each function holds m_mutex (unique_lock in the two that modify, 14
    and 76), so it is one step. m_attrs (15) maps thread ids to a pointer to the consumer's local variable
    (thread_pool.cc 60), which dies when the thread ends. *)
Record ustate := USt {
  attrs : list nat;              (* threads in m_attrs *)
  loops : list nat;              (* m_loops, in order *)
  prepared : list (nat * nat);   (* (loop, thread): calls of the loop's thread_specific_preparation *)
  exited : list nat;
  ustopped : list nat;           (* loops that received stop() *)
  stop_called : bool;
  uub : bool
}.
(* user_event_loops.h 36-41 *)
Definition uinit : ustate := USt [] [] [] [] [] false false.
Inductive uevent :=
| UPrep (t : nat)      (* thread_specific_preparation called by worker t at its start, 12-20 *)
| UAdd (l : nat)       (* add_loop, 74-82 *)
| UStop                (* stop(), 22-29 *)
| UExit (t : nat).     (* worker t ends *)
(* bookkeeping of the model, no counterpart in /repo *)
Definition memb (i : nat) (l : list nat) : bool := existsb (Nat.eqb i) l.
(* user_event_loop.cc 12-103 *)
Definition unext (s : ustate) (e : uevent) : option ustate :=
  if uub s then None else
  match e with
  | UPrep t => if memb t (attrs s) then None
               else Some (USt (t :: attrs s) (loops s) (map (fun l => (l, t)) (loops s) ++ prepared s) (exited s) (ustopped s) (stop_called s) false)
  | UAdd l => if memb l (loops s) then None
              else Some (USt (attrs s) (loops s ++ [l]) (map (fun t => (l, t)) (attrs s) ++ prepared s) (exited s) (ustopped s) (stop_called s)
                             (existsb (fun t => memb t (exited s)) (attrs s)))      (* *attrp of an ended thread *)
  | UStop => Some (USt (attrs s) (loops s) (prepared s) (exited s) (loops s ++ ustopped s) true false)
  | UExit t => if memb t (attrs s) then Some (USt (attrs s) (loops s) (prepared s) (t :: exited s) (ustopped s) (stop_called s) false) else None
  end.

(** * The aggregate's refusal of events, event_loop.h 70-81, 95-106 *)
Record astate := ASt { cleanning : bool; quick : bool; accepted : nat; refused : nat }.
(* event_loop.h 36-50 *)
Definition ainit : astate := ASt false false 0 0.
(* stop, quick_stop, add_event: event_loop.h 70-123 *)
Inductive aevent := AStop | AQuickStop | AAdd.
(* event_loop.h 70-123 *)
Definition anext (s : astate) (e : aevent) : option astate :=
  match e with
  | AStop => Some (ASt true (quick s) (accepted s) (refused s))
  | AQuickStop => Some (ASt (cleanning s) true (accepted s) (refused s))
  | AAdd => if cleanning s then Some (ASt true (quick s) (accepted s) (S (refused s)))
            else Some (ASt false (quick s) (S (accepted s)) (refused s))
  end.
