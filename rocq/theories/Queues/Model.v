(** Model of std_queue_wrapper (include/koios/std_queue_wrapper.h), local_thread_scheduler
    (include/koios/local_thread_scheduler.h) and invocable_queue_wrapper (include/koios/invocable_queue_wrapper.h,
    src/invocable_queue_wrapper.cc). *)
From Coq Require Import List Arith Bool.
From Verif.Common Require Import TS.
Import ListNotations.

(** * std_queue_wrapper: every member function holds m_lock, so it is one atomic step of some thread. *)
Inductive qevent := QEnq (x : nat)      (* enqueue, std_queue_wrapper.h 28-32 *)
                  | QDeq                (* dequeue, 34-41 *)
                  | QEmpty              (* empty, 43-47 *)
                  | QSize.              (* size, 49-53 *)
Inductive qobs := QIn (x : nat) | QOut (r : option nat) | QIsEmpty (b : bool) | QSizeIs (n : nat).
(* std_queue_wrapper.h 20-67 *)
Definition qnext (q : list nat) (e : qevent) : option (list nat) :=
  match e with
  | QEnq x => Some (q ++ [x])
  | QDeq => Some (match q with [] => [] | _ :: q' => q' end)
  | _ => Some q
  end.
(* specification, no counterpart in /repo *)
Definition qobserve (q : list nat) (e : qevent) (_ : list nat) : list qobs :=
  match e with
  | QEnq x => [QIn x]
  | QDeq => [QOut (match q with [] => None | x :: _ => Some x end)]
  | QEmpty => [QIsEmpty (match q with [] => true | _ => false end)]
  | QSize => [QSizeIs (length q)]
  end.

(** * local_thread_scheduler. A task is a number and what its body does: enqueue further tasks on the same scheduler,
    throw, in this order. (A body that suspends ends here: its continuation is enqueued by someone else.) *)
(* a task and what its body does: local_thread_scheduler.h 18-48 *)
Inductive task := Task (id : nat) (body : list action)
with action := Spawn (t : task) | Throw.
(* bookkeeping of the model, no counterpart in /repo *)
Definition tid (t : task) := match t with Task i _ => i end.
(* bookkeeping of the model, no counterpart in /repo *)
Definition tbody (t : task) := match t with Task _ b => b end.

(** The native stack: a run() loop, or a task body with the rest it still has to do. *)
(* the C++ stack: loops of run(), bodies of tasks; local_thread_scheduler.h 18-48 *)
Inductive frame := FLoop | FBody (rest : list action).
(* the queue of local_thread_scheduler.h 18-48 and the stack of the thread *)
Record lstate := LSt { q : list task; stack : list frame; log : list nat }.   (* log: started tasks, latest first *)

(** enqueue called from outside the scheduler: push and call run(), local_thread_scheduler.h 24-28 *)
Definition linit (t : task) : lstate := LSt [t] [FLoop] [].

Definition lstep (s : lstate) : option lstate :=
  match stack s with
  | [] => None                                                        (* the outer enqueue has returned *)
  | FLoop :: st => match q s with
                   | [] => Some (LSt [] st (log s))                   (* 33: queue empty, run() returns *)
                   | t :: q' => Some (LSt q' (FBody (tbody t) :: FLoop :: st) (tid t :: log s))   (* 35-37 *)
                   end
  | FBody [] :: st => Some (LSt (q s) st (log s))                     (* h() returns *)
  | FBody (Spawn t :: rest) :: st => Some (LSt (q s ++ [t]) (FLoop :: FBody rest :: st) (log s))  (* nested enqueue, 26-27 *)
  | FBody (Throw :: _) :: st => Some (LSt (q s) st (log s))           (* caught in run(), 37 *)
  end.
(* a number of steps of it: specification, no counterpart in /repo *)
Fixpoint lrun (n : nat) (s : lstate) : lstate :=
  match n with 0 => s | S n' => match lstep s with Some s' => lrun n' s' | None => s end end.

(** * invocable_queue_wrapper: m_storage (which queue lives there; None = null) and m_dtor (null after a move) *)
(* invocable_queue_wrapper: m_storage, m_dtor, m_manually_destroy: invocable_queue_wrapper.h 154-162 *)
Record wrap := W { storage : option nat; dtor : bool }.
(* the wrappers and the queues in them: invocable_queue_wrapper.h 154-162 *)
Record wstate := WSt { wraps : nat -> option wrap; made : nat -> bool; wdestroys : nat -> nat; freed : nat -> nat; wub : bool }.
(* no wrapper yet: invocable_queue_wrapper.h 154-162 *)
Definition winit : wstate := WSt (fun _ => None) (fun _ => false) (fun _ => 0) (fun _ => 0) false.
Inductive wevent :=
| WMake (i qu : nat)     (* constructor from a queue, invocable_queue_wrapper.h 60-71 *)
| WMove (i j : nat)      (* move constructor, invocable_queue_wrapper.cc 18-28 *)
| WKill (i : nat)        (* destructor, .cc 11-15, then ~unique_ptr *)
| WUse (i : nat).        (* enqueue/dequeue/empty/size, .h 127-143 *)
Definition is_none {A} (o : option A) : bool := match o with None => true | _ => false end.
(* construction, move, destruction: invocable_queue_wrapper.h 120-162, src/invocable_queue_wrapper.cc *)
Definition wnext (s : wstate) (e : wevent) : option wstate :=
  if wub s then None else
  match e with
  | WMake i qu => if is_none (wraps s i) && negb (made s qu)
                  then Some (WSt (upd (wraps s) i (Some (W (Some qu) true))) (upd (made s) qu true) (wdestroys s) (freed s) false) else None
  | WMove i j => if is_none (wraps s i) then
                   match wraps s j with
                   | Some w => Some (WSt (upd (upd (wraps s) j (Some (W None false))) i (Some w)) (made s) (wdestroys s) (freed s) false)
                   | None => None
                   end
                 else None
  | WKill i => match wraps s i with
               | Some (W (Some qu) d) => Some (WSt (upd (wraps s) i None) (made s)
                      (if d then upd (wdestroys s) qu (S (wdestroys s qu)) else wdestroys s) (upd (freed s) qu (S (freed s qu))) false)
               | Some (W None d) => Some (WSt (upd (wraps s) i None) (made s) (wdestroys s) (freed s) d)   (* m_dtor(nullptr) *)
               | None => None
               end
  | WUse i => match wraps s i with
              | Some (W (Some qu) _) => Some s
              | Some (W None _) => Some (WSt (wraps s) (made s) (wdestroys s) (freed s) true)
              | None => None
              end
  end.
