(** C147: whose turn it is. The workers' loop and the scheduler's queue, seen as an order on turns.

    src/thread_pool.cc 72-118 (consumer); include/koios/event_loop.h 53-60, 126-129; src/timer.cc 20-59; src/iouring.cc 67-96; include/koios/this_task.h 77-87 (yield);
    include/koios/task_scheduler.h 48-51; include/koios/work_stealing_queue.h 38-73; src/moodycamel_queue_wrapper.cc.

    A task enqueued without a thread in mind goes to the queue of one worker (work_stealing_queue.h 63-73: the first of the hash map), which every worker reads once its own is empty. That queue is a
    moodycamel::ConcurrentQueue: what one thread enqueued comes out in that order, nothing is promised about what different threads enqueued. So here: a list per enqueuing thread; a worker takes the head of any.
    Simplifications: no per-worker attributes (C109); what a task does in its turn is any sequence of enqueues; a turn can end in any way; stop is not modelled. *)
From Coq Require Import List Arith Bool.
From Verif.Common Require Import TS.
Import ListNotations.

(* where a worker is in consumer(), thread_pool.cc 72-118 *)
Inductive phase := Loop (* before before_each_task() *) | Polled (* dequeue() is next *) | Busy (x : nat).
(* what the state keeps of thread_pool.cc 72-118, work_stealing_queue.h 38-73, task_scheduler.h 48-51 *)
Record state := St {
  q : nat -> list nat;          (* by enqueuing thread: workers are the numbers below n, others are outside the pool *)
  due : nat -> list nat;        (* tasks whose deadline has passed / whose I/O is complete, in the event loops of a worker *)
  ph : nat -> phase;
  off : nat -> bool }.          (* the task is suspended on something, or has not been started *)
Inductive event :=
| Due (w i x : nat)             (* the deadline of [x] passes, or its I/O completes; [i]: where the event loop will enqueue it among those that are due *)
| Poll (w : nat)                (* thread_pool.cc 74 *)
| Take (w p : nat)              (* 75: the head of what thread [p] enqueued *)
| Idle (w : nat)                (* 75-98: nothing found: the worker waits and loops; allowed here also when there is something *)
| Wake (w y : nat)              (* the running task starts or wakes [y] *)
| Yield (w : nat) | Park (w : nat)   (* the turn ends: co_await yield(); a suspension or the end *)
| Post (p y : nat).             (* a thread outside the pool starts or wakes [y] *)

Section M.
  Variable n : nat.
  (* before anything has happened; thread_pool.cc 72-118, work_stealing_queue.h 38-73, task_scheduler.h 48-51 *)
  Definition init : state := St (fun _ => []) (fun _ => []) (fun _ => Loop) (fun _ => true).
  (* what each step does: thread_pool.cc 72-118, work_stealing_queue.h 38-73, task_scheduler.h 48-51 *)
  Definition step (s : state) (e : event) : option state :=
    match e with
    | Due w i x => if (w <? n) && off s x then Some (St (q s) (upd (due s) w (firstn i (due s w) ++ x :: skipn i (due s w))) (ph s) (upd (off s) x false)) else None
    | Poll w => match ph s w with Loop => if w <? n then Some (St (upd (q s) w (q s w ++ due s w)) (upd (due s) w []) (upd (ph s) w Polled) (off s)) else None | _ => None end
    | Take w p => match ph s w, q s p with Polled, x :: r => Some (St (upd (q s) p r) (due s) (upd (ph s) w (Busy x)) (off s)) | _, _ => None end
    | Idle w => match ph s w with Polled => Some (St (q s) (due s) (upd (ph s) w Loop) (off s)) | _ => None end
    | Wake w y => match ph s w with Busy _ => if off s y then Some (St (upd (q s) w (q s w ++ [y])) (due s) (ph s) (upd (off s) y false)) else None | _ => None end
    | Yield w => match ph s w with Busy x => Some (St (upd (q s) w (q s w ++ [x])) (due s) (upd (ph s) w Loop) (off s)) | _ => None end
    | Park w => match ph s w with Busy x => Some (St (q s) (due s) (upd (ph s) w Loop) (upd (off s) x true)) | _ => None end
    | Post p y => if (n <=? p) && off s y then Some (St (upd (q s) p (q s p ++ [y])) (due s) (ph s) (upd (off s) y false)) else None
    end.
  (** whose turns begin *)
  (* specification, no counterpart in /repo *)
  Definition turn (s : state) (e : event) (s' : state) : list nat := match e with Take _ p => firstn 1 (q s p) | _ => [] end.
  (* specification, no counterpart in /repo *)
  Definition turns := trace step turn.
End M.
