(** Model of the SIGINT handling of the runtime.
    src/runtime.cc 24 (g_ts_p), 32-45 (signal_handler), 47-59 (signal_handle_init; SA_RESTART, no SA_NODEFER: SIGINT is blocked on the
    thread that runs the handler), 82-99 (runtime_init), 105-109 (runtime_exit); src/thread_pool.cc 18-28 (start), 36-54 (stop,
    quick_stop), 121-128 (done); src/exceptions.cc 13-29 (log_info etc.: spdlog's default logger, whose sink has a mutex).

    Threads are numbered 0 .. n+m-1; 0 .. n-1 are the workers of the runtime, thread n calls runtime_init(). A thread does its base activity [act]
    and, on top of it, possibly the signal handler, which suspends the activity.
    Simplifications: what workers do besides logging and ending is left out; a worker ends as soon as a stop has been requested; the component
    loops' own quick_stop() (C60, C75) does nothing here; joining reads m_thrs at each step. A join of the own thread throws in a noexcept
    function: termination. Use of m_thrs while start() fills it, or of a null g_ts_p, is undefined behaviour. *)
From Coq Require Import List Arith Bool Lia.
From Verif.Common Require Import TS Sum.
Import ListNotations.

(* a worker: thread_pool.cc 18-28, 56-119 *)
Inductive wst := WNot | WRun | WEnded.
(* g_ts_p and the pool behind it: runtime.cc 24, 82-99, thread_pool.cc 18-28 *)
Inductive phase := Null | Constructed | Starting | Up.
(* what a thread does apart from the handler: thread_pool.cc 36-54, runtime.cc 82-109, exceptions.cc 13-29 *)
Inductive activity :=
| Normal
| Logging                 (* inside spdlog, owns the sink's mutex *)
| Stopping                (* in stop(), about to enter call_once *)
| Joining (i : nat).      (* inside call_once, about to join worker i *)
Inductive hpc :=
| HTest                   (* 36: if (called) *)
| HSet                    (* 42 *)
| HLog                    (* 43 *)
| HTermLog                (* 38-39 *)
| HStop                   (* 44, about to enter call_once *)
| HJoin (i : nat).
(* std::call_once in stop(): thread_pool.cc 36-48 *)
Inductive once_flag := Free | Running (t : nat) | Done.
(* how the process is; runtime.cc 32-45 *)
Inductive outcome := Alive | Terminated | UB.
(* what the state keeps of runtime.cc 24-109, thread_pool.cc 18-54, 121-128 *)
Record state := St {
  installed : bool;          (* the SIGINT handler *)
  ts : phase;                (* g_ts_p and the state of its pool *)
  workers : nat -> wst;
  requested : bool;          (* m_stop_source *)
  once : once_flag;          (* m_stop_once_flag *)
  called : bool;             (* 34 *)
  sink : option nat;         (* owner of the logger's mutex *)
  act : nat -> activity;
  handler : nat -> option hpc;
  out : outcome }.

Section Signal.
  Variables n m : nat.
  (* before anything has happened; runtime.cc 24-109, thread_pool.cc 18-54, 121-128 *)
  Definition init : state := St false Null (fun _ => WNot) false Free false None (fun _ => Normal) (fun _ => None) Alive.

  (* the steps of runtime.cc 24-109, thread_pool.cc 18-54, 121-128 *)
  Inductive event :=
  | Install | Make | StartBegin | StartEnd      (* runtime_init(): 87, 90/91, 98 *)
  | LogBegin (t : nat) | LogEnd (t : nat)
  | CallStop (t : nat) | StopStep (t : nat)     (* stop(), quick_stop() or runtime_exit() *)
  | WEnd (w : nat)
  | Sig (t : nat) | HStep (t : nat).            (* SIGINT is delivered to t; one step of its handler *)

  (* workers exist after start(): thread_pool.cc 18-28 *)
  Definition exists_thread (s : state) (t : nat) : bool :=
    (t <? n + m) && (if t <? n then match workers s t with WRun => true | _ => false end else true).
  (* no handler runs on the thread: runtime.cc 32-59 *)
  Definition free_to_act (s : state) (t : nat) : bool :=
    exists_thread s t && match handler s t with None => true | _ => false end.
  (* m_thrs.size(): thread_pool.cc 18-28 *)
  Definition thrs (s : state) : nat := match ts s with Up => n | _ => 0 end.

  (* bookkeeping of the model, no counterpart in /repo *)
  Definition set_act s t a := St (installed s) (ts s) (workers s) (requested s) (once s) (called s) (sink s) (upd (act s) t a) (handler s) (out s).
  (* bookkeeping of the model, no counterpart in /repo *)
  Definition set_h s t h := St (installed s) (ts s) (workers s) (requested s) (once s) (called s) (sink s) (act s) (upd (handler s) t h) (out s).
  (* bookkeeping of the model, no counterpart in /repo *)
  Definition set_once s o := St (installed s) (ts s) (workers s) (requested s) o (called s) (sink s) (act s) (handler s) (out s).
  (* bookkeeping of the model, no counterpart in /repo *)
  Definition set_req s := St (installed s) (ts s) (workers s) true (once s) (called s) (sink s) (act s) (handler s) (out s).
  (* bookkeeping of the model, no counterpart in /repo *)
  Definition set_out s o := St (installed s) (ts s) (workers s) (requested s) (once s) (called s) (sink s) (act s) (handler s) o.
  (* bookkeeping of the model, no counterpart in /repo *)
  Definition set_sink s o := St (installed s) (ts s) (workers s) (requested s) (once s) (called s) o (act s) (handler s) (out s).
  (* bookkeeping of the model, no counterpart in /repo *)
  Definition set_called s := St (installed s) (ts s) (workers s) (requested s) (once s) true (sink s) (act s) (handler s) (out s).
  (* bookkeeping of the model, no counterpart in /repo *)
  Definition set_ts s p := St (installed s) p (workers s) (requested s) (once s) (called s) (sink s) (act s) (handler s) (out s).
  (* bookkeeping of the model, no counterpart in /repo *)
  Definition set_w s w x := St (installed s) (ts s) (upd (workers s) w x) (requested s) (once s) (called s) (sink s) (act s) (handler s) (out s).

  (** thread_pool::stop() 36-48 as run by thread [t]: [join i] is the program point inside the loop, [back] the one after the call. *)
  Definition enter (s : state) (t : nat) (join back : state -> state) : option state :=
    match ts s with
    | Null | Starting => Some (set_out s UB)
    | _ => match once s with
           | Free => Some (join (set_once (set_req s) (Running t)))
           | Done => Some (back s)
           | Running _ => None                                     (* call_once waits *)
           end
    end.
  (* joining one of m_thrs after the other: thread_pool.cc 36-48 *)
  Definition join_step (s : state) (t i : nat) (join : nat -> state -> state) (back : state -> state) : option state :=
    match ts s with
    | Null | Starting => Some (set_out s UB)
    | _ => if thrs s <=? i then Some (back (set_once s Done))
           else if i =? t then Some (set_out s Terminated)          (* std::system_error out of noexcept *)
           else match workers s i with WEnded => Some (join (S i) s) | _ => None end
    end.

  (* what each step does: runtime.cc 24-109, thread_pool.cc 18-54, 121-128 *)
  Definition step (s : state) (e : event) : option state :=
    match out s with
    | Alive =>
      match e with
      | Install => if free_to_act s n then Some (St true (ts s) (workers s) (requested s) (once s) (called s) (sink s) (act s) (handler s) (out s)) else None
      | Make => if installed s && free_to_act s n then
                  match ts s, once s with
                  | Null, _ | Up, Done => Some (St true Constructed (fun _ => WNot) false Free (called s) (sink s) (act s) (handler s) (out s))
                  | _, _ => None
                  end
                else None
      | StartBegin => if free_to_act s n then match ts s with Constructed => Some (set_ts s Starting) | _ => None end else None
      | StartEnd => if free_to_act s n then
                      match ts s with
                      | Starting => Some (St (installed s) Up (fun w => if w <? n then WRun else WNot) (requested s) (once s) (called s) (sink s) (act s) (handler s) (out s))
                      | _ => None
                      end
                    else None
      | LogBegin t => if free_to_act s t then
                        match act s t, sink s with
                        | Normal, None => Some (set_act (set_sink s (Some t)) t Logging)
                        | _, _ => None
                        end
                      else None
      | LogEnd t => if free_to_act s t then
                      match act s t with Logging => Some (set_act (set_sink s None) t Normal) | _ => None end
                    else None
      | CallStop t => if free_to_act s t then match act s t with Normal => Some (set_act s t Stopping) | _ => None end else None
      | StopStep t => if free_to_act s t then
                        match act s t with
                        | Stopping => enter s t (fun s => set_act s t (Joining 0)) (fun s => set_act s t Normal)
                        | Joining i => join_step s t i (fun i s => set_act s t (Joining i)) (fun s => set_act s t Normal)
                        | _ => None
                        end
                      else None
      | WEnd w => if (w <? n) && free_to_act s w && requested s then
                    match act s w with Normal => Some (set_w s w WEnded) | _ => None end
                  else None
      | Sig t => if installed s && free_to_act s t then Some (set_h s t (Some HTest)) else None
      | HStep t =>
          match handler s t with
          | None => None
          | Some HTest => Some (set_h s t (Some (if called s then HTermLog else HSet)))
          | Some HSet => Some (set_h (set_called s) t (Some HLog))
          | Some HLog => match sink s with None => Some (set_h s t (Some HStop)) | _ => None end
          | Some HTermLog => match sink s with None => Some (set_out s Terminated) | _ => None end
          | Some HStop => enter s t (fun s => set_h s t (Some (HJoin 0))) (fun s => set_h s t None)
          | Some (HJoin i) => join_step s t i (fun i s => set_h s t (Some (HJoin i))) (fun s => set_h s t None)
          end
      end
    | _ => None
    end.
End Signal.
