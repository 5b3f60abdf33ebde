(** Model of koios::dir_mutex, dir_mutex_guard, dir_mutex_acq_aw and async_awaiting_hub.

    /repo/include/koios/dir_mutex.h 20-86, src/dir_mutex.cc 30-158, include/koios/async_awaiting_hub.h 29-86.

    One directory; any number of dir_mutex objects on it (identified by numbers; they may live in different processes: the
    only thing they share is the lock file). Each event is one atomic action: one openat(O_CREAT|O_EXCL), one queue
    operation, one unlinkat. A coroutine that may_wake_next() put on the scheduler's queue is counted as holding the
    lock from then on.
    Simplifications: openat fails with EEXIST only (other errors throw, dir_mutex.cc 89) and unlinkat succeeds; the
    concurrent queue is a bag whose try_dequeue may also fail spuriously; timing is abstracted (a sleeping poller may wake at
    any time). The blocking of the unlocking thread (dir_mutex.cc 157) is modelled separately in Blocking.v. *)
From Coq Require Import List Arith Bool.
From Verif.Common Require Import TS ListX.
Import ListNotations.

(** where a coroutine is *)
Inductive cpc :=
| Idle
| Trying (m : nat)     (* in await_ready, dir_mutex.cc 51-54, 133-135: before openat *)
| Between (m : nat)    (* its poller was started (137-143), await_suspend (56-59) not done yet *)
| Queued (m : nat)     (* in m_awaitings *)
| Holding (m : nat)    (* has, or is about to be given, its guard *)
| Deleting (m : nat).  (* unlock() found nobody (155): before unlinkat (148-151) *)

(** polling_lock_file, dir_mutex.cc 98-112 *)
Inductive ppc :=
| PSleep     (* 102, 110 *)
| PCheck     (* 103 passed, before 105 *)
| PCreated   (* 105 succeeded, before 107 *)
| PDone.

(** ghost: on whose behalf the lock file exists *)
(* whose create_lock_file() made the lock file (dir_mutex.cc 80-96), or nobody's any more *)
Inductive own := OwnC (c : nat) | OwnP (p : nat) | Orphan.

(* what the state keeps of dir_mutex.h 20-86, dir_mutex.cc 30-158, async_awaiting_hub.h 29-86 *)
Record state := St {
  file : bool;                     (* "koios_dir_lock" exists in the directory *)
  pc : nat -> cpc;
  waitq : nat -> list nat;          (* m_awaitings of each object *)
  betw : nat -> list nat;           (* ghost: the coroutines at [Between m] *)
  pollers : list (nat * ppc);       (* all pollers ever started: object, position *)
  stopped : nat -> bool;            (* m_stop_src of each object *)
  owner : option own
}.
(* before anything has happened; dir_mutex.h 20-86, dir_mutex.cc 30-158, async_awaiting_hub.h 29-86 *)
Definition init : state := St false (fun _ => Idle) (fun _ => []) (fun _ => []) [] (fun _ => false) None.

(* the steps of dir_mutex.h 20-86, dir_mutex.cc 30-158, async_awaiting_hub.h 29-86 *)
Inductive event :=
| EAcquire (c m : nat)            (* co_await m.acquire() begins *)
| ECreate (c : nat)                (* its create_lock_file() *)
| EEnqueue (c : nat)               (* its add_awaiting() *)
| EPollWake (p : nat)              (* poller p wakes and looks at its stop token *)
| EPollCreate (p : nat)            (* its create_lock_file() *)
| EPollHand (p : nat) (k : option nat)  (* its may_wake_next(): takes the k-th waiter, or fails *)
| EUnlock (c : nat) (k : option nat)    (* the holder's guard calls unlock(): may_wake_next() *)
| EDelete (c : nat)                (* ... and its unlinkat *)
| ECancel (m : nat)                (* cancel_all_polling(): request_stop *)
| EDestroy (m : nat) (k : option nat).  (* ~dir_mutex() *)

(* bookkeeping of the model, no counterpart in /repo *)
Definition remove_all (c : nat) (l : list nat) : list nat := filter (fun x => negb (x =? c)) l.

(** async_awaiting_hub.h 51-59: hand the lock file over to the k-th waiter of m *)
Definition wake (s : state) (m k : nat) : option (nat * state) :=
  match take_nth k (waitq s m) with
  | Some (c, rest) =>
      Some (c, St (file s) (upd (pc s) c (Holding m)) (upd (waitq s) m rest) (betw s) (pollers s) (stopped s) (Some (OwnC c)))
  | None => None
  end.

(* bookkeeping of the model, no counterpart in /repo *)
Definition set_poller (s : state) (p m : nat) (x : ppc) : state :=
  St (file s) (pc s) (waitq s) (betw s) (set_nth p (m, x) (pollers s)) (stopped s) (owner s).
(* bookkeeping of the model, no counterpart in /repo *)
Definition set_pc (s : state) (c : nat) (x : cpc) : state :=
  St (file s) (upd (pc s) c x) (waitq s) (betw s) (pollers s) (stopped s) (owner s).
(* bookkeeping of the model, no counterpart in /repo *)
Definition set_file (s : state) (f : bool) (o : option own) : state :=
  St f (pc s) (waitq s) (betw s) (pollers s) (stopped s) o.

Definition next (s : state) (ev : event) : option state :=
  match ev with
  | EAcquire c m => match pc s c with Idle => Some (set_pc s c (Trying m)) | _ => None end
  | ECreate c =>
      match pc s c with
      | Trying m =>
          if file s
          then Some (St (file s) (upd (pc s) c (Between m)) (waitq s) (upd (betw s) m (betw s m ++ [c])) (pollers s ++ [(m, PSleep)])
                        (stopped s) (owner s))
          else Some (set_file (set_pc s c (Holding m)) true (Some (OwnC c)))
      | _ => None
      end
  | EEnqueue c =>
      match pc s c with
      | Between m => Some (St (file s) (upd (pc s) c (Queued m)) (upd (waitq s) m (waitq s m ++ [c])) (upd (betw s) m (remove_all c (betw s m)))
                              (pollers s) (stopped s) (owner s))
      | _ => None
      end
  | EPollWake p =>
      match nth_error (pollers s) p with
      | Some (m, PSleep) => Some (set_poller s p m (if stopped s m then PDone else PCheck))
      | _ => None
      end
  | EPollCreate p =>
      match nth_error (pollers s) p with
      | Some (m, PCheck) =>
          if file s then Some (set_poller s p m PSleep)
          else Some (set_file (set_poller s p m PCreated) true (Some (OwnP p)))
      | _ => None
      end
  | EPollHand p k =>
      match nth_error (pollers s) p with
      | Some (m, PCreated) =>
          match k with
          | Some i => match wake s m i with Some (_, s') => Some (set_poller s' p m PDone) | None => None end
          | None => Some (set_file (set_poller s p m PDone) (file s) (Some Orphan))
          end
      | _ => None
      end
  | EUnlock c k =>
      match pc s c with
      | Holding m =>
          match k with
          | Some i => match wake (set_pc s c Idle) m i with Some (_, s') => Some s' | None => None end
          | None => Some (set_pc s c (Deleting m))
          end
      | _ => None
      end
  | EDelete c =>
      match pc s c with
      | Deleting m => Some (set_file (set_pc s c Idle) false None)
      | _ => None
      end
  | ECancel m => Some (St (file s) (pc s) (waitq s) (betw s) (pollers s) (upd (stopped s) m true) (owner s))
  | EDestroy m k =>  (* 127-131: cancel_all_polling() joins the pollers; then unlock() whoever holds the lock *)
      if forallb (fun q => negb (fst q =? m) || match snd q with PDone => true | _ => false end) (pollers s) && stopped s m then
        match k with
        | Some i => match wake s m i with Some (_, s') => Some s' | None => None end
        | None => Some (set_file s false None)
        end
      else None
  end.
