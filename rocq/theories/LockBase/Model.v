(** Model of the RAII lock handles unique_lock / shared_lock.

    /repo/include/koios/lock_base.h 14-62, unique_lock.h 33-67, shared_lock.h 17-48.

    The handles live in a table (index = object identity, [None] = destroyed); a program is any
    list of operations on them. The mutex side is reduced to the log of acquisitions and release()
    calls it sees (its own behaviour is the subject of Mutex/ and SharedMutex/).
    Simplification: an operation on a handle is atomic (no two threads use one handle at a time,
    which the class does not support). *)
From Coq Require Import List Arith Bool.
From Verif.Common Require Import TS ListX.
Import ListNotations.

(** lock_base.h 60-61 *)
Record handle := H { m_mutex : option nat; m_owns : bool }.

(* what the mutex sees: an acquisition, release() (lock_base.h 46-53) *)
Inductive act := Acq (m : nat) | Rel (m : nat).

(* what the state keeps of lock_base.h 14-62, unique_lock.h 33-67, shared_lock.h 17-48 *)
Record state := St { handles : list (option handle); log : list act; aborted : bool }.
(* before anything has happened; lock_base.h 14-62, unique_lock.h 33-67, shared_lock.h 17-48 *)
Definition init : state := {| handles := []; log := []; aborted := false |}.

Inductive op :=
| ONew (m : nat)             (* lock_base(Mutex&), from await_resume of an acquire: lock_base.h 18-21 *)
| ODefault                   (* lock_base() = default: lock_base.h 23, 60-61 *)
| OMoveCtor (src : nat)      (* lock_base.h 25-29 *)
| OMoveAssign (dst src : nat)(* lock_base.h 31-39 *)
| OUnlock (h : nat)          (* lock_base.h 46-53 *)
| OLock (h : nat)            (* unique_lock.h 39-51, shared_lock.h 21-31 *)
| OTryLock (h : nat) (granted : bool) (* unique_lock.h 53-67, shared_lock.h 33-47 *)
| ODestroy (h : nat).        (* lock_base.h 55 *)

(* bookkeeping of the model, no counterpart in /repo *)
Definition get (s : state) (h : nat) : option handle :=
  match nth_error (handles s) h with Some (Some x) => Some x | _ => None end.
(* bookkeeping of the model, no counterpart in /repo *)
Definition put (s : state) (h : nat) (x : option handle) : state :=
  {| handles := set_nth h x (handles s); log := log s; aborted := aborted s |}.
(* bookkeeping of the model, no counterpart in /repo *)
Definition new (s : state) (x : handle) : state :=
  {| handles := handles s ++ [Some x]; log := log s; aborted := aborted s |}.
(* bookkeeping of the model, no counterpart in /repo *)
Definition emit (s : state) (a : act) : state :=
  {| handles := handles s; log := log s ++ [a]; aborted := aborted s |}.

(** lock_base.h 46-53 *)
Definition unlock (s : state) (h : nat) (x : handle) : state :=
  match m_mutex x with
  | Some m => if m_owns x
              then put (emit s (Rel m)) h (Some {| m_mutex := Some m; m_owns := false |})
              else s
  | None => s
  end.

(* bookkeeping of the model, no counterpart in /repo *)
Definition set_mutex (s : state) (h : nat) (m : option nat) : state :=
  match get s h with Some x => put s h (Some {| m_mutex := m; m_owns := m_owns x |}) | None => s end.
(* bookkeeping of the model, no counterpart in /repo *)
Definition set_owns (s : state) (h : nat) (b : bool) : state :=
  match get s h with Some x => put s h (Some {| m_mutex := m_mutex x; m_owns := b |}) | None => s end.
(* m_mutex, lock_base.h 60 *)
Definition mutex_of (s : state) (h : nat) : option nat :=
  match get s h with Some x => m_mutex x | None => None end.
(* owns_lock(), unique_lock.h 33-67, shared_lock.h 17-48 *)
Definition owns_of (s : state) (h : nat) : bool :=
  match get s h with Some x => m_owns x | None => false end.

(** lock_base.h 31-39, statement by statement (so that dst = src behaves as written):
    unlock(); m_mutex = exchange(other.m_mutex, nullptr); m_owns = exchange(other.m_owns, false). *)
Definition move_assign (s : state) (dst src : nat) (xd : handle) : state :=
  let s1 := unlock s dst xd in
  let m := mutex_of s1 src in
  let s2 := set_mutex s1 src None in
  let s3 := set_mutex s2 dst m in
  let o := owns_of s3 src in
  let s4 := set_owns s3 src false in
  set_owns s4 dst o.

(** [None]: the program uses a handle that does not exist (not a koios call at all). *)
(* what each step does: lock_base.h 14-62, unique_lock.h 33-67, shared_lock.h 17-48 *)
Definition step (s : state) (o : op) : option state :=
  if aborted s then None else
  match o with
  | ONew m => Some (new (emit s (Acq m)) {| m_mutex := Some m; m_owns := true |})
  | ODefault => Some (new s {| m_mutex := None; m_owns := true |})
  | OMoveCtor src =>
      match get s src with
      | Some x => Some (new (put s src (Some {| m_mutex := None; m_owns := false |})) x)
      | None => None
      end
  | OMoveAssign dst src =>
      match get s dst, get s src with
      | Some xd, Some _ => Some (move_assign s dst src xd)
      | _, _ => None
      end
  | OUnlock h =>
      match get s h with Some x => Some (unlock s h x) | None => None end
  | OLock h =>
      match get s h with
      | Some x =>
          match m_mutex x with
          | None => Some s                                   (* throws, nothing changed *)
          | Some m =>
              if m_owns x then Some {| handles := handles s; log := log s; aborted := true |}
                                                             (* toolpex_assert fails *)
              else (* auto lk = acquire(); m_owns = exchange(lk.m_owns, false); ~lk is a no-op *)
                Some (put (emit s (Acq m)) h (Some {| m_mutex := Some m; m_owns := true |}))
          end
      | None => None
      end
  | OTryLock h granted =>
      match get s h with
      | Some x =>
          match m_mutex x with
          | None => Some s
          | Some m =>
              if m_owns x then Some {| handles := handles s; log := log s; aborted := true |}
              else if granted
              then Some (put (emit s (Acq m)) h (Some {| m_mutex := Some m; m_owns := true |}))
              else Some s
          end
      | None => None
      end
  | ODestroy h =>
      match get s h with Some x => Some (put (unlock s h x) h None) | None => None end
  end.
