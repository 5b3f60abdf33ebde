(** Model of the I/O result objects (src/iouring_ioret.cc, include/koios/iouring_ioret.h) and of the exception
    classes (include/koios/exceptions.h). Integers are mathematical integers with explicit 32-bit ranges. *)
From Coq Require Import ZArith List Bool Lia.
Import ListNotations.
Open Scope Z_scope.

(* environment, not code of /repo (limits of int) *)
Definition INT_MIN := - 2147483648.
(* environment, not code of /repo (limits of int) *)
Definition INT_MAX := 2147483647.
(* environment, not code of /repo (an int) *)
Definition int32 (z : Z) : Prop := INT_MIN <= z <= INT_MAX.

(* std::system_category, std::generic_category, and those of error_category.h 12-44, src/error_category.cc 12-78 *)
Inductive category := System | Generic | Koios | ExpectedCat.
(** std::error_code; conversion to bool tests value() only *)
(* std::error_code: environment, not code of /repo *)
Record error_code := Ec { value : Z; cat : category }.
(* std::error_code{}: environment, not code of /repo *)
Definition ec_ok : error_code := Ec 0 System.          (* std::error_code{} *)
(* error_code::operator bool: environment, not code of /repo *)
Definition ec_true (e : error_code) : bool := negb (value e =? 0).

(** ioret_for_any_base: ret and m_errno *)
(* ioret, iouring_ioret.h 18-89 *)
Record ioret := Ioret { ret : Z; m_errno : Z }.

(** Constructor ioret_for_any_base(ioret), iouring_ioret.cc 12-21; [errno] is the thread's errno at that moment.
    None: the negation -ret overflows (undefined behaviour). *)
Definition make_ioret (r errno : Z) : option ioret :=
  if r <? 0 then
    if (r =? -1) && negb (errno =? 0) then Some (Ioret r errno)
    else if r =? INT_MIN then None
    else Some (Ioret r (- r))
  else Some (Ioret r 0).

(** iouring_ioret.cc 23-29 *)
Definition error_code_of (o : ioret) : error_code := if 0 <=? ret o then ec_ok else Ec (m_errno o) System.
(** iouring_ioret.cc 31-36 *)
Definition nbytes_delivered (o : ioret) : Z := if 0 <=? ret o then ret o else 0.

(** get_fd / get_client, iouring_ioret.cc 38-47, 55-62: throws when there is an error, else a new owner of the descriptor *)
Inductive got := GotFd (fd : Z) | Thrown (e : error_code).
(* get_fd, src/iouring_ioret.cc 38-47 *)
Definition get_fd (o : ioret) : got := if ec_true (error_code_of o) then Thrown (error_code_of o) else GotFd (ret o).
(** number_canceled, iouring_ioret.cc 64-70 *)
Definition number_canceled (o : ioret) : got := if ec_true (error_code_of o) then Thrown (error_code_of o) else GotFd (ret o).

(** A program using a descriptor-valued result: get_fd() calls (each making a toolpex::unique_posix_fd that
    closes on destruction) and destructions of those owners. [open_owners] and [closed] count. *)
(* the owners of a descriptor (unique_posix_fd), src/iouring_ioret.cc 38-47 *)
Record fdstate := Fd { open_owners : nat; closes : nat }.
(* get_fd() and the destruction of what it returned, src/iouring_ioret.cc 38-47 *)
Inductive fdevent := GetFd | DropOwner.
(* src/iouring_ioret.cc 38-47; unique_posix_fd closes when destroyed *)
Definition fdstep (s : fdstate) (e : fdevent) : option fdstate :=
  match e with
  | GetFd => Some (Fd (S (open_owners s)) (closes s))
  | DropOwner => match open_owners s with O => None | S n => Some (Fd n (S (closes s))) end
  end.

(** Exceptions. [e_ec] is koios::exception::m_ec; [e_own] the second m_ec declared by uring_exception (exceptions.h 125),
    which no constructor initialises explicitly, so it is a default error_code; [e_flag] is m_has_ec, never initialised
    at all (None = indeterminate). *)
Inductive eclass := CException | CStopped | CRuntimeNotWorking | CUring | CFuture | CSocket | CStreamBuffer | CExpected.
(* the members of the exception classes, exceptions.h 26-187 *)
Record exn := Exn { e_class : eclass; e_ec : error_code; e_own : error_code; e_flag : option bool }.

Definition catched : error_code := Ec 1 Koios.       (* KOIOS_EXCEPTION_CATCHED, error_category.h 19 *)

(** construction from an error code: exceptions.h 39-42, 79-82, 113-116, 139-142, 179-182. Classes that cannot be
    built from one: None *)
Definition exn_of_ec (c : eclass) (e : error_code) : option exn :=
  match c with
  | CException | CStopped | CUring | CSocket | CExpected => Some (Exn c e ec_ok None)
  | CRuntimeNotWorking | CFuture | CStreamBuffer => None
  end.
(** construction from an int: exceptions.h 44-47, 108-111, 174-177 *)
Definition exn_of_int (c : eclass) (v : Z) : option exn :=
  match c with
  | CException => Some (Exn c (Ec v System) ec_ok None)
  | CStopped => Some (Exn c (Ec v System) ec_ok None)
  | CUring => Some (Exn c (Ec v Generic) ec_ok None)
  | CExpected => Some (Exn c (Ec v ExpectedCat) ec_ok None)
  | _ => None
  end.
(** construction from a message or from nothing: exceptions.h 29-37, 74-77, 89-95, 101-106, 132, 152-155 *)
Definition exn_plain (c : eclass) : exn := Exn c catched ec_ok None.

(** the virtual error_code(): exceptions.h 52-55, overridden by uring_exception (119-122), inherited by socket_exception *)
Definition error_code_virtual (x : exn) : error_code :=
  match e_class x with CUring | CSocket => e_own x | _ => e_ec x end.
(** operator std::error_code(): exceptions.h 57-60 *)
Definition exn_to_ec (x : exn) : error_code := error_code_virtual x.
(** has_error_code(): exceptions.h 118; None: reads an indeterminate value *)
Definition has_error_code (x : exn) : option bool := e_flag x.
