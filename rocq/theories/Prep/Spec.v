(** Specification vocabulary for C102-C104: the operations a user can ask the kernel for, and what asking for them means. No koios code. *)
From Coq Require Import List ZArith Bool.
Import ListNotations.
Open Scope Z_scope.

Definition byte := Z.
Definition path := list byte.                       (* characters of the name *)
Definition sockaddr := (Z * Z)%type.                (* an opaque socket address and its length *)

(** A system call, by name, with its arguments. Buffers are identified by their address. *)
Inductive request :=
| RRead (fd buf len off : Z) | RWrite (fd buf len off : Z)
| RSend (fd buf len flags : Z) | RRecv (fd buf len flags : Z)
| RSendmsg (fd msg flags : Z) | RRecvmsg (fd msg flags : Z)
| RAccept (fd flags : Z) | RConnect (fd : Z) (a : sockaddr)
| ROpenat (dfd : Z) (p : path) (flags mode : Z) | RUnlinkat (dfd : Z) (p : path) (flags : Z)
| RRenameat (odfd : Z) (o : path) (ndfd : Z) (n : path) (flags : Z)
| RSocket (domain type proto flags : Z)
| RSyncFileRange (fd len off flags : Z) | RFsync (fd : Z) | RFdatasync (fd : Z)
| RNop
| RCancel (key : Z) (flags : Z)
| RTimeout (deadline : Z)                           (* absolute, on the realtime clock *)
| RUnknown.

(** What the user of a batch calls. *)
Inductive call :=
| Accept (fd : Z) | Send (fd buf len flags : Z) | Recv (fd buf len flags : Z)
| Sendmsg (fd msg flags : Z) | Recvmsg (fd msg flags : Z)
| Read (fd buf len off : Z) | Write (fd buf len off : Z)
| Connect (fd : Z) (a : sockaddr)
| CancelAny (fd key : Z) | CancelAnyFd (fd : Z) | CancelAll (key : Z) | CancelFirst (key : Z)
| Openat (dfd : Z) (p : path) (flags mode : Z) | Unlink (p : path) (flags : Z) | Unlinkat (dfd : Z) (p : path) (flags : Z)
| Rename (o n : path) | Renameat (odfd : Z) (o : path) (ndfd : Z) (n : path) (flags : Z)
| RenameatNoreplace (odfd : Z) (o : path) (ndfd : Z) (n : path)
| Socket (domain type proto flags : Z)
| SyncFileRange (fd len off flags : Z) | Fsync (fd : Z) | Fdatasync (fd : Z) | Nop
| Timeout (tp : option Z).                          (* None: time_point::max() *)

Definition AT_FDCWD := -100.
Definition RENAME_NOREPLACE := 1.
Definition CANCEL_ALL := 1. Definition CANCEL_ANY := 4.

(** What each call asks for. *)
Definition means (c : call) : option request :=
  match c with
  | Accept fd => Some (RAccept fd 0)
  | Send fd b l f => Some (RSend fd b l f) | Recv fd b l f => Some (RRecv fd b l f)
  | Sendmsg fd m f => Some (RSendmsg fd m f) | Recvmsg fd m f => Some (RRecvmsg fd m f)
  | Read fd b l o => Some (RRead fd b l o) | Write fd b l o => Some (RWrite fd b l o)
  | Connect fd a => Some (RConnect fd a)
  | CancelAny fd k => Some (RCancel k CANCEL_ANY) | CancelAnyFd fd => Some (RCancel 0 CANCEL_ANY)
  | CancelAll k => Some (RCancel k CANCEL_ALL) | CancelFirst k => Some (RCancel k 0)
  | Openat d p f m => Some (ROpenat d p f m)
  | Unlink p f => Some (RUnlinkat AT_FDCWD p f) | Unlinkat d p f => Some (RUnlinkat d p f)
  | Rename o n => Some (RRenameat AT_FDCWD o AT_FDCWD n 0)
  | Renameat od o nd n f => Some (RRenameat od o nd n f)
  | RenameatNoreplace od o nd n => Some (RRenameat od o nd n RENAME_NOREPLACE)
  | Socket d t p f => Some (RSocket d t p f)
  | SyncFileRange fd l o f => Some (RSyncFileRange fd l o f)
  | Fsync fd => Some (RFsync fd) | Fdatasync fd => Some (RFdatasync fd)
  | Nop => Some RNop
  | Timeout _ => None
  end.
(** The deadline in force: the last one given. *)
Definition deadline (cs : list call) : option Z :=
  fold_left (fun d c => match c with Timeout (Some t) => Some t | _ => d end) cs None.
Definition operations (cs : list call) : list request :=
  flat_map (fun c => match means c with Some r => [r] | None => [] end) cs.
(** What a batch asks the kernel for: the operations in order, then the timeout. *)
Definition asked (cs : list call) : list request :=
  operations cs ++ match deadline cs with Some t => [RTimeout t] | None => [] end.

(** Ranges of the C++ argument types; names contain no NUL; buffers smaller than 4 GiB (see C103); file offsets not the
    reserved value 2^64-1. *)
Definition int_ (z : Z) : Prop := - 2 ^ 31 <= z < 2 ^ 31.
Definition uint_ (z : Z) : Prop := 0 <= z < 2 ^ 32.
Definition u64_ (z : Z) : Prop := 0 <= z < 2 ^ 64.
Definition name_ (p : path) : Prop := Forall (fun c => 0 < c < 256) p.
Definition valid (c : call) : Prop :=
  match c with
  | Accept fd | Fsync fd | Fdatasync fd | CancelAnyFd fd => int_ fd
  | Send fd b l f | Recv fd b l f => int_ fd /\ u64_ b /\ uint_ l /\ int_ f
  | Sendmsg fd m f | Recvmsg fd m f => int_ fd /\ u64_ m /\ int_ f
  | Read fd b l o | Write fd b l o => int_ fd /\ u64_ b /\ uint_ l /\ 0 <= o < 2 ^ 64 - 1
  | Connect fd a => int_ fd /\ uint_ (snd a)
  | CancelAny fd k => int_ fd /\ u64_ k
  | CancelAll k | CancelFirst k => u64_ k
  | Openat d p f m => int_ d /\ name_ p /\ int_ f /\ uint_ m
  | Unlink p f => name_ p /\ int_ f
  | Unlinkat d p f => int_ d /\ name_ p /\ int_ f
  | Rename o n => name_ o /\ name_ n
  | Renameat od o nd n f => int_ od /\ name_ o /\ int_ nd /\ name_ n /\ uint_ f
  | RenameatNoreplace od o nd n => int_ od /\ name_ o /\ int_ nd /\ name_ n
  | Socket d t p f => int_ d /\ int_ t /\ int_ p /\ uint_ f
  | SyncFileRange fd l o f => int_ fd /\ uint_ l /\ u64_ o /\ uint_ f
  | Nop | Timeout _ => True
  end.
