(** Model of the prep functions of op_batch, of the operation functions built on them, and of the submission entries they fill.
    src/iouring_op_batch.cc 34-388, include/koios/iouring_op_batch.h 68-318, src/iouring_op_batch_rep.cc 12-17,
    src/iouring_op_functions.cc 11-329, src/iouring_op_batch_execute_aw.cc 16-20.

    Environment, from liburing (the io_uring_prep functions) and the kernel's reading of an entry: [prep_rw] and the functions after it fill the fields
    of struct io_uring_sqe (64-bit addr and off, 32-bit len and flags); [perform] is how the kernel reads them back.
    Simplifications: the copies made by m_peripheral.add live as long as the batch (this is C99); the conversion of a deadline
    to a timespec (toolpex) is exact; the fields no function of koios sets are left out. *)
From Coq Require Import List ZArith Bool.
From Verif.Prep Require Import Spec.
Import ListNotations.
Open Scope Z_scope.

(* liburing, environment, not code of /repo *)
Inductive opcode := OP_NOP | OP_FSYNC | OP_SYNC_FILE_RANGE | OP_SENDMSG | OP_RECVMSG | OP_ACCEPT | OP_ASYNC_CANCEL | OP_LINK_TIMEOUT
  | OP_CONNECT | OP_OPENAT | OP_READ | OP_WRITE | OP_SEND | OP_RECV | OP_RENAMEAT | OP_UNLINKAT | OP_SOCKET.

(** a pointer: to memory of the user, or to (a member of) the i-th object copied into the batch *)
(* an address: of the user, or of a copy in m_peripheral (iouring_op_peripheral.h 20-76) *)
Inductive ptr := User (a : Z) | Copy (i : nat) | Copy2 (i : nat).
(* what is copied into m_peripheral: iouring_op_peripheral.h 20-76 *)
Inductive object := OPath (p : path) | OPaths (o n : path) | OSock (a : Z) | OTime (t : Z).

(* liburing, environment, not code of /repo *)
Record sqe := Sqe { op : opcode; fd : Z; addr : ptr; len : Z; off : Z + ptr; opflags : Z; link : bool }.

(** ** liburing *)
(* environment, not code of /repo (width of a field) *)
Definition u32 (z : Z) : Z := z mod 2 ^ 32.
(* environment, not code of /repo (width of a field) *)
Definition u64 (z : Z) : Z := z mod 2 ^ 64.
(* environment, not code of /repo (width of a field) *)
Definition s32 (z : Z) : Z := (* a 32-bit field read as int *) let w := z mod 2 ^ 32 in if w <? 2 ^ 31 then w else w - 2 ^ 32.
(* liburing, environment, not code of /repo *)
Definition prep_rw (o : opcode) (f : Z) (a : ptr) (l : Z) (offset : Z + ptr) : sqe := Sqe o (s32 f) a (u32 l) offset 0 false.
(* liburing, environment, not code of /repo *)
Definition with_flags (q : sqe) (fl : Z) : sqe := Sqe (op q) (fd q) (addr q) (len q) (off q) (u32 fl) (link q).
(* liburing, environment, not code of /repo *)
Definition null : ptr := User 0.
(* liburing, environment, not code of /repo *)
Definition io_uring_prep_accept f fl := with_flags (prep_rw OP_ACCEPT f null 0 (inl 0)) fl.
(* liburing, environment, not code of /repo *)
Definition io_uring_prep_send f b l fl := with_flags (prep_rw OP_SEND f (User (u64 b)) l (inl 0)) fl.
(* liburing, environment, not code of /repo *)
Definition io_uring_prep_recv f b l fl := with_flags (prep_rw OP_RECV f (User (u64 b)) l (inl 0)) fl.
(* liburing, environment, not code of /repo *)
Definition io_uring_prep_sendmsg f m fl := with_flags (prep_rw OP_SENDMSG f (User (u64 m)) 1 (inl 0)) fl.
(* liburing, environment, not code of /repo *)
Definition io_uring_prep_recvmsg f m fl := with_flags (prep_rw OP_RECVMSG f (User (u64 m)) 1 (inl 0)) fl.
(* liburing, environment, not code of /repo *)
Definition io_uring_prep_read f b l o := prep_rw OP_READ f (User (u64 b)) l (inl (u64 o)).
(* liburing, environment, not code of /repo *)
Definition io_uring_prep_write f b l o := prep_rw OP_WRITE f (User (u64 b)) l (inl (u64 o)).
(* liburing, environment, not code of /repo *)
Definition io_uring_prep_connect f (a : ptr) alen := prep_rw OP_CONNECT f a 0 (inl (u64 alen)).
(* liburing, environment, not code of /repo *)
Definition io_uring_prep_cancel k fl := with_flags (prep_rw OP_ASYNC_CANCEL (-1) (User (u64 k)) 0 (inl 0)) fl.
(* liburing, environment, not code of /repo *)
Definition io_uring_prep_openat d (p : ptr) fl m := with_flags (prep_rw OP_OPENAT d p m (inl 0)) fl.
(* liburing, environment, not code of /repo *)
Definition io_uring_prep_unlinkat d (p : ptr) fl := with_flags (prep_rw OP_UNLINKAT d p 0 (inl 0)) fl.
(* liburing, environment, not code of /repo *)
Definition io_uring_prep_unlink (p : ptr) fl := io_uring_prep_unlinkat AT_FDCWD p fl.
(* liburing, environment, not code of /repo *)
Definition io_uring_prep_renameat od (o : ptr) nd (n : ptr) fl := with_flags (prep_rw OP_RENAMEAT od o nd (inr n)) fl.
(* liburing, environment, not code of /repo *)
Definition io_uring_prep_rename (o n : ptr) := io_uring_prep_renameat AT_FDCWD o AT_FDCWD n 0.
(* liburing, environment, not code of /repo *)
Definition io_uring_prep_socket d t p fl := with_flags (prep_rw OP_SOCKET d null p (inl (u64 t))) fl.
(* liburing, environment, not code of /repo *)
Definition io_uring_prep_sync_file_range f l o fl := with_flags (prep_rw OP_SYNC_FILE_RANGE f null l (inl (u64 o))) fl.
(* liburing, environment, not code of /repo *)
Definition IORING_FSYNC_DATASYNC := 1.
(* liburing, environment, not code of /repo *)
Definition io_uring_prep_fsync f fl := with_flags (prep_rw OP_FSYNC f null 0 (inl 0)) fl.
(* liburing, environment, not code of /repo *)
Definition io_uring_prep_nop := prep_rw OP_NOP (-1) null 0 (inl 0).
(* liburing, environment, not code of /repo *)
Definition TIMEOUT_ABS := 1. Definition TIMEOUT_REALTIME := 8.
(* liburing, environment, not code of /repo *)
Definition io_uring_prep_link_timeout (ts : ptr) fl := with_flags (prep_rw OP_LINK_TIMEOUT (-1) ts 1 (inl 0)) fl.

(** ** op_batch: the entries, the copied objects, was_timeout_set *)
(* m_rep, m_peripheral, m_timeout_set of op_batch: iouring_op_batch.h 340-349 *)
Record batch := B { sqes : list sqe; objs : list object; timeout_set : bool }.
(* a new op_batch: iouring_op_batch.h 50-64 *)
Definition empty : batch := B [] [] false.

(** iouring_op_batch_rep.cc 12-17; the caller fills the slot with [q]. None: prev(end()) of an empty vector *)
Definition get_sqe (b : batch) (q : sqe) : option batch :=
  if timeout_set b
  then match rev (sqes b) with
       | [] => None
       | lst :: pre => Some (B (rev pre ++ [q; lst]) (objs b) (timeout_set b))
       end
  else Some (B (sqes b ++ [q]) (objs b) (timeout_set b)).
(** m_peripheral.add: a new copied object, and its address *)
(* m_peripheral.add, iouring_op_peripheral.h 20-76 *)
Definition add (b : batch) (o : object) : batch * nat := (B (sqes b) (objs b ++ [o]) (timeout_set b), length (objs b)).
(** cur_sqe->flags |= IOSQE_IO_LINK *)
(* IOSQE_IO_LINK, src/iouring_op_batch_rep.cc 12-17 *)
Definition linked (q : sqe) : sqe := Sqe (op q) (fd q) (addr q) (len q) (off q) (opflags q) true.
(* the fd field set after the prep function: src/iouring_op_batch.cc 34-388 *)
Definition set_fd (q : sqe) (f : Z) : sqe := Sqe (op q) (s32 f) (addr q) (len q) (off q) (opflags q) (link q).

(** iouring_op_batch.cc 34-388, in the order of [call] *)
Definition prep (b : batch) (c : call) : option batch :=
  match c with
  | Accept f => get_sqe b (linked (io_uring_prep_accept f 0))                                         (* 34-41 *)
  | Send f bu l fl => get_sqe b (linked (io_uring_prep_send f bu l fl))                               (* 43-56 *)
  | Recv f bu l fl => get_sqe b (linked (io_uring_prep_recv f bu l fl))                               (* 58-70 *)
  | Sendmsg f m fl => get_sqe b (linked (io_uring_prep_sendmsg f m fl))                               (* 72-80 *)
  | Recvmsg f m fl => get_sqe b (linked (io_uring_prep_recvmsg f m fl))                               (* 82-90 *)
  | Read f bu l o => get_sqe b (linked (io_uring_prep_read f bu (u32 l) o))                           (* 92-104: static_cast<unsigned> *)
  | Write f bu l o => get_sqe b (linked (io_uring_prep_write f bu (u32 l) o))                         (* 106-118 *)
  | Connect f a => let (b1, i) := add b (OSock (fst a)) in
                   get_sqe b1 (linked (io_uring_prep_connect f (Copy i) (snd a)))                     (* 120-135 *)
  | CancelAny f k => get_sqe b (linked (set_fd (io_uring_prep_cancel k CANCEL_ANY) f))                (* 137-157 *)
  | CancelAnyFd f => get_sqe b (linked (set_fd (io_uring_prep_cancel 0 CANCEL_ANY) f))                (* 159-167 *)
  | CancelAll k => get_sqe b (linked (io_uring_prep_cancel k CANCEL_ALL))                             (* 169-185 *)
  | CancelFirst k => get_sqe b (linked (io_uring_prep_cancel k 0))                                    (* 187-203 *)
  | Openat d p fl m => let (b1, i) := add b (OPath p) in
                       get_sqe b1 (linked (io_uring_prep_openat d (Copy i) fl m))                     (* 212-222 *)
  | Unlink p fl => let (b1, i) := add b (OPath p) in
                   get_sqe b1 (linked (io_uring_prep_unlink (Copy i) fl))                             (* 224-234 *)
  | Unlinkat d p fl => let (b1, i) := add b (OPath p) in
                       get_sqe b1 (linked (io_uring_prep_unlinkat d (Copy i) fl))                     (* 236-247 *)
  | Rename o n => let (b1, i) := add b (OPaths o n) in
                  get_sqe b1 (linked (io_uring_prep_rename (Copy i) (Copy2 i)))                       (* 260-269 *)
  | Renameat od o nd n fl => let (b1, i) := add b (OPaths o n) in
                  get_sqe b1 (linked (io_uring_prep_renameat od (Copy i) nd (Copy2 i) fl))            (* 271-288 *)
  | RenameatNoreplace od o nd n => let (b1, i) := add b (OPaths o n) in
                  get_sqe b1 (linked (io_uring_prep_renameat od (Copy i) nd (Copy2 i) RENAME_NOREPLACE)) (* 290-306 *)
  | Socket d t p fl => get_sqe b (linked (io_uring_prep_socket d t p fl))                             (* 308-316 *)
  | SyncFileRange f l o fl => get_sqe b (linked (io_uring_prep_sync_file_range f l o fl))             (* 318-328 *)
  | Fsync f => get_sqe b (linked (io_uring_prep_fsync f 0))                                           (* 330-337 *)
  | Fdatasync f => get_sqe b (linked (io_uring_prep_fsync f IORING_FSYNC_DATASYNC))                   (* 339-346 *)
  | Nop => get_sqe b (linked io_uring_prep_nop)                                                       (* 348-355 *)
  | Timeout None => Some b                                                                            (* 360-361 *)
  | Timeout (Some t) =>                                                                               (* 357-388 *)
      let (b1, i) := add b (OTime t) in
      let q := io_uring_prep_link_timeout (Copy i) (TIMEOUT_REALTIME + TIMEOUT_ABS) in
      if timeout_set b1
      then match rev (sqes b1) with [] => None | _ :: pre => Some (B (rev pre ++ [q]) (objs b1) true) end
      else Some (B (sqes b1 ++ [q]) (objs b1) true)
  end.
(* a sequence of calls on one batch: src/iouring_op_batch.cc 34-388 *)
Fixpoint prep_all (b : batch) (cs : list call) : option batch :=
  match cs with [] => Some b | c :: cs' => match prep b c with Some b' => prep_all b' cs' | None => None end end.

(** execute: await_suspend, iouring_op_batch_execute_aw.cc 16-20: the last entry loses its link flag. None: back() of an empty vector *)
Definition execute (b : batch) : option (list sqe) :=
  match rev (sqes b) with
  | [] => None
  | lst :: pre => Some (rev pre ++ [Sqe (op lst) (fd lst) (addr lst) (len lst) (off lst) (opflags lst) false])
  end.

(** ** The kernel's reading of an entry; [m] is the batch's memory *)
(* a NUL-terminated string: environment, not code of /repo *)
Fixpoint c_string (p : path) : path := match p with [] => [] | c :: p' => if c =? 0 then [] else c :: c_string p' end.
(* the kernel reads a path: environment, not code of /repo *)
Definition read_path (m : list object) (a : ptr) : path :=
  match a with
  | Copy i => match nth_error m i with Some (OPath p) => c_string p | Some (OPaths o _) => c_string o | _ => [] end
  | Copy2 i => match nth_error m i with Some (OPaths _ n) => c_string n | _ => [] end
  | User _ => []
  end.
(* the off field as a number: environment, not code of /repo *)
Definition num (x : Z + ptr) : Z := match x with inl z => z | inr _ => 0 end.
(* how the kernel reads an entry: environment, not code of /repo *)
Definition perform (m : list object) (q : sqe) : request :=
  match op q, addr q with
  | OP_READ, User a => if num (off q) =? 2 ^ 64 - 1 then RUnknown else RRead (fd q) a (len q) (num (off q))   (* -1: file position *)
  | OP_WRITE, User a => if num (off q) =? 2 ^ 64 - 1 then RUnknown else RWrite (fd q) a (len q) (num (off q))
  | OP_SEND, User a => RSend (fd q) a (len q) (s32 (opflags q))
  | OP_RECV, User a => RRecv (fd q) a (len q) (s32 (opflags q))
  | OP_SENDMSG, User a => RSendmsg (fd q) a (s32 (opflags q))
  | OP_RECVMSG, User a => RRecvmsg (fd q) a (s32 (opflags q))
  | OP_ACCEPT, _ => RAccept (fd q) (s32 (opflags q))
  | OP_CONNECT, Copy i => match nth_error m i with Some (OSock a) => RConnect (fd q) (a, num (off q)) | _ => RUnknown end
  | OP_ASYNC_CANCEL, User k => RCancel k (opflags q)
  | OP_OPENAT, a => ROpenat (fd q) (read_path m a) (s32 (opflags q)) (len q)
  | OP_UNLINKAT, a => RUnlinkat (fd q) (read_path m a) (s32 (opflags q))
  | OP_RENAMEAT, a => match off q with
                      | inr a2 => RRenameat (fd q) (read_path m a) (s32 (len q)) (read_path m a2) (opflags q)
                      | inl _ => RUnknown
                      end
  | OP_SOCKET, _ => RSocket (fd q) (s32 (num (off q))) (s32 (len q)) (opflags q)
  | OP_SYNC_FILE_RANGE, _ => RSyncFileRange (fd q) (len q) (num (off q)) (opflags q)
  | OP_FSYNC, _ => if opflags q =? IORING_FSYNC_DATASYNC then RFdatasync (fd q) else if opflags q =? 0 then RFsync (fd q) else RUnknown
  | OP_NOP, _ => RNop
  | OP_LINK_TIMEOUT, Copy i => match nth_error m i with
                               | Some (OTime t) => if opflags q =? TIMEOUT_ABS + TIMEOUT_REALTIME then RTimeout t else RUnknown
                               | _ => RUnknown
                               end
  | _, _ => RUnknown
  end.

(** ** The operation functions, iouring_op_functions.cc: a batch with one operation, and its deadline *)
Inductive api :=
| ARead (fd buf len off : Z) (tp : option Z) | AWrite (fd buf len off : Z) (tp : option Z)
| ASend (fd buf len flags : Z) (tp : option Z) | ARecv (fd buf len flags : Z) (tp : option Z)
| ASendmsg (fd msg flags : Z) (tp : option Z) | ARecvmsg (fd msg flags : Z) (tp : option Z)
| AConnect (fd : Z) (a : sockaddr) (tp : option Z) | AAccept (fd : Z) (tp : option Z)
| ARename (o n : path) | ARenameat (odfd : Z) (o : path) (ndfd : Z) (n : path) (flags : Z) | ARenameatNoreplace (odfd : Z) (o : path) (ndfd : Z) (n : path)
| ASocket (domain type proto flags : Z) | AOpenat (dfd : Z) (p : path) (flags mode : Z)
| AUnlink (p : path) (flags : Z) | AUnlinkat (dfd : Z) (p : path) (flags : Z)
| AFsync (fd : Z) | AFdatasync (fd : Z) | ASyncFileRange (fd len off flags : Z) | ANop.
(* liburing, environment, not code of /repo *)
Definition SOCK_NONBLOCK := 2048.
Definition calls_of (a : api) : list call :=
  match a with
  | ARead f b l o tp => [Read f b l o; Timeout tp]                       (* 11-49 *)
  | AWrite f b l o tp => [Write f b l o; Timeout tp]                     (* 51-89 *)
  | ASend f b l fl tp => [Send f b l fl; Timeout tp]                     (* 91-129 *)
  | ARecv f b l fl tp => [Recv f b l fl; Timeout tp]                     (* 131-169 *)
  | ASendmsg f m fl tp => [Sendmsg f m fl; Timeout tp]                   (* 259-268 *)
  | ARecvmsg f m fl tp => [Recvmsg f m fl; Timeout tp]                   (* 270-279 *)
  | AConnect f a tp => [Connect f a; Timeout tp]                         (* 281-290 *)
  | AAccept f tp => [Accept f; Timeout tp]                               (* 292-299 *)
  | ARename o n => [Rename o n]                                          (* 171-178 *)
  | ARenameat od o nd n fl => [Renameat od o nd n fl]                    (* 180-188 *)
  | ARenameatNoreplace od o nd n => [RenameatNoreplace od o nd n]        (* 190-199 *)
  | ASocket d t p fl => [Socket d (Z.lor t SOCK_NONBLOCK) p fl]          (* 201-207 *)
  | AOpenat d p fl m => [Openat d p fl m]                                (* 209-217 *)
  | AUnlink p fl => [Unlink p fl]                                        (* 219-225 *)
  | AUnlinkat d p fl => [Unlinkat d p fl]                                (* 227-234 *)
  | AFsync f => [Fsync f]                                                (* 236-241 *)
  | AFdatasync f => [Fdatasync f]                                        (* 243-248 *)
  | ASyncFileRange f l o fl => [SyncFileRange f l o fl]                  (* 250-257 *)
  | ANop => [Nop]                                                        (* 323-329 *)
  end.
(* what is submitted: src/iouring_op_batch_execute_aw.cc 16-20, src/iouring.cc 104-117 *)
Definition submitted (cs : list call) : option (list request * list bool) :=
  match prep_all empty cs with
  | Some b => match execute b with Some qs => Some (map (perform (objs b)) qs, map link qs) | None => None end
  | None => None
  end.
