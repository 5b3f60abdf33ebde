(** Model of append_all, recv_fill_buffer, read_fill_buffer (src/iouring_awaitables.cc 61-216) and
    unique_file_state (src/unique_file_state.cc), running against an arbitrary kernel.

    One [co_await uring::write/recv/read] is one exchange with the kernel: the code hands over a span, the kernel
    answers a 32-bit result. The loops take the list of answers as input; when the list is used up the coroutine is
    still waiting. That the answer belongs to the operation is C22/C24. *)
From Coq Require Import ZArith List Bool Arith Lia.
From Verif.Errors Require Import Model.
Import ListNotations.
Open Scope Z_scope.

(* bookkeeping of the model, no counterpart in /repo *)
Definition byte := Z.
(* span::size(): bookkeeping of the model, no counterpart in /repo *)
Definition zlen {A} (l : list A) : Z := Z.of_nat (length l).

(** The length that reaches the kernel: prep_write/prep_read cast size_bytes() to unsigned int
    (iouring_op_batch.cc 99, 113), prep_send/prep_recv pass a size_t which liburing stores in the 32-bit sqe->len. *)
Definition len32 {A} (span : list A) : Z := zlen span mod 2 ^ 32.

(** an answer of the kernel: the result and the value of errno in the polling thread when it is decoded *)
(* the kernel's result of one operation and errno at that time: environment, not code of /repo *)
Record answer := Ans { res : Z; errno : Z }.
(** what the kernel may answer to an operation on [len] bytes *)
(* what the kernel may answer: environment, not code of /repo *)
Definition legal (len : Z) (a : answer) : Prop := -4095 <= res a <= len.

(* ioret_for_any_base, src/iouring_ioret.cc 12-21 *)
Definition decode (a : answer) : option ioret := make_ioret (res a) (errno a).

(** what the loops hand to the kernel: file offset and span *)
(* one co_await uring::write: iouring_awaitables.cc 61-101 *)
Record call := Call { off : Z; data : list byte; ans : answer }.

(* how append_all ends: iouring_awaitables.cc 61-101 *)
Inductive status := Finished (ec : error_code) | Waiting (* for the answer to the next call *) | Undefined.

(** append_all (error-code version), iouring_awaitables.cc 73-86: uring::write(fd, left) uses the default
    offset 0 (iouring_op_functions.h 46-50). [result] is the out-parameter. *)
Fixpoint append_all (left : list byte) (result : error_code) (kernel : list answer) : status * list call :=
  match left with
  | [] => (Finished result, [])
  | _ => match kernel with
         | [] => (Waiting, [])
         | a :: kernel' =>
             match decode a with
             | None => (Undefined, [Call 0 left a])
             | Some r =>
                 if ec_true (error_code_of r) then (Finished (error_code_of r), [Call 0 left a])
                 else let n := nbytes_delivered r in
                      if n <=? zlen left then
                        let (st, cs) := append_all (skipn (Z.to_nat n) left) (error_code_of r) kernel' in
                        (st, Call 0 left a :: cs)
                      else (Undefined, [Call 0 left a])   (* subspan beyond the end *)
             end
         end
  end.

(** unique_file_state::append_async, unique_file_state.cc 28-40: [left] is a size_t, the span handed over is the whole
    [buffer] every time; again offset 0 *)
Definition size_t_sub (a b : Z) : Z := (a - b) mod 2 ^ 64.
(* append_async, src/unique_file_state.cc 24-47 *)
Fixpoint append_async (buffer : list byte) (left : Z) (ec : error_code) (kernel : list answer) : status * list call :=
  if left =? 0 then (Finished ec, [])
  else match kernel with
       | [] => (Waiting, [])
       | a :: kernel' =>
           match decode a with
           | None => (Undefined, [Call 0 buffer a])
           | Some r =>
               if ec_true (error_code_of r) then (Finished (error_code_of r), [Call 0 buffer a])
               else let (st, cs) := append_async buffer (size_t_sub left (nbytes_delivered r)) (error_code_of r) kernel' in
                    (st, Call 0 buffer a :: cs)
           end
       end.

(** unique_file_state's constructor, unique_file_state.cc 14-21: m_path is initialised first, moving out of [path], then
    ::open(path.c_str(), O_APPEND). A moved-from path is empty (libstdc++). [fs] says which paths can be opened. *)
Definition path := list Z.
(* environment, not code of /repo *)
Definition O_ACCMODE := 3. Definition O_RDONLY := 0. Definition O_APPEND := 1024.
(* the constructor, src/unique_file_state.cc 14-21 *)
Definition construct (fs : path -> bool) (p : path) : option (path * Z (* flags of the descriptor *)) :=
  let m_path := p in
  let p_moved : path := [] in
  if fs p_moved then Some (m_path, O_APPEND) else None.   (* None: throws posix_exception *)

(** fill loops. The answer of one exchange: *)
(* the result of one recv or read: iouring_awaitables.cc 104-216 *)
Inductive rans :=
| RBytes (d : list byte)     (* success: the kernel placed these bytes at the start of the span *)
| RFail (a : answer)         (* failure, res < 0 *)
| RThrow (x : exn)           (* co_await threw a koios::exception *)
| RThrowOther.               (* co_await threw something else *)

(* environment, not code of /repo *)
Definition ETIME := 62.
(* environment, not code of /repo *)
Definition ECANCELED := 125.

(** What the caller sees: the returned count and the error-code out-parameter. *)
(* how a fill call ends: iouring_awaitables.cc 104-216 *)
Inductive fstatus := FDone (n : Z) (ec : error_code) | FWaiting | FUndefined.

(** one exchange as seen by the kernel: offset asked for (read only: offset + wrote_nbytes, line 142), size of the span, answer *)
Record rcall := RCall { roff : Z; rroom : Z; rans_of : rans }.

(** recv_fill_buffer / read_fill_buffer, iouring_awaitables.cc 104-156, with after_read_or_recv 88-102 inlined.
    [room]: size of the span [buffer]; [wrote]: wrote_nbytes; [filled]: what the caller's buffer contains so far
    (from its start; everything behind is untouched); each round consumes one clock reading and one answer.
    When the rounds are used up the loop is still running. *)
Fixpoint fill (offset timeout : Z) (room wrote : Z) (filled : list byte) (ec : error_code)
              (rounds : list (Z * rans)) : fstatus * list byte * list rcall :=
  if ec_true ec || (room =? 0) then (FDone wrote ec, filled, [])
  else match rounds with
       | [] => (FWaiting, filled, [])
       | (now, r) :: rounds' =>
           if timeout <=? now then (FDone wrote ec, filled, [])
           else
             let c := RCall (offset + wrote) room r in
             let k := fun rest : fstatus * list byte * list rcall =>
                        match rest with (s, f, o) => (s, f, c :: o) end in
             match r with
             | RBytes d =>
                 let n := zlen d in
                 k (fill offset timeout (room - Z.min n room) (wrote + n) (filled ++ d) ec rounds')
             | RFail a =>
                 match decode a with
                 | None => (FUndefined, filled, [c])
                 | Some o =>
                     let e := error_code_of o in
                     if value e =? 0 then   (* case 0 of the switch *)
                       k (fill offset timeout (room - Z.min (nbytes_delivered o) room) (wrote + nbytes_delivered o) filled ec rounds')
                     else if value e =? ETIME then k (fill offset timeout 0 wrote filled ec rounds')
                     else k (fill offset timeout 0 wrote filled e rounds')
                 end
             | RThrow x => (FDone 0 (error_code_virtual x), filled, [c])      (* 120-124 *)
             | RThrowOther => (FDone 0 catched, filled, [c])                  (* 125-129 *)
             end
       end.
(** the call as the user makes it *)
(* recv_fill_buffer, read_fill_buffer: iouring_awaitables.cc 104-216 *)
Definition fill_buffer (offset timeout size : Z) (ec : error_code) (rounds : list (Z * rans)) :=
  fill offset timeout size 0 [] ec rounds.

(** The throwing overloads, iouring_awaitables.cc 170-192, 206-216: start with ec = {} *)
Inductive tstatus := TReturned (n : Z) | TThrown (x : option exn) | TWaiting | TUndefined.
(* the overloads that throw: iouring_awaitables.cc 104-216 *)
Definition throwing (s : fstatus) : tstatus :=
  match s with
  | FDone n ec => if ec_true ec && negb ((value ec =? ECANCELED) && match cat ec with System => true | _ => false end)
                  then TThrown (exn_of_ec CUring ec) else TReturned n
  | FWaiting => TWaiting
  | FUndefined => TUndefined
  end.
