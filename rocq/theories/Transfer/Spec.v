From Coq Require Import ZArith List Bool.
From Verif.Errors Require Import Model.
From Verif.Transfer Require Import Model.
Import ListNotations.
Open Scope Z_scope.

(** The bytes the kernel accepted in a call: the first [res] bytes of the span. *)
Definition taken (c : call) : list byte := if res (ans c) <? 0 then [] else firstn (Z.to_nat (res (ans c))) (data c).
Definition accepted (cs : list call) : list byte := concat (map taken cs).

Definition prefix {A} (p l : list A) : Prop := exists q, l = p ++ q.

(** every answer is one the kernel may give to the call it answers *)
Definition all_legal (cs : list call) : Prop := forall c, In c cs -> legal (len32 (data c)) (ans c).

(** Contents of a regular file not opened with O_APPEND: a write goes to its offset. *)
Definition pwrite (file : list byte) (o : nat) (d : list byte) : list byte := firstn o file ++ d ++ skipn (o + length d) file.
Definition file_after (file : list byte) (cs : list call) : list byte :=
  fold_left (fun f c => pwrite f (Z.to_nat (off c)) (taken c)) cs file.

(** fill loops: the bytes the kernel delivered, in order *)
Definition bytes_of (c : rcall) : list byte := match rans_of c with RBytes d => d | _ => [] end.
Definition delivered (cs : list rcall) : list byte := concat (map bytes_of cs).
(** every answer is one the kernel may give: not more bytes than (the low 32 bits of) the span's size *)
Definition rlegal (c : rcall) : Prop :=
  match rans_of c with
  | RBytes d => zlen d <= rroom c mod 2 ^ 32
  | RFail a => -4095 <= res a < 0
  | _ => True
  end.
Definition all_rlegal (cs : list rcall) : Prop := forall c, In c cs -> rlegal c.
Definition no_throw (cs : list rcall) : Prop :=
  forall c, In c cs -> match rans_of c with RThrow _ | RThrowOther => False | _ => True end.
(** an answer "the deadline of this operation passed" *)
Definition says_time (c : rcall) : Prop :=
  exists a o, rans_of c = RFail a /\ decode a = Some o /\ value (error_code_of o) = 62.   (* ETIME *)
(** reads from a file that does not change: what comes back is what the file contains at the offset asked for *)
Definition from_file (file : list byte) (c : rcall) : Prop :=
  match rans_of c with RBytes d => 0 <= roff c /\ d = firstn (length d) (skipn (Z.to_nat (roff c)) file) | _ => True end.
