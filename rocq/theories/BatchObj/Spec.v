(** Specification vocabulary for C99, C100: which operations a batch object was asked for, from the history alone. *)
From Coq Require Import List Arith Bool.
From Verif.Common Require Import TS.
From Verif.BatchObj Require Import Model.
Import ListNotations.

(** [asked] maps each object to the operations and arguments put into it (or into the batch it was moved from). *)
Definition ask (a : nat -> list (nat * option nat)) (e : event) : nat -> list (nat * option nat) :=
  match e with
  | ENew b _ | ENewIn b _ => upd a b []
  | EPrep b _ op x => upd a b (a b ++ [(op, Some x)])
  | EPrepPlain b op => upd a b (a b ++ [(op, None)])
  | EMove d s | EAssign d s => upd (upd a d (a s)) s []
  | _ => a
  end.
Definition asked (l : list event) : nat -> list (nat * option nat) := fold_left ask l (fun _ => []).

(** Proper use: move assignment only between two batches made from the same memory resource of the user (see C100); moved-from batches are only destroyed (or moved again); batches are executed with something in
    them; a resource the user provides outlives the batches that use it, and the user does not touch a batch's own resource. *)
Definition proper (s : state) (e : event) : Prop :=
  match e with
  | EAssign d s_ => moved s d = false /\ moved s s_ = false /\
      forall bd bs, batches s d = Some bd -> batches s s_ = Some bs -> mbr bd = None /\ mbr bs = None /\ mr bd = mr bs
  | EPrep b _ _ _ | EPrepPlain b _ => moved s b = false
  | EExec b => moved s b = false /\ forall y, batches s b = Some y -> entries y <> []
  | EUserDrop a => forall b y, batches s b = Some y -> moved s b = false -> mr y <> a
  | ENewIn b a => forall b' y, batches s b' = Some y -> mbr y <> Some a
  | _ => True
  end.
