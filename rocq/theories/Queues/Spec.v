From Coq Require Import List Arith Bool.
From Verif.Common Require Import TS.
From Verif.Queues Require Import Model.
Import ListNotations.

Fixpoint q_ins (l : list qobs) : list nat := match l with [] => [] | QIn x :: l' => x :: q_ins l' | _ :: l' => q_ins l' end.
Fixpoint q_outs (l : list qobs) : list nat := match l with [] => [] | QOut (Some x) :: l' => x :: q_outs l' | _ :: l' => q_outs l' end.

(** the tasks a task causes to run, itself included: depth first, left to right, a body being cut off by its first throw *)
Fixpoint executed (t : task) : list nat :=
  match t with
  | Task i b => i :: (fix go (b : list action) := match b with
                                                  | [] => []
                                                  | Spawn t' :: b' => executed t' ++ go b'
                                                  | Throw :: _ => []
                                                  end) b
  end.
