From Coq Require Import List Arith Bool.
From Verif.Common Require Import TS.
From Verif.EventLoop Require Import Model.
Import ListNotations.

(** answers given during a round *)
Fixpoint answers {Wd} (lps : list (@loop Wd)) (w : Wd) : list bool :=
  match lps with [] => [] | lp :: lps' => let '(v, w') := lp w in v :: answers lps' w' end.
(** how often loop l was prepared for thread t *)
Definition cnt (l t : nat) (p : list (nat * nat)) : nat :=
  length (filter (fun x => Nat.eqb (fst x) l && Nat.eqb (snd x) t) p).
