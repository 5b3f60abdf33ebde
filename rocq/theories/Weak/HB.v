(** Happens-before of the C++ memory model, over the positions of a linear record of atomic operations. Nothing here models koios code.

    An execution is given as the list of its operations in an order that is compatible with happens-before and with the modification order of the one atomic variable involved. Such an order exists for every execution the C++ memory model allows as long as there is only one such variable: happens-before and one modification order have no cycle (coherence). This is proved in Common/LinExt.v and, for koios::mutex, in Weak/MutexGraph.v (C151). *)
From Coq Require Import List Arith Lia.
Import ListNotations.

Section HB.
  Context {op : Type}.
  Variable who : op -> nat.                            (* the coroutine executing an operation *)
  Variable sw : list op -> nat -> nat -> Prop.         (* synchronizes-with *)
  (** happens-before: program order of a coroutine, synchronizes-with, and their transitive closure *)
  (* C++ memory model, environment, not code of /repo *)
  Inductive hb (t : list op) : nat -> nat -> Prop :=
  | hb_po m n a b : m < n -> nth_error t m = Some a -> nth_error t n = Some b -> who a = who b -> hb t m n
  | hb_sw m n : sw t m n -> hb t m n
  | hb_trans m k n : hb t m k -> hb t k n -> hb t m n.

  Hypothesis sw_lt : forall t m n, sw t m n -> m < n /\ n < length t.
  Hypothesis sw_ext : forall t x m n, sw t m n -> sw (t ++ x) m n.

  Lemma hb_lt t m n : hb t m n -> m < n /\ n < length t.
  Proof.
    induction 1 as [m n a b H1 H2 H3 H4|m n H|m k n _ [H1 H2] _ [H3 H4]]; [|eauto|lia].
    split; auto. apply nth_error_Some. congruence.
  Qed.
  Lemma nth_ext {A} (t x : list A) m a : nth_error t m = Some a -> nth_error (t ++ x) m = Some a.
  Proof. intros H. rewrite nth_error_app1; auto. apply nth_error_Some. congruence. Qed.
  Lemma nth_snoc {A} (t : list A) b : nth_error (t ++ [b]) (length t) = Some b.
  Proof. rewrite nth_error_app2, Nat.sub_diag; auto. Qed.
  Lemma hb_ext t x m n : hb t m n -> hb (t ++ x) m n.
  Proof.
    induction 1 as [m n a b H1 H2 H3 H4|m n H|m k n _ IH1 _ IH2]; [|now apply hb_sw, sw_ext|eapply hb_trans; eauto].
    eapply hb_po; eauto using nth_ext.
  Qed.
  (** the operation at [m] is the one at [n] or happens before it *)
  (* C++ memory model, environment, not code of /repo *)
  Definition hbe (t : list op) (m n : nat) : Prop := m = n \/ hb t m n.
  Lemma hbe_ext t x m n : hbe t m n -> hbe (t ++ x) m n.
  Proof. intros [H|H]; [now left|right; now apply hb_ext]. Qed.
  (** coroutine [i] has executed an operation after (or at) [m] in happens-before *)
  (* C++ memory model, environment, not code of /repo *)
  Definition knows (t : list op) (i m : nat) : Prop := exists n a, nth_error t n = Some a /\ who a = i /\ hbe t m n.
  Lemma knows_ext t x i m : knows t i m -> knows (t ++ x) i m.
  Proof. intros (n & a & H1 & H2 & H3). exists n, a. repeat split; auto using nth_ext, hbe_ext. Qed.
  Lemma knows_next t b m : knows t (who b) m -> hb (t ++ [b]) m (length t).
  Proof.
    intros (n & a & H1 & H2 & H3). assert (L : n < length t) by (apply nth_error_Some; congruence).
    assert (P : hb (t ++ [b]) n (length t)) by (eapply hb_po; [exact L|apply nth_ext; exact H1|apply nth_snoc|exact H2]).
    destruct H3 as [->|H3]; [exact P|]. eapply hb_trans; [apply hb_ext; exact H3|exact P].
  Qed.
  Lemma knows_self t b : knows (t ++ [b]) (who b) (length t).
  Proof. exists (length t), b. split; [apply nth_snoc|]. split; [reflexivity|now left]. Qed.
  Lemma knows_now t b m : hb (t ++ [b]) m (length t) -> knows (t ++ [b]) (who b) m.
  Proof. intros H. exists (length t), b. split; [apply nth_snoc|]. split; [reflexivity|now right]. Qed.
  Lemma sync_next t b r m : sw (t ++ [b]) r (length t) -> hbe t m r -> hb (t ++ [b]) m (length t).
  Proof. intros H [->|H3]; [now apply hb_sw|]. eapply hb_trans; [apply hb_ext; exact H3|now apply hb_sw]. Qed.
End HB.
