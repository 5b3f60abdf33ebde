(** Small list library (object tables, sums over them). Nothing here models koios code. *)
From Coq Require Import List Arith Lia Bool.
Import ListNotations.

Fixpoint set_nth {A} (i : nat) (x : A) (l : list A) : list A :=
  match l, i with
  | [], _ => []
  | _ :: l', O => x :: l'
  | y :: l', S i' => y :: set_nth i' x l'
  end.

Lemma set_nth_length {A} i (x : A) l : length (set_nth i x l) = length l.
Proof. revert i; induction l as [|y l IH]; intros [|i]; cbn; auto. Qed.

Lemma nth_error_set_same {A} i (x : A) l : i < length l -> nth_error (set_nth i x l) i = Some x.
Proof. revert i; induction l as [|y l IH]; intros [|i] H; cbn in *; try lia; auto. apply IH; lia. Qed.

Lemma nth_error_set_other {A} i j (x : A) l : j <> i -> nth_error (set_nth i x l) j = nth_error l j.
Proof.
  revert i j; induction l as [|y l IH]; intros [|i] [|j] H; cbn; auto; congruence.
Qed.

Lemma nth_error_set {A} i j (x : A) l :
  nth_error (set_nth i x l) j =
  if Nat.eqb j i then (if Nat.ltb i (length l) then Some x else None) else nth_error l j.
Proof.
  destruct (Nat.eqb_spec j i) as [->|H].
  - destruct (Nat.ltb_spec i (length l)).
    + now apply nth_error_set_same.
    + apply nth_error_None. rewrite set_nth_length. lia.
  - now apply nth_error_set_other.
Qed.

Lemma nth_error_lt {A} (l : list A) i x : nth_error l i = Some x -> i < length l.
Proof. intros H. apply nth_error_Some. congruence. Qed.

Fixpoint sumf {A} (f : A -> nat) (l : list A) : nat :=
  match l with [] => 0 | x :: l' => f x + sumf f l' end.

Lemma sumf_app {A} (f : A -> nat) l1 l2 : sumf f (l1 ++ l2) = sumf f l1 + sumf f l2.
Proof. induction l1; cbn; lia. Qed.

Lemma sumf_set {A} (f : A -> nat) i x y l :
  nth_error l i = Some y -> sumf f (set_nth i x l) + f y = sumf f l + f x.
Proof.
  revert i; induction l as [|z l IH]; intros [|i] H; cbn in *; try discriminate.
  - inversion H; subst. lia.
  - specialize (IH _ H). lia.
Qed.

Lemma sumf_ge {A} (f : A -> nat) i x l : nth_error l i = Some x -> f x <= sumf f l.
Proof.
  revert i; induction l as [|z l IH]; intros [|i] H; cbn in *; try discriminate.
  - inversion H; subst; lia.
  - specialize (IH _ H). lia.
Qed.

Lemma sumf_zero {A} (f : A -> nat) l : (forall x, In x l -> f x = 0) -> sumf f l = 0.
Proof. induction l as [|x l IH]; cbn; intros H; [reflexivity|]. rewrite (H x), IH; auto. Qed.

Lemma sumf_zero_inv {A} (f : A -> nat) l : sumf f l = 0 -> forall x, In x l -> f x = 0.
Proof.
  induction l as [|y l IH]; cbn; intros H x; [easy|].
  intros [->|Hx]; [lia|]. apply IH; [lia|assumption].
Qed.

Lemma sumf_ext {A} (f g : A -> nat) l : (forall x, In x l -> f x = g x) -> sumf f l = sumf g l.
Proof. induction l as [|x l IH]; cbn; intros H; [reflexivity|]. rewrite (H x), IH; auto. Qed.
