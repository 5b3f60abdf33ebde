(** Sums over threads 0..m-1, used as termination measures. *)
From Coq Require Import Arith Lia.
From Verif.Common Require Import TS.

Fixpoint sum_to (m : nat) (f : nat -> nat) : nat := match m with O => 0 | S m' => f m' + sum_to m' f end.
Lemma sum_to_ext m f g : (forall i, i < m -> f i = g i) -> sum_to m f = sum_to m g.
Proof. induction m as [|m IH]; intros H; cbn; [reflexivity|]. rewrite H by lia. rewrite IH; [reflexivity|]. intros; apply H; lia. Qed.
(** If only the term of thread [t] changes, the sum changes by the difference. *)
Lemma sum_to_one m f g t : t < m -> (forall i, i <> t -> f i = g i) -> sum_to m f + g t = sum_to m g + f t.
Proof.
  induction m as [|m IH]; intros Hm H; [lia|]. cbn. destruct (Nat.eq_dec t m) as [->|Hne].
  - rewrite (sum_to_ext m f g); [lia|]. intros; apply H; lia.
  - specialize (IH ltac:(lia) H). rewrite (H m) by lia. lia.
Qed.
