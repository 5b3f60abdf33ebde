(** Finite acyclic relations can be listed in order. Nothing here models koios code.

    Used for execution graphs of the C++ memory model: happens-before, together with the coherence order of one atomic variable, has no cycle, so the events can be listed in an order that agrees with both. *)
From Coq Require Import List Arith Lia Bool Permutation ListDec.
Import ListNotations.

(** the transitive closure of [E] *)
Inductive path (E : nat -> nat -> bool) : nat -> nat -> Prop :=
| path_one x y : E x y = true -> path E x y
| path_snoc x y z : path E x y -> E y z = true -> path E x z.
Lemma path_trans E x y z : path E x y -> path E y z -> path E x z.
Proof. intros H1 H2. revert H1. induction H2 as [y z H|y k z _ IH H]; intros H1; [eapply path_snoc; eauto|]. eapply path_snoc; [exact (IH H1)|exact H]. Qed.
Lemma path_cons E x y z : E x y = true -> path E y z -> path E x z.
Proof. intros H1 H2. apply (path_trans E x y z); [now apply path_one|exact H2]. Qed.
Lemma path_mono (E F : nat -> nat -> bool) : (forall x y, E x y = true -> F x y = true) -> forall x y, path E x y -> path F x y.
Proof. intros H x y P. induction P; [apply path_one; auto|eapply path_snoc; eauto]. Qed.

Section Topo.
  Variable E : nat -> nat -> bool.
  Hypothesis acyclic : forall x, ~ path E x x.

  (** going back along edges inside [l] for [k] steps *)
  Fixpoint chain (c : list nat) : Prop :=
    match c with x :: (y :: _) as r => E x y = true /\ chain r | _ => True end.
  Lemma chain_path : forall c x y r, chain (x :: c) -> In y c -> c = r -> path E x y.
  Proof.
    induction c as [|z c IH]; intros x y r H Hy _; [destruct Hy|]. destruct H as [H1 H2]. destruct Hy as [<-|Hy]; [now apply path_one|].
    eapply path_cons; [exact H1|]. eapply IH; eauto.
  Qed.
  Lemma chain_NoDup c : chain c -> NoDup c.
  Proof.
    induction c as [|x c IH]; intros H; constructor.
    - intros Hx. apply (acyclic x). eapply chain_path; eauto.
    - apply IH. destruct c; [exact I|]. apply H.
  Qed.
  Lemma source (l : list nat) : l <> [] -> exists x, In x l /\ forallb (fun y => negb (E y x)) l = true.
  Proof.
    intros Hne. destruct (existsb (fun x => forallb (fun y => negb (E y x)) l) l) eqn:Ex.
    - apply existsb_exists in Ex. exact Ex.
    - exfalso. assert (Back : forall x, In x l -> exists y, In y l /\ E y x = true).
      { intros x Hx. destruct (existsb (fun y => E y x) l) eqn:Ey; [apply existsb_exists in Ey; exact Ey|exfalso].
        assert (X : existsb (fun x => forallb (fun y => negb (E y x)) l) l = true).
        { apply existsb_exists. exists x. split; auto. apply forallb_forall. intros y Hy. destruct (E y x) eqn:F; auto.
          assert (existsb (fun y => E y x) l = true) by (apply existsb_exists; eauto). congruence. }
        congruence. }
      assert (Long : forall k, exists c, length c = S k /\ incl c l /\ chain c).
      { induction k as [|k (c & L & I & C)].
        - destruct l as [|x l']; [congruence|]. exists [x]. split; auto. split; [|exact Logic.I]. intros z [->|[]]. now left.
        - destruct c as [|x c]; [discriminate|]. destruct (Back x) as (y & Hy & F); [apply I; now left|]. exists (y :: x :: c). split; [cbn in *; lia|]. split.
          + intros z [->|Hz]; auto.
          + split; auto. }
      destruct (Long (length l)) as (c & L & I & C). pose proof (NoDup_incl_length (chain_NoDup c C) I). lia.
  Qed.
  (** every element of the list comes after all those that have an edge to it *)
  Definition listed (done ord : list nat) : Prop := forall a x b, ord = a ++ x :: b -> forall y, In y (done ++ ord) -> E y x = true -> In y (done ++ a).
  Lemma topo : forall k l done, length l = k -> NoDup l -> (forall x y, In x l -> In y done -> E x y = false) -> exists ord, Permutation l ord /\ listed done ord.
  Proof.
    induction k as [|k IH]; intros l done L ND Hd.
    - destruct l; [|discriminate]. exists []. split; auto. intros a x b Hx. destruct a; discriminate.
    - destruct (source l) as (x & Hx & Hs); [destruct l; [discriminate|congruence]|].
      destruct (in_split _ _ Hx) as (l1 & l2 & ->). rewrite forallb_forall in Hs.
      pose proof (NoDup_remove _ _ _ ND) as [ND' Nx].
      destruct (IH (l1 ++ l2) (done ++ [x])) as (ord & P & H).
      + rewrite app_length in *; cbn in L. lia.
      + exact ND'.
      + intros y z Hy Hz. apply in_app_or in Hz. destruct Hz as [Hz|[<-|[]]].
        * apply Hd; auto. apply in_app_or in Hy. apply in_or_app. destruct Hy; [now left|right; now right].
        * assert (X : negb (E y x) = true) by (apply Hs; apply in_app_or in Hy; apply in_or_app; destruct Hy; [now left|right; now right]). now destruct (E y x).
      + exists (x :: ord). split; [apply Permutation_sym, Permutation_trans with (x :: l1 ++ l2); [now apply perm_skip, Permutation_sym|apply Permutation_middle]|].
        intros a z b Hz y Hy F. destruct a as [|a0 a]; cbn in Hz; injection Hz as <- Hz.
        * rewrite app_nil_r. apply in_app_or in Hy. destruct Hy as [Hy|Hy]; auto. exfalso.
          assert (Hy' : In y (l1 ++ x :: l2)).
          { destruct Hy as [<-|Hy]; [apply in_elt|]. apply (Permutation_in _ (Permutation_sym P)) in Hy. apply in_app_or in Hy. apply in_or_app. destruct Hy; [now left|right; now right]. }
          specialize (Hs y Hy'). now rewrite F in Hs.
        * assert (Q : In y ((done ++ [x]) ++ a)) by (apply (H a z b Hz y); auto; rewrite <- app_assoc; exact Hy). now rewrite <- app_assoc in Q.
  Qed.
  Lemma linear_extension n : exists ord, Permutation (seq 0 n) ord /\ forall a x b, ord = a ++ x :: b -> forall y, y < n -> E y x = true -> In y a.
  Proof.
    destruct (topo n (seq 0 n) []) as (ord & P & H); [apply seq_length|apply seq_NoDup|intros ? ? ? []|]. exists ord. split; auto.
    intros a x b Hx y Hy F. apply (H a x b Hx y); auto. cbn. apply (Permutation_in _ P). apply in_seq. lia.
  Qed.
End Topo.

(** ** one coherence order *)
Section Coherence.
  Variable E : nat -> nat -> bool.        (* the edges of happens-before *)
  Variable loc : nat -> bool.             (* the events that access the atomic variable *)
  Variable rank : nat -> nat.             (* their place in its modification order *)
  Hypothesis acyclic : forall x, ~ path E x x.
  Hypothesis coherent : forall x y, loc x = true -> loc y = true -> path E x y -> rank x <= rank y.
  Definition both (x y : nat) : bool := E x y || (loc x && loc y && (rank x <? rank y)).
  Lemma both_path x y : path both x y -> path E x y \/
    exists f g, loc f = true /\ loc g = true /\ rank f < rank g /\ (x = f \/ path E x f) /\ (g = y \/ path E g y).
  Proof.
    induction 1 as [x y H|x y z _ IH H]; unfold both in H; apply orb_true_iff in H.
    - destruct H as [H|H]; [left; now apply path_one|]. rewrite !andb_true_iff, Nat.ltb_lt in H. destruct H as [[H1 H2] H3]. right. exists x, y. repeat split; auto.
    - destruct H as [H|H].
      + destruct IH as [IH|(f & g & F1 & F2 & F3 & F4 & F5)]; [left; eapply path_snoc; eauto|]. right. exists f, g. repeat split; auto. right. destruct F5 as [->|F5]; [now apply path_one|eapply path_snoc; eauto].
      + rewrite !andb_true_iff, Nat.ltb_lt in H. destruct H as [[H1 H2] H3]. right. destruct IH as [IH|(f & g & F1 & F2 & F3 & F4 & F5)].
        * exists y, z. repeat split; auto.
        * exists f, z. repeat split; auto. destruct F5 as [->|F5]; [lia|]. specialize (coherent _ _ F2 H1 F5). lia.
  Qed.
  Lemma both_acyclic x : ~ path both x x.
  Proof.
    intros H. apply both_path in H. destruct H as [H|(f & g & F1 & F2 & F3 & F4 & F5)]; [exact (acyclic x H)|].
    assert (G : g = f \/ path E g f).
    { destruct F4 as [->|F4], F5 as [->|F5]; auto. right. eapply path_trans; eauto. }
    destruct G as [->|G]; [lia|]. specialize (coherent _ _ F2 F1 G). lia.
  Qed.
  Lemma coherent_order n : exists ord, Permutation (seq 0 n) ord /\
    forall a x b, ord = a ++ x :: b -> forall y, y < n -> E y x = true \/ (loc y = true /\ loc x = true /\ rank y < rank x) -> In y a.
  Proof.
    destruct (linear_extension both both_acyclic n) as (ord & P & H). exists ord. split; auto. intros a x b Hx y Hy F. apply (H a x b Hx y Hy). unfold both. apply orb_true_iff.
    destruct F as [F|(F1 & F2 & F3)]; [now left|right]. rewrite !andb_true_iff, Nat.ltb_lt. auto.
  Qed.
End Coherence.
