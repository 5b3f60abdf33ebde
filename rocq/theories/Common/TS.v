(** Generic transition-system vocabulary shared by all components.
    Nothing here models koios code: [run] is "execute this finite list of atomic events in this
    order", [None] meaning that some event was not enabled; quantifying over the event list is
    quantifying over every interleaving. *)
From Coq Require Import List Arith Lia Bool.
Import ListNotations.

Section TS.
  Context {S E : Type}.
  Variable step : S -> E -> option S.

  Fixpoint run (s : S) (l : list E) : option S :=
    match l with
    | [] => Some s
    | e :: l' => match step s e with
                 | Some s' => run s' l'
                 | None => None
                 end
    end.

  (** Every execution from [s] whose events satisfy the (state dependent) restriction [P]. *)
  Fixpoint run_all (P : S -> E -> Prop) (s : S) (l : list E) : Prop :=
    match l with
    | [] => True
    | e :: l' => P s e /\ (forall s', step s e = Some s' -> run_all P s' l')
    end.

  (** Decidable version, used only to check examples by computation. *)
  Fixpoint run_allb (P : S -> E -> bool) (s : S) (l : list E) : bool :=
    match l with
    | [] => true
    | e :: l' => P s e && match step s e with Some s' => run_allb P s' l' | None => true end
    end.
  Lemma run_allb_ok (Pb : S -> E -> bool) (P : S -> E -> Prop) :
    (forall s e, Pb s e = true -> P s e) -> forall l s, run_allb Pb s l = true -> run_all P s l.
  Proof.
    intros H l; induction l as [|e l IH]; cbn; intros s Hb; [exact I|].
    apply andb_true_iff in Hb. destruct Hb as [H1 H2]. split; [auto|].
    intros s' E1. rewrite E1 in H2. auto.
  Qed.

  Lemma run_allb_inv_ok (J : S -> Prop) (Pb : S -> E -> bool) (P : S -> E -> Prop) :
    (forall s e, J s -> Pb s e = true -> P s e) ->
    (forall s e s', J s -> Pb s e = true -> step s e = Some s' -> J s') ->
    forall l s, J s -> run_allb Pb s l = true -> run_all P s l.
  Proof.
    intros H HJ l; induction l as [|e l IH]; cbn; intros s Hs Hb; [exact I|].
    apply andb_true_iff in Hb. destruct Hb as [H1 H2]. split; [auto|].
    intros s' E1. rewrite E1 in H2. eauto.
  Qed.

  (** Check the final state of an example by computation, without writing that state down. *)
  Definition run_check (s : S) (l : list E) (P : S -> bool) : bool :=
    match run s l with Some s' => P s' | None => false end.
  Lemma run_check_ok s l P : run_check s l P = true -> exists s', run s l = Some s' /\ P s' = true.
  Proof. unfold run_check. destruct (run s l) as [s'|]; [|discriminate]. intros H. exists s'. now split. Qed.

  (** The same, for a projection [f] of the final state. *)
  Lemma run_proj_ok {T} (f : S -> T) s l v : option_map f (run s l) = Some v -> exists s', run s l = Some s' /\ f s' = v.
  Proof. destruct (run s l) as [s'|]; cbn; [|discriminate]. intros H. inversion H. now exists s'. Qed.

  (** Observations emitted along an execution. *)
  Context {O : Type}.
  Variable obs : S -> E -> S -> list O.  (* pre-state, event, post-state *)

  Fixpoint trace (s : S) (l : list E) : list O :=
    match l with
    | [] => []
    | e :: l' => match step s e with
                 | Some s' => obs s e s' ++ trace s' l'
                 | None => []
                 end
    end.

  Lemma run_app s l1 l2 s1 :
    run s l1 = Some s1 -> run s (l1 ++ l2) = run s1 l2.
  Proof.
    revert s; induction l1 as [|e l1 IH]; cbn; intros s H.
    - now inversion H.
    - destruct (step s e); [now apply IH|discriminate].
  Qed.

  Lemma run_app_inv s l1 l2 s2 :
    run s (l1 ++ l2) = Some s2 -> exists s1, run s l1 = Some s1 /\ run s1 l2 = Some s2.
  Proof.
    revert s; induction l1 as [|e l1 IH]; cbn; intros s H.
    - eauto.
    - destruct (step s e); [now apply IH|discriminate].
  Qed.

  Lemma trace_app s l1 l2 s1 :
    run s l1 = Some s1 -> trace s (l1 ++ l2) = trace s l1 ++ trace s1 l2.
  Proof.
    revert s; induction l1 as [|e l1 IH]; cbn; intros s H.
    - now inversion H.
    - destruct (step s e) eqn:?; [|discriminate].
      rewrite (IH _ H). now rewrite app_assoc.
  Qed.

  Lemma run_inv (I : S -> Prop) :
    (forall s e s', I s -> step s e = Some s' -> I s') ->
    forall l s s', I s -> run s l = Some s' -> I s'.
  Proof.
    intros Hs l; induction l as [|e l IH]; cbn; intros s s' HI H.
    - now inversion H; subst.
    - destruct (step s e) eqn:E1; [|discriminate]. eauto.
  Qed.

  Lemma run_inv_cond (P : S -> E -> Prop) (I : S -> Prop) :
    (forall s e s', I s -> P s e -> step s e = Some s' -> I s') ->
    forall l s s', I s -> run_all P s l -> run s l = Some s' -> I s'.
  Proof.
    intros Hs l; induction l as [|e l IH]; cbn; intros s s' HI HP H.
    - now inversion H; subst.
    - destruct HP as [HP1 HP2].
      destruct (step s e) eqn:E1; [|discriminate]. eauto.
  Qed.
End TS.

(** Functional update of a map with nat keys. *)
Definition upd {A} (f : nat -> A) (i : nat) (a : A) : nat -> A :=
  fun j => if Nat.eqb j i then a else f j.

Lemma upd_same {A} (f : nat -> A) i a : upd f i a i = a.
Proof. unfold upd. now rewrite Nat.eqb_refl. Qed.

Lemma upd_other {A} (f : nat -> A) i j a : j <> i -> upd f i a j = f j.
Proof. intros H. unfold upd. destruct (Nat.eqb_spec j i); congruence. Qed.

(** Remove the k-th element of a list. *)
Fixpoint take_nth {A} (k : nat) (l : list A) : option (A * list A) :=
  match l, k with
  | [], _ => None
  | x :: l', O => Some (x, l')
  | x :: l', S k' => match take_nth k' l' with
                     | Some (y, r) => Some (y, x :: r)
                     | None => None
                     end
  end.

Lemma take_nth_spec {A} k (l : list A) x r :
  take_nth k l = Some (x, r) ->
  exists l1 l2, l = l1 ++ x :: l2 /\ r = l1 ++ l2 /\ length l1 = k.
Proof.
  revert k x r; induction l as [|y l IH]; intros [|k] x r H; cbn in H; try discriminate.
  - inversion H; subst. now exists [], r.
  - destruct (take_nth k l) as [[z r']|] eqn:E; [|discriminate].
    inversion H; subst. destruct (IH _ _ _ E) as (l1 & l2 & -> & -> & <-).
    now exists (y :: l1), l2.
Qed.

Lemma take_nth_None {A} k (l : list A) : take_nth k l = None <-> length l <= k.
Proof.
  revert k; induction l as [|y l IH]; intros [|k]; cbn; try (split; intros; try lia; easy).
  destruct (take_nth k l) as [[z r']|] eqn:E.
  - split; [easy|]. intros H. assert (take_nth k l = None) by (apply IH; lia). congruence.
  - split; [|easy]. intros _. apply IH in E. lia.
Qed.

Lemma NoDup_snoc {A} (l : list A) x : NoDup l -> ~ In x l -> NoDup (l ++ [x]).
Proof.
  induction l as [|y l IH]; cbn; intros Hn Hx.
  - constructor; [easy|constructor].
  - inversion Hn; subst. constructor.
    + rewrite in_app_iff. cbn. intuition.
    + apply IH; intuition.
Qed.
