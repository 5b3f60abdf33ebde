(** C123, C124: pipelines of generators, read step by step. include/koios/generator.h: unique_impl 247-270, rvalue_to_impl 272-285, to 306-318, rvalue_to_iter_impl 287-296, to(iter) 337-346, merge 358-394.

    A generator is what it does next when its consumer awaits next_value_async(): [pull g r g'] says that this call returns [r] and leaves the generator as [g'] (C19 proves that calls are answered in this order under every interleaving; here the bodies of unique_impl and merge are themselves consumers). A source [Src f n] yields f n, f (n+1), ... until the first None; f may be an infinite sequence. *)
From Coq Require Import List Arith Bool Lia Permutation.
From Verif.Generator Require Import Model Spec Proofs.
Import ListNotations.

Section P.
  Context {V : Type}.
  (* where unique_impl is, generator.h 247-270 *)
  Inductive ustate :=
  | UStart              (* before 250 *)
  | ULoop (c : V)       (* in the loop, compared_opt = c, before 256 *)
  | ULast               (* after the co_yield in 259 *)
  | UDone.
  (* where merge is, generator.h 358-394 *)
  Inductive mstate :=
  | MStart                        (* before 363 *)
  | MReadL (r : option V)         (* after co_yield *lhs_cur, before 372/383 *)
  | MReadR (l : option V)         (* after co_yield *rhs_cur, before 377/388 *)
  | MDone.
  (* a generator: a source, or one made by unique (247-270) or merge (358-394) of generator.h *)
  Inductive gen :=
  | Src (f : nat -> option V) (n : nat)
  | Uniq (equal : V -> V -> bool) (u : ustate) (g : gen)
  | Merge (comp : V -> V -> bool) (m : mstate) (g h : gen).

  (** the body of the loop of merge, 365-391, up to the next co_yield or the end: what is yielded, and the state after it *)
  Definition merge_top (comp : V -> V -> bool) (l r : option V) : option V * mstate :=
    match l, r with
    | Some x, Some y => if comp x y then (Some x, MReadL r) else (Some y, MReadR l)     (* 367-379 *)
    | Some x, None => (Some x, MReadL None)                                             (* 380-384 *)
    | None, Some y => (Some y, MReadR None)                                             (* 385-389 *)
    | None, None => (None, MDone)                                                       (* 390 *)
    end.

  Inductive pull : gen -> option V -> gen -> Prop :=
  | P_src f n v : f n = Some v -> pull (Src f n) (Some v) (Src f (S n))
  | P_src_end f n : f n = None -> pull (Src f n) None (Src f n)
  | P_u_empty eq g g' : pull g None g' -> pull (Uniq eq UStart g) None (Uniq eq UDone g')                              (* 250-252 *)
  | P_u_first eq g g' c r w : pull g (Some c) g' -> pull (Uniq eq (ULoop c) g') r w -> pull (Uniq eq UStart g) r w
  | P_u_end eq c g g' : pull g None g' -> pull (Uniq eq (ULoop c) g) (Some c) (Uniq eq ULast g')                       (* 257-261 *)
  | P_u_same eq c x g g' r w : pull g (Some x) g' -> eq c x = true -> pull (Uniq eq (ULoop c) g') r w -> pull (Uniq eq (ULoop c) g) r w       (* 264-265 *)
  | P_u_diff eq c x g g' : pull g (Some x) g' -> eq c x = false -> pull (Uniq eq (ULoop c) g) (Some c) (Uniq eq (ULoop x) g')    (* 266 *)
  | P_u_last eq g : pull (Uniq eq ULast g) None (Uniq eq UDone g)
  | P_u_done eq g : pull (Uniq eq UDone g) None (Uniq eq UDone g)
  | P_m_start cmp g g' h h' l r o m : pull g l g' -> pull h r h' -> merge_top cmp l r = (o, m) -> pull (Merge cmp MStart g h) o (Merge cmp m g' h')
  | P_m_left cmp g g' h l r o m : pull g l g' -> merge_top cmp l r = (o, m) -> pull (Merge cmp (MReadL r) g h) o (Merge cmp m g' h)
  | P_m_right cmp g h h' l r o m : pull h r h' -> merge_top cmp l r = (o, m) -> pull (Merge cmp (MReadR l) g h) o (Merge cmp m g h')
  | P_m_done cmp g h : pull (Merge cmp MDone g h) None (Merge cmp MDone g h).

  (** to<Container>(), 306-318 and 272-285: [to_run g acc res]: with [acc] collected so far, the task returns [res] *)
  Inductive to_run : gen -> list V -> list V -> Prop :=
  | T_more g v g' acc res : pull g (Some v) g' -> to_run g' (acc ++ [v]) res -> to_run g acc res
  | T_end g g' acc : pull g None g' -> to_run g acc acc.
  (* to(), generator.h 272-285, 306-318 *)
  Definition to (g : gen) (res : list V) : Prop := to_run g [] res.

  (** what a pipeline is built from: fresh generators over finite or infinite sources *)
  (* specification, no counterpart in /repo *)
  Inductive pipe := PSrc (f : nat -> option V) | PUniq (equal : V -> V -> bool) (p : pipe) | PMerge (comp : V -> V -> bool) (p q : pipe).
  (* what the calls that build a pipeline return: generator.h 247-270, 358-394 *)
  Fixpoint fresh (p : pipe) : gen :=
    match p with PSrc f => Src f 0 | PUniq e p => Uniq e UStart (fresh p) | PMerge c p q => Merge c MStart (fresh p) (fresh q) end.
  (** specification: what the pipeline means on sequences (Spec: C20, C21 say what unique_impl and merge are) *)
  Inductive means : pipe -> list V -> Prop :=
  | N_src l : means (PSrc (nth_error l)) l
  | N_uniq e p l : means p l -> means (PUniq e p) (unique_impl e l)
  | N_merge c p q a b : means p a -> means q b -> means (PMerge c p q) (merge c a b).

  (** [g] will give [l], then end *)
  (* specification, no counterpart in /repo *)
  Fixpoint gives (l : list V) (g : gen) : Prop :=
    match l with [] => exists g', pull g None g' /\ pull g' None g' | v :: l' => exists g', pull g (Some v) g' /\ gives l' g' end.

  Lemma pull_det : forall g r1 g1, pull g r1 g1 -> forall r2 g2, pull g r2 g2 -> r1 = r2 /\ g1 = g2.
  Proof.
    Local Ltac use_ih := repeat match goal with
      | IH : (forall r2 g2, pull ?a r2 g2 -> ?r1 = r2 /\ ?g1 = g2), H : pull ?a ?r ?g |- _ =>
          tryif (constr_eq r r1; constr_eq g g1) then fail else (apply IH in H; destruct H as [? ?]; subst)
      end.
    induction 1; intros r2 g2 H2; inversion H2; subst; clear H2; use_ih; try discriminate; try congruence; try (split; congruence); auto;
      try match goal with E : Some _ = Some _ |- _ => injection E as -> end; use_ih; try congruence; auto;
      try (match goal with A : merge_top ?c ?l ?r = _, B : merge_top ?c ?l ?r = _ |- _ => rewrite A in B; injection B as -> -> end; auto).
  Qed.
  Lemma gives_src : forall f, forall l k, (forall i, nth_error l i = f (k + i)) -> gives l (Src f k).
  Proof.
    intros f. induction l as [|v l IH]; intros k H; cbn.
    - exists (Src f k). specialize (H 0). rewrite Nat.add_0_r in H. cbn in H. split; apply P_src_end; auto.
    - exists (Src f (S k)). split.
      + apply P_src. specialize (H 0). rewrite Nat.add_0_r in H. cbn in H. auto.
      + apply IH. intros i. specialize (H (S i)). cbn in H. rewrite H. f_equal. lia.
  Qed.
  Lemma gives_uloop : forall eq l g c, gives l g -> gives (unique_loop eq c l) (Uniq eq (ULoop c) g).
  Proof.
    intros eq. induction l as [|x l IH]; intros g c H; cbn in H.
    - destruct H as (g' & H & _). cbn. exists (Uniq eq ULast g'). split; [now apply P_u_end|]. exists (Uniq eq UDone g'). split; constructor.
    - destruct H as (g' & H & Hl). cbn. destruct (eq c x) eqn:E.
      + specialize (IH g' c Hl). destruct (unique_loop eq c l) as [|y o] eqn:Eo; cbn in *.
        * destruct IH as (w & H1 & H2). exists w. split; auto. eapply P_u_same; eauto.
        * destruct IH as (w & H1 & H2). exists w. split; auto. eapply P_u_same; eauto.
      + cbn. exists (Uniq eq (ULoop x) g'). split; [eapply P_u_diff; eauto|]. auto.
  Qed.
  Lemma gives_uniq : forall eq l g, gives l g -> gives (unique_impl eq l) (Uniq eq UStart g).
  Proof.
    intros eq [|c l] g H; cbn in H.
    - destruct H as (g' & H & _). cbn. exists (Uniq eq UDone g'). split; [now apply P_u_empty|constructor].
    - destruct H as (g' & H & Hl). cbn [unique_impl]. pose proof (gives_uloop eq l g' c Hl) as G. destruct (unique_loop eq c l) as [|y o]; cbn in *; destruct G as (w & H1 & H2); exists w; split; auto; eapply P_u_first; eauto.
  Qed.
  Lemma pull_end_fix : forall l g, gives l g -> l = [] -> exists g', pull g None g' /\ gives [] g'.
  Proof. intros l g H ->. cbn in *. destruct H as (g' & A & B). exists g'. split; auto. exists g'. auto. Qed.

  Lemma merge_nil_left : forall (cmp : V -> V -> bool) b, merge cmp [] b = b.
  Proof. induction b as [|y b IH]; [reflexivity|]. cbn in *. now rewrite IH. Qed.
  Lemma merge_nil_right : forall (cmp : V -> V -> bool) a, merge cmp a [] = a.
  Proof. induction a as [|y b IH]; [reflexivity|]. cbn [merge]. now rewrite IH. Qed.
  Lemma gives_right_only : forall cmp b g h, gives b h -> gives b (Merge cmp (MReadR None) g h).
  Proof.
    induction b as [|y b IH]; intros g h H; cbn in *; destruct H as (h' & P & H).
    - exists (Merge cmp MDone g h'). split; [eapply P_m_right; [exact P|reflexivity]|constructor].
    - eexists. split; [eapply P_m_right; [exact P|reflexivity]|]. now apply IH.
  Qed.
  Lemma gives_left_only : forall cmp a g h, gives a g -> gives a (Merge cmp (MReadL None) g h).
  Proof.
    induction a as [|y b IH]; intros g h H; cbn in *; destruct H as (h' & P & H).
    - exists (Merge cmp MDone h' h). split; [eapply P_m_left; [exact P|reflexivity]|constructor].
    - eexists. split; [eapply P_m_left; [exact P|reflexivity]|]. now apply IH.
  Qed.

  (** one read from each side brings the merge to the top of its loop *)
  Lemma gives_merge_top : forall cmp a b g h l r, (l = None -> a = []) -> (r = None -> b = []) -> gives a g -> gives b h ->
    let lhs := match l with Some x => x :: a | None => [] end in let rhs := match r with Some y => y :: b | None => [] end in
    match merge cmp lhs rhs with
    | [] => merge_top cmp l r = (None, MDone)
    | v :: o => exists m, merge_top cmp l r = (Some v, m) /\ gives o (Merge cmp m g h)
    end.
  Proof.
    intros cmp a b. remember (length a + length b) as n eqn:En. revert a b En. induction n as [n IH] using lt_wf_ind. intros a b En g h l r Hl Hr Ha Hb.
    assert (RL : forall r0, (r0 = None -> b = []) -> gives (merge cmp a (match r0 with Some y => y :: b | None => [] end)) (Merge cmp (MReadL r0) g h)).
    { intros r0 Hr0. destruct a as [|x a].
      - destruct (pull_end_fix _ _ Ha eq_refl) as (g' & P & Hg'). rewrite merge_nil_left. destruct r0 as [y|].
        + eexists. split; [eapply P_m_left; [exact P|reflexivity]|]. now apply gives_right_only.
        + exists (Merge cmp MDone g' h). split; [eapply P_m_left; [exact P|reflexivity]|constructor].
      - destruct Ha as (g' & P & Ha). specialize (IH (length a + length b) ltac:(subst; cbn; lia) a b eq_refl g' h (Some x) r0 ltac:(discriminate) Hr0 Ha Hb). cbv zeta in IH.
        destruct (merge cmp (x :: a) match r0 with Some y => y :: b | None => [] end) as [|v o] eqn:Em.
        + exfalso. apply (f_equal (@length V)) in Em. pose proof (Permutation_length (inter_perm _ _ _ (merge_interleaving cmp (x :: a) match r0 with Some y => y :: b | None => [] end))) as Lp. rewrite Em, app_length in Lp. cbn in Lp. lia.
        + destruct IH as (m & Et & G). exists (Merge cmp m g' h). split; [eapply P_m_left; [exact P|exact Et]|exact G]. }
    assert (RR : forall l0, (l0 = None -> a = []) -> gives (merge cmp (match l0 with Some x => x :: a | None => [] end) b) (Merge cmp (MReadR l0) g h)).
    { intros l0 Hl0. destruct b as [|y b].
      - destruct (pull_end_fix _ _ Hb eq_refl) as (h' & P & Hh'). rewrite merge_nil_right. destruct l0 as [x|].
        + eexists. split; [eapply P_m_right; [exact P|reflexivity]|]. now apply gives_left_only.
        + exists (Merge cmp MDone g h'). split; [eapply P_m_right; [exact P|reflexivity]|constructor].
      - destruct Hb as (h' & P & Hb). specialize (IH (length a + length b) ltac:(subst; cbn; lia) a b eq_refl g h' l0 (Some y) Hl0 ltac:(discriminate) Ha Hb). cbv zeta in IH.
        destruct (merge cmp match l0 with Some x => x :: a | None => [] end (y :: b)) as [|v o] eqn:Em.
        + exfalso. pose proof (Permutation_length (inter_perm _ _ _ (merge_interleaving cmp match l0 with Some x => x :: a | None => [] end (y :: b)))) as Lp. rewrite Em, app_length in Lp. cbn in Lp. lia.
        + destruct IH as (m & Et & G). exists (Merge cmp m g h'). split; [eapply P_m_right; [exact P|exact Et]|exact G]. }
    destruct l as [x|], r as [y|]; cbn zeta; cbn [merge_top].
    - cbn [merge]. destruct (cmp x y).
      + eexists. split; [reflexivity|]. apply (RL (Some y)). discriminate.
      + eexists. split; [reflexivity|]. apply (RR (Some x)). discriminate.
    - specialize (Hr eq_refl). cbn [merge]. eexists. split; [reflexivity|]. apply (RL None). auto.
    - specialize (Hl eq_refl). cbn [merge]. eexists. split; [reflexivity|]. apply (RR None). auto.
    - reflexivity.
  Qed.
  Lemma gives_merge : forall cmp a b g h, gives a g -> gives b h -> gives (merge cmp a b) (Merge cmp MStart g h).
  Proof.
    intros cmp a b g h Ha Hb.
    assert (exists l a' g', pull g l g' /\ gives a' g' /\ (l = None -> a' = []) /\ a = match l with Some x => x :: a' | None => [] end) as (l & a' & g' & Pg & Ga & Hl & ->).
    { destruct a as [|x a]; [destruct (pull_end_fix _ _ Ha eq_refl) as (g' & P & G); exists None, [], g'; auto|]. destruct Ha as (g' & P & G). exists (Some x), a, g'. repeat split; auto. discriminate. }
    assert (exists r b' h', pull h r h' /\ gives b' h' /\ (r = None -> b' = []) /\ b = match r with Some x => x :: b' | None => [] end) as (r & b' & h' & Ph & Gb & Hr & ->).
    { destruct b as [|x b]; [destruct (pull_end_fix _ _ Hb eq_refl) as (h' & P & G); exists None, [], h'; auto|]. destruct Hb as (h' & P & G). exists (Some x), b, h'. repeat split; auto. discriminate. }
    pose proof (gives_merge_top cmp a' b' g' h' l r Hl Hr Ga Gb) as T. cbv zeta in T.
    destruct (merge cmp match l with Some x => x :: a' | None => [] end match r with Some y => y :: b' | None => [] end) as [|v o].
    - exists (Merge cmp MDone g' h'). split; [eapply P_m_start; eauto|constructor].
    - destruct T as (m & Et & G). exists (Merge cmp m g' h'). split; [eapply P_m_start; eauto|exact G].
  Qed.
  Lemma means_gives : forall p l, means p l -> gives l (fresh p).
  Proof. induction 1; cbn [fresh]; [apply gives_src; reflexivity|now apply gives_uniq|now apply gives_merge]. Qed.
  Lemma gives_to : forall l g acc res, gives l g -> to_run g acc res <-> res = acc ++ l.
  Proof.
    induction l as [|v l IH]; intros g acc res H.
    - destruct H as (g' & P & _). rewrite app_nil_r. split.
      + intros T. inversion T; subst; [|reflexivity]. destruct (pull_det _ _ _ P _ _ H); discriminate.
      + intros ->. eapply T_end; eauto.
    - destruct H as (g' & P & G). split.
      + intros T. inversion T; subst.
        * destruct (pull_det _ _ _ P _ _ H) as [E ->]. injection E as <-. apply IH in H0; auto. now rewrite H0, <- app_assoc.
        * destruct (pull_det _ _ _ P _ _ H); discriminate.
      + intros ->. eapply T_more; [exact P|]. apply IH; auto. now rewrite <- app_assoc.
  Qed.
End P.
Arguments pipe : clear implicits. Arguments gen : clear implicits.

(** C123: to() of any pipeline of unique() and merge() over finite sources ends, and returns exactly the values the pipeline means. *)
Theorem C123_to_collects : forall V (p : pipe V) l, means p l -> forall res, to (fresh p) res <-> res = l.
Proof. intros V p l H res. unfold to. rewrite (gives_to l); [reflexivity|]. now apply means_gives. Qed.
Print Assumptions C123_to_collects.
Example C123_case : to (fresh (PUniq Nat.eqb (PMerge Nat.ltb (PSrc (nth_error [1;3;3;5])) (PUniq Nat.eqb (PSrc (nth_error [1;1;2;5;5])))))) [1;2;3;5].
Proof. apply C123_to_collects with (l := [1;2;3;5]); [|reflexivity]. apply (N_uniq Nat.eqb _ [1;1;2;3;3;5;5]). apply (N_merge Nat.ltb _ _ [1;3;3;5] [1;2;5]); [apply N_src|]. apply (N_uniq Nat.eqb _ [1;1;2;5;5]). apply N_src. Qed.

(** C123: so merging sorted inputs and dropping equal neighbours is set union: the container is strictly sorted and has exactly the values of both inputs, up to equivalence. *)
(* specification, no counterpart in /repo *)
Fixpoint strictly_sorted {V} (comp : V -> V -> bool) (l : list V) : Prop := match l with [] => True | x :: l' => (forall y, In y l' -> comp x y = true) /\ strictly_sorted comp l' end.
(* specification, no counterpart in /repo *)
Definition equiv {V} (comp : V -> V -> bool) (x y : V) : bool := negb (comp x y) && negb (comp y x).
Lemma unique_loop_in {V} (eq : V -> V -> bool) : forall l c x, In x (unique_loop eq c l) -> x = c \/ In x l.
Proof. induction l as [|y l IH]; intros c x H; cbn in *; [destruct H as [->|[]]; auto|]. destruct (eq c y); [apply IH in H; tauto|]. destruct H as [->|H]; auto. apply IH in H. destruct H as [->|H]; auto. Qed.
Lemma unique_loop_covers {V} (eq : V -> V -> bool) (refl : forall x, eq x x = true) : forall l c x, x = c \/ In x l -> exists y, In y (unique_loop eq c l) /\ eq y x = true.
Proof.
  induction l as [|y l IH]; intros c x H; cbn.
  - destruct H as [->|[]]. exists c. auto.
  - destruct (eq c y) eqn:E.
    + destruct H as [->|[->|H]]; [apply IH; auto| |apply IH; auto].
      assert (In c (unique_loop eq c l)) as Hc. { clear. induction l as [|z l IH]; cbn; auto. destruct (eq c z); cbn; auto. }
      exists c. auto.
    + destruct H as [->|H]; [exists c; cbn; auto|]. destruct (IH y x) as (z & Hz & Ez); [destruct H; auto|]. exists z; cbn; auto.
Qed.
Lemma unique_loop_strict {V} (comp : V -> V -> bool) (sw : strict_weak comp) : forall l c, (forall y, In y l -> comp y c = false) -> sorted comp l -> strictly_sorted comp (unique_loop (equiv comp) c l).
Proof.
  destruct sw as (Irr & Tr & Eqv).
  induction l as [|x l IH]; intros c Hc Hs; cbn; [split; [intros ? []|exact I]|]. destruct Hs as [Hx Hs]. unfold equiv at 1. rewrite (Hc x (or_introl eq_refl)). rewrite andb_true_r.
  destruct (comp c x) eqn:E; cbn.
  - split; [|apply IH; auto]. intros y Hy. apply unique_loop_in in Hy. destruct Hy as [->|Hy]; auto.
    specialize (Hx y Hy). destruct (comp x y) eqn:Exy; [eapply Tr; eauto|]. destruct (comp c y) eqn:Ecy; auto.
    destruct (Eqv c y x Ecy (Hc y (or_intror Hy)) Hx Exy) as [A _]. congruence.
  - apply IH; auto. intros y Hy. apply Hc. now right.
Qed.
Theorem C123_set_union : forall V (comp : V -> V -> bool) a b, strict_weak comp -> sorted comp a -> sorted comp b ->
  exists res, to (fresh (PUniq (equiv comp) (PMerge comp (PSrc (nth_error a)) (PSrc (nth_error b))))) res /\
    strictly_sorted comp res /\ (forall x, In x res -> In x a \/ In x b) /\ (forall x, In x a \/ In x b -> exists y, In y res /\ equiv comp y x = true).
Proof.
  intros V comp a b sw Ha Hb. exists (unique_impl (equiv comp) (merge comp a b)). split; [|split; [|split]].
  - apply C123_to_collects with (l := unique_impl (equiv comp) (merge comp a b)); [|reflexivity]. repeat constructor.
  - pose proof (merge_sorted comp sw a b Ha Hb) as S. destruct (merge comp a b) as [|c l]; [exact I|]. destruct S as [S1 S2]. now apply unique_loop_strict.
  - intros x Hx. apply in_app_iff. eapply Permutation_in; [apply inter_perm, (merge_interleaving comp)|]. destruct (merge comp a b) as [|c l]; [destruct Hx|]. apply unique_loop_in in Hx. cbn. intuition.
  - intros x Hx. apply in_app_iff in Hx. eapply Permutation_in in Hx; [|apply Permutation_sym, inter_perm, (merge_interleaving comp)]. destruct (merge comp a b) as [|c l]; [destruct Hx|].
    apply unique_loop_covers; [|cbn in Hx; intuition]. intros y. unfold equiv. now rewrite (proj1 sw).
Qed.
Print Assumptions C123_set_union.
