(** C140: a generator's body and its consumer under the C++ memory model.

    generator.h 71-89 (next_value_async), 101-105 (return_void), 113-138 (co_yield), 224-229 (destructor); generator_shared_state.h 14-101; waiting_handle.cc 12-23 (wake_up: enqueue into the scheduler).

    The steps are those of Generator/Model.v. The yielded value is stored and fetched without a lock (generator_shared_state.h 99-100), and the body and the consumer are ordinary code that may access common data. A coroutine runs on a worker from one resumption to the next suspension; such a stretch is called a segment here and is the only program order used: nothing is assumed about two segments of one coroutine. Trusted: what is enqueued into the scheduler happens before its resumption. Nothing is assumed of the spin lock and of the memory orders of m_finalized: the theorems hold without the edges that they add. *)
From Coq Require Import List Arith Bool Lia.
From Verif.Common Require Import TS.
From Verif.Generator Require Import Model Proofs.
From Verif.Weak Require Import HB.
Import ListNotations.

(** ** the operations on memory *)
Inductive op :=
| CData (t : nat)      (* the consumer's own code *)
| GData (t : nat)      (* the body's own code *)
| SlotSet (t : nat)    (* co_yield stores the value, generator.h 117-118 *)
| SlotGet (t : nat)    (* the value is fetched, generator.h 84-86 *)
| Frame (t : nat)      (* the destructor destroys the suspended body and its local variables, generator_shared_state.h 88-95 *)
| Locals (t : nat)     (* the body's local variables are destroyed after co_return *)
| WakeG (t : nat) | StartG (t : nat)     (* the body is given to the scheduler; resumed *)
| WakeC (t : nat) | StartC (t : nat).    (* the same for the consumer *)
(** the segment an operation belongs to *)
(* C++ memory model, environment, not code of /repo *)
Definition who (o : op) : nat := match o with CData t | GData t | SlotSet t | SlotGet t | Frame t | Locals t | WakeG t | StartG t | WakeC t | StartC t => t end.
(** the accesses to data that consumer and body may share *)
(* specification, no counterpart in /repo *)
Definition data (o : op) : bool := match o with CData _ | GData _ | SlotSet _ | SlotGet _ | Frame _ => true | _ => false end.
(* specification, no counterpart in /repo *)
Definition body (o : op) : bool := match o with GData _ | SlotSet _ => true | _ => false end.
(** ** synchronizes-with: through the scheduler *)
(* specification, no counterpart in /repo *)
Definition between (t : list op) (m n : nat) (P : op -> Prop) : Prop := forall k c, m < k -> k < n -> nth_error t k = Some c -> P c.
(* C++ memory model, environment, not code of /repo (the spin lock of generator_shared_state.h 14-101, the scheduler's queue) *)
Definition sw (t : list op) (m n : nat) : Prop :=
  m < n /\ ((exists i j, nth_error t m = Some (WakeG i) /\ nth_error t n = Some (StartG j) /\ between t m n (fun c => forall k, c <> WakeG k))
         \/ (exists i j, nth_error t m = Some (WakeC i) /\ nth_error t n = Some (StartC j) /\ between t m n (fun c => forall k, c <> WakeC k))).
(* C++ memory model, environment, not code of /repo *)
Definition happens_before := hb who sw.
Lemma sw_lt t m n : sw t m n -> m < n /\ n < length t.
Proof. intros (H & [(i & j & _ & Hb & _)|(i & j & _ & Hb & _)]); split; auto; apply nth_error_Some; congruence. Qed.
Lemma between_ext t x m n P : n <= length t -> between t m n P -> between (t ++ x) m n P.
Proof. intros L H k c H1 H2 H3. apply (H k c H1 H2). rewrite nth_error_app1 in H3; auto. lia. Qed.
Lemma sw_ext t x m n : sw t m n -> sw (t ++ x) m n.
Proof.
  intros H. pose proof (sw_lt _ _ _ H) as [_ L]. destruct H as (H & [(i & j & Ha & Hb & C)|(i & j & Ha & Hb & C)]); split; auto; [left|right]; exists i, j; (split; [now apply nth_ext|]); (split; [now apply nth_ext|]); apply between_ext; auto; lia.
Qed.

Section G.
  Context {V : Type}.
  Variable vals : list V.
  Variable throws : bool.
  (** the generator, and the segments in which the consumer and the body run *)
  (* what the state keeps of generator.h 71-138, 224-229, generator_shared_state.h 14-101 (Generator/Model.v), with the segments of the coroutines *)
  Record wstate := WSt { base : @state V; cseg : nat; gseg : nat; fresh : nat }.
  (* before anything has happened; generator.h 71-138, 224-229, generator_shared_state.h 14-101 (Generator/Model.v), with the segments of the coroutines *)
  Definition winit : wstate := WSt (init vals) 0 1 2.
  (* the steps of generator.h 71-138, 224-229, generator_shared_state.h 14-101 (Generator/Model.v), with the segments of the coroutines *)
  Inductive wevent := Gen (e : event) | CWork | GWork.
  (* what each step does: generator.h 71-138, 224-229, generator_shared_state.h 14-101 (Generator/Model.v), with the segments of the coroutines *)
  Definition wstep (s : wstate) (e : wevent) : option wstate :=
    match e with
    | Gen e => match next throws (base s) e with
               | Some b => Some (match e with
                                 | CResume => WSt b (fresh s) (gseg s) (S (fresh s))
                                 | GRun => WSt b (cseg s) (fresh s) (S (fresh s))
                                 | _ => WSt b (cseg s) (gseg s) (fresh s) end)
               | None => None end
    | CWork => match cons (base s) with CIdle => Some s | _ => None end
    | GWork => match gen (base s) with GRunning => Some s | _ => None end
    end.
  (* the memory operations of each step: generator.h 71-138, generator_shared_state.h 14-101 *)
  Definition ops (s : wstate) (e : wevent) (s' : wstate) : list op :=
    match e with
    | CWork => [CData (cseg s)]
    | GWork => [GData (gseg s)]
    | Gen CWake => [WakeG (cseg s)]
    | Gen GRun => [StartG (gseg s')]
    | Gen GYield => if finalized (base s) then [] else [SlotSet (gseg s)]
    | Gen (GNotify | GRetNotify) => if waiting (base s) then [WakeC (gseg s)] else []
    | Gen CResume => StartC (cseg s') :: if finalized (base s) then [] else [SlotGet (cseg s')]
    | Gen ODestroy => match gen (base s) with GParked => [Frame (cseg s)] | _ => [] end
    | Gen GDone => [Locals (gseg s)]
    | Gen _ => []
    end.
  (* specification, no counterpart in /repo *)
  Definition history (l : list wevent) : list op := trace wstep ops winit l.

  Notation kn := (knows who sw).
  Notation hbeq := (hbe who sw).
  Definition handedG (t : list op) (m : nat) : Prop := exists n i, nth_error t n = Some (WakeG i) /\ hbeq t m n /\ between t n (length t) (fun c => forall k, c <> WakeG k).
  Definition handedC (t : list op) (m : nat) : Prop := exists n i, nth_error t n = Some (WakeC i) /\ hbeq t m n /\ between t n (length t) (fun c => forall k, c <> WakeC k).
  Definition covered (s : wstate) (t : list op) (m : nat) : Prop :=
    match cons (base s), gen (base s) with
    | (CIdle | CSusp), _ => kn t (cseg s) m
    | CWaiting, GQueued => handedG t m
    | CWaiting, (GRunning | GSet | GParking | GRet1) => kn t (gseg s) m
    | CQueued, _ => handedC t m
    | _, _ => True
    end.
  Record I (s : wstate) (t : list op) : Prop := {
    i_base : Inv vals throws (base s);
    i_cov : forall m a, nth_error t m = Some a -> data a = true -> covered s t m;
    i_body : gen (base s) = GRet2 -> forall m a, nth_error t m = Some a -> body a = true -> kn t (gseg s) m;
    i_hb : forall m n a b, nth_error t m = Some a -> nth_error t n = Some b -> m < n -> data a = true -> data b = true -> happens_before t m n;
    i_loc : forall m n a i, nth_error t m = Some a -> nth_error t n = Some (Locals i) -> body a = true -> happens_before t m n;
    i_end : gen (base s) <> GGone -> forall n i, nth_error t n <> Some (Locals i) }.

  Lemma kn_snoc t b i m : kn t i m -> kn (t ++ [b]) i m.
  Proof. apply knows_ext, sw_ext. Qed.
  Lemma between_snoc t n b P : between t n (length t) P -> P b -> between (t ++ [b]) n (length (t ++ [b])) P.
  Proof.
    intros H Hb k c H1 H2 H3. rewrite app_length in H2; cbn in H2. destruct (Nat.eq_dec k (length t)) as [->|N].
    - rewrite nth_snoc in H3. now injection H3 as <-.
    - apply (H k c); auto; [lia|]. rewrite nth_error_app1 in H3; auto. lia.
  Qed.
  Lemma handedG_snoc t b m : handedG t m -> (forall k, b <> WakeG k) -> handedG (t ++ [b]) m.
  Proof. intros (n & i & H1 & H3 & H4) Hb. exists n, i. split; [now apply nth_ext|]. split; [apply hbe_ext; auto; apply sw_ext|now apply between_snoc]. Qed.
  Lemma handedC_snoc t b m : handedC t m -> (forall k, b <> WakeC k) -> handedC (t ++ [b]) m.
  Proof. intros (n & i & H1 & H3 & H4) Hb. exists n, i. split; [now apply nth_ext|]. split; [apply hbe_ext; auto; apply sw_ext|now apply between_snoc]. Qed.
  Lemma covered_snoc s t b m : covered s t m -> (forall k, b <> WakeG k) -> (forall k, b <> WakeC k) -> covered s (t ++ [b]) m.
  Proof. unfold covered. intros H A B. destruct (cons (base s)), (gen (base s)); auto using kn_snoc, handedG_snoc, handedC_snoc. Qed.
  Lemma wakeG t i m : kn t i m -> handedG (t ++ [WakeG i]) m.
  Proof.
    intros H. exists (length t), i. split; [apply nth_snoc|]. split; [right; change i with (who (WakeG i)) in H; now apply knows_next; [apply sw_ext|]|].
    intros k c H1 H2. rewrite app_length in H2; cbn in H2. lia.
  Qed.
  Lemma wakeC t i m : kn t i m -> handedC (t ++ [WakeC i]) m.
  Proof.
    intros H. exists (length t), i. split; [apply nth_snoc|]. split; [right; change i with (who (WakeC i)) in H; now apply knows_next; [apply sw_ext|]|].
    intros k c H1 H2. rewrite app_length in H2; cbn in H2. lia.
  Qed.
  Lemma startG t j m : handedG t m -> kn (t ++ [StartG j]) j m.
  Proof.
    intros (n & i & H1 & H3 & H4). assert (L : n < length t) by (apply nth_error_Some; congruence).
    change j with (who (StartG j)) at 2. apply knows_now. eapply sync_next; [apply sw_ext| |exact H3].
    split; [exact L|]. left. exists i, j. split; [now apply nth_ext|]. split; [apply nth_snoc|]. apply between_ext; auto.
  Qed.
  Lemma startC t j m : handedC t m -> kn (t ++ [StartC j]) j m.
  Proof.
    intros (n & i & H1 & H3 & H4). assert (L : n < length t) by (apply nth_error_Some; congruence).
    change j with (who (StartC j)) at 2. apply knows_now. eapply sync_next; [apply sw_ext| |exact H3].
    split; [exact L|]. right. exists i, j. split; [now apply nth_ext|]. split; [apply nth_snoc|]. apply between_ext; auto.
  Qed.
  Lemma nth_old t b m (a : op) : nth_error (t ++ [b]) m = Some a -> nth_error t m = Some a \/ (m = length t /\ a = b).
  Proof.
    intros H. destruct (Nat.lt_ge_cases m (length t)) as [L|L].
    - rewrite nth_error_app1 in H; auto.
    - right. assert (m < length (t ++ [b])) by (apply nth_error_Some; congruence). rewrite app_length in *; cbn in *. assert (m = length t) as -> by lia. rewrite nth_snoc in H. injection H as <-. auto.
  Qed.
  (** one operation more *)
  Lemma add_op s s' t b : I s t -> Inv vals throws (base s') ->
    (data b = true -> forall m a, nth_error t m = Some a -> data a = true -> kn t (who b) m) ->
    (forall m a, nth_error t m = Some a -> data a = true -> covered s' (t ++ [b]) m) ->
    (data b = true -> covered s' (t ++ [b]) (length t)) ->
    (gen (base s') = GRet2 -> (body b = true -> kn (t ++ [b]) (gseg s') (length t)) /\ forall m a, nth_error t m = Some a -> body a = true -> kn (t ++ [b]) (gseg s') m) ->
    (forall i, b = Locals i -> gen (base s') = GGone /\ forall m a, nth_error t m = Some a -> body a = true -> kn t i m) ->
    (body b = true -> gen (base s) <> GGone) ->
    (gen (base s') <> GGone -> gen (base s) <> GGone) ->
    I s' (t ++ [b]).
  Proof.
    intros HI HB Hd Hc Hn Hr Hl Hb Hg. split; auto.
    - intros m a Hm Da. apply nth_old in Hm as [Hm|[-> ->]]; eauto.
    - intros E m a Hm Ba. destruct (Hr E) as [R1 R2]. apply nth_old in Hm as [Hm|[-> ->]]; eauto.
    - intros m n a c Hm Hc' L Da Dc. apply nth_old in Hm. apply nth_old in Hc'. destruct Hc' as [Hc'|[-> ->]].
      + destruct Hm as [Hm|[-> ->]]; [apply hb_ext; [apply sw_ext|]; eapply (i_hb _ _ HI); eauto|]. assert (n < length t) by (apply nth_error_Some; congruence). lia.
      + destruct Hm as [Hm|[-> ->]]; [|lia]. apply knows_next; [apply sw_ext|eauto].
    - intros m n a i Hm Hn' Ba. apply nth_old in Hm. apply nth_old in Hn'. destruct Hn' as [Hn'|[-> E]].
      + destruct Hm as [Hm|[-> ->]]; [apply hb_ext; [apply sw_ext|]; eapply (i_loc _ _ HI); eauto|]. exfalso. apply (i_end _ _ HI (Hb Ba) _ _ Hn').
      + subst b. destruct Hm as [Hm|[-> ->]]; [|discriminate]. destruct (Hl i eq_refl) as [_ K]. change i with (who (Locals i)) in K. apply knows_next; [apply sw_ext|eauto].
    - intros E n i Hn'. apply nth_old in Hn' as [Hn'|[-> X]]; [now apply (i_end _ _ HI (Hg E)) in Hn'|]. destruct (Hl i (eq_sym X)) as [Y _]. contradiction.
  Qed.
  Lemma no_op s s' t : I s t -> Inv vals throws (base s') ->
    (forall m a, nth_error t m = Some a -> data a = true -> covered s' t m) ->
    (gen (base s') = GRet2 -> forall m a, nth_error t m = Some a -> body a = true -> kn t (gseg s') m) ->
    (gen (base s') <> GGone -> gen (base s) <> GGone) -> I s' t.
  Proof.
    intros HI HB Hc Hr Hg. split; auto.
    - apply (i_hb _ _ HI).
    - apply (i_loc _ _ HI).
    - intros E. apply (i_end _ _ HI (Hg E)).
  Qed.

  Lemma I_step s e s' t : I s t -> wstep s e = Some s' -> I s' (t ++ ops s e s').
  Proof.
    intros HI Hs. destruct e as [e| |]; unfold wstep in Hs.
    - destruct (next throws (base s) e) as [b'|] eqn:En; [|discriminate]. pose proof (inv_next vals throws _ _ _ (i_base _ _ HI) En) as HB. injection Hs as Hs.
      pose proof (i_base _ _ HI) as HB0. destruct HB0 as [Hb (p & _ & _ & Hsh)]. unfold next in En. rewrite Hb in En.
      pose proof (i_cov _ _ HI) as HC. pose proof (i_body _ _ HI) as HR. unfold covered in HC.
      assert (Go : gen (base s) <> GGone \/ gen (base s) = GGone) by (destruct (gen (base s)); auto; left; discriminate).
      destruct e; cbn [ops].
      + (* CCall *) destruct (cons (base s)) eqn:Ec; try discriminate. destruct (alive (base s)); [|discriminate]. rewrite app_nil_r.
        assert (Ew : waiting (base s) = false) by (destruct (gen (base s)); tauto).
        destruct (finalized (base s)); [|rewrite Ew in En]; injection En as <-; subst s'; (eapply no_op; [exact HI|exact HB|..]; unfold covered; cbn; auto).
      + (* CWake *) destruct (cons (base s)) eqn:Ec; try discriminate. assert (Eg : gen (base s) = GParked) by (destruct (gen (base s)); tauto). rewrite Eg in *. injection En as <-. subst s'.
        eapply add_op; [exact HI|exact HB|..]; unfold covered; cbn; try discriminate; try congruence. intros m a Hm Da. apply wakeG. eauto.
      + (* CResume *) destruct (cons (base s)) eqn:Ec; try discriminate.
        assert (Hh : forall m a, nth_error t m = Some a -> data a = true -> handedC t m) by (intros m a Hm Da; specialize (HC m a Hm Da); destruct (gen (base s)); exact HC).
        destruct (finalized (base s)) eqn:Ef.
        * injection En as <-. subst s'. cbn [cseg base].
          eapply add_op; [exact HI|exact HB|..]; unfold covered; cbn; try discriminate; auto.
          -- intros m a Hm Da. apply startC. eauto.
          -- intros Eg. split; [discriminate|]. intros m a Hm Ba. apply kn_snoc. eauto.
        * destruct (slot (base s)) as [v|] eqn:Es; [|exfalso; destruct (gen (base s)); try contradiction; destruct Hsh as (Y & _ & X); try discriminate Y; destruct X as (? & ? & _ & _ & X); congruence].
          injection En as <-. subst s'. cbn [cseg base]. change (t ++ [StartC (fresh s); SlotGet (fresh s)]) with (t ++ [StartC (fresh s)] ++ [SlotGet (fresh s)]). rewrite app_assoc.
          assert (I1 : I (WSt (St (gen (base s)) CIdle (waiting (base s)) None false (rest (base s)) (received (base s) ++ [Some v]) (alive (base s)) false) (fresh s) (gseg s) (S (fresh s))) (t ++ [StartC (fresh s)])).
          { eapply add_op; [exact HI|exact HB|..]; unfold covered; cbn; try discriminate; auto.
            - intros m a Hm Da. apply startC. eauto.
            - intros Eg. split; [discriminate|]. intros m a Hm Ba. apply kn_snoc. eauto. }
          eapply add_op; [exact I1|exact HB|..]; unfold covered; cbn; try discriminate; auto.
          -- intros _ m a Hm Da. exact (i_cov _ _ I1 m a Hm Da).
          -- intros m a Hm Da. apply kn_snoc. exact (i_cov _ _ I1 m a Hm Da).
          -- intros _. change (fresh s) with (who (SlotGet (fresh s))) at 3. apply knows_self.
          -- intros Eg. split; [discriminate|]. intros m a Hm Ba. apply kn_snoc. exact (i_body _ _ I1 Eg m a Hm Ba).
      + (* GRun *) destruct (gen (base s)) eqn:Eg; try discriminate. destruct (cons (base s)) eqn:Ec; try contradiction. injection En as <-. subst s'. cbn [gseg base].
        eapply add_op; [exact HI|exact HB|..]; unfold covered; cbn; rewrite ?Ec; try discriminate; try congruence. intros m a Hm Da. apply startG. eauto.
      + (* GYield *) destruct (gen (base s)) eqn:Eg; try discriminate. destruct (cons (base s)) eqn:Ec; try contradiction. destruct Hsh as (Ef & _). rewrite Ef in *. destruct (rest (base s)); [discriminate|]. injection En as <-. subst s'.
        eapply add_op; [exact HI|exact HB|..]; unfold covered; cbn; rewrite ?Ec; try discriminate; try congruence; eauto.
        * intros m a Hm Da. apply kn_snoc. eauto.
        * intros _. change (gseg s) with (who (SlotSet (gseg s))) at 2. apply knows_self.
      + (* GPark *) destruct (gen (base s)) eqn:Eg; try discriminate. destruct (cons (base s)) eqn:Ec; try contradiction. destruct Hsh as (Ef & _). rewrite Ef in *. injection En as <-. subst s'. rewrite app_nil_r.
        eapply no_op; [exact HI|exact HB|..]; unfold covered; cbn; rewrite ?Ec; try discriminate; try congruence; eauto.
      + (* GNotify *) destruct (gen (base s)) eqn:Eg; try discriminate. destruct (cons (base s)) eqn:Ec; try contradiction. destruct Hsh as (Ef & Ew & _). rewrite Ew in *. injection En as <-. subst s'.
        eapply add_op; [exact HI|exact HB|..]; unfold covered; cbn; try discriminate; try congruence. intros m a Hm Da. apply wakeC. eauto.
      + (* GReturn *) destruct (gen (base s)) eqn:Eg; try discriminate. destruct (cons (base s)) eqn:Ec; try contradiction. destruct (rest (base s)); [|discriminate]. assert (b' = St GRet1 (cons (base s)) (waiting (base s)) (slot (base s)) true [] (received (base s)) (alive (base s)) false) by (destruct throws; congruence). subst b' s'. rewrite app_nil_r.
        eapply no_op; [exact HI|exact HB|..]; unfold covered; cbn; rewrite ?Ec; try discriminate; try congruence; eauto.
      + (* GRetNotify *) destruct (gen (base s)) eqn:Eg; try discriminate. destruct (cons (base s)) eqn:Ec; try contradiction. destruct Hsh as (Ef & Ew & _). rewrite Ew in *. injection En as <-. subst s'.
        eapply add_op; [exact HI|exact HB|..]; unfold covered; cbn; try discriminate; try congruence.
        * intros m a Hm Da. apply wakeC. eauto.
        * intros _. split; [discriminate|]. intros m a Hm Ba. apply kn_snoc. apply (HC m a Hm). destruct a; try discriminate; reflexivity.
      + (* GDone *) destruct (gen (base s)) eqn:Eg; try discriminate. injection En as <-. subst s'. cbn [base].
        eapply add_op; [exact HI|exact HB|..]; unfold covered; cbn; try discriminate; try congruence.
        * intros m a Hm Da. specialize (HC m a Hm Da). destruct (cons (base s)); auto using kn_snoc; try (apply handedC_snoc; [exact HC|discriminate]).
        * intros i [= <-]. split; [reflexivity|]. eauto.
      + (* GThrow *) destruct (gen (base s)) eqn:Eg; try discriminate. destruct (cons (base s)) eqn:Ec; try contradiction. destruct (rest (base s)); [|discriminate]. assert (b' = St GThrown (cons (base s)) (waiting (base s)) (slot (base s)) (finalized (base s)) [] (received (base s)) (alive (base s)) false) by (destruct throws; congruence). subst b' s'. rewrite app_nil_r.
        eapply no_op; [exact HI|exact HB|..]; unfold covered; cbn; rewrite ?Ec; try discriminate; try congruence; eauto.
      + (* ODestroy *) destruct (cons (base s)) eqn:Ec; try discriminate. destruct (alive (base s)); [|discriminate]. injection En as <-. subst s'. cbn [base].
        destruct (gen (base s)) eqn:Eg; try contradiction; rewrite ?app_nil_r.
        * eapply add_op; [exact HI|exact HB|..]; unfold covered; cbn; try discriminate; try congruence; eauto.
          -- intros m a Hm Da. apply kn_snoc. eauto.
          -- intros _. change (cseg s) with (who (Frame (cseg s))) at 2. apply knows_self.
        * eapply no_op; [exact HI|exact HB|..]; unfold covered; cbn; try discriminate; try congruence; eauto.
        * eapply no_op; [exact HI|exact HB|..]; unfold covered; cbn; try discriminate; try congruence; eauto.
    - destruct (cons (base s)) eqn:Ec; try discriminate. injection Hs as <-. cbn [ops].
      assert (K : forall m a, nth_error t m = Some a -> data a = true -> kn t (cseg s) m) by (intros m a Hm Da; pose proof (i_cov _ _ HI m a Hm Da) as X; unfold covered in X; now rewrite Ec in X).
      eapply add_op; [exact HI|exact (i_base _ _ HI)|..]; try discriminate; auto.
      + intros m a Hm Da. apply covered_snoc; try discriminate. exact (i_cov _ _ HI m a Hm Da).
      + intros _. unfold covered. rewrite Ec. change (cseg s) with (who (CData (cseg s))) at 2. apply knows_self.
      + intros E. split; [discriminate|]. intros m a Hm Ba. apply kn_snoc. exact (i_body _ _ HI E m a Hm Ba).
    - destruct (gen (base s)) eqn:Eg; try discriminate. injection Hs as <-. cbn [ops].
      destruct (i_base _ _ HI) as [_ (p & _ & _ & Hsh)]. rewrite Eg in Hsh. destruct (cons (base s)) eqn:Ec; try contradiction.
      assert (K : forall m a, nth_error t m = Some a -> data a = true -> kn t (gseg s) m) by (intros m a Hm Da; pose proof (i_cov _ _ HI m a Hm Da) as X; unfold covered in X; now rewrite Ec, Eg in X).
      eapply add_op; [exact HI|exact (i_base _ _ HI)|..]; try discriminate; auto; try congruence.
      + intros m a Hm Da. apply covered_snoc; try discriminate. exact (i_cov _ _ HI m a Hm Da).
      + intros _. unfold covered. rewrite Ec, Eg. change (gseg s) with (who (GData (gseg s))) at 2. apply knows_self.
  Qed.
End G.

Section G2.
  Context {V : Type}.
  Variable vals : list V.
  Variable throws : bool.
  Lemma I_init : I vals throws (winit vals) [].
  Proof.
    split; [apply inv_init| |discriminate| | |].
    1, 2, 3: intros m; intros; match goal with H : nth_error [] ?m = Some _ |- _ => destruct m; discriminate H end.
    intros _ [|n] i; discriminate.
  Qed.
  Lemma I_run : forall l s t s', I vals throws s t -> run (wstep throws) s l = Some s' -> I vals throws s' (t ++ trace (wstep throws) ops s l).
  Proof.
    induction l as [|e l IH]; intros s t s' HI Hr; cbn [run trace] in *; [injection Hr as <-; now rewrite app_nil_r|].
    destruct (wstep throws s e) as [s1|] eqn:E; [|discriminate]. rewrite app_assoc. eapply IH; [now apply I_step|exact Hr].
  Qed.
  Lemma I_all l s : run (wstep throws) (winit vals) l = Some s -> I vals throws s (history vals throws l).
  Proof. intros Hr. exact (I_run l _ [] s I_init Hr). Qed.
End G2.

(** C140: any two accesses by the consumer and the body, to the yielded value or to anything else, are ordered by happens-before; so are the consumer's and the body's own from one resumption to the next, on whatever workers they run, and the destruction of the suspended body. *)
Theorem C140_one_at_a_time : forall V (vals : list V) throws l s m n a b, run (wstep throws) (winit vals) l = Some s -> m < n ->
  nth_error (history vals throws l) m = Some a -> nth_error (history vals throws l) n = Some b -> data a = true -> data b = true -> happens_before (history vals throws l) m n.
Proof. intros V vals throws l s m n a b Hr L Ha Hb Da Db. exact (i_hb _ _ _ _ (I_all vals throws l s Hr) m n a b Ha Hb L Da Db). Qed.
Print Assumptions C140_one_at_a_time.
(** The destruction of the body's local variables at its end comes after everything the body did. *)
Theorem C140_locals_last : forall V (vals : list V) throws l s m n a i, run (wstep throws) (winit vals) l = Some s ->
  nth_error (history vals throws l) m = Some a -> nth_error (history vals throws l) n = Some (Locals i) -> body a = true -> happens_before (history vals throws l) m n.
Proof. intros V vals throws l s m n a i Hr Ha Hb Da. exact (i_loc _ _ _ _ (I_all vals throws l s Hr) m n a i Ha Hb Da). Qed.
Print Assumptions C140_locals_last.
(** But it is not ordered with what the consumer does once it has been told of the end (C85): destructors of the body's local variables that touch shared data race with the consumer. *)
Theorem C140_locals_race_refuted : let l := [Gen CCall; Gen CWake; Gen GRun; GWork; Gen GReturn; Gen GRetNotify; Gen CResume; CWork; Gen GDone] in
  exists s, run (wstep false) (winit (@nil nat)) l = Some s /\ history (@nil nat) false l = [WakeG 0; StartG 2; GData 2; WakeC 2; StartC 3; CData 3; Locals 2]
  /\ ~ happens_before (history (@nil nat) false l) 5 6 /\ ~ happens_before (history (@nil nat) false l) 6 5.
Proof.
  cbv zeta. set (l := [Gen CCall; Gen CWake; Gen GRun; GWork; Gen GReturn; Gen GRetNotify; Gen CResume; CWork; Gen GDone]).
  assert (R : exists s, run (wstep false) (winit (@nil nat)) l = Some s) by (eexists; vm_compute; reflexivity). destruct R as (s & R). exists s. split; [exact R|].
  assert (E : history (@nil nat) false l = [WakeG 0; StartG 2; GData 2; WakeC 2; StartC 3; CData 3; Locals 2]) by (vm_compute; reflexivity). rewrite E. split; [reflexivity|]. clear. split; intros H.
  - assert (K : forall m n, happens_before [WakeG 0; StartG 2; GData 2; WakeC 2; StartC 3; CData 3; Locals 2] m n -> m = 5 -> False); [|exact (K _ _ H eq_refl)].
    clear H. intros m n H. induction H as [m n a b L Ha Hb E|m n (L & C)|m k n _ IH1 _ _]; intros X; [subst m| |auto].
    + cbn in Ha. injection Ha as <-. do 6 (destruct n as [|n]; [lia|]). destruct n as [|n]; [cbn in Hb; injection Hb as <-; discriminate|destruct n; discriminate Hb].
    + subst m. destruct C as [(i & j & Ha & _)|(i & j & Ha & _)]; discriminate Ha.
  - apply (hb_lt who sw sw_lt) in H. lia.
Qed.
Print Assumptions C140_locals_race_refuted.
(** Two values, then the destructor: what the consumer prepares before a call is there for the body, what the body does is there for the consumer. *)
Example C140_case : let l := [CWork; Gen CCall; Gen CWake; Gen GRun; GWork; Gen GYield; Gen GPark; Gen GNotify; Gen CResume; CWork; Gen CCall; Gen CWake; Gen GRun; GWork; Gen GYield; Gen GPark; Gen GNotify; Gen CResume; Gen ODestroy; CWork] in
  exists s, run (wstep false) (winit [7; 8; 9]) l = Some s /\ received (base s) = [Some 7; Some 8] /\ gen (base s) = GGone
  /\ history [7; 8; 9] false l = [CData 0; WakeG 0; StartG 2; GData 2; SlotSet 2; WakeC 2; StartC 3; SlotGet 3; CData 3; WakeG 3; StartG 4; GData 4; SlotSet 4; WakeC 4; StartC 5; SlotGet 5; Frame 5; CData 5]
  /\ happens_before (history [7; 8; 9] false l) 0 3 /\ happens_before (history [7; 8; 9] false l) 7 12 /\ happens_before (history [7; 8; 9] false l) 11 16.
Proof.
  cbv zeta. match goal with |- exists s, run _ _ ?l' = Some s /\ _ => set (l := l') end.
  assert (R : exists s, run (wstep false) (winit [7; 8; 9]) l = Some s /\ received (base s) = [Some 7; Some 8] /\ gen (base s) = GGone) by (eexists; split; [vm_compute; reflexivity|split; vm_compute; reflexivity]).
  destruct R as (s & R & R1 & R2). exists s. split; [exact R|]. split; [exact R1|]. split; [exact R2|].
  assert (E : history [7; 8; 9] false l = [CData 0; WakeG 0; StartG 2; GData 2; SlotSet 2; WakeC 2; StartC 3; SlotGet 3; CData 3; WakeG 3; StartG 4; GData 4; SlotSet 4; WakeC 4; StartC 5; SlotGet 5; Frame 5; CData 5]) by (vm_compute; reflexivity).
  split; [exact E|]. split; [|split]; (eapply C140_one_at_a_time; [exact R|lia|rewrite E; reflexivity|rewrite E; reflexivity|reflexivity|reflexivity]).
Qed.
(** The body's access, on the other hand, comes before the destruction of its local variables in the history of C140_locals_race_refuted. *)
Example C140_locals_case : let l := [Gen CCall; Gen CWake; Gen GRun; GWork; Gen GReturn; Gen GRetNotify; Gen CResume; CWork; Gen GDone] in happens_before (history (@nil nat) false l) 2 6.
Proof.
  cbv zeta. match goal with |- happens_before (history _ _ ?l') _ _ => assert (R : exists s, run (wstep false) (winit (@nil nat)) l' = Some s) by (eexists; vm_compute; reflexivity) end. destruct R as (s & R).
  eapply (C140_locals_last nat nil false _ s 2 6 (GData 2) 2); [exact R|vm_compute; reflexivity|vm_compute; reflexivity|reflexivity].
Qed.
