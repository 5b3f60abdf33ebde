(** C132: koios::wait_group under the C++ memory model, with the memory orders written in the code.

    wait_group.h 15-31 (fetch_add(relaxed), fetch_sub(acq_rel), load(acquire)), 33-52 (wait), 56-63 (wake_up_all); waiting_handle.cc 13-22.

    The steps are those of WaitGroup/Model.v, except that ready() may read any value the counter has had (which of them is limited by coherence, below), and that a try_dequeue may fail at any time. The counter is only modified by read-modify-write operations, each of which reads the value immediately before it in the modification order. Trusted: what is put into a moodycamel queue, or into the scheduler, happens before the operation that takes it out. *)
From Coq Require Import List Arith NArith Bool Lia.
From Verif.Common Require Import TS.
From Verif.WaitGroup Require Import Model.
From Verif.Weak Require Import HB.
Import ListNotations.

(* what the state keeps of wait_group.h 15-63 (WaitGroup/Model.v) *)
Record wstate := WSt { base : state; vals : list N }.  (* vals: the values of m_count in modification order, the initial one first *)
(* before anything has happened; wait_group.h 15-63 (WaitGroup/Model.v) *)
Definition winit : wstate := {| base := init; vals := [0%N] |}.
(* the steps of wait_group.h 15-63 (WaitGroup/Model.v) *)
Inductive wevent :=
| WG (e : event)               (* any step of the wait group but ready() *)
| Ready (i r : nat)            (* wait(): await_ready() -> ready() reads the r-th value *)
| GiveUp (i : nat)             (* wake_up_all(): try_dequeue returns false, the queue being empty or not *)
| Client (i c : nat) (b : bool).  (* anything else the program does; b: it signals (true) or is signalled (false) through c, e.g. starting a task, a future, a mutex *)
(* bookkeeping of the model, no counterpart in /repo *)
Definition changes (e : event) : bool := match e with EAdd _ _ | EDone _ _ => true | _ => false end.
(* what each step does: wait_group.h 15-63 (WaitGroup/Model.v) *)
Definition wstep (s : wstate) (e : wevent) : option wstate :=
  match e with
  | WG (EWait _) => None
  | WG e => match step (base s) e with Some b => Some (WSt b (if changes e then vals s ++ [count b] else vals s)) | None => None end
  | Ready i r => match at_ (base s) i, nth_error (vals s) r with
                 | Idle, Some v => Some (WSt (goto (base s) i (if (v =? 0)%N then Idle else Enqueuing)) (vals s))
                 | _, _ => None end
  | GiveUp i => match at_ (base s) i with Draining => Some (WSt (goto (base s) i Idle) (vals s)) | _ => None end
  | Client i _ _ => match at_ (base s) i with Idle => Some s | _ => None end
  end.

(** ** the operations on memory that the steps make; [k] numbers the modifications of the counter *)
(* the memory operations: wait_group.h 15-63 *)
Inductive op :=
| Add (i k : nat) | Done (i k : nat)  (* the k-th modification *)
| Load (i r : nat) (v : N)            (* ready() reads the r-th modification and gets v *)
| Enq (i : nat) | Deq (i w : nat) | NoDeq (i : nat) | Resumed (i : nat)
| Signal (i c : nat) | Signalled (i c : nat).
(* C++ memory model, environment, not code of /repo *)
Definition who (o : op) : nat := match o with Add i _ | Done i _ | Load i _ _ | Enq i | Deq i _ | NoDeq i | Resumed i | Signal i _ | Signalled i _ => i end.
(* the memory operations of each step: wait_group.h 15-63 *)
Definition ops (s : wstate) (e : wevent) (s' : wstate) : list op :=
  match e with
  | WG (EAdd i _) => [Add i (length (vals s))] | WG (EDone i _) => [Done i (length (vals s))]
  | WG (EDrain i k) => match take_nth k (waitings (base s)) with Some (w, _) => [Deq i w] | None => [] end
  | WG (EDrainEnd i) => [NoDeq i] | GiveUp i => [NoDeq i]
  | WG (EEnqueue i) => [Enq i] | WG (EResume i) => [Resumed i] | WG (EWait i) => []
  | Ready i r => [Load i r (nth r (vals s) 0%N)]
  | Client i c b => [if b then Signal i c else Signalled i c]
  end.
(* specification, no counterpart in /repo *)
Definition history (l : list wevent) : list op := trace wstep ops winit l.

(** ** synchronizes-with, for given memory orders *)
(* the memory orders written in wait_group.h 15-31 *)
Record orders := Orders { done_releases : bool; done_acquires : bool; ready_acquires : bool }.
(** wait_group.h 22, 30 (add() neither acquires nor releases: 17) *)
Definition code_orders : orders := {| done_releases := true; done_acquires := true; ready_acquires := true |}.
(* specification, no counterpart in /repo *)
Definition between (t : list op) (m n : nat) (P : op -> Prop) : Prop := forall k c, m < k -> k < n -> nth_error t k = Some c -> P c.
(** the modification that an acquiring operation reads *)
(* C++ memory model, environment, not code of /repo *)
Definition acquires (o : orders) (a : op) : option nat :=
  match a with Done _ k => if done_acquires o then Some (k - 1) else None | Load _ r _ => if ready_acquires o then Some r else None | _ => None end.
(* C++ memory model, environment, not code of /repo *)
Definition sw (o : orders) (t : list op) (m n : nat) : Prop :=
  m < n /\ exists a b, nth_error t m = Some a /\ nth_error t n = Some b /\
  ( (* all modifications are read-modify-writes, so a release sequence never ends *)
    (exists i k r, a = Done i k /\ done_releases o = true /\ acquires o b = Some r /\ k <= r)
    \/ (exists i w, a = Enq w /\ b = Deq i w /\ between t m n (fun c => c <> Enq w))
    \/ (exists i w, a = Deq i w /\ b = Resumed w /\ between t m n (fun c => forall j, c <> Deq j w))
    \/ (exists i j c, a = Signal i c /\ b = Signalled j c)).
(* C++ memory model, environment, not code of /repo *)
Definition happens_before (o : orders) := hb who (sw o).
(** coherence, which C++ guarantees: a read does not return a value that a modification happening before it has replaced *)
(* C++ memory model, environment, not code of /repo *)
Definition coherent (o : orders) (t : list op) : Prop :=
  forall n i r v, nth_error t n = Some (Load i r v) -> forall m a, nth_error t m = Some a -> happens_before o t m n -> match a with Add _ k | Done _ k => k <= r | _ => True end.

(** ** specification *)
(** the co_await of wait() that begins at [n0] completes at [n] *)
Definition completes (t : list op) (i n0 n : nat) : Prop :=
  exists r v, nth_error t n0 = Some (Load i r v) /\ ((n = n0 /\ v = 0%N) \/ (n0 < n /\ nth_error t n = Some (Resumed i))).
(** use as intended: done() for what was added only, and no add() while a done() that reached zero has not returned *)
Definition proper (s : wstate) (e : wevent) : Prop :=
  match e with
  | WG (EDone _ n) => (1 <= n <= count (base s))%N
  | WG (EAdd _ _) => forall j, at_ (base s) j <> Draining
  | _ => True end.

Lemma sw_lt o t m n : sw o t m n -> m < n /\ n < length t.
Proof. intros (H & a & b & _ & Hb & _). split; auto. apply nth_error_Some. congruence. Qed.
Lemma between_ext t x m n P : n <= length t -> between t m n P -> between (t ++ x) m n P.
Proof. intros L H k c H1 H2 H3. apply (H k c H1 H2). rewrite nth_error_app1 in H3; auto. lia. Qed.
Lemma sw_ext o t x m n : sw o t m n -> sw o (t ++ x) m n.
Proof.
  intros H. pose proof (sw_lt _ _ _ _ H) as [_ L]. destruct H as (H & a & b & Ha & Hb & C). split; auto. exists a, b. split; [now apply nth_ext|]. split; [now apply nth_ext|].
  destruct C as [C|[(i & w & C1 & C2 & C3)|[(i & w & C1 & C2 & C3)|C]]]; [now left|right; left; exists i, w|right; right; left; exists i, w|now repeat right]; repeat split; auto; apply between_ext; auto; lia.
Qed.

Section Proof.
  Notation o := code_orders.
  Notation kn := (knows who (sw o)).
  Notation hbeq := (hbe who (sw o)).
  Notation hbf := (hb who (sw o)).
  Record Z (s : wstate) (t : list op) (z p n0 : nat) : Prop := {     (* what is known at [p] of the zero at [z]; [n0]: adds up to there *)
    z_zero : nth_error (vals s) z = Some 0%N;
    z_adds : forall m i k, m < n0 -> nth_error t m = Some (Add i k) -> k <= z;
    z_done : forall m i k, nth_error t m = Some (Done i k) -> k <= z -> hbeq t m p }.
  Record I (s : wstate) (t : list op) : Prop := {
    i_idx : forall m i k, nth_error t m = Some (Add i k) \/ nth_error t m = Some (Done i k) -> 1 <= k < length (vals s);
    i_len : 1 <= length (vals s);
    i_drain : forall j, at_ (base s) j = Draining -> exists z p k, nth_error t p = Some (Done j k) /\ Z s t z p (length t);
    i_woken : forall w, at_ (base s) w = Woken -> exists z p j, nth_error t p = Some (Deq j w) /\ between t p (length t) (fun c => forall j, c <> Deq j w) /\
                forall n0 r v, nth_error t n0 = Some (Load w r v) -> Z s t z p n0;
    i_load : forall n i r v, nth_error t n = Some (Load i r v) -> nth_error (vals s) r = Some v /\ forall m j k, nth_error t m = Some (Done j k) -> k <= r -> m < n;
    i_res : forall n i n0 r v, nth_error t n = Some (Resumed i) -> n0 < n -> nth_error t n0 = Some (Load i r v) -> exists z, Z s t z n n0 }.
  Lemma nth_last {A} (t : list A) b m x : nth_error (t ++ [b]) m = Some x -> (m < length t /\ nth_error t m = Some x) \/ (m = length t /\ b = x).
  Proof.
    intros H. destruct (Nat.lt_ge_cases m (length t)) as [L|L].
    - rewrite nth_error_app1 in H; auto.
    - right. assert (m < length (t ++ [b])) by (apply nth_error_Some; congruence). rewrite app_length in *; cbn in *. assert (m = length t) as -> by lia. rewrite nth_snoc in H. injection H as ->. auto.
  Qed.
  Lemma nth_lt {A} (t : list A) m x : nth_error t m = Some x -> m < length t.
  Proof. intros H. apply nth_error_Some. congruence. Qed.
  (** one more operation *)
  Definition later (s s' : wstate) : Prop := exists ys, vals s' = vals s ++ ys.
  Lemma Z_ext s s' t b z p n0 : later s s' -> (forall i k, b = Done i k -> length (vals s) <= k) -> n0 <= length t -> Z s t z p n0 -> Z s' (t ++ [b]) z p n0.
  Proof.
    intros (ys & E) Hb L [Z1 Z2 Z3]. split.
    - rewrite E. now apply nth_ext.
    - intros m i k Hm H. apply nth_last in H. destruct H as [[_ H]|[-> _]]; [eauto|lia].
    - intros m i k H Hk. apply nth_last in H. destruct H as [[_ H]|[_ H]]; [apply hbe_ext; [apply sw_ext|eauto]|]. apply Hb in H. apply nth_lt in Z1. lia.
  Qed.
  Lemma Z_ext_all s s' t b z p : later s s' -> (forall i k, b = Done i k -> length (vals s) <= k) -> (forall i k, b <> Add i k) -> Z s t z p (length t) -> Z s' (t ++ [b]) z p (length (t ++ [b])).
  Proof.
    intros La Hb Ha HZ. destruct (Z_ext s s' t b z p _ La Hb (le_n _) HZ) as [Z1 Z2 Z3]. split; auto.
    intros m i k Hm H. pose proof H as H'. apply nth_last in H. destruct H as [[Hl _]|[_ H]]; [eauto|now apply Ha in H].
  Qed.
  Lemma between_snoc t n b P : between t n (length t) P -> P b -> between (t ++ [b]) n (length (t ++ [b])) P.
  Proof.
    intros H Hb k c H1 H2 H3. apply nth_last in H3. destruct H3 as [[L H3]|[_ <-]]; auto. apply (H k c); auto.
  Qed.
  Lemma Z_move s t z p q n0 : hbf t p q -> Z s t z p n0 -> Z s t z q n0.
  Proof. intros H [Z1 Z2 Z3]. split; auto. intros m i k Hm Hk. right. destruct (Z3 m i k Hm Hk) as [->|X]; auto. eapply hb_trans; eauto. Qed.
  Lemma Z_less s t z p n0 n1 : n1 <= n0 -> Z s t z p n0 -> Z s t z p n1.
  Proof. intros L [Z1 Z2 Z3]. split; auto. intros m i k Hm. apply Z2. lia. Qed.

  (** a step that only moves coroutines about: the counter and its past are untouched *)
  Lemma I_step s e s' t : I s t -> proper s e -> wstep s e = Some s' -> I s' (t ++ ops s e s').
  Proof.
    intros HI Hp Hs.
    assert (G : forall b, later s s' -> (forall i k, b = Done i k \/ b = Add i k -> length (vals s) = k /\ length (vals s') = S k) ->
      (forall i k, b = Add i k -> forall j, at_ (base s) j <> Draining) ->
      (forall i r v, b = Load i r v -> at_ (base s') i <> Woken /\ nth_error (vals s) r = Some v) ->
      (forall j, at_ (base s') j = Draining -> at_ (base s) j = Draining \/ exists k, b = Done j k /\ nth_error (vals s') k = Some 0%N) ->
      (forall w, at_ (base s') w = Woken -> (at_ (base s) w = Woken /\ forall j, b <> Deq j w) \/ exists j, b = Deq j w /\ at_ (base s) j = Draining) ->
      (forall i, b = Resumed i -> at_ (base s) i = Woken) -> I s' (t ++ [b])).
    { intros b La Hk Ha Hl Hd Hwk Hr.
      assert (Hb : forall i k, b = Done i k -> length (vals s) <= k) by (intros i k E; destruct (Hk i k (or_introl E)); lia).
      assert (LL : length (vals s) <= length (vals s')) by (destruct La as (ys & ->); rewrite app_length; lia).
      split.
      - intros m i k H. assert (X : (nth_error t m = Some (Add i k) \/ nth_error t m = Some (Done i k)) \/ (b = Done i k \/ b = Add i k)).
        { destruct H as [H|H]; apply nth_last in H; destruct H as [[_ H]|[_ H]]; auto. }
        destruct X as [X|X]; [pose proof (i_idx _ _ HI m i k X); lia|]. destruct (Hk i k X). pose proof (i_len _ _ HI). lia.
      - pose proof (i_len _ _ HI). lia.
      - intros j Hj. destruct (Hd j Hj) as [Hj'|(k & -> & Hz)].
        + destruct (i_drain _ _ HI j Hj') as (z & p & k & Hp1 & HZ). exists z, p, k. split; [now apply nth_ext|]. apply (Z_ext_all s s'); auto. intros i k' E. now apply (Ha i k' E j).
        + destruct (Hk j k (or_introl eq_refl)) as [Ek Ek']. exists k, (length t), k. split; [apply nth_snoc|]. split; auto.
          * intros m i k' _ H. apply nth_last in H. destruct H as [[_ H]|[_ H]]; [|discriminate]. pose proof (i_idx _ _ HI m i k' (or_introl H)). lia.
          * intros m i k' H Hk'. apply nth_last in H. destruct H as [[L H]|[-> _]]; [|now left]. right. apply hb_sw. split; [exact L|]. exists (Done i k'), (Done j k). split; [now apply nth_ext|]. split; [apply nth_snoc|].
            left. exists i, k', (k - 1). pose proof (i_idx _ _ HI m i k' (or_intror H)). repeat split; auto. lia.
      - intros w Hw'. destruct (Hwk w Hw') as [[Hw1 Hw2]|(j & -> & Hj)].
        + destruct (i_woken _ _ HI w Hw1) as (z & p & j & H1 & H2 & H3). exists z, p, j. split; [now apply nth_ext|]. split; [now apply between_snoc|].
          intros n0 r v Hn. apply nth_last in Hn. destruct Hn as [[L Hn]|[-> Hn]]; [apply (Z_ext s s'); eauto; lia|]. destruct (Hl w r v Hn) as [X _]. contradiction.
        + destruct (i_drain _ _ HI j Hj) as (z & p & k & Hp1 & HZ). exists z, (length t), j. split; [apply nth_snoc|]. split; [intros x c H1 H2; rewrite app_length in H2; cbn in H2; lia|].
          intros n0 r v Hn. apply nth_last in Hn. destruct Hn as [[L Hn]|[_ Hn]]; [|discriminate]. apply (Z_move s' _ z p).
          * eapply hb_po; [apply (nth_lt _ _ _ Hp1)|apply nth_ext; exact Hp1|apply nth_snoc|reflexivity].
          * apply (Z_ext s s'); auto; [lia|]. apply (Z_less s t z p (length t)); auto; lia.
      - intros n i r v Hn. apply nth_last in Hn. destruct Hn as [[L Hn]|[-> Hn]].
        + destruct (i_load _ _ HI n i r v Hn) as [X1 X2]. split; [destruct La as (ys & ->); now apply nth_ext|]. intros m j k Hm Hkr. apply nth_last in Hm. destruct Hm as [[_ Hm]|[_ Hm]]; [eauto|]. apply Hb in Hm. apply nth_lt in X1. lia.
        + destruct (Hl i r v Hn) as [_ X]. split; [destruct La as (ys & ->); now apply nth_ext|]. intros m j k Hm Hkr. apply nth_last in Hm. destruct Hm as [[Lm _]|[_ Hm]]; [exact Lm|congruence].
      - intros n i n0 r v Hn L Hn0. apply nth_last in Hn. destruct Hn as [[Ln Hn]|[-> Hn]].
        + rewrite nth_error_app1 in Hn0 by lia. destruct (i_res _ _ HI n i n0 r v Hn L Hn0) as (z & HZ). exists z. apply (Z_ext s s'); auto. lia.
        + subst b. rewrite nth_error_app1 in Hn0 by lia. destruct (i_woken _ _ HI i (Hr i eq_refl)) as (z & p & j & H1 & H2 & H3). exists z. apply (Z_move s' _ z p).
          * apply hb_sw. split; [apply (nth_lt _ _ _ H1)|]. exists (Deq j i), (Resumed i). split; [now apply nth_ext|]. split; [apply nth_snoc|]. right; right; left. exists j, i. repeat split. apply between_ext; auto.
          * apply (Z_ext s s'); eauto; lia. }
    assert (La0 : forall b', later s (WSt b' (vals s))) by (intros b'; exists []; now rewrite app_nil_r).
    destruct e as [e|i r|i|i c b].
    - destruct e as [i n|i n|i k|i|i|i|i]; unfold wstep in Hs; try discriminate; unfold step in Hs; destruct (at_ (base s) i) eqn:Ei; try discriminate; cbn [ops].
      + injection Hs as <-. apply G; cbn; try discriminate.
        * eexists; reflexivity.
        * intros i' k [E|E]; [discriminate|]. injection E as <- <-. split; auto. rewrite app_length. cbn. lia.
        * intros i' k E. exact Hp.
        * auto.
        * intros w Hw. left. split; auto. discriminate.
      + cbn [changes] in Hs. injection Hs as <-. cbn in Hp.
        assert (Ec : forall b : bool, count (if b then goto (set_count (base s) (sub64 (count (base s)) n)) i Draining else set_count (base s) (sub64 (count (base s)) n)) = sub64 (count (base s)) n) by (intros []; reflexivity).
        assert (Ew : forall b : bool, waitings (if b then goto (set_count (base s) (sub64 (count (base s)) n)) i Draining else set_count (base s) (sub64 (count (base s)) n)) = waitings (base s)) by (intros []; reflexivity).
        assert (Ea : forall b : bool, at_ (if b then goto (set_count (base s) (sub64 (count (base s)) n)) i Draining else set_count (base s) (sub64 (count (base s)) n)) = if b then upd (at_ (base s)) i Draining else at_ (base s)) by (intros []; reflexivity).
        apply G; cbn [base vals]; rewrite ?Ec, ?Ew, ?Ea; try discriminate.
        * eexists; reflexivity.
        * intros i' k [E|E]; [|discriminate]. injection E as <- <-. split; auto. rewrite app_length. cbn. lia.
        * intros j. destruct (count (base s) =? 1)%N eqn:E1; [|auto]. apply N.eqb_eq in E1. destruct (Nat.eq_dec j i) as [->|Nj]; [|rewrite upd_other by auto; auto].
          intros _. right. exists (length (vals s)). split; auto. rewrite nth_snoc. f_equal. rewrite E1 in *. assert (n = 1%N) as -> by lia. reflexivity.
        * intros w Hw. left. split; [|discriminate]. destruct (_ =? _)%N; auto. destruct (Nat.eq_dec w i) as [->|Nj]; [rewrite upd_same in Hw; discriminate|now rewrite upd_other in Hw].
      + destruct (take_nth k (waitings (base s))) as [[w rest]|] eqn:Et; [|discriminate]. injection Hs as <-. cbn [changes].
        apply take_nth_spec in Et. destruct Et as (l1 & l2 & E1 & E2 & _).
        apply G; cbn [base vals waitings at_ goto]; auto; try discriminate.
        * intros ? ? [|]; discriminate.
        * intros j. destruct (Nat.eq_dec j w) as [->|Nj]; [rewrite upd_same; discriminate|rewrite upd_other; auto].
        * intros x. destruct (Nat.eq_dec x w) as [->|Nj]; [intros _; right; eauto|]. rewrite upd_other by auto. intros Hx. left. split; auto. congruence.
      + destruct (waitings (base s)) eqn:Ew; [|discriminate]. injection Hs as <-. cbn [changes]. apply G; cbn [base vals waitings at_ goto]; auto; try discriminate.
        * intros ? ? [|]; discriminate.
        * intros j. destruct (Nat.eq_dec j i) as [->|Nj]; [rewrite upd_same; discriminate|rewrite upd_other; auto].
        * intros x. destruct (Nat.eq_dec x i) as [->|Nj]; [rewrite upd_same; discriminate|]. rewrite upd_other by auto. intros Hx. left. split; auto. discriminate.
      + injection Hs as <-. cbn [changes]. apply G; cbn [base vals waitings at_ goto]; auto; try discriminate.
        * intros ? ? [|]; discriminate.
        * intros j. destruct (Nat.eq_dec j i) as [->|Nj]; [rewrite upd_same; discriminate|rewrite upd_other; auto].
        * intros x. destruct (Nat.eq_dec x i) as [->|Nj]; [rewrite upd_same; discriminate|]. rewrite upd_other by auto. intros Hx. left. split; auto. discriminate.
      + injection Hs as <-. cbn [changes]. apply G; cbn [base vals waitings at_ goto]; auto; try discriminate.
        * intros ? ? [|]; discriminate.
        * intros j. destruct (Nat.eq_dec j i) as [->|Nj]; [rewrite upd_same; discriminate|rewrite upd_other; auto].
        * intros x. destruct (Nat.eq_dec x i) as [->|Nj]; [rewrite upd_same; discriminate|]. rewrite upd_other by auto. intros Hx. left. split; auto. discriminate.
        * intros x E. now injection E as <-.
    - cbn in Hs. destruct (at_ (base s) i) eqn:Ei; try discriminate. destruct (nth_error (vals s) r) as [v|] eqn:Er; [|discriminate]. injection Hs as <-. cbn [ops].
      rewrite (nth_error_nth _ _ 0%N Er). apply G; cbn [base vals waitings at_ goto]; auto; try discriminate.
      * intros ? ? [|]; discriminate.
      * intros i' r' v' E. injection E as <- <- <-. split; auto. rewrite upd_same. destruct (v =? 0)%N; discriminate.
      * intros j. destruct (Nat.eq_dec j i) as [->|Nj]; [rewrite upd_same; destruct (v =? 0)%N; discriminate|rewrite upd_other; auto].
      * intros x. destruct (Nat.eq_dec x i) as [->|Nj]; [rewrite upd_same; destruct (v =? 0)%N; discriminate|]. rewrite upd_other by auto. intros Hx. left. split; auto. discriminate.
    - cbn in Hs. destruct (at_ (base s) i) eqn:Ei; try discriminate. injection Hs as <-. cbn [ops]. apply G; cbn [base vals waitings at_ goto]; auto; try discriminate.
      * intros ? ? [|]; discriminate.
      * intros j. destruct (Nat.eq_dec j i) as [->|Nj]; [rewrite upd_same; discriminate|rewrite upd_other; auto].
      * intros x. destruct (Nat.eq_dec x i) as [->|Nj]; [rewrite upd_same; discriminate|]. rewrite upd_other by auto. intros Hx. left. split; auto. discriminate.
    - cbn in Hs. destruct (at_ (base s) i) eqn:Ei; try discriminate. injection Hs as <-. cbn [ops]. apply G; auto; try (destruct b; discriminate).
      * exists []. now rewrite app_nil_r.
      * intros ? ? [|]; destruct b; discriminate.
      * intros w Hw. left. split; auto. destruct b; discriminate.
  Qed.
  Lemma I_init : I winit [].
  Proof.
    split; cbn; auto; try discriminate.
    - intros [|m] i k [H|H]; discriminate.
    - intros [|n]; discriminate.
    - intros [|n]; discriminate.
  Qed.
  Lemma I_run : forall l s t s', I s t -> run_all wstep proper s l -> run wstep s l = Some s' -> I s' (t ++ trace wstep ops s l).
  Proof.
    induction l as [|e l IH]; intros s t s' HI Hd Hr; cbn [run trace] in *; [injection Hr as <-; now rewrite app_nil_r|].
    destruct (wstep s e) as [s1|] eqn:E; [|discriminate]. destruct Hd as [Hd1 Hd2]. rewrite app_assoc. eapply IH; eauto. now apply I_step.
  Qed.
End Proof.

(** C132: when a co_await of wait() completes, the counter had come down to zero after all the add()s that happened before the wait began, and everything that was done before any of the done()s that brought it there is visible to the waiter. *)
Theorem C132_join_visibility : forall l s i n0 n, run_all wstep proper winit l -> run wstep winit l = Some s -> coherent code_orders (history l) -> completes (history l) i n0 n ->
  exists z, nth_error (vals s) z = Some 0%N /\
    (forall m j k, nth_error (history l) m = Some (Add j k) -> happens_before code_orders (history l) m n0 -> k <= z) /\
    (forall m j k, nth_error (history l) m = Some (Done j k) -> k <= z -> happens_before code_orders (history l) m n).
Proof.
  intros l s i n0 n Hp Hr Hc (r & v & Hl & Hn). pose proof (I_run l winit [] s I_init Hp Hr) as HI. cbn [app] in HI. fold (history l) in HI.
  destruct Hn as [[-> ->]|[L Hn]].
  - destruct (i_load _ _ HI n0 i r 0%N Hl) as [V B]. exists r. split; [exact V|]. split.
    + intros m j k Hm Hh. exact (Hc n0 i r 0%N Hl m _ Hm Hh).
    + intros m j k Hm Hk. apply hb_sw. split; [eauto|]. exists (Done j k), (Load i r 0%N). repeat split; auto. left. exists j, k, r. auto.
  - destruct (i_res _ _ HI n i n0 r v Hn L Hl) as (z & [Z1 Z2 Z3]). exists z. split; [exact Z1|]. split.
    + intros m j k Hm Hh. apply (Z2 m j k); auto. apply (hb_lt who (sw code_orders) (sw_lt code_orders)) in Hh. lia.
    + intros m j k Hm Hk. destruct (Z3 m j k Hm Hk) as [->|H]; [congruence|exact H].
Qed.
Print Assumptions C132_join_visibility.

(** ** every modification of the counter is in the history, and done() modifies a positive value *)
Record K (s : wstate) (t : list op) : Prop := {
  k_last : nth_error (vals s) (length (vals s) - 1) = Some (count (base s));
  k_pos : 1 <= length (vals s);
  k_op : forall k, 1 <= k < length (vals s) -> exists m j, nth_error t m = Some (Add j k) \/ (nth_error t m = Some (Done j k) /\ nth_error (vals s) (k - 1) <> Some 0%N) }.
Lemma K_grow s t b v : K s t -> vals s <> [] -> forall op', (exists j, op' = Add j (length (vals s)) \/ (op' = Done j (length (vals s)) /\ count (base s) <> 0%N)) -> count b = v -> K (WSt b (vals s ++ [v])) (t ++ [op']).
Proof.
  intros [K1 K2 K3] Nv op' (j & Ho) Ec. split; cbn [vals base].
  - rewrite app_length. cbn. replace (length (vals s) + 1 - 1) with (length (vals s)) by lia. rewrite nth_snoc. now rewrite Ec.
  - rewrite app_length. cbn. lia.
  - intros k. rewrite app_length. cbn. intros Hk. destruct (Nat.eq_dec k (length (vals s))) as [->|N].
    + exists (length t), j. rewrite !nth_snoc. destruct Ho as [->|[-> Hc]]; [now left|right]. split; auto. rewrite nth_error_app1 by lia. rewrite K1. intros E. injection E as E. contradiction.
    + destruct (K3 k ltac:(lia)) as (m & j' & [H|[H1 H2]]); exists m, j'; [left; now apply nth_ext|right]. split; [now apply nth_ext|]. rewrite nth_error_app1 by lia. exact H2.
Qed.
Lemma K_keep s t b x : K s t -> count b = count (base s) -> K (WSt b (vals s)) (t ++ x).
Proof.
  intros [K1 K2 K3] Ec. split; cbn [vals base]; auto; [now rewrite Ec|]. intros k Hk. destruct (K3 k Hk) as (m & j & [H|[H1 H2]]); exists m, j; [left; now apply nth_ext|right]. split; [now apply nth_ext|exact H2].
Qed.
Lemma K_step s e s' t : K s t -> proper s e -> wstep s e = Some s' -> K s' (t ++ ops s e s').
Proof.
  intros HK Hp Hs. assert (Nv : vals s <> []) by (pose proof (k_pos _ _ HK); destruct (vals s); cbn in *; [lia|discriminate]).
  destruct e as [e|i r|i|i c b].
  - destruct e as [i n|i n|i k|i|i|i|i]; unfold wstep in Hs; try discriminate; unfold step in Hs; destruct (at_ (base s) i) eqn:Ei; try discriminate; cbn [ops].
    + injection Hs as <-. apply K_grow; eauto.
    + injection Hs as <-. cbn in Hp. apply K_grow; auto. exists i. right. split; auto. lia.
    + destruct (take_nth k (waitings (base s))) as [[w rest]|]; [|discriminate]. injection Hs as <-. now apply K_keep.
    + destruct (waitings (base s)); [|discriminate]. injection Hs as <-. now apply K_keep.
    + injection Hs as <-. now apply K_keep.
    + injection Hs as <-. now apply K_keep.
  - cbn in Hs. destruct (at_ (base s) i); try discriminate. destruct (nth_error (vals s) r); [|discriminate]. injection Hs as <-. now apply K_keep.
  - cbn in Hs. destruct (at_ (base s) i); try discriminate. injection Hs as <-. now apply K_keep.
  - cbn in Hs. destruct (at_ (base s) i); try discriminate. injection Hs as <-. destruct s as [b0 v0]. now apply (K_keep (WSt b0 v0)).
Qed.
Lemma K_run : forall l s t s', K s t -> run_all wstep proper s l -> run wstep s l = Some s' -> K s' (t ++ trace wstep ops s l).
Proof.
  induction l as [|e l IH]; intros s t s' HI Hd Hr; cbn [run trace] in *; [injection Hr as <-; now rewrite app_nil_r|].
  destruct (wstep s e) as [s1|] eqn:E; [|discriminate]. destruct Hd as [Hd1 Hd2]. rewrite app_assoc. eapply IH; eauto. now apply K_step.
Qed.

(** C132, as it is mostly used: if all add()s happen before the wait, then everything before any done() at all is visible when it completes. *)
Theorem C132_join : forall l s i n0 n, run_all wstep proper winit l -> run wstep winit l = Some s -> coherent code_orders (history l) -> completes (history l) i n0 n ->
  (forall m j k, nth_error (history l) m = Some (Add j k) -> happens_before code_orders (history l) m n0) ->
  forall m j k, nth_error (history l) m = Some (Done j k) -> happens_before code_orders (history l) m n.
Proof.
  intros l s i n0 n Hp Hr Hc Hcm Ha m j k Hm. destruct (C132_join_visibility l s i n0 n Hp Hr Hc Hcm) as (z & Z1 & Z2 & Z3).
  apply (Z3 m j k Hm). destruct (Nat.le_gt_cases k z) as [L|L]; [exact L|exfalso].
  assert (HK : K s (history l)). { apply (K_run l winit [] s); auto. split; cbn; auto. intros k' H. lia. }
  pose proof (I_run l winit [] s I_init Hp Hr) as HI. cbn [app] in HI. fold (history l) in HI. pose proof (i_idx _ _ HI m j k (or_intror Hm)) as B.
  destruct (k_op _ _ HK (S z) ltac:(lia)) as (m' & j' & [H|[_ H]]).
  - pose proof (Z2 m' j' _ H (Ha _ _ _ H)). lia.
  - cbn in H. rewrite Nat.sub_0_r in H. contradiction.
Qed.
Print Assumptions C132_join.

(** ** a non-trivial case: the parent 0 adds 2 and starts 1 and 2, which work and call done(); it waits, suspended in one execution, not in the other *)
Definition suspended := [WG (EAdd 0 2); Client 0 9 true; Client 1 9 false; Client 2 9 false; Ready 0 1; WG (EEnqueue 0); WG (EDone 1 1); WG (EDone 2 1); WG (EDrain 2 0); GiveUp 2; WG (EResume 0)].
Definition not_suspended := [WG (EAdd 0 2); Client 0 9 true; Client 1 9 false; Client 2 9 false; WG (EDone 1 1); WG (EDone 2 1); Ready 0 3].
(** An execution in which reads return the latest value is coherent. *)
Lemma latest_coherent o t : (forall n i r v m j k, nth_error t n = Some (Load i r v) -> m < n -> nth_error t m = Some (Add j k) \/ nth_error t m = Some (Done j k) -> k <= r) -> coherent o t.
Proof.
  intros H n i r v Hn m a Ha Hh. apply (hb_lt who (sw o) (sw_lt o)) in Hh. destruct a; auto; eapply H; eauto; lia.
Qed.
Ltac fin n H := do 12 (destruct n as [|n]; [discriminate H|]); destruct n; discriminate H.
Example C132_case :
  run_all wstep proper winit suspended /\ run wstep winit suspended <> None /\ coherent code_orders (history suspended) /\ completes (history suspended) 0 4 10 /\
    (forall m j k, nth_error (history suspended) m = Some (Add j k) -> happens_before code_orders (history suspended) m 4) /\ nth_error (history suspended) 6 = Some (Done 1 2) /\
  run_all wstep proper winit not_suspended /\ run wstep winit not_suspended <> None /\ coherent code_orders (history not_suspended) /\ completes (history not_suspended) 0 6 6 /\
    (forall m j k, nth_error (history not_suspended) m = Some (Add j k) -> happens_before code_orders (history not_suspended) m 6).
Proof.
  assert (P : run_all wstep proper winit suspended /\ run_all wstep proper winit not_suspended).
  { split; unfold suspended, not_suspended; cbn [run_all];
    repeat (split; [try exact Logic.I; try (intros ?; discriminate); try (split; discriminate)|intros s' Hs'; vm_compute in Hs'; injection Hs' as <-]); exact Logic.I. }
  destruct P as [P1 P2]. split; [exact P1|]. split; [discriminate|]. split; [|split; [|split; [|split; [reflexivity|]]]].
  - apply latest_coherent. intros n i r v m j k Hn L Hm. do 5 (destruct n as [|n]; [cbn in Hn; try discriminate Hn|]); [|fin n Hn]. injection Hn as <- <- <-.
    destruct m as [|m]; [destruct Hm as [Hm|Hm]; cbn in Hm; [injection Hm as <- <-; lia|discriminate]|]. do 3 (destruct m as [|m]; [destruct Hm as [Hm|Hm]; discriminate Hm|]). lia.
  - exists 1, 2%N. split; [reflexivity|]. right. split; [lia|reflexivity].
  - intros m j k Hm. destruct m as [|m]; [|fin m Hm]. cbn in Hm. injection Hm as <- <-. eapply hb_po; [|reflexivity|reflexivity|reflexivity]. lia.
  - split; [exact P2|]. split; [discriminate|]. split; [|split].
    + apply latest_coherent. intros n i r v m j k Hn L Hm. do 6 (destruct n as [|n]; [cbn in Hn; try discriminate Hn|]). destruct n as [|n]; [|fin n Hn]. injection Hn as <- <- <-.
      do 6 (destruct m as [|m]; [destruct Hm as [Hm|Hm]; cbn in Hm; try discriminate Hm; injection Hm as <- <-; lia|]). lia.
    + exists 3, 0%N. split; [reflexivity|]. now left.
    + intros m j k Hm. destruct m as [|m]; [|fin m Hm]. cbn in Hm. injection Hm as <- <-. eapply hb_po; [|reflexivity|reflexivity|reflexivity]. lia.
Qed.

(** ** each memory order is needed, and so is the order of add() and wait() *)
(** Nothing comes after an operation that is the last of its coroutine and synchronizes with nothing. *)
Lemma nothing_after o t m a : nth_error t m = Some a -> (forall n b, m < n -> nth_error t n = Some b -> who a <> who b) -> (forall n, ~ sw o t m n) -> forall n, ~ happens_before o t m n.
Proof.
  intros Ha Hpo Hsw n H. remember m as m' eqn:Em. induction H as [m' n a' b' H1 H2 H3 H4|m' n H|m' k n H1 IH1 H2 IH2]; subst.
  - rewrite Ha in H2. injection H2 as <-. now apply (Hpo n b').
  - now apply (Hsw n).
  - now apply IH1.
Qed.
Lemma stays_inside o t (C : nat -> Prop) : (forall m n a b, C m -> m < n -> nth_error t m = Some a -> nth_error t n = Some b -> who a = who b -> C n) -> (forall m n, C m -> sw o t m n -> C n) -> forall m n, happens_before o t m n -> C m -> C n.
Proof. intros H1 H2 m n H. induction H; eauto. Qed.
Theorem C132_each_is_needed :
  ~ happens_before (Orders false true true) (history suspended) 6 10 /\
  ~ happens_before (Orders true false true) (history suspended) 6 10 /\
  ~ happens_before (Orders true true false) (history not_suspended) 4 6.
Proof.
  split; [|split].
  1, 2: eapply nothing_after; [reflexivity| |].
  1, 3: intros n b L H; do 11 (destruct n as [|n]; [first [lia | discriminate H | cbn in H; injection H as <-; discriminate]|]); destruct n; discriminate H.
  1, 2: intros n (L & a & b & Ha & Hb & C); cbn in Ha; injection Ha as <-; destruct C as [(i & k & r & E & C1 & C2 & C3)|[(i & w & E & _)|[(i & w & E & _)|(i & j & c & E & _)]]]; try discriminate.
  - injection E as <- <-. do 11 (destruct n as [|n]; [first [lia | discriminate Hb | cbn in Hb; injection Hb as <-; discriminate C2]|]); destruct n; discriminate Hb.
  - intros H. assert (6 = 4 \/ 6 = 5) as [X|X]; [|discriminate|discriminate].
    apply (stays_inside _ _ (fun n => n = 4 \/ n = 5) ) in H; [exact H| | |now left].
    + intros m n a b Hm L Ha Hb E. destruct Hm as [Hm|Hm]; subst m; cbn in Ha; injection Ha as <-; do 7 (destruct n as [|n]; [first [lia | discriminate Hb | cbn in Hb; injection Hb as <-; discriminate E]|]); destruct n; discriminate Hb.
    + intros m n Hm (L & a & b & Ha & Hb & C).
      destruct Hm as [Hm|Hm]; subst m; cbn in Ha; injection Ha as <-; destruct C as [(i & k & r & E & C1 & C2 & C3)|[(i & w & E & _)|[(i & w & E & _)|(i & j & c & E & _)]]]; try discriminate;
      do 7 (destruct n as [|n]; [first [lia | discriminate Hb | cbn in Hb; injection Hb as <-; discriminate C2]|]); destruct n; discriminate Hb.
Qed.
Print Assumptions C132_each_is_needed.
(** A wait() not ordered after the add() may complete at once, with the counter at 2. *)
Theorem C132_unordered_add : let l := [WG (EAdd 0 2); Ready 1 0] in exists s, run_all wstep proper winit l /\ run wstep winit l = Some s /\ coherent code_orders (history l) /\ completes (history l) 1 1 1 /\ count (base s) = 2%N.
Proof.
  cbv zeta. eexists. split.
  { cbn [run_all]. repeat (split; [try exact Logic.I; try (intros ?; discriminate); try (split; discriminate)|intros s' Hs'; vm_compute in Hs'; injection Hs' as <-]); exact Logic.I. }
  split; [reflexivity|]. split; [|split; [exists 0, 0%N; split; [reflexivity|now left]|reflexivity]].
  intros n i r v Hn m a Ha Hh. destruct n as [|n]; [discriminate Hn|]. destruct n as [|n]; [|destruct n; discriminate Hn]. cbn in Hn. injection Hn as <- <- <-.
  pose proof (hb_lt who (sw code_orders) (sw_lt code_orders) _ _ _ Hh) as [L _]. assert (m = 0) as -> by lia. exfalso. revert Hh. eapply nothing_after; [reflexivity| |].
  - intros n b L' H. do 2 (destruct n as [|n]; [first [lia | cbn in H; injection H as <-; discriminate]|]); destruct n; discriminate H.
  - intros n (L' & a' & b & Ha' & Hb & C). cbn in Ha'. injection Ha' as <-. destruct C as [(i & k & r & E & _)|[(i & w & E & _)|[(i & w & E & _)|(i & j & c & E & _)]]]; discriminate.
Qed.
Print Assumptions C132_unordered_add.
