(** C151: koios::mutex in every execution the C++ memory model allows.

    coroutine_mutex.h 69-90, coroutine_mutex.cc 39-52, acq_lk_aw.h 18-72, waiting_handle.cc 13-22.

    An execution is a graph, as in [intro.races] and [atomics.order] of the C++ standard: events, sequenced-before, reads-from and the modification order of m_flag, without any interleaving. Not assumed: sequential consistency, any order between the operations on the flag and those on the queues, or that try_dequeue finds a handle that is there. Trusted: a handle put into the moodycamel queue, and a coroutine given to the scheduler, is taken out at most once, and putting it in happens before taking it out. *)
From Coq Require Import List Arith Bool Lia Permutation.
From Verif.Common Require Import TS LinExt.
From Verif.Mutex Require Import Model Spec Proofs.
From Verif.Weak Require Import HB Mutex.
Import ListNotations.

(** ** specification: executions *)
(** what coroutine [i] does next *)
Inductive act :=
| AAcquire (i : nat)   (* co_await acquire(): m_flag.test_and_set(acq_rel), coroutine_mutex.h 71 *)
| ATry (i : nat)       (* co_await try_acquire(): the same *)
| AEnq (i : nat)       (* add_waiting(): its handle is put into m_waitings, 76 *)
| AResume (i : nat)    (* the scheduler resumes it, inside co_await acquire() *)
| AData (i : nat)      (* it reads or writes the data the mutex guards *)
| AUnlock (i : nat)    (* release(): m_flag.clear(), 88 *)
| AAgain (i : nat)     (* try_wake_up_next(): m_flag.test_and_set(acq_rel), coroutine_mutex.cc 41 *)
| ADeq (i : nat)       (* 45-47: try_dequeue() gives a handle, wake_up() *)
| ANone (i : nat)      (* 45: try_dequeue() gives nothing *)
| APutBack (i : nat).  (* 51: m_flag.clear(release) *)
Definition actor (a : act) : nat := match a with AAcquire i | ATry i | AEnq i | AResume i | AData i | AUnlock i | AAgain i | ADeq i | ANone i | APutBack i => i end.
Definition rmw (a : act) : bool := match a with AAcquire _ | ATry _ | AAgain _ => true | _ => false end.
Definition store (a : act) : bool := match a with AUnlock _ | APutBack _ => true | _ => false end.
Definition on_flag (a : act) : bool := rmw a || store a.
Definition is_deq (a : act) : bool := match a with ADeq _ => true | _ => false end.
Definition is_enq (a : act) : bool := match a with AEnq _ => true | _ => false end.
Definition is_res (a : act) : bool := match a with AResume _ => true | _ => false end.
Definition is_data (a : act) : bool := match a with AData _ => true | _ => false end.
(** the control flow of one coroutine; [v] is what test_and_set returned *)
Definition lstep (p : pc) (a : act) (v : bool) : option pc :=
  match p, a with
  | Idle, AAcquire _ => Some (if v then Enqueuing else Owner)      (* acq_lk_aw.h 33-36 *)
  | Idle, ATry _ => Some (if v then Idle else Owner)               (* 58-68 *)
  | Enqueuing, AEnq _ => Some Waiting                              (* 27-30 *)
  | Waiting, AResume _ => Some Owner                               (* 38-41 *)
  | Owner, AData _ => Some Owner
  | Owner, AUnlock _ => Some RelCleared
  | RelCleared, AAgain _ => Some (if v then Idle else RelHeld)
  | RelHeld, ADeq _ => Some Idle
  | RelHeld, ANone _ => Some RelEmpty
  | RelEmpty, APutBack _ => Some Idle
  | _, _ => None
  end.
Record execution := Ex {
  size : nat;                 (* the events are the numbers below, in no particular order *)
  lab : nat -> act;
  po : nat -> list nat;       (* the events of a coroutine, in the order it executes them *)
  mo : nat -> nat;            (* the place of an operation on m_flag in its modification order *)
  rf : nat -> option nat;     (* the modification that a test_and_set reads; None: the initial value *)
  from : nat -> nat;          (* the add_waiting() whose handle a try_dequeue takes *)
  by_ : nat -> nat }.         (* the wake_up() that a resumption follows *)
(** test_and_set returns true if it reads what a test_and_set has written *)
Definition val (G : execution) (x : nat) : bool := match rf G x with Some y => rmw (lab G y) | None => false end.
Fixpoint lrun (G : execution) (p : pc) (l : list nat) : option pc :=
  match l with [] => Some p | x :: l => match lstep p (lab G x) (val G x) with Some p => lrun G p l | None => None end end.
Fixpoint before (l : list nat) (x y : nat) : bool :=
  match l with [] => false | z :: l => if z =? x then existsb (Nat.eqb y) l else before l x y end.
(** sequenced before; release/acquire on m_flag (every modification releases, every test_and_set acquires); the queue; the scheduler *)
Definition edge (G : execution) (x y : nat) : bool :=
  (x <? size G) && (y <? size G) &&
  (before (po G (actor (lab G y))) x y
   || rmw (lab G y) && (match rf G y with Some z => z =? x | None => false end)
   || is_deq (lab G y) && (from G y =? x)
   || is_res (lab G y) && (by_ G y =? x)).
Definition happens_before (G : execution) : nat -> nat -> Prop := path (edge G).
Record consistent (G : execution) : Prop := {
  c_po : forall i x, In x (po G i) <-> x < size G /\ actor (lab G x) = i;
  c_once : forall i, NoDup (po G i);
  c_prog : forall i, lrun G Idle (po G i) <> None;
  c_mo : forall x y, x < size G -> y < size G -> on_flag (lab G x) = true -> on_flag (lab G y) = true -> mo G x = mo G y -> x = y;
  (* a read-modify-write reads the modification immediately before it *)
  c_rf : forall x y, x < size G -> rmw (lab G x) = true -> rf G x = Some y -> y < size G /\ on_flag (lab G y) = true /\ mo G y < mo G x /\
           forall z, z < size G -> on_flag (lab G z) = true -> ~ (mo G y < mo G z /\ mo G z < mo G x);
  c_rf_init : forall x, x < size G -> rmw (lab G x) = true -> rf G x = None -> forall z, z < size G -> on_flag (lab G z) = true -> ~ mo G z < mo G x;
  c_from : forall x, x < size G -> is_deq (lab G x) = true -> from G x < size G /\ is_enq (lab G (from G x)) = true;
  c_from_once : forall x y, x < size G -> y < size G -> is_deq (lab G x) = true -> is_deq (lab G y) = true -> from G x = from G y -> x = y;
  c_by : forall x i, x < size G -> lab G x = AResume i -> by_ G x < size G /\ is_deq (lab G (by_ G x)) = true /\ lab G (from G (by_ G x)) = AEnq i;
  c_by_once : forall x y, x < size G -> y < size G -> is_res (lab G x) = true -> is_res (lab G y) = true -> by_ G x = by_ G y -> x = y;
  (* happens-before has no cycle, and the modification order agrees with it *)
  c_acyclic : forall x, ~ happens_before G x x;
  c_coherent : forall x y, on_flag (lab G x) = true -> on_flag (lab G y) = true -> happens_before G x y -> mo G x < mo G y }.

(** the same event, as an operation of the history of an interleaving (Weak/Mutex.v) and as a step of the model *)
Definition memop (G : execution) (x : nat) : op :=
  match lab G x with
  | AAcquire i | ATry i | AAgain i => Tas i
  | AEnq i => Enq i | AResume i => Resumed i | AData i => Data i | AUnlock i => Unlock i | ANone i => NoDeq i | APutBack i => PutBack i
  | ADeq i => Deq i (actor (lab G (from G x)))
  end.
Definition same (a : act) (e : cevent) : Prop :=
  match a, e with
  | AAcquire i, Mx (EAcquire j) | ATry i, Mx (ETry j) | AEnq i, Mx (EEnqueue j) | AResume i, Mx (EResume j) | AData i, Access j
  | AUnlock i, Mx (EClear j) | AAgain i, Mx (ERelTAS j) | ADeq i, Mx (ERelDeq j _) | ANone i, Mx (ERelNone j) | APutBack i, Mx (ERelClear j) => i = j
  | _, _ => False
  end.

(** ** proof *)
Lemma before_app : forall a x b y c, before (a ++ x :: b ++ y :: c) x y = true.
Proof.
  induction a as [|z a IH]; intros x b y c; cbn.
  - rewrite Nat.eqb_refl. apply existsb_exists. exists y. split; [apply in_or_app; right; now left|apply Nat.eqb_refl].
  - destruct (z =? x); [|apply IH]. apply existsb_exists. exists y. split; [|apply Nat.eqb_refl]. apply in_or_app. right. right. apply in_or_app. right. now left.
Qed.
Lemma lrun_app G : forall l1 p l2, lrun G p (l1 ++ l2) = match lrun G p l1 with Some q => lrun G q l2 | None => None end.
Proof. induction l1 as [|x l1 IH]; intros p l2; cbn; auto. destruct (lstep p (lab G x) (val G x)); auto. Qed.
Lemma take_nth_mid {A} (l1 : list A) x l2 : take_nth (length l1) (l1 ++ x :: l2) = Some (x, l1 ++ l2).
Proof. induction l1 as [|y l1 IH]; cbn; auto. now rewrite IH. Qed.

Section Sim.
  Variable G : execution.
  Hypothesis C : consistent G.
  Notation L := (lab G).
  Variable ord : list nat.
  Hypothesis Hperm : Permutation (seq 0 (size G)) ord.
  Hypothesis Hord : forall a x b, ord = a ++ x :: b -> forall y, y < size G -> edge G y x = true \/ (on_flag (L y) = true /\ on_flag (L x) = true /\ mo G y < mo G x) -> In y a.

  Lemma ord_in x : In x ord <-> x < size G.
  Proof. split; intros H; [apply (Permutation_in _ (Permutation_sym Hperm)), in_seq in H; lia|apply (Permutation_in _ Hperm), in_seq; lia]. Qed.
  Lemma ord_NoDup : NoDup ord.
  Proof. eapply Permutation_NoDup; [exact Hperm|apply seq_NoDup]. Qed.

  Definition mine (i : nat) (p : list nat) : list nat := filter (fun x => actor (L x) =? i) p.
  Definition taken (p : list nat) (e : nat) : bool := existsb (fun d => is_deq (L d) && (from G d =? e)) p.
  Definition flagval (p : list nat) : bool := fold_left (fun b x => if rmw (L x) then true else if store (L x) then false else b) p false.
  Record Sim (p : list nat) (s : state) (loc : nat -> pc) (cur : nat -> option nat) (Q : list nat) : Prop := {
    s_flag : flag s = flagval p;
    s_po : forall i, exists rest, po G i = mine i p ++ rest;
    s_loc : forall i, lrun G Idle (mine i p) = Some (loc i);
    s_cur : forall i e, cur i = Some e -> In e p /\ L e = AEnq i /\ loc i = Waiting;
    s_last : forall i e a b, cur i = Some e -> p = a ++ e :: b -> forall z, In z b -> actor (L z) <> i;
    s_wait : forall i, loc i = Waiting -> cur i <> None;
    s_enq : forall e i, In e p -> L e = AEnq i -> cur i = Some e \/ exists x, In x p /\ L x = AResume i /\ from G (by_ G x) = e;
    s_at : forall i, at_ s i = match cur i with Some e => if taken p e then Woken else Waiting | None => loc i end;
    s_waitings : waitings s = map (fun e => actor (L e)) Q;
    s_qn : NoDup Q;
    s_q : forall e, In e Q <-> In e p /\ is_enq (L e) = true /\ taken p e = false }.

  Lemma mine_snoc i p x : mine i (p ++ [x]) = mine i p ++ (if actor (L x) =? i then [x] else []).
  Proof. unfold mine. rewrite filter_app. cbn. destruct (_ =? _); reflexivity. Qed.
  Lemma taken_snoc p x e : taken (p ++ [x]) e = taken p e || (is_deq (L x) && (from G x =? e)).
  Proof. unfold taken. rewrite existsb_app. cbn. now rewrite orb_false_r. Qed.
  Lemma flagval_snoc p x : flagval (p ++ [x]) = if rmw (L x) then true else if store (L x) then false else flagval p.
  Proof. unfold flagval. now rewrite fold_left_app. Qed.

  (** the next event of a coroutine is the one its code comes to *)
  Lemma next_local p x q s loc cur Q : ord = p ++ x :: q -> Sim p s loc cur Q ->
    exists pc', lstep (loc (actor (L x))) (L x) (val G x) = Some pc' /\ exists rest, po G (actor (L x)) = mine (actor (L x)) p ++ x :: rest.
  Proof.
    intros Ho HS. set (i := actor (L x)). destruct (s_po _ _ _ _ _ HS i) as (rest & Hp).
    assert (Hx : x < size G) by (apply ord_in; rewrite Ho; apply in_elt).
    assert (Nx : ~ In x p) by (pose proof ord_NoDup as N; rewrite Ho in N; apply NoDup_remove_2 in N; intros X; apply N, in_or_app; now left).
    assert (Ix : In x (po G i)) by (apply (c_po _ C); auto). rewrite Hp in Ix. apply in_app_or in Ix.
    destruct Ix as [Ix|Ix]; [apply filter_In in Ix; destruct Ix; contradiction|].
    destruct (in_split _ _ Ix) as (r1 & r2 & ->). destruct r1 as [|y r1].
    - pose proof (c_prog _ C i) as Pr. rewrite Hp, lrun_app, (s_loc _ _ _ _ _ HS i) in Pr. cbn in Pr. destruct (lstep (loc i) (L x) (val G x)) as [pc'|]; [|congruence]. exists pc'. split; auto. exists r2. exact Hp.
    - exfalso. assert (Iy : In y (po G i)) by (rewrite Hp; apply in_or_app; right; now left). apply (c_po _ C) in Iy. destruct Iy as [Hy Ay].
      assert (Yp : In y p).
      { apply (Hord p x q Ho y Hy). left. unfold edge. apply Nat.ltb_lt in Hx, Hy. rewrite Hx, Hy. cbn. replace (actor (L x)) with i by reflexivity. rewrite Hp. cbn [app]. rewrite before_app. reflexivity. }
      assert (Ym : In y (mine i p)) by (apply filter_In; split; auto; apply Nat.eqb_eq; exact Ay).
      pose proof (c_once _ C i) as N. rewrite Hp in N. cbn [app] in N. apply NoDup_remove_2 in N. apply N, in_or_app. now left.
  Qed.

  (** what test_and_set returns is the flag *)
  Lemma flagval_none p b : (forall z, In z p -> on_flag (L z) = false) -> fold_left (fun b x => if rmw (L x) then true else if store (L x) then false else b) p b = b.
  Proof. revert b. induction p as [|z p IH]; intros b H; cbn; auto. assert (F : on_flag (L z) = false) by (apply H; now left). unfold on_flag in F. apply orb_false_iff in F. destruct F as [-> ->]. apply IH. intros y Hy. apply H. now right. Qed.
  Lemma val_flag p x q : ord = p ++ x :: q -> rmw (L x) = true -> val G x = flagval p.
  Proof.
    intros Ho Hr. assert (Hx : x < size G) by (apply ord_in; rewrite Ho; apply in_elt).
    assert (Fx : on_flag (L x) = true) by (unfold on_flag; now rewrite Hr).
    assert (Nx : ~ In x p) by (pose proof ord_NoDup as N; rewrite Ho in N; apply NoDup_remove_2 in N; intros X; apply N, in_or_app; now left).
    assert (In_p : forall z, In z p -> z < size G) by (intros z Hz; apply ord_in; rewrite Ho; apply in_or_app; now left).
    (* operations on the flag in [p] come earlier in the modification order *)
    assert (Lt : forall z, In z p -> on_flag (L z) = true -> mo G z < mo G x).
    { intros z Hz Fz. destruct (Nat.lt_trichotomy (mo G z) (mo G x)) as [H|[H|H]]; auto; exfalso.
      - apply Nx. rewrite <- (c_mo _ C z x); auto.
      - destruct (in_split _ _ Hz) as (p1 & p2 & ->). apply Nx. assert (In x p1) as X; [|apply in_or_app; now left].
        apply (Hord p1 z (p2 ++ x :: q)); auto. rewrite Ho, <- app_assoc. reflexivity. }
    unfold val. destruct (rf G x) as [y|] eqn:Er.
    - destruct (c_rf _ C x y Hx Hr Er) as (Hy & Fy & My & Im).
      assert (Yp : In y p) by (apply (Hord p x q Ho y Hy); auto).
      destruct (in_split _ _ Yp) as (p1 & p2 & Ep). subst p. unfold flagval. rewrite fold_left_app. cbn.
      rewrite flagval_none.
      + destruct (rmw (L y)) eqn:Ry; auto. unfold on_flag in Fy. rewrite Ry in Fy. cbn in Fy. now rewrite Fy.
      + intros z Hz. destruct (on_flag (L z)) eqn:Fz; auto. exfalso. assert (Zp : In z (p1 ++ y :: p2)) by (apply in_or_app; right; now right). apply (Im z (In_p z Zp) Fz). split; [|now apply Lt].
        destruct (Nat.lt_trichotomy (mo G y) (mo G z)) as [H|[H|H]]; auto; exfalso.
        * assert (y = z) by (apply (c_mo _ C); auto). subst z. pose proof ord_NoDup as N. rewrite Ho, <- app_assoc in N. apply NoDup_remove_2 in N. apply N. apply in_or_app. right. apply in_or_app. now left.
        * assert (In z p1) as X by (apply (Hord p1 y (p2 ++ x :: q)); auto; rewrite Ho, <- app_assoc; reflexivity).
          pose proof ord_NoDup as N. rewrite Ho, <- app_assoc in N. destruct (in_split _ _ X) as (u & v & ->). rewrite <- app_assoc in N. apply NoDup_remove_2 in N. apply N. apply in_or_app. right. apply in_or_app. right. right. apply in_or_app. now left.
    - unfold flagval. rewrite flagval_none; auto. intros z Hz. destruct (on_flag (L z)) eqn:Fz; auto. exfalso. eapply (c_rf_init _ C x Hx Hr Er z); auto.
  Qed.

  (** what has an edge to an event that is there, is there *)
  Lemma Ein p x q : ord = p ++ x :: q -> forall z y, In z (p ++ [x]) -> y < size G -> edge G y z = true -> In y p.
  Proof.
    intros Ho z y Hz Hy He. apply in_app_or in Hz. destruct Hz as [Hz|[<-|[]]]; [|apply (Hord p x q Ho y Hy); now left].
    destruct (in_split _ _ Hz) as (p1 & p2 & ->). apply in_or_app. left. apply (Hord p1 z (p2 ++ x :: q)); auto. rewrite Ho, <- app_assoc. reflexivity.
  Qed.
  Lemma Efrom z : z < size G -> is_deq (L z) = true -> edge G (from G z) z = true.
  Proof. intros Hz Dz. destruct (c_from _ C z Hz Dz) as [A1 _]. unfold edge. apply Nat.ltb_lt in Hz, A1. rewrite Hz, A1, Dz, Nat.eqb_refl. cbn. now rewrite orb_true_r. Qed.
  Lemma Eby z j : z < size G -> L z = AResume j -> edge G (by_ G z) z = true.
  Proof. intros Hz Dz. destruct (c_by _ C z j Hz Dz) as [A1 _]. unfold edge. apply Nat.ltb_lt in Hz, A1. rewrite Hz, A1, Dz, Nat.eqb_refl. cbn. now rewrite orb_true_r. Qed.
  Lemma not_there p x q : ord = p ++ x :: q -> x < size G /\ ~ In x p /\ forall z, In z p -> z < size G.
  Proof.
    intros Ho. split; [apply ord_in; rewrite Ho; apply in_elt|]. split; [|intros z Hz; apply ord_in; rewrite Ho; apply in_or_app; now left].
    pose proof ord_NoDup as N. rewrite Ho in N. apply NoDup_remove_2 in N. intros X. apply N, in_or_app. now left.
  Qed.
  (** a handle is taken while its coroutine waits, and a resumption follows the taking of the coroutine's last handle *)
  Lemma cur_deq p x q s loc cur Q i : ord = p ++ x :: q -> Sim p s loc cur Q -> L x = ADeq i -> exists w, L (from G x) = AEnq w /\ cur w = Some (from G x) /\ In (from G x) p.
  Proof.
    intros Ho HS Lx. destruct (not_there p x q Ho) as (Hx & Nx & In_p). assert (Dx : is_deq (L x) = true) by now rewrite Lx.
    destruct (c_from _ C x Hx Dx) as [B1 B2]. set (e := from G x) in *. destruct (L e) as [| |w| | | | | | |] eqn:Le; try discriminate. exists w. split; auto.
    assert (Ep : In e p) by (apply (Ein p x q Ho x); [apply in_or_app; right; now left|exact B1|exact (Efrom x Hx Dx)]). split; auto.
    destruct (s_enq _ _ _ _ _ HS e w Ep Le) as [X|(y & X1 & X2 & X3)]; auto. exfalso. apply Nx. pose proof (In_p y X1) as Hy. destruct (c_by _ C y w Hy X2) as (Y1 & Y2 & Y3).
    rewrite <- (c_from_once _ C (by_ G y) x); auto. apply (Ein p x q Ho y); [apply in_or_app; now left|exact Y1|exact (Eby y w Hy X2)].
  Qed.
  Lemma cur_res p x q s loc cur Q i : ord = p ++ x :: q -> Sim p s loc cur Q -> L x = AResume i -> cur i = Some (from G (by_ G x)) /\ In (by_ G x) p.
  Proof.
    intros Ho HS Lx. destruct (not_there p x q Ho) as (Hx & Nx & In_p). destruct (c_by _ C x i Hx Lx) as (B1 & B2 & B3). set (d := by_ G x) in *.
    assert (Dp : In d p) by (apply (Ein p x q Ho x); [apply in_or_app; right; now left|exact B1|exact (Eby x i Hx Lx)]). split; auto.
    assert (Fp : In (from G d) p) by (apply (Ein p x q Ho d); [apply in_or_app; now left|now apply (c_from _ C)|now apply Efrom]).
    destruct (s_enq _ _ _ _ _ HS (from G d) i Fp B3) as [X|(y & X1 & X2 & X3)]; auto. exfalso. apply Nx. pose proof (In_p y X1) as Hy. destruct (c_by _ C y i Hy X2) as (Y1 & Y2 & Y3).
    assert (E : by_ G y = by_ G x) by (apply (c_from_once _ C); auto). rewrite <- (c_by_once _ C y x); auto; [now rewrite X2|now rewrite Lx].
  Qed.
  Lemma snoc_split (p : list nat) x a e b : p ++ [x] = a ++ e :: b -> (b = [] /\ e = x /\ a = p) \/ exists b', b = b' ++ [x] /\ p = a ++ e :: b'.
  Proof.
    destruct (rev b) as [|y r] eqn:Eb.
    - apply (f_equal (@rev nat)) in Eb. rewrite rev_involutive in Eb. cbn in Eb. subst b. intros H. apply app_inj_tail in H. left. destruct H; auto.
    - apply (f_equal (@rev nat)) in Eb. rewrite rev_involutive in Eb. cbn in Eb. subst b. intros H. right. exists (rev r). rewrite app_comm_cons, app_assoc in H. apply app_inj_tail in H. destruct H as [H ->]. auto.
  Qed.

  (** an event that has nothing to do with the queue *)
  Lemma quiet p x q s loc cur Q s' pc' : ord = p ++ x :: q -> Sim p s loc cur Q ->
    lstep (loc (actor (L x))) (L x) (val G x) = Some pc' -> (exists rest, po G (actor (L x)) = mine (actor (L x)) p ++ x :: rest) ->
    loc (actor (L x)) <> Waiting -> pc' <> Waiting -> is_deq (L x) = false -> is_enq (L x) = false ->
    flag s' = flagval (p ++ [x]) -> waitings s' = waitings s -> (forall j, at_ s' j = upd (at_ s) (actor (L x)) pc' j) ->
    Sim (p ++ [x]) s' (upd loc (actor (L x)) pc') cur Q.
  Proof.
    intros Ho HS Hl (rest & Hp) W1 W2 D E F Wq A. set (i := actor (L x)) in *.
    assert (Ci : cur i = None) by (destruct (cur i) eqn:X; auto; apply (s_cur _ _ _ _ _ HS) in X; destruct X as (_ & _ & X); contradiction).
    assert (T : forall e, taken (p ++ [x]) e = taken p e) by (intros e; rewrite taken_snoc, D; cbn; apply orb_false_r).
    split.
    - exact F.
    - intros j. rewrite mine_snoc. fold i. destruct (Nat.eqb_spec i j) as [<-|N]; [exists rest; now rewrite <- app_assoc|rewrite app_nil_r; apply (s_po _ _ _ _ _ HS)].
    - intros j. rewrite mine_snoc, lrun_app, (s_loc _ _ _ _ _ HS j). fold i. unfold upd. rewrite (Nat.eqb_sym j i). destruct (Nat.eqb_spec i j) as [<-|N]; [|reflexivity]. cbn. now rewrite Hl.
    - intros j e Hc. destruct (s_cur _ _ _ _ _ HS j e Hc) as (A1 & A2 & A3). split; [apply in_or_app; now left|]. split; auto. rewrite upd_other; auto. intros ->. congruence.
    - intros j e a b Hc Hs z Hz. apply snoc_split in Hs. destruct Hs as [[-> _]|(b' & -> & Hs)]; [destruct Hz|]. apply in_app_or in Hz. destruct Hz as [Hz|[<-|[]]]; [exact (s_last _ _ _ _ _ HS j e a b' Hc Hs z Hz)|]. fold i. congruence.
    - intros j. unfold upd. destruct (Nat.eqb_spec j i); [congruence|apply (s_wait _ _ _ _ _ HS)].
    - intros e j He Le. apply in_app_or in He. destruct He as [He|[->|[]]]; [|rewrite Le in E; discriminate]. destruct (s_enq _ _ _ _ _ HS e j He Le) as [X|(y & X1 & X2)]; [now left|right; exists y; split; [apply in_or_app; now left|exact X2]].
    - intros j. rewrite A. unfold upd. destruct (Nat.eqb_spec j i) as [->|N]; [now rewrite Ci|]. rewrite (s_at _ _ _ _ _ HS j). destruct (cur j); auto. now rewrite T.
    - rewrite Wq. apply (s_waitings _ _ _ _ _ HS).
    - apply (s_qn _ _ _ _ _ HS).
    - intros e. rewrite T, in_app_iff, (s_q _ _ _ _ _ HS e). split; [intros (A1 & A2); auto|]. intros ([A1|[->|[]]] & A2 & A3); auto. congruence.
  Qed.

  Lemma sim_step p x q s loc cur Q : ord = p ++ x :: q -> Sim p s loc cur Q ->
    exists e s' loc' cur' Q', cstep s e = Some s' /\ same (L x) e /\ ops s e s' = [memop G x] /\ (rmw (L x) = true -> flag s = val G x) /\ Sim (p ++ [x]) s' loc' cur' Q'.
  Proof.
    intros Ho HS. destruct (next_local p x q s loc cur Q Ho HS) as (pc' & Hl & Hp).
    assert (Hx : x < size G) by (apply ord_in; rewrite Ho; apply in_elt).
    assert (Nx : ~ In x p) by (pose proof ord_NoDup as N; rewrite Ho in N; apply NoDup_remove_2 in N; intros X; apply N, in_or_app; now left).
    assert (In_p : forall z, In z p -> z < size G) by (intros z Hz; apply ord_in; rewrite Ho; apply in_or_app; now left).
    assert (Vf : rmw (L x) = true -> flag s = val G x) by (intros R; rewrite (s_flag _ _ _ _ _ HS); symmetry; now apply (val_flag p x q)).
    pose proof (flagval_snoc p x) as Fv.
    assert (At : forall i, loc i <> Waiting -> at_ s i = loc i) by (intros i N; rewrite (s_at _ _ _ _ _ HS i); destruct (cur i) eqn:X; auto; apply (s_cur _ _ _ _ _ HS) in X; destruct X as (_ & _ & X); contradiction).
    pose proof (s_flag _ _ _ _ _ HS) as Sf.
    assert (Qt := fun s' => quiet p x q s loc cur Q s' pc' Ho HS Hl Hp).
    destruct (L x) as [i|i|i|i|i|i|i|i|i|i] eqn:Lx; cbn [actor rmw store] in *; pose proof (At i) as Ai; destruct (loc i) eqn:Li; try discriminate; cbn [lstep] in Hl; injection Hl as <-; unfold memop; rewrite Lx.
    - (* AAcquire *) specialize (Ai ltac:(discriminate)). specialize (Vf eq_refl). exists (Mx (EAcquire i)). cbn. rewrite Ai. do 4 eexists. split; [reflexivity|]. split; [reflexivity|]. split; [reflexivity|]. split; [auto|].
      apply Qt; auto; try discriminate; [destruct (val G x); discriminate|intros j; cbn; rewrite Vf; now destruct (val G x)].
    - (* ATry *) specialize (Ai ltac:(discriminate)). specialize (Vf eq_refl). exists (Mx (ETry i)). cbn. rewrite Ai. do 4 eexists. split; [reflexivity|]. split; [reflexivity|]. split; [reflexivity|]. split; [auto|].
      apply Qt; auto; try discriminate; [destruct (val G x); discriminate|intros j; cbn; rewrite Vf; now destruct (val G x)].
    - (* AEnq *) specialize (Ai ltac:(discriminate)). exists (Mx (EEnqueue i)). cbn. rewrite Ai. eexists. exists (upd loc i Waiting), (upd cur i (Some x)), (Q ++ [x]). split; [reflexivity|]. split; [reflexivity|]. split; [reflexivity|]. split; [discriminate|].
      assert (T : forall e, taken (p ++ [x]) e = taken p e) by (intros e; rewrite taken_snoc, Lx; cbn; apply orb_false_r).
      assert (Tx : taken p x = false).
      { destruct (taken p x) eqn:X; auto. apply existsb_exists in X. destruct X as (d & Hd & X). apply andb_true_iff in X. destruct X as [X1 X2]. apply Nat.eqb_eq in X2. exfalso. apply Nx. rewrite <- X2. apply (Ein p x q Ho d); [apply in_or_app; now left| |]; [now rewrite X2|apply Efrom; auto]. }
      destruct Hp as (rest & Hp). split; cbn.
      + rewrite Fv. exact Sf.
      + intros j. rewrite mine_snoc, Lx. cbn. destruct (Nat.eqb_spec i j) as [<-|N]; [exists rest; now rewrite <- app_assoc|rewrite app_nil_r; apply (s_po _ _ _ _ _ HS)].
      + intros j. rewrite mine_snoc, lrun_app, (s_loc _ _ _ _ _ HS j), Lx. cbn. unfold upd. rewrite (Nat.eqb_sym j i). destruct (Nat.eqb_spec i j) as [<-|N]; [|reflexivity]. cbn. now rewrite Li, Lx.
      + intros j e. unfold upd. destruct (Nat.eqb_spec j i) as [->|N].
        * intros [= <-]. split; [apply in_or_app; right; now left|]. auto.
        * intros Hc. destruct (s_cur _ _ _ _ _ HS j e Hc) as (A1 & A2 & A3). split; [apply in_or_app; now left|]. auto.
      + intros j e a b. unfold upd. destruct (Nat.eqb_spec j i) as [->|N]; intros Hc Hs z Hz; apply snoc_split in Hs; (destruct Hs as [[-> _]|(b' & -> & Hs)]; [destruct Hz|]).
        * injection Hc as <-. exfalso. apply Nx. rewrite Hs. apply in_elt.
        * apply in_app_or in Hz. destruct Hz as [Hz|[<-|[]]]; [exact (s_last _ _ _ _ _ HS j e a b' Hc Hs z Hz)|]. rewrite Lx. cbn. congruence.
      + intros j. unfold upd. destruct (Nat.eqb_spec j i); [discriminate|apply (s_wait _ _ _ _ _ HS)].
      + intros e j He Le. apply in_app_or in He. destruct He as [He|[<-|[]]].
        * destruct (s_enq _ _ _ _ _ HS e j He Le) as [X|(y & X1 & X2)]; [|right; exists y; split; [apply in_or_app; now left|exact X2]].
          left. rewrite upd_other; auto. intros ->. apply (s_cur _ _ _ _ _ HS) in X. destruct X as (_ & _ & X). congruence.
        * rewrite Lx in Le. injection Le as <-. left. apply upd_same.
      + intros j. unfold upd. destruct (Nat.eqb_spec j i) as [->|N]; [now rewrite T, Tx|]. rewrite (s_at _ _ _ _ _ HS j). destruct (cur j); auto. now rewrite T.
      + rewrite map_app, (s_waitings _ _ _ _ _ HS). cbn. now rewrite Lx.
      + apply NoDup_snoc; [apply (s_qn _ _ _ _ _ HS)|]. intros X. apply (s_q _ _ _ _ _ HS) in X. destruct X. contradiction.
      + intros e. rewrite T, !in_app_iff, (s_q _ _ _ _ _ HS e). split.
        * intros [(A1 & A2)|[<-|[]]]; [auto|]. rewrite Lx. repeat split; auto. right. now left.
        * intros ([A1|[->|[]]] & A2); auto. right. now left.
    - (* AResume *) destruct (c_by _ C x i Hx Lx) as (B1 & B2 & B3). set (d := by_ G x) in *.
      destruct (cur_res p x q s loc cur Q i Ho HS Lx) as [Ci Dp]. fold d in Ci, Dp.
      assert (Tk : taken p (from G d) = true) by (apply existsb_exists; exists d; split; auto; rewrite B2, Nat.eqb_refl; reflexivity).
      assert (Wk : at_ s i = Woken) by (now rewrite (s_at _ _ _ _ _ HS i), Ci, Tk).
      exists (Mx (EResume i)). cbn. rewrite Wk. eexists. exists (upd loc i Owner), (upd cur i None), Q. split; [reflexivity|]. split; [reflexivity|]. split; [reflexivity|]. split; [discriminate|].
      assert (T : forall e, taken (p ++ [x]) e = taken p e) by (intros e; rewrite taken_snoc, Lx; cbn; apply orb_false_r).
      destruct Hp as (rest & Hp). split; cbn.
      + rewrite Fv. exact Sf.
      + intros j. rewrite mine_snoc, Lx. cbn. destruct (Nat.eqb_spec i j) as [<-|N]; [exists rest; now rewrite <- app_assoc|rewrite app_nil_r; apply (s_po _ _ _ _ _ HS)].
      + intros j. rewrite mine_snoc, lrun_app, (s_loc _ _ _ _ _ HS j), Lx. cbn. unfold upd. rewrite (Nat.eqb_sym j i). destruct (Nat.eqb_spec i j) as [<-|N]; [|reflexivity]. cbn. now rewrite Li, Lx.
      + intros j e. unfold upd. destruct (Nat.eqb_spec j i) as [->|N]; [discriminate|].
        intros Hc. destruct (s_cur _ _ _ _ _ HS j e Hc) as (A1 & A2 & A3). split; [apply in_or_app; now left|]. auto.
      + intros j e a b. unfold upd. destruct (Nat.eqb_spec j i) as [->|N]; [discriminate|]. intros Hc Hs z Hz. apply snoc_split in Hs. destruct Hs as [[-> _]|(b' & -> & Hs)]; [destruct Hz|]. apply in_app_or in Hz. destruct Hz as [Hz|[<-|[]]]; [exact (s_last _ _ _ _ _ HS j e a b' Hc Hs z Hz)|]. rewrite Lx. cbn. congruence.
      + intros j. unfold upd. destruct (Nat.eqb_spec j i); [discriminate|apply (s_wait _ _ _ _ _ HS)].
      + intros e j He Le. apply in_app_or in He. destruct He as [He|[<-|[]]]; [|congruence].
        destruct (s_enq _ _ _ _ _ HS e j He Le) as [X|(y & X1 & X2)]; [|right; exists y; split; [apply in_or_app; now left|exact X2]].
        destruct (Nat.eq_dec j i) as [->|N]; [|left; now rewrite upd_other]. right. exists x. split; [apply in_or_app; right; now left|]. split; auto. fold d. congruence.
      + intros j. unfold upd. destruct (Nat.eqb_spec j i) as [->|N]; [reflexivity|]. rewrite (s_at _ _ _ _ _ HS j). destruct (cur j); auto. now rewrite T.
      + apply (s_waitings _ _ _ _ _ HS).
      + apply (s_qn _ _ _ _ _ HS).
      + intros e. rewrite T, in_app_iff, (s_q _ _ _ _ _ HS e). split; [intros (A1 & A2); auto|]. intros ([A1|[<-|[]]] & A2 & A3); auto. rewrite Lx in A2. discriminate.
    - (* AData *) specialize (Ai ltac:(discriminate)). exists (Access i). cbn. rewrite Ai. do 4 eexists. split; [reflexivity|]. split; [reflexivity|]. split; [reflexivity|]. split; [discriminate|].
      apply Qt; auto; try discriminate; [congruence|]. intros j. unfold upd. destruct (Nat.eqb_spec j i); congruence.
    - (* AUnlock *) specialize (Ai ltac:(discriminate)). exists (Mx (EClear i)). cbn. rewrite Ai. do 4 eexists. split; [reflexivity|]. split; [reflexivity|]. split; [reflexivity|]. split; [discriminate|].
      apply Qt; auto; discriminate.
    - (* AAgain *) specialize (Ai ltac:(discriminate)). specialize (Vf eq_refl). exists (Mx (ERelTAS i)). cbn. rewrite Ai. do 4 eexists. split; [reflexivity|]. split; [reflexivity|]. split; [reflexivity|]. split; [auto|].
      apply Qt; auto; try discriminate; [destruct (val G x); discriminate|intros j; cbn; rewrite Vf; now destruct (val G x)].
    - (* ADeq *) specialize (Ai ltac:(discriminate)). assert (Dx : is_deq (L x) = true) by now rewrite Lx.
      destruct (cur_deq p x q s loc cur Q i Ho HS Lx) as (w & Le & Cw & Ep). set (e := from G x) in *.
      assert (Te : taken p e = false).
      { destruct (taken p e) eqn:X; auto. apply existsb_exists in X. destruct X as (d & Hd & X). apply andb_true_iff in X. destruct X as [X1 X2]. apply Nat.eqb_eq in X2. exfalso. apply Nx. rewrite <- (c_from_once _ C d x); auto. }
      assert (Lw : loc w = Waiting) by (apply (s_cur _ _ _ _ _ HS) in Cw; apply Cw).
      assert (Nw : w <> i) by congruence.
      assert (Qe : In e Q) by (apply (s_q _ _ _ _ _ HS); rewrite Le; auto).
      destruct (in_split _ _ Qe) as (Q1 & Q2 & EQ).
      assert (Tn : take_nth (length Q1) (waitings s) = Some (w, map (fun e => actor (L e)) (Q1 ++ Q2))).
      { rewrite (s_waitings _ _ _ _ _ HS), EQ, !map_app. cbn. rewrite Le. cbn. rewrite <- (map_length (fun e => actor (L e)) Q1) at 1. apply take_nth_mid. }
      exists (Mx (ERelDeq i (length Q1))). cbn [cstep step same ops]. rewrite Ai, Tn. eexists. exists (upd loc i Idle), cur, (Q1 ++ Q2). split; [reflexivity|]. split; [reflexivity|]. split; [now rewrite Le|]. split; [discriminate|].
      assert (T : forall e', taken (p ++ [x]) e' = taken p e' || (e =? e')) by (intros e'; rewrite taken_snoc, Dx; reflexivity).
      assert (Ci : cur i = None) by (destruct (cur i) eqn:X; auto; apply (s_cur _ _ _ _ _ HS) in X; destruct X as (_ & _ & X); congruence).
      pose proof (s_qn _ _ _ _ _ HS) as QN. rewrite EQ in QN. apply NoDup_remove in QN. destruct QN as [QN1 QN2].
      destruct Hp as (rest & Hp). split; cbn.
      + rewrite Fv. exact Sf.
      + intros j. rewrite mine_snoc, Lx. cbn. destruct (Nat.eqb_spec i j) as [<-|N]; [exists rest; now rewrite <- app_assoc|rewrite app_nil_r; apply (s_po _ _ _ _ _ HS)].
      + intros j. rewrite mine_snoc, lrun_app, (s_loc _ _ _ _ _ HS j), Lx. cbn. unfold upd. rewrite (Nat.eqb_sym j i). destruct (Nat.eqb_spec i j) as [<-|N]; [|reflexivity]. cbn. now rewrite Li, Lx.
      + intros j e' Hc. destruct (s_cur _ _ _ _ _ HS j e' Hc) as (A1 & A2 & A3). split; [apply in_or_app; now left|]. split; auto. rewrite upd_other; auto. congruence.
      + intros j e' a b Hc Hs z Hz. apply snoc_split in Hs. destruct Hs as [[-> _]|(b' & -> & Hs)]; [destruct Hz|]. apply in_app_or in Hz. destruct Hz as [Hz|[<-|[]]]; [exact (s_last _ _ _ _ _ HS j e' a b' Hc Hs z Hz)|]. rewrite Lx. cbn. congruence.
      + intros j. unfold upd. destruct (Nat.eqb_spec j i); [discriminate|apply (s_wait _ _ _ _ _ HS)].
      + intros e' j He Le'. apply in_app_or in He. destruct He as [He|[<-|[]]]; [|congruence].
        destruct (s_enq _ _ _ _ _ HS e' j He Le') as [X|(y & X1 & X2)]; [now left|right; exists y; split; [apply in_or_app; now left|exact X2]].
      + intros j. unfold upd. destruct (Nat.eqb_spec j i) as [->|N]; [now rewrite Ci|]. destruct (Nat.eqb_spec j w) as [->|N'].
        * now rewrite Cw, T, Nat.eqb_refl, orb_true_r.
        * rewrite (s_at _ _ _ _ _ HS j). destruct (cur j) as [e'|] eqn:Cj; auto. rewrite T. destruct (Nat.eqb_spec e e') as [<-|]; [|now rewrite orb_false_r]. apply (s_cur _ _ _ _ _ HS) in Cj. destruct Cj as (_ & Cj & _). congruence.
      + reflexivity.
      + exact QN1.
      + intros e'. rewrite T, orb_false_iff, Nat.eqb_neq, !in_app_iff. pose proof (s_q _ _ _ _ _ HS e') as Sq. rewrite EQ, in_app_iff in Sq. split.
        * intros A. assert (X : In e' p /\ is_enq (L e') = true /\ taken p e' = false) by (apply Sq; destruct A; [now left|right; now right]). destruct X as (X1 & X2 & X3). split; [now left|]. split; [exact X2|]. split; [exact X3|]. intros <-. apply QN2, in_or_app. exact A.
        * intros ([A1|[<-|[]]] & A2 & A3 & A4); [|rewrite Lx in A2; discriminate]. destruct (proj2 Sq (conj A1 (conj A2 A3))) as [X|[X|X]]; auto. contradiction.
    - (* ANone *) specialize (Ai ltac:(discriminate)). exists (Mx (ERelNone i)). cbn. rewrite Ai. do 4 eexists. split; [reflexivity|]. split; [reflexivity|]. split; [reflexivity|]. split; [discriminate|].
      apply Qt; auto; try discriminate. cbn. congruence.
    - (* APutBack *) specialize (Ai ltac:(discriminate)). exists (Mx (ERelClear i)). cbn. rewrite Ai. do 4 eexists. split; [reflexivity|]. split; [reflexivity|]. split; [reflexivity|]. split; [discriminate|].
      apply Qt; auto; discriminate.
  Qed.
  Lemma sim_init : Sim [] init (fun _ => Idle) (fun _ => None) [].
  Proof. split; cbn; auto; try discriminate; try (intros; contradiction); [intros i; now exists (po G i)|constructor|]. intros e. split; [intros []|intros [[] _]]. Qed.
  Lemma sim_all : forall p q, ord = p ++ q -> exists l s loc cur Q, run cstep init l = Some s /\ Forall2 (fun x e => same (L x) e) p l /\ history l = map (memop G) p /\
    (forall a x b, p = a ++ x :: b -> rmw (L x) = true -> exists s1, run cstep init (firstn (length a) l) = Some s1 /\ flag s1 = val G x) /\ Sim p s loc cur Q.
  Proof.
    induction p as [|x p IH] using rev_ind; intros q Ho.
    - exists [], init, (fun _ => Idle), (fun _ => None), []. split; [reflexivity|]. split; [constructor|]. split; [reflexivity|]. split; [|exact sim_init]. intros a x b H. destruct a; discriminate.
    - rewrite <- app_assoc in Ho. destruct (IH _ Ho) as (l & s & loc & cur & Q & R & F & H & V & S). destruct (sim_step p x q s loc cur Q Ho S) as (e & s' & loc' & cur' & Q' & Hs & He & Hops & Hv & S').
      exists (l ++ [e]), s', loc', cur', Q'. assert (R' : run cstep init (l ++ [e]) = Some s') by (rewrite (run_app cstep init l [e] s R); cbn; now rewrite Hs).
      assert (Len : length p = length l) by (clear - F; induction F; cbn; auto).
      split; [exact R'|]. split; [apply Forall2_app; [exact F|constructor; [exact He|constructor]]|]. split.
      + unfold history in *. rewrite (trace_app cstep ops init l [e] s R), H, map_app. cbn. rewrite Hs, Hops. reflexivity.
      + split; [|exact S']. intros a y b Hy Ry. apply snoc_split in Hy. destruct Hy as [(-> & -> & ->)|(b' & -> & Hy)].
        * exists s. split; [|now apply Hv]. rewrite Len, firstn_app, Nat.sub_diag, firstn_all. cbn. now rewrite app_nil_r.
        * destruct (V a y b' Hy Ry) as (s1 & V1 & V2). exists s1. split; auto. rewrite firstn_app. replace (length a - length l) with 0; [cbn; now rewrite app_nil_r|]. rewrite <- Len, Hy, app_length. cbn. lia.
  Qed.

  (** the order of the history is an order of the execution *)
  Lemma prefix_sim p q : ord = p ++ q -> exists s loc cur Q, Sim p s loc cur Q.
  Proof. intros Ho. destruct (sim_all p q Ho) as (l & s & loc & cur & Q & _ & _ & _ & _ & S). eauto 6. Qed.
  Lemma nth_two m n x y : m < n -> nth_error ord m = Some x -> nth_error ord n = Some y -> exists a b c, ord = a ++ x :: b ++ y :: c /\ length a = m /\ n = length a + S (length b).
  Proof.
    intros Hmn Hm Hn. apply nth_error_split in Hm. destruct Hm as (a & r & E & La). rewrite E in Hn. rewrite nth_error_app2 in Hn by lia. destruct (n - length a) as [|k] eqn:Ek; [lia|]. cbn in Hn.
    apply nth_error_split in Hn. destruct Hn as (b & c & Er & Lb). exists a, b, c. rewrite E, Er. split; auto. split; auto. lia.
  Qed.
  Lemma po_edge a x b y c : ord = a ++ x :: b ++ y :: c -> actor (L x) = actor (L y) -> happens_before G x y.
  Proof.
    intros Ho Ha. apply path_one. destruct (prefix_sim ord [] ltac:(now rewrite app_nil_r)) as (s & loc & cur & Q & S). destruct (s_po _ _ _ _ _ S (actor (L y))) as (rest & Hp).
    assert (Hx : x < size G) by (apply ord_in; rewrite Ho; apply in_elt). assert (Hy : y < size G) by (apply ord_in; rewrite Ho; apply in_or_app; right; right; apply in_elt).
    unfold edge. apply Nat.ltb_lt in Hx, Hy. rewrite Hx, Hy, Hp, Ho. unfold mine. rewrite filter_app. cbn [filter]. rewrite Ha, Nat.eqb_refl, filter_app. cbn [filter]. rewrite Nat.eqb_refl.
    rewrite <- app_assoc. cbn [app]. rewrite <- app_assoc. cbn [app]. rewrite before_app. reflexivity.
  Qed.
  Lemma flag_lt a x b y c : ord = a ++ x :: b ++ y :: c -> on_flag (L x) = true -> on_flag (L y) = true -> mo G x < mo G y.
  Proof.
    intros Ho Fx Fy. destruct (not_there (a ++ x :: b) y c ltac:(rewrite Ho, <- app_assoc; reflexivity)) as (Hy & Ny & Hin).
    assert (Hx : x < size G) by (apply Hin; apply in_elt).
    destruct (Nat.lt_trichotomy (mo G x) (mo G y)) as [H|[H|H]]; auto; exfalso; apply Ny.
    - rewrite <- (c_mo _ C x y); auto. apply in_elt.
    - apply in_or_app. left. apply (Hord a x (b ++ y :: c) Ho y Hy). auto.
  Qed.
  Lemma flag_edge : forall k b, length b < k -> forall a x y c, ord = a ++ x :: b ++ y :: c -> on_flag (L x) = true -> rmw (L y) = true -> (forall z, In z b -> store (L z) = false) -> happens_before G x y.
  Proof.
    induction k as [|k IH]; intros b Hk a x y c Ho Fx Ry Hb; [lia|].
    assert (Fy : on_flag (L y) = true) by (unfold on_flag; now rewrite Ry). pose proof (flag_lt a x b y c Ho Fx Fy) as Lt.
    destruct (not_there (a ++ x :: b) y c ltac:(rewrite Ho, <- app_assoc; reflexivity)) as (Hy & Ny & Hin).
    assert (Hx : x < size G) by (apply Hin; apply in_elt).
    destruct (rf G y) as [z|] eqn:Er; [|exfalso; exact (c_rf_init _ C y Hy Ry Er x Hx Fx Lt)].
    destruct (c_rf _ C y z Hy Ry Er) as (Hz & Fz & Mz & Im).
    assert (Ez : edge G z y = true) by (unfold edge; apply Nat.ltb_lt in Hy, Hz; rewrite Hy, Hz, Ry, Er, Nat.eqb_refl; cbn; now rewrite orb_true_r).
    assert (Zp : In z (a ++ x :: b)) by (apply (Hord (a ++ x :: b) y c); auto; rewrite Ho, <- app_assoc; reflexivity).
    apply in_app_or in Zp. destruct Zp as [Zp|[<-|Zp]].
    - exfalso. destruct (in_split _ _ Zp) as (a1 & a2 & ->). apply (Im x Hx Fx). split; auto. apply (flag_lt a1 z a2 x (b ++ y :: c)); auto. rewrite Ho, <- app_assoc. reflexivity.
    - now apply path_one.
    - destruct (in_split _ _ Zp) as (b1 & b2 & Eb). apply (path_snoc _ x z y); auto. apply (IH b1) with (a := a) (c := b2 ++ y :: c); auto.
      + rewrite Eb, app_length in Hk. cbn in Hk. lia.
      + rewrite Ho, Eb, <- app_assoc. reflexivity.
      + unfold on_flag in Fz. rewrite (Hb z Zp), orb_false_r in Fz. exact Fz.
      + intros u Hu. apply Hb. rewrite Eb. apply in_or_app. now left.
  Qed.
  Lemma memop_who x : who (memop G x) = actor (L x).
  Proof. unfold memop. now destruct (L x). Qed.
  Lemma between_in (P : op -> Prop) a x b y c : ord = a ++ x :: b ++ y :: c -> between (map (memop G) ord) (length a) (length a + S (length b)) P -> forall z, In z b -> P (memop G z).
  Proof.
    intros Ho H z Hz. destruct (in_split _ _ Hz) as (b1 & b2 & ->). apply (H (length a + S (length b1))); [lia|rewrite app_length; cbn; lia|].
    rewrite nth_error_map. replace (nth_error ord (length a + S (length b1))) with (Some z); [reflexivity|]. symmetry. rewrite Ho, nth_error_app2 by lia. replace (length a + S (length b1) - length a) with (S (length b1)) by lia. cbn.
    rewrite <- app_assoc, nth_error_app2 by lia. now rewrite Nat.sub_diag.
  Qed.
  Lemma hb_back m n : hb who (sw code_orders) (map (memop G) ord) m n -> forall x y, nth_error ord m = Some x -> nth_error ord n = Some y -> happens_before G x y.
  Proof.
    induction 1 as [m n a b H1 H2 H3 H4|m n H|m k n H1 IH1 H2 IH2]; intros x y Hx Hy.
    - rewrite nth_error_map, Hx in H2. rewrite nth_error_map, Hy in H3. cbn in *. injection H2 as <-. injection H3 as <-. rewrite !memop_who in H4.
      destruct (nth_two m n x y H1 Hx Hy) as (a & b & c & Ho & _). eapply po_edge; eauto.
    - destruct H as (Hmn & a & b & Ha & Hb & H). rewrite nth_error_map, Hx in Ha. rewrite nth_error_map, Hy in Hb. cbn in *. injection Ha as <-. injection Hb as <-.
      destruct (nth_two m n x y Hmn Hx Hy) as (a & b & c & Ho & La & Ln).
      assert (Ho' : ord = (a ++ x :: b) ++ y :: c) by (rewrite Ho, <- app_assoc; reflexivity).
      destruct (prefix_sim (a ++ x :: b) (y :: c) Ho') as (s & loc & cur & Q & S).
      destruct (not_there (a ++ x :: b) y c Ho') as (Hys & Ny & Hin).
      rewrite <- La, Ln in H. destruct H as [(H1 & H2 & H3)|[(i & w & H1 & H2 & H3)|(i & w & H1 & H2 & H3)]].
      + eapply (flag_edge (Datatypes.S (length b)) b); [lia|exact Ho| | |].
        * unfold memop in H1. now destruct (L x).
        * unfold memop in H2. now destruct (L y).
        * intros z Hz. pose proof (between_in _ a x b y c Ho H3 z Hz) as X. cbn in X. unfold memop in X. now destruct (L z).
      + assert (Lx : L x = AEnq w) by (unfold memop in H1; destruct (L x); try discriminate; injection H1 as <-; reflexivity).
        assert (Ly : L y = ADeq i /\ actor (L (from G y)) = w) by (unfold memop in H2; destruct (L y); try discriminate; injection H2 as <- <-; auto). destruct Ly as [Ly Lw].
        destruct (cur_deq _ y c s loc cur Q i Ho' S Ly) as (w' & E1 & E2 & E3). rewrite E1 in Lw. cbn in Lw. subst w'.
        assert (from G y = x) as <-; [|apply path_one, Efrom; auto; now rewrite Ly].
        apply in_app_or in E3. destruct E3 as [E3|[E3|E3]]; auto; exfalso.
        * destruct (in_split _ _ E3) as (a1 & a2 & ->). apply (s_last _ _ _ _ _ S w (from G y) a1 (a2 ++ x :: b)) with (z := x); auto; [rewrite <- app_assoc; reflexivity|apply in_elt|now rewrite Lx].
        * pose proof (between_in _ a x b y c Ho H3 _ E3) as X. cbn in X. apply X. unfold memop. now rewrite E1.
      + assert (Lx : L x = ADeq i /\ actor (L (from G x)) = w) by (unfold memop in H1; destruct (L x); try discriminate; injection H1 as <- <-; auto). destruct Lx as [Lx Lw].
        assert (Ly : L y = AResume w) by (unfold memop in H2; destruct (L y); try discriminate; injection H2 as <-; reflexivity).
        destruct (cur_res _ y c s loc cur Q w Ho' S Ly) as [E1 E2]. destruct (c_by _ C y w Hys Ly) as (B1 & B2 & B3).
        assert (by_ G y = x) as <-; [|apply path_one; eapply Eby; eauto].
        apply in_app_or in E2. destruct E2 as [E2|[E2|E2]]; auto; exfalso.
        * (* the handle taken later is another one, whose coroutine has been resumed since *)
          set (d := by_ G y) in *. destruct (in_split _ _ E2) as (a1 & a2 & Ea).
          assert (Hd : ord = a1 ++ d :: (a2 ++ x :: b ++ y :: c)) by (rewrite Ho, Ea, <- app_assoc; reflexivity).
          assert (Fd : In (from G d) a1) by (apply (Hord a1 d (a2 ++ x :: b ++ y :: c) Hd); [now apply (c_from _ C)|left; now apply Efrom]).
          destruct (in_split _ _ Fd) as (a3 & a4 & Ea1).
          destruct (prefix_sim a (x :: b ++ y :: c) Ho) as (s1 & loc1 & cur1 & Q1 & S1). destruct (cur_deq a x (b ++ y :: c) s1 loc1 cur1 Q1 i Ho S1 Lx) as (w' & F1 & F2 & F3). rewrite F1 in Lw. cbn in Lw. subst w'.
          assert (Fx : In (from G x) (a ++ x :: b)) by (apply in_or_app; now left).
          destruct (s_enq _ _ _ _ _ S (from G x) w Fx F1) as [X|(r & X1 & X2 & X3)].
          -- assert (from G x = from G d) by congruence. assert (x = d) by (apply (c_from_once _ C); auto; [apply Hin, in_elt|now rewrite Lx]). subst x.
             destruct (not_there a d (b ++ y :: c) Ho) as (_ & N & _). contradiction.
          -- pose proof (Hin r X1) as Hr. destruct (c_by _ C r w Hr X2) as (R1 & R2 & R3). assert (by_ G r = x) by (apply (c_from_once _ C); auto; [apply Hin, in_elt|now rewrite Lx]).
             (* r comes after x, hence after the last handle was put in *)
             assert (Rb : In r b).
             { apply in_app_or in X1. destruct X1 as [X1|[<-|X1]]; auto; exfalso; [|congruence]. destruct (in_split _ _ X1) as (u & v & ->).
               assert (In x u) as X; [apply (Hord u r (v ++ x :: b ++ y :: c)); [rewrite Ho, <- app_assoc; reflexivity|apply Hin, in_elt|left; rewrite <- H; exact (Eby r w Hr X2)]|].
               destruct (not_there (u ++ r :: v) x (b ++ y :: c) Ho) as (_ & N & _). apply N. apply in_or_app. now left. }
             apply (s_last _ _ _ _ _ S w (from G d) a3 (a4 ++ d :: a2 ++ x :: b)) with (z := r); auto; [|apply in_or_app; right; right; apply in_or_app; right; now right|now rewrite X2].
             rewrite Ea, Ea1, <- !app_assoc. reflexivity.
        * pose proof (between_in _ a x b y c Ho H3 _ E2) as X. cbn in X. destruct (L (by_ G y)) as [| | | | | | |v| |] eqn:Lb; try discriminate. apply (X v). unfold memop. now rewrite Lb, B3.
    - assert (K : k < length ord).
      { apply (hb_lt _ _ (sw_lt code_orders)) in H1. rewrite map_length in H1. lia. }
      apply nth_error_Some in K. destruct (nth_error ord k) as [z|] eqn:Ez; [|congruence]. exact (path_trans _ x z y (IH1 x z Hx eq_refl) (IH2 z y eq_refl Hy)).
  Qed.
End Sim.

Lemma order_exists G : consistent G -> exists ord, Permutation (seq 0 (size G)) ord /\
  forall a x b, ord = a ++ x :: b -> forall y, y < size G -> edge G y x = true \/ (on_flag (lab G y) = true /\ on_flag (lab G x) = true /\ mo G y < mo G x) -> In y a.
Proof.
  intros C. apply (coherent_order (edge G) (fun x => on_flag (lab G x)) (mo G)); [exact (c_acyclic _ C)|]. intros x y Hx Hy H. apply Nat.lt_le_incl, (c_coherent _ C); auto.
Qed.
Lemma hb_below G x y : happens_before G x y -> x < size G /\ y < size G.
Proof.
  assert (E : forall x y, edge G x y = true -> x < size G /\ y < size G) by (intros u v H; unfold edge in H; rewrite !andb_true_iff, !Nat.ltb_lt in H; tauto).
  induction 1 as [x y H|x y z _ IH H]; [now apply E|]. apply E in H. tauto.
Qed.

(** C151: every execution is explained by an interleaving: there is an order of its events that agrees with happens-before and with the modification order, in which the model of Mutex/Model.v makes the same steps, takes the same handles, and every test_and_set gets the same answer. *)
Theorem C151_every_execution_is_an_interleaving : forall G, consistent G -> exists ord l,
  Permutation (seq 0 (size G)) ord /\
  (forall a x b y, ord = a ++ x :: b -> y < size G -> happens_before G y x -> In y a) /\
  (forall a x b y, ord = a ++ x :: b -> y < size G -> on_flag (lab G y) = true -> on_flag (lab G x) = true -> mo G y < mo G x -> In y a) /\
  run cstep init l <> None /\ Forall2 (fun x e => same (lab G x) e) ord l /\ history l = map (memop G) ord /\
  (forall a x b, ord = a ++ x :: b -> rmw (lab G x) = true -> exists s, run cstep init (firstn (length a) l) = Some s /\ flag s = val G x).
Proof.
  intros G C. destruct (order_exists G C) as (ord & P & H). destruct (sim_all G C ord P H ord [] ltac:(now rewrite app_nil_r)) as (l & s & loc & cur & Q & R & F & Hi & V & _).
  exists ord, l. split; [exact P|]. split; [|split; [|split; [congruence|auto]]].
  - intros a x b y Ho Hy Hb. revert a b Ho Hy. induction Hb as [y x E|y k x P1 IH E]; intros a b Ho Hy; [now apply (H a x b Ho); auto|].
    assert (Hk : k < size G) by (apply hb_below in P1; tauto). assert (Ka : In k a) by (apply (H a x b Ho k Hk); now left).
    destruct (in_split _ _ Ka) as (a1 & a2 & ->). apply in_or_app. left. apply (IH a1 (a2 ++ x :: b)); auto. rewrite Ho, <- app_assoc. reflexivity.
  - intros a x b y Ho Hy F1 F2 F3. apply (H a x b Ho y Hy). auto.
Qed.
Print Assumptions C151_every_execution_is_an_interleaving.

(** Any two accesses to the guarded data are ordered by happens-before: there is no data race, and each access sees those before it. *)
Theorem C151_no_data_race : forall G x y, consistent G -> x < size G -> y < size G -> x <> y -> is_data (lab G x) = true -> is_data (lab G y) = true ->
  happens_before G x y \/ happens_before G y x.
Proof.
  intros G x y C Hx Hy N Dx Dy. destruct (order_exists G C) as (ord & P & H). destruct (sim_all G C ord P H ord [] ltac:(now rewrite app_nil_r)) as (l & s & loc & cur & Q & R & F & Hi & V & _).
  assert (Ix : In x ord) by now apply (ord_in G ord P). assert (Iy : In y ord) by now apply (ord_in G ord P).
  apply In_nth_error in Ix, Iy. destruct Ix as (m & Hm), Iy as (n & Hn).
  assert (G2 : forall m n x y, m < n -> nth_error ord m = Some x -> nth_error ord n = Some y -> is_data (lab G x) = true -> is_data (lab G y) = true -> happens_before G x y).
  { clear - C P H R Hi. intros m n x y Hmn Hm Hn Dx Dy. destruct (lab G x) as [| | | |i| | | | |] eqn:Lx; try discriminate. destruct (lab G y) as [| | | |j| | | | |] eqn:Ly; try discriminate.
    apply (hb_back G C ord P H m n); auto. rewrite <- Hi. apply (C131_sections_happen_before_each_other l s m n i j R Hmn); rewrite Hi, nth_error_map, ?Hm, ?Hn; cbn; unfold memop; [now rewrite Lx|now rewrite Ly]. }
  destruct (Nat.lt_trichotomy m n) as [L|[->|L]]; [left; eauto|congruence|right; eauto].
Qed.
Print Assumptions C151_no_data_race.

(** an owner stays one until it unlocks *)
Lemma owner_leaves i : forall l s s', Inv s -> run cstep s l = Some s' -> at_ s i = Owner -> at_ s' i <> Owner -> exists k, nth_error l k = Some (Mx (EClear i)).
Proof.
  induction l as [|e l IH]; intros s s' HI R A B; cbn in R; [injection R as <-; congruence|].
  destruct (cstep s e) as [s1|] eqn:E; [|discriminate].
  assert (D : e = Mx (EClear i) \/ (Inv s1 /\ at_ s1 i = Owner)).
  { destruct e as [e|j]; cbn in E; [|right; destruct (at_ s j); try discriminate; injection E as <-; auto].
    pose proof (Inv_step _ _ _ _ HI E) as HI1.
    destruct e as [j|j|j|j|j|j k|j|j|j]; cbn in E; destruct (at_ s j) eqn:Ej; try discriminate;
    try (injection E as <-; cbn; destruct (Nat.eq_dec i j) as [->|Nj]; [congruence|right; split; [exact HI1|cbn; now rewrite upd_other]]).
    - (* EClear *) destruct (Nat.eq_dec i j) as [->|Nj]; [now left|right]. injection E as <-. split; [exact HI1|cbn; now rewrite upd_other].
    - destruct (take_nth k (waitings s)) as [[w rest]|] eqn:Et; [|discriminate]. injection E as <-. right. split; [exact HI1|]. cbn. rewrite upd_other by congruence. rewrite upd_other; auto.
      intros <-. apply take_nth_spec in Et. destruct Et as (l1 & l2 & Ew & _). assert (X : In i (waitings s)) by (rewrite Ew; apply in_elt). apply (inv_wait _ HI) in X. congruence. }
  destruct D as [->|[H1 H2]]; [now exists 0|]. destruct (IH s1 s' H1 R H2 B) as (k & K). now exists (S k).
Qed.
Lemma cInv l s : run cstep init l = Some s -> Inv s.
Proof.
  apply (run_inv cstep Inv); [|apply Inv_init]. intros s0 e s' HI E. destruct e as [e|j]; cbn in E; [eapply Inv_step; eauto|]. destruct (at_ s0 j); try discriminate. now injection E as <-.
Qed.
Lemma unlocked l s m n i j : run cstep init l = Some s -> m < n -> nth_error l m = Some (Access i) -> nth_error l n = Some (Access j) -> i <> j -> exists k, m < k /\ k < n /\ nth_error l k = Some (Mx (EClear i)).
Proof.
  intros R Hmn Hm Hn N. apply nth_error_split in Hm. destruct Hm as (a & r & E & La). rewrite E in Hn. rewrite nth_error_app2 in Hn by lia. destruct (n - length a) as [|k] eqn:Ek; [lia|]. cbn in Hn.
  apply nth_error_split in Hn. destruct Hn as (b & c & Er & Lb). subst r l.
  apply run_app_inv in R. destruct R as (s1 & R1 & R2). cbn in R2. destruct (at_ s1 i) eqn:A1; try discriminate. pose proof (cInv a s1 R1) as I1.
  apply run_app_inv in R2. destruct R2 as (s2 & R2 & R3). cbn in R3. destruct (at_ s2 j) eqn:A2; try discriminate.
  assert (I2 : Inv s2) by (apply (cInv (a ++ b)); now rewrite (run_app cstep init a b s1 R1)).
  destruct (owner_leaves i b s1 s2 I1 R2 A1) as (q & Hq).
  - intros X. apply N. apply (inv_uniq _ I2); [now rewrite X|now rewrite A2].
  - assert (q < length b) by (apply nth_error_Some; congruence). exists (S (length a) + q). split; [lia|]. split; [lia|]. rewrite nth_error_app2 by lia. replace (S (length a) + q - length a) with (S q) by lia. cbn. rewrite nth_error_app1; auto.
Qed.
Lemma F2_same G ord l k x : Forall2 (fun x e => same (lab G x) e) ord l -> nth_error ord k = Some x -> exists e, nth_error l k = Some e /\ same (lab G x) e.
Proof. intros F. revert k. induction F as [|y e ord l H F IH]; intros [|k] Hk; try discriminate; cbn in *; [injection Hk as <-; eauto|eauto]. Qed.
Lemma F2_nth G ord l k x : Forall2 (fun x e => same (lab G x) e) ord l -> nth_error ord k = Some x -> forall i, lab G x = AData i -> nth_error l k = Some (Access i).
Proof. intros F Hk i Li. destruct (F2_same G ord l k x F Hk) as (e & E1 & E2). rewrite Li in E2. destruct e as [[]|j]; cbn in E2; try contradiction. now subst. Qed.

(** Critical sections do not overlap: of two accesses by different coroutines one happens after the other's coroutine has unlocked. *)
Theorem C151_mutual_exclusion : forall G x y, consistent G -> x < size G -> y < size G -> is_data (lab G x) = true -> is_data (lab G y) = true -> actor (lab G x) <> actor (lab G y) ->
  exists z, z < size G /\ ((lab G z = AUnlock (actor (lab G x)) /\ happens_before G x z /\ happens_before G z y) \/ (lab G z = AUnlock (actor (lab G y)) /\ happens_before G y z /\ happens_before G z x)).
Proof.
  intros G x y C Hx Hy Dx Dy N. destruct (order_exists G C) as (ord & P & H). destruct (sim_all G C ord P H ord [] ltac:(now rewrite app_nil_r)) as (l & s & loc & cur & Q & R & F & Hi & V & _).
  assert (Ix : In x ord) by now apply (ord_in G ord P). assert (Iy : In y ord) by now apply (ord_in G ord P).
  apply In_nth_error in Ix, Iy. destruct Ix as (m & Hm), Iy as (n & Hn).
  assert (G2 : forall m n x y, m < n -> nth_error ord m = Some x -> nth_error ord n = Some y -> is_data (lab G x) = true -> is_data (lab G y) = true -> actor (lab G x) <> actor (lab G y) ->
    exists z, z < size G /\ lab G z = AUnlock (actor (lab G x)) /\ happens_before G x z /\ happens_before G z y).
  { clear - C P H R F Hi. intros m n x y Hmn Hm Hn Dx Dy N. destruct (lab G x) as [| | | |i| | | | |] eqn:Lx; try discriminate. destruct (lab G y) as [| | | |j| | | | |] eqn:Ly; try discriminate. cbn [actor] in *.
    destruct (unlocked l s m n i j R Hmn) as (k & K1 & K2 & K3); [now apply (F2_nth G ord l m x F Hm)|now apply (F2_nth G ord l n y F Hn)|exact N|].
    assert (exists z, nth_error ord k = Some z /\ lab G z = AUnlock i) as (z & Hz & Lz).
    { assert (Kl : k < length ord) by (apply Nat.lt_trans with n; [exact K2|apply nth_error_Some; congruence]). apply nth_error_Some in Kl. destruct (nth_error ord k) as [z|] eqn:Ez; [|congruence]. exists z. split; auto.
      destruct (F2_same G ord l k z F Ez) as (e & E1 & E2). rewrite K3 in E1. injection E1 as <-. destruct (lab G z); cbn in E2; try contradiction. now subst. }
    exists z. split; [apply (ord_in G ord P); eapply nth_error_In; eauto|]. split; auto. split.
    - destruct (nth_two ord m k x z K1 Hm Hz) as (a & b & c & Ho & _). apply (po_edge G C ord P H a x b z c Ho). now rewrite Lx, Lz.
    - apply (hb_back G C ord P H k n); auto. rewrite <- Hi. eapply (C131_ends_happen_before l s k n); eauto; rewrite ?Hi, ?nth_error_map, ?Hz, ?Hn; cbn; unfold memop; rewrite ?Lz, ?Ly; reflexivity. }
  destruct (Nat.lt_trichotomy m n) as [L|[->|L]]; [|congruence|].
  - destruct (G2 m n x y L Hm Hn Dx Dy N) as (z & Z1 & Z2). exists z. auto.
  - destruct (G2 n m y x L Hn Hm Dy Dx (not_eq_sym N)) as (z & Z1 & Z2). exists z. auto.
Qed.
Print Assumptions C151_mutual_exclusion.

(** The lock is handed over through the queue: 0 locks (0), accesses (1); 1 tries (2), waits (3); 0 unlocks (4), takes the flag again (5), wakes 1 (6); 1 is resumed (7), accesses (8). *)
Definition handed_over : execution :=
  {| size := 9;
     lab := fun x => nth x [AAcquire 0; AData 0; AAcquire 1; AEnq 1; AUnlock 0; AAgain 0; ADeq 0; AResume 1; AData 1] (AData 9);
     po := fun i => match i with 0 => [0; 1; 4; 5; 6] | 1 => [2; 3; 7; 8] | _ => [] end;
     mo := fun x => x;
     rf := fun x => match x with 2 => Some 0 | 5 => Some 4 | _ => None end;
     from := fun _ => 3; by_ := fun _ => 6 |}.
Lemma handed_over_up x y : happens_before handed_over x y -> x < y.
Proof.
  assert (E : forall x y, edge handed_over x y = true -> x < y).
  { intros u v H. assert (X : forallb (fun u => forallb (fun v => negb (edge handed_over u v) || (u <? v)) (seq 0 9)) (seq 0 9) = true) by (vm_compute; reflexivity).
    assert (u < 9 /\ v < 9) as [Hu Hv] by (unfold edge in H; rewrite !andb_true_iff, !Nat.ltb_lt in H; cbn [size handed_over] in H; tauto).
    rewrite forallb_forall in X. specialize (X u ltac:(apply in_seq; lia)). rewrite forallb_forall in X. specialize (X v ltac:(apply in_seq; lia)). rewrite H in X. cbn in X. now apply Nat.ltb_lt. }
  induction 1 as [x y H|x y z _ IH H]; [now apply E|]. apply E in H. lia.
Qed.
Ltac upto n x := lazymatch n with O => idtac | S ?m => destruct x as [|x]; [|upto m x] end.
Lemma handed_over_consistent : consistent handed_over.
Proof.
  split; unfold handed_over; cbn [size lab po mo rf from by_].
  - intros i x. split.
    + destruct i as [|[|i]]; cbn [In]; [| |intros []]; intros H; repeat (destruct H as [<-|H]; [split; [lia|reflexivity]|]); destruct H.
    + intros [Hx Hi]. upto 9 x; try lia; cbn in Hi; subst i; cbn; tauto.
  - intros [|[|i]]; repeat constructor; cbn; intuition discriminate.
  - intros [|[|i]]; vm_compute; discriminate.
  - auto.
  - intros x y Hx Rx. upto 9 x; try lia; cbn in *; try discriminate; intros [= <-]; (split; [lia|]; split; [reflexivity|]; split; [lia|]); intros z Hz Fz [Z1 Z2]; upto 6 z; try lia; cbn in *; try discriminate; lia.
  - intros x Hx Rx. upto 9 x; try lia; cbn in *; try discriminate; intros _ z Hz Fz Hlt; lia.
  - intros x _ _. split; [lia|reflexivity].
  - intros x y Hx Hy Dx Dy _. upto 9 x; try lia; cbn in *; try discriminate; upto 9 y; try lia; cbn in *; try discriminate; auto.
  - intros x i Hx Lx. upto 9 x; try lia; cbn in *; try discriminate. injection Lx as <-. split; [lia|]. split; reflexivity.
  - intros x y Hx Hy Dx Dy _. upto 9 x; try lia; cbn in *; try discriminate; upto 9 y; try lia; cbn in *; try discriminate; auto.
  - intros x H. apply handed_over_up in H. lia.
  - intros x y _ _ H. now apply handed_over_up in H.
Qed.
Example C151_case : consistent handed_over /\ (happens_before handed_over 1 8 \/ happens_before handed_over 8 1) /\ exists z, z < 9 /\ lab handed_over z = AUnlock 0 /\ happens_before handed_over 1 z /\ happens_before handed_over z 8.
Proof.
  pose proof handed_over_consistent as HC. split; [exact HC|]. split; [apply C151_no_data_race; auto; cbn; lia|].
  destruct (C151_mutual_exclusion handed_over 1 8 HC ltac:(cbn; lia) ltac:(cbn; lia) eq_refl eq_refl ltac:(discriminate)) as (z & Hz & [(Z1 & Z2 & Z3)|(Z1 & Z2 & Z3)]); [exists z; auto|].
  apply handed_over_up in Z2, Z3. cbn in Hz. lia.
Qed.
