(** C152: koios::wait_group in every execution the C++ memory model allows.

    wait_group.h 15-31 (fetch_add(relaxed), fetch_sub(acq_rel), load(acquire)), 33-52 (wait), 56-63 (wake_up_all); waiting_handle.cc 13-22.

    An execution is a graph, as in [intro.races] and [atomics.order] of the C++ standard: events, sequenced-before, reads-from and the modification order of m_count, without any interleaving. ready() may read an old value; try_dequeue may miss a handle that is there. Trusted: a handle put into the moodycamel queue, and a coroutine given to the scheduler, is taken out at most once, and putting it in happens before taking it out. *)
From Coq Require Import List Arith NArith Bool Lia Wf_nat.
From Verif.Common Require Import TS LinExt.
From Verif.WaitGroup Require Import Model.
Import ListNotations.

(** ** specification: executions *)
(** what coroutine [i] does next *)
Inductive act :=
| AAdd (i : nat) (n : N)    (* add(n): m_count.fetch_add(n, relaxed), wait_group.h 17 *)
| ADone (i : nat) (n : N)   (* done(n): m_count.fetch_sub(n, acq_rel), 22 *)
| AReady (i : nat)          (* co_await wait(): m_count.load(acquire), 30, 39-42 *)
| AEnq (i : nat)            (* await_suspend(): its handle is put into m_waitings, 46 *)
| AResume (i : nat)         (* the scheduler resumes it, inside co_await wait() *)
| ADeq (i : nat)            (* wake_up_all(): try_dequeue() gives a handle, wake_up(), 60-62 *)
| ANone (i : nat)           (* wake_up_all(): try_dequeue() gives nothing; done() returns *)
| AOther (i : nat).         (* anything else the program does *)
Definition actor (a : act) : nat := match a with AAdd i _ | ADone i _ | AReady i | AEnq i | AResume i | ADeq i | ANone i | AOther i => i end.
Definition is_add (a : act) : bool := match a with AAdd _ _ => true | _ => false end.
Definition is_done (a : act) : bool := match a with ADone _ _ => true | _ => false end.
Definition modifies (a : act) : bool := is_add a || is_done a.
Definition is_ready (a : act) : bool := match a with AReady _ => true | _ => false end.
Definition is_enq (a : act) : bool := match a with AEnq _ => true | _ => false end.
Definition is_res (a : act) : bool := match a with AResume _ => true | _ => false end.
Definition is_deq (a : act) : bool := match a with ADeq _ => true | _ => false end.
Definition is_none (a : act) : bool := match a with ANone _ => true | _ => false end.
Definition is_other (a : act) : bool := match a with AOther _ => true | _ => false end.
(** the control flow of one coroutine; [v] is the value of the counter that the operation reads *)
Definition lstep (p : pc) (a : act) (v : N) : option pc :=
  match p, a with
  | Idle, AAdd _ _ => Some Idle
  | Idle, ADone _ _ => Some (if (v =? 1)%N then Draining else Idle)     (* 22-25 *)
  | Idle, AReady _ => Some (if (v =? 0)%N then Idle else Enqueuing)     (* 39-42 *)
  | Enqueuing, AEnq _ => Some Waiting                                   (* 44-47 *)
  | Waiting, AResume _ => Some Idle                                     (* 49 *)
  | Draining, ADeq _ => Some Draining                                   (* 60-63 *)
  | Draining, ANone _ => Some Idle
  | Idle, AOther _ => Some Idle
  | _, _ => None
  end.
Record execution := Ex {
  size : nat;                   (* the events are the numbers below, in no particular order *)
  lab : nat -> act;
  po : nat -> list nat;         (* the events of a coroutine, in the order it executes them *)
  mo : nat -> nat;              (* the place of a modification of m_count in its modification order *)
  rf : nat -> option nat;       (* the modification that an operation on m_count reads; None: the initial value *)
  wr : nat -> N;                (* the value that a modification writes *)
  from : nat -> nat;            (* the await_suspend() whose handle a try_dequeue takes *)
  by_ : nat -> nat;             (* the wake_up() that a resumption follows *)
  other : nat -> nat -> bool }. (* what else the program synchronises with: starting a task, a future, a mutex, ... *)
(** the value that an operation on m_count reads *)
Definition rd (G : execution) (x : nat) : N := match rf G x with Some y => wr G y | None => 0%N end.
Fixpoint lrun (G : execution) (p : pc) (l : list nat) : option pc :=
  match l with [] => Some p | x :: l => match lstep p (lab G x) (rd G x) with Some p => lrun G p l | None => None end end.
Fixpoint before (l : list nat) (x y : nat) : bool :=
  match l with [] => false | z :: l => if z =? x then existsb (Nat.eqb y) l else before l x y end.
(** sequenced before; release/acquire; the queue; the scheduler; the rest of the program. Only done() releases; done() and ready() acquire. All modifications are read-modify-writes, so the release sequence headed by a done() consists of all the modifications from there on. *)
Definition edge (G : execution) (x y : nat) : bool :=
  (x <? size G) && (y <? size G) &&
  (before (po G (actor (lab G y))) x y
   || is_done (lab G x) && (is_done (lab G y) || is_ready (lab G y)) && (match rf G y with Some w => mo G x <=? mo G w | None => false end)
   || is_deq (lab G y) && (from G y =? x)
   || is_res (lab G y) && (by_ G y =? x)
   || is_other (lab G x) && is_other (lab G y) && other G x y).
Definition happens_before (G : execution) : nat -> nat -> Prop := path (edge G).
(** how many modifications there may have been up to the one that is read *)
Definition seen (G : execution) (x : nat) : nat := match rf G x with Some y => S (mo G y) | None => 0 end.
Record consistent (G : execution) : Prop := {
  c_po : forall i x, In x (po G i) <-> x < size G /\ actor (lab G x) = i;
  c_once : forall i, NoDup (po G i);
  c_prog : forall i, lrun G Idle (po G i) <> None;
  c_mo : forall x y, x < size G -> y < size G -> modifies (lab G x) = true -> modifies (lab G y) = true -> mo G x = mo G y -> x = y;
  c_rf : forall x y, x < size G -> modifies (lab G x) || is_ready (lab G x) = true -> rf G x = Some y -> y < size G /\ modifies (lab G y) = true;
  (* a read-modify-write reads the modification immediately before it *)
  c_rmw : forall x, x < size G -> modifies (lab G x) = true -> seen G x <= mo G x /\
            forall z, z < size G -> modifies (lab G z) = true -> ~ (seen G x <= mo G z /\ mo G z < mo G x);
  c_add : forall x i n, x < size G -> lab G x = AAdd i n -> wr G x = add64 (rd G x) n;
  c_done : forall x i n, x < size G -> lab G x = ADone i n -> wr G x = sub64 (rd G x) n;
  c_from : forall x, x < size G -> is_deq (lab G x) = true -> from G x < size G /\ is_enq (lab G (from G x)) = true;
  c_from_once : forall x y, x < size G -> y < size G -> is_deq (lab G x) = true -> is_deq (lab G y) = true -> from G x = from G y -> x = y;
  c_by : forall x i, x < size G -> lab G x = AResume i -> by_ G x < size G /\ is_deq (lab G (by_ G x)) = true /\ lab G (from G (by_ G x)) = AEnq i;
  c_by_once : forall x y, x < size G -> y < size G -> is_res (lab G x) = true -> is_res (lab G y) = true -> by_ G x = by_ G y -> x = y;
  (* happens-before has no cycle; the four coherence requirements of [intro.races] *)
  c_acyclic : forall x, ~ happens_before G x x;
  c_ww : forall x y, modifies (lab G x) = true -> modifies (lab G y) = true -> happens_before G x y -> mo G x < mo G y;
  c_wr : forall x y, modifies (lab G x) = true -> is_ready (lab G y) = true -> happens_before G x y -> S (mo G x) <= seen G y;
  c_rw : forall x y, is_ready (lab G x) = true -> modifies (lab G y) = true -> happens_before G x y -> seen G x <= mo G y;
  c_rr : forall x y, is_ready (lab G x) = true -> is_ready (lab G y) = true -> happens_before G x y -> seen G x <= seen G y }.

(** ** specification: use *)
(** the done() at [d] calls wake_up_all(), which returns at [e] *)
Definition returns (G : execution) (d e : nat) : Prop :=
  exists p l q, po G (actor (lab G d)) = p ++ d :: l ++ e :: q /\ is_none (lab G e) = true /\ forall z, In z l -> is_deq (lab G z) = true.
(** as intended: done() for what was added only, and no add() while a done() that reached zero has not returned *)
Record proper (G : execution) : Prop := {
  p_done : forall x i n, x < size G -> lab G x = ADone i n -> (1 <= n <= rd G x)%N;
  p_add : forall a d, a < size G -> d < size G -> is_add (lab G a) = true -> is_done (lab G d) = true -> rd G d = 1%N -> mo G a < mo G d \/ exists e, returns G d e /\ happens_before G e a }.
(** the co_await of wait() that begins at [x] completes at [y]: without or with suspension *)
Definition completes (G : execution) (x y : nat) : Prop :=
  exists i, lab G x = AReady i /\ ((y = x /\ x < size G /\ rd G x = 0%N) \/ (exists p e q, po G i = p ++ x :: e :: y :: q /\ lab G y = AResume i)).

(** ** proof *)
Lemma before_app : forall a x b y c, before (a ++ x :: b ++ y :: c) x y = true.
Proof.
  induction a as [|z a IH]; intros x b y c; cbn.
  - rewrite Nat.eqb_refl. apply existsb_exists. exists y. split; [apply in_or_app; right; now left|apply Nat.eqb_refl].
  - destruct (z =? x); [|apply IH]. apply existsb_exists. exists y. split; [|apply Nat.eqb_refl]. apply in_or_app. right. right. apply in_or_app. right. now left.
Qed.
Lemma lrun_app G : forall l1 p l2, lrun G p (l1 ++ l2) = match lrun G p l1 with Some q => lrun G q l2 | None => None end.
Proof. induction l1 as [|x l1 IH]; intros p l2; cbn; auto. destruct (lstep p (lab G x) (rd G x)); auto. Qed.

Section Graph.
  Variable G : execution.
  Hypothesis C : consistent G.
  Notation L := (lab G).

  Lemma po_size i x : In x (po G i) -> x < size G /\ actor (L x) = i.
  Proof. apply (c_po _ C). Qed.
  Lemma po_hb i a x b y c : po G i = a ++ x :: b ++ y :: c -> happens_before G x y.
  Proof.
    intros H. assert (Hx : In x (po G i)) by (rewrite H; apply in_elt). assert (Hy : In y (po G i)) by (rewrite H; apply in_or_app; right; right; apply in_elt).
    apply po_size in Hx, Hy. destruct Hx as [Hx _], Hy as [Hy Ay]. apply path_one. unfold edge. apply Nat.ltb_lt in Hx, Hy. rewrite Hx, Hy, Ay, H, before_app. reflexivity.
  Qed.
  Lemma from_hb x : x < size G -> is_deq (L x) = true -> happens_before G (from G x) x.
  Proof. intros Hx Dx. destruct (c_from _ C x Hx Dx) as [A1 _]. apply path_one. unfold edge. apply Nat.ltb_lt in Hx, A1. rewrite Hx, A1, Dx, Nat.eqb_refl. cbn. now rewrite !orb_true_r. Qed.
  Lemma by_hb x i : x < size G -> L x = AResume i -> happens_before G (by_ G x) x.
  Proof. intros Hx Dx. destruct (c_by _ C x i Hx Dx) as [A1 _]. apply path_one. unfold edge. apply Nat.ltb_lt in Hx, A1. rewrite Hx, A1, Dx, Nat.eqb_refl. cbn. now rewrite !orb_true_r. Qed.
  (** all done()s up to the value that is read synchronise with the read *)
  Lemma done_hb d y : d < size G -> y < size G -> is_done (L d) = true -> is_done (L y) || is_ready (L y) = true -> mo G d < seen G y -> happens_before G d y.
  Proof.
    intros Hd Hy Dd Ry S. apply path_one. unfold edge, seen in *. apply Nat.ltb_lt in Hd, Hy. rewrite Hd, Hy, Dd, Ry. destruct (rf G y) as [w|]; [|lia].
    assert (E : mo G d <=? mo G w = true) by (apply Nat.leb_le; lia). rewrite E. cbn. now rewrite orb_true_r.
  Qed.
  (** the pc of a coroutine at a place of its program *)
  Lemma local i p x q : po G i = p ++ x :: q -> exists c c', lrun G Idle p = Some c /\ lstep c (L x) (rd G x) = Some c' /\ lrun G c' q <> None.
  Proof.
    intros H. pose proof (c_prog _ C i) as P. rewrite H, lrun_app in P. destruct (lrun G Idle p) as [c|]; [|congruence]. cbn in P. destruct (lstep c (L x) (rd G x)) as [c'|] eqn:E; [|congruence]. eauto.
  Qed.
  (** what follows the enqueuing is a resumption *)
  Lemma after_enq i p e x q : po G i = p ++ e :: x :: q -> is_enq (L e) = true -> L x = AResume i.
  Proof.
    intros H He. destruct (local i p e (x :: q) H) as (c & c' & _ & H2 & H3). destruct (L e); try discriminate. destruct c; try discriminate. injection H2 as <-. cbn in H3.
    assert (Ax : actor (L x) = i) by (apply po_size; rewrite H; apply in_or_app; right; right; now left).
    destruct (L x); try congruence. cbn in Ax. now subst.
  Qed.
  (** a resumption follows the taking of the handle that this very co_await put there *)
  Lemma own_handle i : forall n p e y q, length p < n -> po G i = p ++ e :: y :: q -> is_enq (L e) = true -> L y = AResume i -> from G (by_ G y) = e.
  Proof.
    induction n as [|n IH]; intros p e y q Hn H He Ly; [lia|].
    assert (Hy : y < size G) by (apply (po_size i); rewrite H; apply in_or_app; right; right; now left).
    destruct (c_by _ C y i Hy Ly) as (B1 & B2 & B3). set (d := by_ G y) in *. destruct (c_from _ C d B1 B2) as [F1 F2].
    assert (Hb : happens_before G (from G d) y) by (eapply path_trans; [apply from_hb; auto|eapply by_hb; eauto]).
    assert (Ip : In (from G d) (po G i)) by (apply (c_po _ C); split; auto; now rewrite B3).
    destruct (Nat.eq_dec (from G d) e) as [E|NE]; [exact E|exfalso].
    rewrite H in Ip. apply in_app_or in Ip. destruct Ip as [Ip|[E|[E|Ip]]]; [| congruence | rewrite E in *; exact (c_acyclic _ C _ Hb) |].
    - destruct (in_split _ _ Ip) as (p1 & p2 & Ep). set (e' := from G d) in *.
      (* what follows e' is a resumption y' of e' *)
      assert (exists y' q', po G i = p1 ++ e' :: y' :: q' /\ (In y' p2 \/ (y' = e /\ p2 = []))) as (y' & q' & H' & Wh).
      { rewrite H, Ep, <- app_assoc. destruct p2 as [|y' p2]; cbn; [exists e; eauto|exists y'; eexists; split; [reflexivity|]; left; now left]. }
      assert (Ly' : L y' = AResume i) by (eapply after_enq; eauto).
      assert (F' : from G (by_ G y') = e') by (apply (IH p1 e' y' q'); auto; rewrite Ep, app_length in Hn; cbn in Hn; lia).
      assert (Hy' : y' < size G) by (apply (po_size i); rewrite H'; apply in_or_app; right; right; now left).
      destruct (c_by _ C y' i Hy' Ly') as (B1' & B2' & _).
      assert (by_ G y' = d) by (apply (c_from_once _ C); auto). assert (y' = y) by (apply (c_by_once _ C); auto; [now rewrite Ly'|now rewrite Ly]). subst y'.
      destruct Wh as [Wh|[Wh _]]; [|subst; rewrite Ly in He; discriminate].
      pose proof (c_once _ C i) as N. rewrite H, Ep in N. replace ((p1 ++ e' :: p2) ++ e :: y :: q) with (((p1 ++ e' :: p2) ++ [e]) ++ y :: q) in N by (now rewrite <- app_assoc).
      apply NoDup_remove_2 in N. apply N. rewrite !in_app_iff. left. left. right. now right.
    - destruct (in_split _ _ Ip) as (q1 & q2 & Eq). apply (c_acyclic _ C y). eapply path_trans; [|exact Hb]. apply (po_hb i (p ++ [e]) y q1 _ q2). now rewrite H, Eq, <- app_assoc.
  Qed.
  (** who takes a handle is in the loop that a done() which read 1 began *)
  Lemma drains i : forall p c, lrun G Idle p = Some c -> incl p (po G i) -> c = Draining -> exists p1 z l n, p = p1 ++ z :: l /\ L z = ADone i n /\ rd G z = 1%N /\ forall u, In u l -> is_deq (L u) = true.
  Proof.
    induction p as [|x p IH] using rev_ind; intros c H Hi E; [cbn in H; congruence|].
    rewrite lrun_app in H. destruct (lrun G Idle p) as [c1|] eqn:E1; [|discriminate]. cbn in H. destruct (lstep c1 (L x) (rd G x)) as [c2|] eqn:E2; [|discriminate]. injection H as ->. subst c.
    assert (Ax : actor (L x) = i) by (apply po_size, Hi, in_or_app; right; now left).
    destruct c1, (L x) as [j n|j n|j|j|j|j|j|j] eqn:Lx; cbn in E2, Ax; try discriminate; subst j.
    - destruct (rd G x =? 1)%N eqn:E3; [|discriminate]. apply N.eqb_eq in E3. exists p, x, [], n. split; [auto|]. split; [exact Lx|]. split; [auto|]. now intros u [].
    - destruct (rd G x =? 0)%N; discriminate.
    - destruct (IH Draining eq_refl) as (p1 & z & l & n & E3 & Z1 & Z2 & Z3); auto; [intros u Hu; apply Hi, in_or_app; now left|]. exists p1, z, (l ++ [x]), n. rewrite E3, <- app_assoc. repeat split; auto.
      intros u Hu. apply in_app_or in Hu. destruct Hu as [Hu|[<-|[]]]; [auto|now rewrite Lx].
  Qed.
  (** the taking [d] of a handle, in the loop of the done() [z], comes before that done() returns *)
  Lemma before_return i p z l d q e : po G i = p ++ z :: l ++ d :: q -> L z = ADone i 1%N \/ is_done (L z) = true -> (forall u, In u l -> is_deq (L u) = true) -> is_deq (L d) = true -> returns G z e -> happens_before G d e.
  Proof.
    intros H Lz Hl Dd (p' & l' & q' & H' & He & _). assert (Az : actor (L z) = i) by (apply po_size; rewrite H; apply in_elt). rewrite Az in H'.
    assert (E : p = p' /\ l ++ d :: q = l' ++ e :: q').
    { pose proof (c_once _ C i) as N. rewrite H in H', N. clear - H' N. revert p' H' N. generalize (l ++ d :: q), (l' ++ e :: q'). intros u v. induction p as [|x p IH]; intros p' H' N; destruct p' as [|x' p']; cbn in *.
      - now injection H' as ->.
      - exfalso. injection H' as E1 E2. apply NoDup_cons_iff in N. destruct N as [N _]. apply N. rewrite E2. apply in_elt.
      - exfalso. injection H' as E1 E2. apply NoDup_cons_iff in N. destruct N as [N _]. apply N. rewrite E1. apply in_elt.
      - injection H' as E1 E2. apply NoDup_cons_iff in N. destruct N as [_ N]. destruct (IH p' E2 N) as [-> ->]. now rewrite E1. }
    destruct E as [_ E]. assert (Id : In e (d :: q)).
    { clear - E Hl He. revert l' E. induction l as [|u l IH]; intros l' E; [cbn in E; rewrite E; apply in_elt|]. destruct l' as [|u' l']; cbn in E; injection E as E1 E2.
      - exfalso. subst u. specialize (Hl e (or_introl eq_refl)). destruct (L e); discriminate.
      - apply (IH (fun v Hv => Hl v (or_intror Hv)) l' E2). }
    destruct Id as [Id|Id]; [subst; destruct (L e); discriminate|]. destruct (in_split _ _ Id) as (q1 & q2 & ->).
    apply (po_hb i (p ++ z :: l) d q1 e q2). now rewrite H, <- app_assoc.
  Qed.

  Hypothesis P : proper G.
  Theorem visibility x y : completes G x y -> exists k,
    (k = 0 \/ exists z, z < size G /\ modifies (L z) = true /\ S (mo G z) = k /\ wr G z = 0%N) /\
    (forall a, a < size G -> is_add (L a) = true -> happens_before G a x -> mo G a < k) /\
    (forall d, d < size G -> is_done (L d) = true -> mo G d < k -> happens_before G d y).
  Proof.
    intros (i & Lx & [(-> & Hx & V)|(p & e & q & H & Ly)]).
    - exists (seen G x). split; [|split].
      + unfold seen, rd in *. destruct (rf G x) as [w|] eqn:E; [right; exists w|now left]. destruct (c_rf _ C x w Hx) as [A1 A2]; auto. now rewrite Lx.
      + intros a Ha Aa Hh. apply (c_wr _ C a x); auto; [unfold modifies; now rewrite Aa|now rewrite Lx].
      + intros d Hd Dd Hk. apply done_hb; auto. now rewrite Lx, orb_true_r.
    - destruct (local i p x (e :: y :: q) H) as (c & c' & H1 & H2 & H3). rewrite Lx in H2. destruct c; try discriminate. cbn in H2, H3.
      assert (Le : is_enq (L e) = true).
      { injection H2 as <-. destruct (rd G x =? 0)%N; [exfalso|destruct (L e); auto; congruence].
        destruct (lstep Idle (L e) (rd G e)) as [c2|] eqn:E2; [|congruence]. rewrite Ly in H3. assert (c2 <> Waiting) by (destruct (L e); cbn in E2; try discriminate; try (injection E2 as <-; try destruct (_ =? _)%N; discriminate)). destruct c2; cbn in H3; congruence. }
      assert (Ae : actor (L e) = i) by (apply po_size; rewrite H; apply in_or_app; right; right; now left).
      assert (Hy : y < size G) by (apply (po_size i); rewrite H; apply in_or_app; right; right; right; now left).
      assert (F : from G (by_ G y) = e) by (apply (own_handle i (S (length (p ++ [x]))) (p ++ [x]) e y q); auto; now rewrite H, <- app_assoc).
      destruct (c_by _ C y i Hy Ly) as (B1 & B2 & B3). set (d := by_ G y) in *.
      assert (Hxe : happens_before G x e) by (apply (po_hb i p x [] e (y :: q)); exact H).
      assert (Hed : happens_before G e d) by (rewrite <- F; now apply from_hb).
      assert (Hdy : happens_before G d y) by (eapply by_hb; eauto).
      set (j := actor (L d)). assert (Id : In d (po G j)) by (apply (c_po _ C); auto). destruct (in_split _ _ Id) as (r1 & r2 & Hr).
      destruct (local j r1 d r2 Hr) as (c1 & c2 & D1 & D2 & _). destruct (L d) as [| | | | |j'| |] eqn:Ld; try discriminate. destruct c1; try discriminate.
      destruct (drains j r1 Draining D1) as (p1 & z & l & n & E1 & Z1 & Z2 & Z3); auto; [intros u Hu; rewrite Hr; apply in_or_app; now left|].
      assert (Hz : z < size G) by (apply (po_size j); rewrite Hr, E1, <- app_assoc; cbn; apply in_elt).
      pose proof (p_done _ P z j n Hz Z1) as Pn. rewrite Z2 in Pn. assert (n = 1%N) as -> by lia.
      assert (Hr' : po G j = p1 ++ z :: l ++ d :: r2) by (rewrite Hr, E1, <- app_assoc; reflexivity).
      assert (Hzd : happens_before G z d) by (exact (po_hb j p1 z l d r2 Hr')).
      exists (S (mo G z)). split; [|split].
      + right. exists z. split; auto. split; [now rewrite Z1|]. split; auto. rewrite (c_done _ C z j 1%N Hz Z1), Z2. reflexivity.
      + intros a Ha Aa Hh. destruct (p_add _ P a z Ha Hz Aa) as [X|(u & X1 & X2)]; [now rewrite Z1|exact Z2|lia|exfalso].
        assert (Hdu : happens_before G d u) by (eapply (before_return j p1 z l d r2 u); eauto; now rewrite Ld).
        apply (c_acyclic _ C d). eapply path_trans; [exact Hdu|]. eapply path_trans; [exact X2|]. eapply path_trans; [exact Hh|]. eapply path_trans; eauto.
      + intros d' Hd' Dd' Hk. assert (Hzy : happens_before G z y) by (eapply path_trans; eauto).
        destruct (Nat.eq_dec d' z) as [->|N]; auto. eapply path_trans; [|exact Hzy]. apply done_hb; auto; [now rewrite Z1|].
        assert (Mz : modifies (L z) = true) by now rewrite Z1. assert (Md : modifies (L d') = true) by (unfold modifies; now rewrite Dd', orb_true_r).
        destruct (c_rmw _ C z Hz Mz) as [_ Im]. specialize (Im d' Hd' Md).
        assert (mo G d' <> mo G z) by (intros X; apply N, (c_mo _ C); auto). lia.
  Qed.
  (** no modification follows a zero after the last add() *)
  Lemma nothing_after k : (k = 0 \/ exists z, z < size G /\ modifies (L z) = true /\ S (mo G z) = k /\ wr G z = 0%N) -> (forall a, a < size G -> is_add (L a) = true -> mo G a < k) ->
    forall m d, d < size G -> modifies (L d) = true -> mo G d < m -> mo G d < k.
  Proof.
    intros Hk Ha. induction m as [|m IH]; intros d Hd Md Hm; [lia|]. destruct (Nat.lt_ge_cases (mo G d) k) as [X|X]; [exact X|exfalso].
    (* earlier modifications come before k, so this one reads the zero *)
    assert (Ear : forall w, w < size G -> modifies (L w) = true -> mo G w < mo G d -> mo G w < k) by (intros w Hw Mw Lt; apply IH; auto; lia).
    destruct (c_rmw _ C d Hd Md) as [S1 S2].
    assert (R : rd G d = 0%N).
    { unfold rd. unfold seen in *. destruct (rf G d) as [w|] eqn:Er; auto.
      destruct (c_rf _ C d w Hd) as [W1 W2]; auto; [now rewrite Md|]. specialize (Ear w W1 W2 ltac:(lia)). destruct Hk as [->|(z & Z1 & Z2 & Z3 & Z4)]; [lia|].
      assert (w = z); [|now subst]. apply (c_mo _ C); auto. specialize (S2 z Z1 Z2). lia. }
    unfold modifies in Md. destruct (L d) as [j n|j n| | | | | |] eqn:Ld; try discriminate.
    - specialize (Ha d Hd). rewrite Ld in Ha. specialize (Ha eq_refl). lia.
    - pose proof (p_done _ P d j n Hd Ld). lia.
  Qed.
End Graph.

(** C152: when a co_await of wait() completes, the counter had come down to zero at some modification (or has its initial value) after all the add()s that happen before the wait, and every done() up to there happens before the completion. *)
Theorem C152_join_visibility : forall G x y, consistent G -> proper G -> completes G x y -> exists k,
  (k = 0 \/ exists z, z < size G /\ modifies (lab G z) = true /\ S (mo G z) = k /\ wr G z = 0%N) /\
  (forall a, a < size G -> is_add (lab G a) = true -> happens_before G a x -> mo G a < k) /\
  (forall d, d < size G -> is_done (lab G d) = true -> mo G d < k -> happens_before G d y).
Proof. intros G x y C P H. exact (visibility G C P x y H). Qed.
Print Assumptions C152_join_visibility.

(** C152, as it is mostly used: if all add()s happen before the wait begins, then every done() happens before the wait completes. *)
Theorem C152_join : forall G x y, consistent G -> proper G -> completes G x y -> (forall a, a < size G -> is_add (lab G a) = true -> happens_before G a x) ->
  forall d, d < size G -> is_done (lab G d) = true -> happens_before G d y.
Proof.
  intros G x y C P H Ha d Hd Dd. destruct (visibility G C P x y H) as (k & K1 & K2 & K3). apply K3; auto.
  apply (nothing_after G C P k K1 (fun a H1 H2 => K2 a H1 H2 (Ha a H1 H2)) (S (mo G d)) d Hd); auto. unfold modifies. now rewrite Dd, orb_true_r.
Qed.
Print Assumptions C152_join.

(** ** a non-trivial case: the parent 0 adds 2 and starts 1 and 2; it reads the counter before (in happens-before, not in this numbering) either is done, and is suspended; 2 finishes last and wakes it up *)
Definition joined : execution :=
  {| size := 12;
     lab := fun x => nth x [AAdd 0 2; AOther 0; AOther 1; AOther 2; ADone 1 1; AReady 0; AEnq 0; ADone 2 1; ADeq 2; ANone 2; AResume 0; AOther 0] (AOther 9);
     po := fun i => match i with 0 => [0; 1; 5; 6; 10; 11] | 1 => [2; 4] | 2 => [3; 7; 8; 9] | _ => [] end;
     mo := fun x => x;
     rf := fun x => match x with 4 | 5 => Some 0 | 7 => Some 4 | _ => None end;
     wr := fun x => match x with 0 => 2%N | 4 => 1%N | _ => 0%N end;
     from := fun _ => 6; by_ := fun _ => 8;
     other := fun x y => match x, y with 1, 2 | 1, 3 => true | _, _ => false end |}.
(** happens-before, computed *)
Fixpoint close (n : nat) (l : list nat) : list nat :=
  match n with O => l | S n => close n (filter (fun u => existsb (fun v => (v =? u) || edge joined v u) l) (seq 0 12)) end.
Definition after (x : nat) : list nat := close 8 (filter (edge joined x) (seq 0 12)).
Definition table : list (list nat) := Eval vm_compute in map after (seq 0 12).
Definition R (x y : nat) : bool := existsb (Nat.eqb y) (nth x table []).
Lemma edge_12 u v : edge joined u v = true -> u < 12 /\ v < 12.
Proof. intros H. unfold edge in H. rewrite !andb_true_iff, !Nat.ltb_lt in H. cbn [size joined] in H. tauto. Qed.
Lemma joined_hb x y : happens_before joined x y -> x < 12 /\ y < 12 /\ R x y = true.
Proof.
  assert (E1 : forallb (fun u => forallb (fun v => negb (edge joined u v) || R u v) (seq 0 12)) (seq 0 12) = true) by (vm_compute; reflexivity).
  assert (E2 : forallb (fun x => forallb (fun u => forallb (fun v => negb (R x u && edge joined u v) || R x v) (seq 0 12)) (seq 0 12)) (seq 0 12) = true) by (vm_compute; reflexivity).
  intros H. induction H as [x y H|x y z _ (IH1 & IH2 & IH3) H]; pose proof (edge_12 _ _ H) as [B1 B2].
  - split; auto. split; auto. rewrite forallb_forall in E1. specialize (E1 x ltac:(apply in_seq; lia)). rewrite forallb_forall in E1. specialize (E1 y ltac:(apply in_seq; lia)). now rewrite H in E1.
  - split; auto. split; auto. rewrite forallb_forall in E2. specialize (E2 x ltac:(apply in_seq; lia)). rewrite forallb_forall in E2. specialize (E2 y ltac:(apply in_seq; lia)). rewrite forallb_forall in E2. specialize (E2 z ltac:(apply in_seq; lia)). now rewrite IH3, H in E2.
Qed.
Ltac upto n x := lazymatch n with O => idtac | S ?m => destruct x as [|x]; [|upto m x] end.
Ltac coh x y := let H := fresh in let A := fresh in let B := fresh in intros A B H; apply joined_hb in H; destruct H as (? & ? & H); upto 12 x; try lia; cbn in A; try discriminate; upto 12 y; try lia; cbn in B; try discriminate; cbn; try lia; cbn in H; discriminate.
Lemma joined_consistent : consistent joined.
Proof.
  split.
  - intros i x. split.
    + destruct i as [|[|[|i]]]; cbn [In joined po]; [| | |intros []]; intros H; repeat (destruct H as [<-|H]; [split; [cbn; lia|reflexivity]|]); destruct H.
    + intros [Hx Hi]. cbn in Hx. upto 12 x; try lia; cbn in Hi; subst i; cbn; tauto.
  - intros [|[|[|i]]]; cbn; repeat constructor; cbn; intuition discriminate.
  - intros [|[|[|i]]]; vm_compute; discriminate.
  - auto.
  - intros x y Hx Mx. cbn in Hx. upto 12 x; try lia; cbn in *; try discriminate; intros [= <-]; cbn; split; auto; lia.
  - intros x Hx Mx. cbn in Hx. upto 12 x; try lia; cbn in Mx; try discriminate; cbn; (split; [lia|]); intros z Hz Mz; upto 12 z; cbn in *; try discriminate; lia.
  - intros x i n Hx Lx. cbn in Hx. upto 12 x; try lia; cbn in Lx; try discriminate. now injection Lx as <- <-.
  - intros x i n Hx Lx. cbn in Hx. upto 12 x; try lia; cbn in Lx; try discriminate; injection Lx as <- <-; reflexivity.
  - intros x _ _. cbn. split; [lia|reflexivity].
  - intros x y Hx Hy Dx Dy _. cbn in Hx, Hy. upto 12 x; try lia; cbn in Dx; try discriminate; upto 12 y; try lia; cbn in Dy; try discriminate; auto.
  - intros x i Hx Lx. cbn in Hx. upto 12 x; try lia; cbn in Lx; try discriminate. injection Lx as <-. cbn. repeat split; lia.
  - intros x y Hx Hy Dx Dy _. cbn in Hx, Hy. upto 12 x; try lia; cbn in Dx; try discriminate; upto 12 y; try lia; cbn in Dy; try discriminate; auto.
  - intros x H. apply joined_hb in H. destruct H as (H & _ & X). upto 12 x; try lia; vm_compute in X; discriminate.
  - intros x y. coh x y.
  - intros x y. coh x y.
  - intros x y. coh x y.
  - intros x y. coh x y.
Qed.
Lemma joined_proper : proper joined.
Proof.
  split.
  - intros x i n Hx Lx. cbn in Hx. upto 12 x; try lia; cbn in Lx; try discriminate; injection Lx as <- <-; cbn; lia.
  - intros a d Ha Hd Aa Dd _. left. cbn in Ha, Hd. upto 12 a; try lia; cbn in Aa; try discriminate. upto 12 d; try lia; cbn in Dd; try discriminate; cbn; lia.
Qed.
Example C152_case : consistent joined /\ proper joined /\ completes joined 5 10 /\ (forall a, a < size joined -> is_add (lab joined a) = true -> happens_before joined a 5) /\
  ~ happens_before joined 4 5 /\ happens_before joined 4 10 /\ happens_before joined 7 10.
Proof.
  assert (Co : completes joined 5 10) by (exists 0; split; [reflexivity|right; exists [0; 1], 6, [11]; split; reflexivity]).
  assert (Ad : forall a, a < size joined -> is_add (lab joined a) = true -> happens_before joined a 5).
  { intros a Ha Aa. cbn in Ha. upto 12 a; try lia; cbn in Aa; try discriminate. apply path_one. reflexivity. }
  split; [exact joined_consistent|]. split; [exact joined_proper|]. split; [exact Co|]. split; [exact Ad|]. split; [intros H; apply joined_hb in H; destruct H as (_ & _ & H); vm_compute in H; discriminate|].
  split; apply (C152_join joined 5 10 joined_consistent joined_proper Co Ad); cbn; auto; lia.
Qed.
