(** C160: the timers of all workers under the C++ memory model: is their concurrent use free of data races?

    timer.h 56-214, timer.cc 17-140. The registry m_impl_ptrs (one heap of sleepers per worker) is guarded by the shared_mutex m_ptrs_lock, each heap by the shared_mutex m_lk of its object, except in
    quick_stop() (timer.h 107: the heap is cleared without it).
    Environment: std::shared_mutex: an exclusive owner excludes all others; an unlock synchronizes with every later lock of it unless both are shared ([thread.sharedmutex.requirements]).
    operator[] of an unordered_map (timer.h 167, 200): inserts, i.e. writes, if the key is missing; if the key is there it only reads in libstdc++, but counts as a modification in the standard
    ([container.requirements.dataraces]); [strict] chooses the reading.
    Simplifications: the contents of the heaps are not modelled (that is C11, C12); a call of do_occured_nonblk() that finds nothing expired is one that writes all the same, after the same read; what the
    tests of the stop token decide is left out: every call may do its accesses. *)
From Coq Require Import List Arith Bool Lia.
From Verif.Common Require Import TS.
From Verif.Weak Require Import HB.
Import ListNotations.
#[local] Arguments upd : simpl never.

(** ** the operations on memory *)
Inductive lock := Registry | OfHeap (w : nat).      (* m_ptrs_lock: timer.h 213; m_lk of the object of worker w: timer.h 123 *)
Inductive loc := Map | Heap (w : nat).              (* m_impl_ptrs: timer.h 209-212; m_timer_heap of the object of worker w: timer.h 122 *)
Inductive op :=
| Lock (t : nat) (k : lock) (exclusive : bool)
| Unlock (t : nat) (k : lock) (exclusive : bool)
| Access (t : nat) (x : loc) (write : bool).
(** the thread that executes an operation; specification, no counterpart in /repo *)
Definition who (o : op) : nat := match o with Lock t _ _ | Unlock t _ _ | Access t _ _ => t end.
(** synchronizes-with of std::shared_mutex; environment, not code of /repo *)
Definition sw (h : list op) (m n : nat) : Prop :=
  m < n /\ exists t u k a b, nth_error h m = Some (Unlock t k a) /\ nth_error h n = Some (Lock u k b) /\ (a = true \/ b = true).
(** specification, no counterpart in /repo *)
Definition happens_before := hb who sw.
(** two accesses by different threads to the same place, not both reads; specification *)
Definition conflict (a b : op) : Prop :=
  match a, b with Access t x w, Access u y v => t <> u /\ x = y /\ (w = true \/ v = true) | _, _ => False end.

(** ** the program *)
Inductive instr :=
| ILock (k : lock) (exclusive : bool) | IUnlock (k : lock) (exclusive : bool)
| IFind                          (* m_impl_ptrs[id] of the thread itself: timer.h 167, 200 *)
| IInsert                        (* m_impl_ptrs.insert(...): timer.h 179 *)
| IHeap (w : nat) (write : bool)
| IAllRead                       (* the loops of done() and print_status(): timer.cc 113-117, 136-139 *)
| IAllClear.                     (* the loop of quick_stop(): timer.cc 103-106 *)
(* what can be called *)
Inductive call :=
| Prepare            (* thread_specific_preparation(): timer.h 176-185 *)
| AddEvent           (* timer.h 146-159, timer.cc 73-83; in a thread that is no worker as well *)
| Poll               (* do_occured_nonblk(): timer.h 139-143, timer.cc 17-59 *)
| MaxSleep           (* max_sleep_duration(): timer.h 161-168, 94-100 *)
| Look               (* done(), empty(), print_status(): timer.cc 110-125, 133-140 *)
| QuickStop.         (* timer.cc 99-108 *)
(* the accesses of thread t in each call, in order; a thread without an object ends in undefined behaviour after IFind (C68): timer.h 56-214, timer.cc 17-140 *)
Definition code (known : bool) (t : nat) (c : call) : list instr :=
  match c with
  | Prepare => [ILock Registry true; IInsert; IUnlock Registry true]
  | AddEvent => if known
      then [ILock Registry false; IFind; ILock (OfHeap t) true; IHeap t true; IUnlock (OfHeap t) true; IUnlock Registry false]
      else [ILock Registry false; IFind; IUnlock Registry false]
  | Poll => [ILock Registry false; IFind; ILock (OfHeap t) false; IHeap t false; IUnlock (OfHeap t) false; ILock (OfHeap t) true; IHeap t true; IUnlock (OfHeap t) true; IUnlock Registry false]
  | MaxSleep => [ILock Registry false; IFind; ILock (OfHeap t) false; IHeap t false; IUnlock (OfHeap t) false; IUnlock Registry false]
  | Look => [ILock Registry false; IAllRead; IUnlock Registry false]
  | QuickStop => [ILock Registry true; IAllClear; IUnlock Registry true]
  end.
(* m_impl_ptrs, and what each thread holds and has still to do *)
Record state := St { reg : list nat; hold : nat -> list (lock * bool); todo : nat -> list instr }.
(* an empty registry: timer.h 137 *)
Definition init : state := St [] (fun _ => []) (fun _ => []).
Inductive event := Call (t : nat) (c : call) | Go (t : nat).
(* equality of locks; no counterpart in /repo *)
Definition same (a b : lock) : bool := match a, b with Registry, Registry => true | OfHeap v, OfHeap w => v =? w | _, _ => false end.
(* std::shared_mutex: whether [t] may lock k; environment *)
Definition allowed (n : nat) (s : state) (t : nat) (k : lock) (exclusive : bool) : bool :=
  forallb (fun u => (u =? t) || forallb (fun e => negb (same (fst e) k) || (negb exclusive && negb (snd e))) (hold s u)) (seq 0 n).
(* bookkeeping of the model, no counterpart in /repo *)
Definition is_known (s : state) (t : nat) : bool := existsb (Nat.eqb t) (reg s).
(* the loop over the registry, done() and print_status(): timer.cc 113-117, 136-139 *)
Definition read_all (l : list nat) : list instr := flat_map (fun w => [ILock (OfHeap w) false; IHeap w false; IUnlock (OfHeap w) false]) l.
(* the loop over the registry in quick_stop(): timer.cc 103-106, timer.h 107 *)
Definition clear_all (l : list nat) : list instr := map (fun w => IHeap w true) l.

Section P.
Variable n : nat.          (* number of threads *)
Variable strict : bool.    (* operator[] counts as a modification even if the key is there *)
(* what each step does: timer.h 56-214, timer.cc 17-140. Only workers, i.e. threads that were prepared, call Poll and MaxSleep (event loop) *)
Definition step (s : state) (e : event) : option state :=
  match e with
  | Call t c =>
      if t <? n then
        match todo s t with
        | [] => if match c with Prepare => negb (is_known s t) | Poll | MaxSleep => is_known s t | _ => true end
                then Some (St (reg s) (hold s) (upd (todo s) t (code (is_known s t) t c))) else None
        | _ => None
        end
      else None
  | Go t =>
      match todo s t with
      | ILock k x :: p => if allowed n s t k x then Some (St (reg s) (upd (hold s) t ((k, x) :: hold s t)) (upd (todo s) t p)) else None
      | IUnlock k x :: p => Some (St (reg s) (upd (hold s) t (filter (fun e => negb (same (fst e) k)) (hold s t))) (upd (todo s) t p))
      | IInsert :: p => Some (St (t :: reg s) (hold s) (upd (todo s) t p))
      | IFind :: p => Some (St (reg s) (hold s) (upd (todo s) t p))
      | IHeap _ _ :: p => Some (St (reg s) (hold s) (upd (todo s) t p))
      | IAllRead :: p => Some (St (reg s) (hold s) (upd (todo s) t (read_all (reg s) ++ p)))
      | IAllClear :: p => Some (St (reg s) (hold s) (upd (todo s) t (clear_all (reg s) ++ p)))
      | [] => None
      end
  end.
(* the memory operations of each step: timer.h 56-214, timer.cc 17-140 *)
Definition ops (s : state) (e : event) (_ : state) : list op :=
  match e with
  | Call _ _ => []
  | Go t => match todo s t with
            | ILock k x :: _ => [Lock t k x]
            | IUnlock k x :: _ => [Unlock t k x]
            | IInsert :: _ => [Access t Map true]
            | IFind :: _ => [Access t Map (strict || negb (is_known s t))]
            | IHeap w x :: _ => [Access t (Heap w) x]
            | IAllRead :: _ | IAllClear :: _ => [Access t Map false]
            | [] => []
            end
  end.
(** specification, no counterpart in /repo *)
Definition history (l : list event) : list op := trace step ops init l.

(** ** proof: critical sections of a shared_mutex are ordered *)
Lemma sw_lt h m k : sw h m k -> m < k /\ k < length h.
Proof. intros (H & t & u & x & a & b & _ & B & _). split; [exact H|apply nth_error_Some; congruence]. Qed.
Lemma sw_ext h x m k : sw h m k -> sw (h ++ x) m k.
Proof. intros (H & t & u & y & a & b & A & B & C). split; [exact H|]. exists t, u, y, a, b. repeat split; auto using nth_ext. Qed.
(** thread [t] holds [k] at the end of [h] *)
Definition holds (h : list op) (t : nat) (k : lock) (x : bool) : Prop :=
  exists a, nth_error h a = Some (Lock t k x) /\ forall b y, a < b -> nth_error h b <> Some (Unlock t k y).
Lemma nth_new {A} (t : list A) o k x : nth_error (t ++ [o]) k = Some x -> nth_error t k = Some x \/ (k = length t /\ x = o).
Proof.
  intros H. destruct (Nat.lt_ge_cases k (length t)) as [L|L]; [left; now rewrite nth_error_app1 in H by exact L|].
  rewrite nth_error_app2 in H by exact L. destruct (k - length t) as [|z] eqn:E; cbn in H; [injection H as <-; right; split; [lia|reflexivity]|destruct z; discriminate].
Qed.
Lemma holds_snoc h o t k x : holds (h ++ [o]) t k x <-> o = Lock t k x \/ (holds h t k x /\ forall y, o <> Unlock t k y).
Proof.
  split.
  - intros (a & A & B). apply nth_new in A as [A|[-> A]]; [|now left]. right.
    assert (L : a < length h) by (apply nth_error_Some; congruence). split.
    + exists a. split; [exact A|]. intros b y Hb C. apply (B b y Hb). now apply nth_ext.
    + intros y ->. apply (B (length h) y L). apply nth_snoc.
  - intros [->|[(a & A & B) C]].
    + exists (length h). split; [apply nth_snoc|]. intros b y Hb D. assert (b < length (h ++ [Lock t k x])) by (apply nth_error_Some; congruence). rewrite app_length in H. cbn in H. lia.
    + exists a. split; [now apply nth_ext|]. intros b y Hb D. apply nth_new in D as [D|[_ D]]; [now apply (B b y Hb)|now apply (C y)].
Qed.
Lemma firstn_S {A} (h : list A) i x : nth_error h i = Some x -> firstn (S i) h = firstn i h ++ [x].
Proof. revert h; induction i as [|i IH]; intros [|y h] H; try discriminate; cbn in *; [congruence|]. now rewrite (IH h). Qed.
(** what std::shared_mutex guarantees about a history *)
Record legal (h : list op) : Prop := {
  l_excl : forall a u k x, nth_error h a = Some (Lock u k x) -> forall t y, t <> u -> holds (firstn a h) t k y -> x = false /\ y = false;
  l_mode : forall a t k x, nth_error h a = Some (Unlock t k x) -> forall y, holds (firstn a h) t k y -> y = x }.
Lemma released h t k x i : holds (firstn i h) t k x -> forall d, i + d <= length h ->
  holds (firstn (i + d) h) t k x \/ exists r y, i <= r < i + d /\ nth_error h r = Some (Unlock t k y) /\ holds (firstn r h) t k x.
Proof.
  intros H. induction d as [|d IH]; intros L; [left; now rewrite Nat.add_0_r|].
  destruct IH as [IH|(r & y & A & B)]; [lia| |right; exists r, y; split; [lia|exact B]].
  destruct (nth_error h (i + d)) as [o|] eqn:E; [|apply nth_error_None in E; lia].
  replace (i + S d) with (S (i + d)) by lia. rewrite (firstn_S _ _ _ E).
  assert (D : (exists y, o = Unlock t k y) \/ forall y, o <> Unlock t k y).
  { destruct o as [v k' z|v k' z|v z w]; try (right; intros; discriminate). destruct (Nat.eq_dec v t) as [->|N]; [|right; intros y C; congruence].
    assert ({k' = k} + {k' <> k}) as [->|N] by (decide equality; apply Nat.eq_dec); [left; now exists z|right; intros y C; congruence]. }
  destruct D as [(y & ->)|D]; [right; exists (i + d), y; repeat split; auto; lia|]. left. apply holds_snoc. auto.
Qed.
Lemma no_two h i t u k x y : legal h -> i <= length h -> t <> u -> holds (firstn i h) t k x -> holds (firstn i h) u k y -> x = false /\ y = false.
Proof.
  intros HL Li N Ht Hu. induction i as [|i IH]; [destruct Ht as (a & A & _); destruct a; discriminate|].
  destruct (nth_error h i) as [o|] eqn:E; [|apply nth_error_None in E; lia].
  rewrite (firstn_S _ _ _ E) in Ht, Hu. apply holds_snoc in Ht, Hu.
  destruct Ht as [Ht|[Ht _]], Hu as [Hu|[Hu _]].
  - congruence.
  - subst o. apply (l_excl _ HL i t k x E u y); auto.
  - subst o. apply and_comm. apply (l_excl _ HL i u k y E t x); auto.
  - apply IH; auto. lia.
Qed.
Lemma ordered h i j t u k x y oi oj : legal h -> nth_error h i = Some oi -> nth_error h j = Some oj -> who oi = t -> who oj = u -> t <> u -> i < j ->
  (forall z, oi <> Unlock t k z) -> holds (firstn i h) t k x -> holds (firstn j h) u k y -> x = true \/ y = true -> hb who sw h i j.
Proof.
  intros HL Hi Hj Wi Wj N Lij NU Ht Hu M.
  assert (Lj : j < length h) by (apply nth_error_Some; congruence).
  destruct Hu as (a & A & B).
  assert (La : a < j). { assert (a < length (firstn j h)) by (apply nth_error_Some; congruence). rewrite firstn_length in H. lia. }
  assert (A' : nth_error h a = Some (Lock u k y)). { rewrite <- (firstn_skipn j h), nth_error_app1; [exact A|]. rewrite firstn_length. lia. }
  assert (F : forall b z, a < b < j -> nth_error h b <> Some (Unlock u k z)).
  { intros b z [L1 L2] C. apply (B b z L1). rewrite <- (firstn_skipn j h), nth_error_app1 in C; [exact C|]. rewrite firstn_length. lia. }
  destruct (Nat.lt_trichotomy a i) as [L|[->|L]].
  - exfalso. assert (Hu : holds (firstn i h) u k y).
    { exists a. split.
      - rewrite <- (firstn_skipn i h), nth_error_app1 in A'; [exact A'|]. rewrite firstn_length. lia.
      - intros b z Hb C. assert (b < length (firstn i h)) by (apply nth_error_Some; congruence). rewrite firstn_length in H. apply (F b z); [lia|].
        rewrite <- (firstn_skipn i h), nth_error_app1; [exact C|]. rewrite firstn_length. lia. }
    destruct (no_two h i t u k x y HL) as [-> ->]; auto; [lia|]. destruct M; discriminate.
  - exfalso. rewrite A' in Hi. injection Hi as <-. cbn in Wi. congruence.
  - destruct (released h t k x i Ht (a - i)) as [R|(r & z & Lr & R & R')]; [lia| |].
    + exfalso. replace (i + (a - i)) with a in R by lia. destruct (l_excl _ HL a u k y A' t x N R) as [-> ->]. destruct M; discriminate.
    + pose proof (l_mode _ HL r t k z R x R') as <-. assert (r <> i) by (intros ->; rewrite R in Hi; injection Hi as <-; now apply (NU x)).
      eapply hb_trans; [eapply hb_po; [|exact Hi|exact R|]; [lia|exact Wi]|].
      eapply hb_trans; [apply hb_sw|eapply hb_po; [exact La|exact A'|exact Hj|now rewrite Wj]].
      split; [lia|]. exists t, u, k, x, y. auto.
Qed.

(** ** proof: the code keeps to the discipline *)
Definition covered (held : lock -> bool -> Prop) (x : loc) (w : bool) : Prop :=
  match x with
  | Map => held Registry true \/ (w = false /\ held Registry false)
  | Heap v => held Registry true \/ (held Registry false /\ (held (OfHeap v) true \/ (w = false /\ held (OfHeap v) false)))
  end.
Fixpoint okp (h : list (lock * bool)) (p : list instr) : Prop :=
  match p with
  | [] => h = []
  | ILock k x :: p => (forall y, ~ In (k, y) h) /\ okp ((k, x) :: h) p
  | IUnlock k x :: p => In (k, x) h /\ okp (filter (fun e => negb (same (fst e) k)) h) p
  | IFind :: p => (In (Registry, true) h \/ In (Registry, false) h) /\ okp h p
  | IInsert :: p => In (Registry, true) h /\ okp h p
  | IHeap w x :: p => covered (fun k y => In (k, y) h) (Heap w) x /\ okp h p
  | IAllRead :: p => (In (Registry, true) h \/ In (Registry, false) h) /\ (forall w y, ~ In (OfHeap w, y) h) /\ okp h p
  | IAllClear :: p => In (Registry, true) h /\ okp h p
  end.
Lemma same_refl k : same k k = true.
Proof. destruct k; cbn; auto using Nat.eqb_refl. Qed.
Lemma same_eq a b : same a b = true <-> a = b.
Proof. destruct a, b; cbn; split; try discriminate; auto; [intros H; apply Nat.eqb_eq in H; congruence|intros [= ->]; apply Nat.eqb_refl]. Qed.
Lemma okp_code b t c : okp [] (code b t c).
Proof.
  destruct c; [|destruct b|..]; cbn -[Nat.eqb]; rewrite ?Nat.eqb_refl; cbn -[Nat.eqb]; rewrite ?Nat.eqb_refl; cbn -[Nat.eqb];
    repeat split; auto; try tauto; try (intros; intuition discriminate); try (intros y [H|[]]; discriminate); intros; intuition congruence.
Qed.
Lemma okp_read_all h p : (In (Registry, true) h \/ In (Registry, false) h) -> (forall w y, ~ In (OfHeap w, y) h) -> okp h p -> forall l, okp h (read_all l ++ p).
Proof.
  intros HR HN Hp. induction l as [|w l IH]; [exact Hp|]. unfold read_all. cbn [flat_map app]. cbn [okp]. split; [intros y; apply HN|]. split.
  - cbn [covered]. destruct HR as [HR|HR]; [left; now right|right; split; [now right|]]. right. split; [reflexivity|now left].
  - split; [now left|]. cbn [filter fst]. rewrite same_refl. cbn [negb].
    assert (E : filter (fun e => negb (same (fst e) (OfHeap w))) h = h).
    { clear - HN. induction h as [|[k y] h IH]; [reflexivity|]. cbn [filter fst]. destruct (same k (OfHeap w)) eqn:E; [apply same_eq in E as ->; exfalso; apply (HN w y); now left|].
      cbn [negb]. f_equal. apply IH. intros v z H. apply (HN v z). now right. }
    rewrite E. exact IH.
Qed.
Lemma okp_clear_all h p : In (Registry, true) h -> okp h p -> forall l, okp h (clear_all l ++ p).
Proof. intros HR Hp. induction l as [|w l IH]; [exact Hp|]. cbn. split; [now left|exact IH]. Qed.
(** every thread that looks itself up is prepared *)
Fixpoint finds (p : list instr) : bool := match p with [] => false | IFind :: _ => true | _ :: p => finds p end.
Lemma finds_app p q : finds (p ++ q) = finds p || finds q.
Proof. induction p as [|i p IH]; [reflexivity|]. cbn. destruct i; auto. Qed.
Lemma finds_read_all l : finds (read_all l) = false.
Proof. induction l as [|w l IH]; [reflexivity|exact IH]. Qed.
Lemma finds_clear_all l : finds (clear_all l) = false.
Proof. induction l as [|w l IH]; [reflexivity|exact IH]. Qed.
(** the hypothesis on the calls: threads without an object of their own do not call add_event(); specification *)
Definition workers_only (s : state) (e : event) : Prop := match e with Call t AddEvent => is_known s t = true | _ => True end.

Record J (s : state) (h : list op) : Prop := {
  j_hold : forall t k x, In (k, x) (hold s t) <-> holds h t k x;
  j_ok : forall t, okp (hold s t) (todo s t);
  j_one : forall t k x y, In (k, x) (hold s t) -> In (k, y) (hold s t) -> x = y;
  j_n : forall t, n <= t -> hold s t = [] /\ todo s t = [];
  j_find : forall t, finds (todo s t) = true -> is_known s t = true;
  j_legal : legal h;
  j_cov : forall i t x w, nth_error h i = Some (Access t x w) -> covered (holds (firstn i h) t) x w }.
Lemma J_init : J init [].
Proof.
  split.
  - intros t k x. split; [intros []|intros (a & A & _); destruct a; discriminate].
  - reflexivity.
  - intros t k x y [].
  - split; reflexivity.
  - discriminate.
  - split; intros [|a]; discriminate.
  - intros [|i]; discriminate.
Qed.
Lemma legal_snoc h o : legal h -> (forall u k x, o = Lock u k x -> forall t y, t <> u -> holds h t k y -> x = false /\ y = false) ->
  (forall t k x, o = Unlock t k x -> forall y, holds h t k y -> y = x) -> legal (h ++ [o]).
Proof.
  intros [H1 H2] A B. split.
  - intros a u k x E. apply nth_new in E as [E|[-> E]].
    + assert (L : a < length h) by (apply nth_error_Some; congruence). rewrite firstn_app. replace (a - length h) with 0 by lia. rewrite app_nil_r. eauto.
    + rewrite firstn_app, firstn_all, Nat.sub_diag, app_nil_r. apply A. congruence.
  - intros a t k x E. apply nth_new in E as [E|[-> E]].
    + assert (L : a < length h) by (apply nth_error_Some; congruence). rewrite firstn_app. replace (a - length h) with 0 by lia. rewrite app_nil_r. eauto.
    + rewrite firstn_app, firstn_all, Nat.sub_diag, app_nil_r. apply B. congruence.
Qed.
Lemma cov_snoc h o : (forall i t x w, nth_error h i = Some (Access t x w) -> covered (holds (firstn i h) t) x w) ->
  (forall t x w, o = Access t x w -> covered (holds h t) x w) -> forall i t x w, nth_error (h ++ [o]) i = Some (Access t x w) -> covered (holds (firstn i (h ++ [o])) t) x w.
Proof.
  intros H A i t x w E. apply nth_new in E as [E|[-> E]].
  - assert (L : i < length h) by (apply nth_error_Some; congruence). rewrite firstn_app. replace (i - length h) with 0 by lia. rewrite app_nil_r. eauto.
  - rewrite firstn_app, firstn_all, Nat.sub_diag, app_nil_r. apply A. congruence.
Qed.
Lemma covered_impl (a b : lock -> bool -> Prop) x w : (forall k y, a k y -> b k y) -> covered a x w -> covered b x w.
Proof. intros H. destruct x; cbn; intuition auto. Qed.
(** a step of thread [t] that only accesses *)
Lemma J_access s h t x w s' : J s h -> hold s' = hold s -> (forall u, u <> t -> todo s' u = todo s u) -> (forall u, is_known s u = true -> is_known s' u = true) ->
  okp (hold s t) (todo s' t) -> t < n -> (finds (todo s' t) = true -> is_known s t = true) -> covered (fun k y => In (k, y) (hold s t)) x w -> J s' (h ++ [Access t x w]).
Proof.
  intros H Eh Et Ek Ho Lt Hf Hc. split.
  - intros u k y. rewrite Eh, (j_hold _ _ H), holds_snoc. split; [intros B; right; split; [exact B|discriminate]|intros [B|[B _]]; [discriminate|exact B]].
  - intros u. rewrite Eh. destruct (Nat.eq_dec u t) as [->|N]; [exact Ho|]. rewrite Et by exact N. apply (j_ok _ _ H).
  - intros u. rewrite Eh. apply (j_one _ _ H).
  - intros u Lu. rewrite Eh, Et by lia. now apply (j_n _ _ H).
  - intros u. destruct (Nat.eq_dec u t) as [->|N]; [auto|]. rewrite Et by exact N. intros B. apply Ek. now apply (j_find _ _ H).
  - apply legal_snoc; [apply (j_legal _ _ H)|discriminate|discriminate].
  - apply cov_snoc; [apply (j_cov _ _ H)|]. intros u z v [= <- <- <-]. eapply covered_impl; [|exact Hc]. intros k y. apply (j_hold _ _ H).
Qed.
Lemma allowed_spec s t k x u y : allowed n s t k x = true -> u < n -> u <> t -> In (k, y) (hold s u) -> x = false /\ y = false.
Proof.
  unfold allowed. intros H Lu N Hin. rewrite forallb_forall in H. specialize (H u). rewrite in_seq in H. specialize (H ltac:(lia)).
  apply orb_true_iff in H as [H|H]; [apply Nat.eqb_eq in H; contradiction|]. rewrite forallb_forall in H. specialize (H _ Hin). cbn in H. rewrite same_refl in H. cbn in H.
  destruct x, y; try discriminate; auto.
Qed.
Lemma J_step s e s' h : strict = false -> J s h -> workers_only s e -> step s e = Some s' -> J s' (h ++ ops s e s').
Proof.
  intros Es H HW Hs. destruct e as [t c|t]; cbn [step ops] in *.
  - rewrite app_nil_r. destruct (Nat.ltb_spec t n) as [Lt|]; [|discriminate]. destruct (todo s t) eqn:Et; [|discriminate].
    match type of Hs with (if ?b then _ else _) = _ => destruct b eqn:Eb end; [|discriminate]. injection Hs as <-.
    pose proof (j_ok _ _ H t) as Hz. rewrite Et in Hz. cbn in Hz.
    split; cbn [hold todo reg].
    + apply (j_hold _ _ H).
    + intros u. destruct (Nat.eq_dec u t) as [->|N]; [rewrite upd_same, Hz; apply okp_code|rewrite upd_other by exact N; apply (j_ok _ _ H)].
    + apply (j_one _ _ H).
    + intros u Lu. rewrite upd_other by lia. now apply (j_n _ _ H).
    + intros u. change (is_known (St (reg s) (hold s) (upd (todo s) t (code (is_known s t) t c))) u) with (is_known s u).
      destruct (Nat.eq_dec u t) as [->|N]; [rewrite upd_same|rewrite upd_other by exact N; apply (j_find _ _ H)]. destruct c; cbn [code finds] in *; auto; discriminate.
    + apply (j_legal _ _ H).
    + apply (j_cov _ _ H).
  - destruct (todo s t) as [|i p] eqn:Et; [discriminate|].
    assert (Lt : t < n) by (destruct (Nat.lt_ge_cases t n) as [L|L]; [exact L|]; destruct (j_n _ _ H t L) as [_ B]; congruence).
    pose proof (j_ok _ _ H t) as Ho. rewrite Et in Ho. pose proof (j_find _ _ H t) as Hf. rewrite Et in Hf.
    destruct i as [k x|k x| | |w x| |]; cbn [okp finds] in Ho, Hf.
    + (* lock *) destruct (allowed n s t k x) eqn:Ea; [|discriminate]. injection Hs as <-. destruct Ho as [Hn Ho].
      split; cbn [hold todo reg].
      * intros u k' y. rewrite holds_snoc. destruct (Nat.eq_dec u t) as [->|N].
        -- rewrite upd_same. cbn [In]. rewrite (j_hold _ _ H). split; [intros [B|B]; [left; congruence|right; split; [exact B|discriminate]]|intros [B|[B _]]; [left; congruence|now right]].
        -- rewrite upd_other by exact N. rewrite (j_hold _ _ H). split; [intros B; right; split; [exact B|discriminate]|intros [B|[B _]]; [congruence|exact B]].
      * intros u. destruct (Nat.eq_dec u t) as [->|N]; [rewrite !upd_same; exact Ho|rewrite !upd_other by exact N; apply (j_ok _ _ H)].
      * intros u k' y z. destruct (Nat.eq_dec u t) as [->|N]; [|rewrite upd_other by exact N; apply (j_one _ _ H)]. rewrite upd_same. cbn [In]. intros [B|B] [C|C].
        -- congruence.
        -- exfalso. injection B as -> ->. now apply (Hn z).
        -- exfalso. injection C as -> ->. now apply (Hn y).
        -- now apply (j_one _ _ H t k').
      * intros u Lu. rewrite !upd_other by lia. now apply (j_n _ _ H).
      * intros u. change (is_known (St (reg s) (upd (hold s) t ((k, x) :: hold s t)) (upd (todo s) t p)) u) with (is_known s u).
        destruct (Nat.eq_dec u t) as [->|N]; [rewrite upd_same; exact Hf|rewrite upd_other by exact N; apply (j_find _ _ H)].
      * apply legal_snoc; [apply (j_legal _ _ H)| |discriminate]. intros u k' y [= <- <- <-] v z N B. apply (j_hold _ _ H) in B.
        destruct (Nat.lt_ge_cases v n) as [L|L]; [|destruct (j_n _ _ H v L) as [C _]; rewrite C in B; destruct B]. eapply allowed_spec; eauto.
      * apply cov_snoc; [apply (j_cov _ _ H)|discriminate].
    + (* unlock *) injection Hs as <-. destruct Ho as [Hin Ho].
      assert (F : forall k' y, In (k', y) (filter (fun e => negb (same (fst e) k)) (hold s t)) <-> In (k', y) (hold s t) /\ k' <> k).
      { intros k' y. rewrite filter_In. cbn. split; intros [B C]; (split; [exact B|]).
        - intros ->. rewrite same_refl in C. discriminate.
        - destruct (same k' k) eqn:E; [|reflexivity]. apply same_eq in E. contradiction. }
      split; cbn [hold todo reg].
      * intros u k' y. rewrite holds_snoc. destruct (Nat.eq_dec u t) as [->|N].
        -- rewrite upd_same, F, (j_hold _ _ H). split; [intros [B C]; right; split; [exact B|congruence]|intros [B|[B C]]; [discriminate|split; [exact B|]]]. intros ->. now apply (C x).
        -- rewrite upd_other by exact N. rewrite (j_hold _ _ H). split; [intros B; right; split; [exact B|congruence]|intros [B|[B _]]; [discriminate|exact B]].
      * intros u. destruct (Nat.eq_dec u t) as [->|N]; [rewrite !upd_same; exact Ho|rewrite !upd_other by exact N; apply (j_ok _ _ H)].
      * intros u k' y z. destruct (Nat.eq_dec u t) as [->|N]; [|rewrite upd_other by exact N; apply (j_one _ _ H)]. rewrite upd_same, !F. intros [B _] [C _]. now apply (j_one _ _ H t k').
      * intros u Lu. rewrite !upd_other by lia. now apply (j_n _ _ H).
      * intros u. change (is_known (St (reg s) (upd (hold s) t (filter (fun e => negb (same (fst e) k)) (hold s t))) (upd (todo s) t p)) u) with (is_known s u).
        destruct (Nat.eq_dec u t) as [->|N]; [rewrite upd_same; exact Hf|rewrite upd_other by exact N; apply (j_find _ _ H)].
      * apply legal_snoc; [apply (j_legal _ _ H)|discriminate|]. intros u k' y [= <- <- <-] z B. apply (j_hold _ _ H) in B. now apply (j_one _ _ H t k).
      * apply cov_snoc; [apply (j_cov _ _ H)|discriminate].
    + (* find *) injection Hs as <-. destruct Ho as [HR Ho]. rewrite Es. cbn [orb]. rewrite (Hf eq_refl). cbn [negb].
      eapply J_access with (s := s); cbn [hold todo reg]; rewrite ?upd_same; auto; try (intros u N; now rewrite upd_other); destruct HR; cbn; auto.
    + (* insert *) injection Hs as <-. destruct Ho as [HR Ho].
      eapply J_access with (s := s); cbn [hold todo reg]; rewrite ?upd_same; auto; try (intros u N; now rewrite upd_other); cbn; auto.
      intros u B. unfold is_known in *. cbn [reg existsb]. rewrite B. apply orb_true_r.
    + (* heap *) injection Hs as <-. destruct Ho as [HR Ho].
      eapply J_access with (s := s); cbn [hold todo reg]; rewrite ?upd_same; auto; try (intros u N; now rewrite upd_other); cbn; auto.
    + (* all read *) injection Hs as <-. destruct Ho as (HR & HN & Ho).
      eapply J_access with (s := s); cbn [hold todo reg]; rewrite ?upd_same; auto; try (intros u N; now rewrite upd_other); [now apply okp_read_all|rewrite finds_app, finds_read_all; exact Hf|destruct HR; cbn; auto].
    + (* all clear *) injection Hs as <-. destruct Ho as [HR Ho].
      eapply J_access with (s := s); cbn [hold todo reg]; rewrite ?upd_same; auto; try (intros u N; now rewrite upd_other); [now apply okp_clear_all|rewrite finds_app, finds_clear_all; exact Hf|cbn; auto].
Qed.
Lemma J_run : strict = false -> forall l s h s', J s h -> run_all step workers_only s l -> run step s l = Some s' -> J s' (h ++ trace step ops s l).
Proof.
  intros Es. induction l as [|e l IH]; intros s h s' HJ HA Hr; cbn [run trace run_all] in *; [injection Hr as <-; now rewrite app_nil_r|].
  destruct HA as [HA HB]. destruct (step s e) as [s1|] eqn:E; [|discriminate]. rewrite app_assoc. eapply IH; [now apply (J_step s e)|now apply HB|exact Hr].
Qed.
End P.

(** C160: as long as only workers add timers, any two conflicting accesses to the registry or to a heap are ordered, whatever is called by whom: the workers' own calls, done(), print_status() and
    quick_stop() from any thread. Missing: add_event() in a thread that is no worker; and the standard's reading of operator[]. *)
Theorem C160_no_race_partial : forall n l s, run_all (step n) workers_only init l -> run (step n) init l = Some s ->
  forall i j a b, i < j -> nth_error (history n false l) i = Some a -> nth_error (history n false l) j = Some b -> conflict a b -> happens_before (history n false l) i j.
Proof.
  intros n l s HA Hr i j a b L Hi Hj HC. pose proof (J_run n false eq_refl l _ [] s (J_init n) HA Hr) as HJ. cbn [app] in HJ. fold (history n false l) in HJ.
  destruct a as [| |t x w], b as [| |u y v]; try contradiction HC. destruct HC as (N & <- & M).
  pose proof (j_cov _ _ _ HJ i t x w Hi) as Ci. pose proof (j_cov _ _ _ HJ j u x v Hj) as Cj.
  assert (G : forall k p q, holds (firstn i (history n false l)) t k p -> holds (firstn j (history n false l)) u k q -> p = true \/ q = true -> happens_before (history n false l) i j).
  { intros k p q A B C. eapply (ordered _ i j t u k p q); eauto; [apply (j_legal _ _ _ HJ)|discriminate]. }
  destruct x as [|z]; cbn in Ci, Cj.
  - destruct Ci as [Ci|[-> Ci]], Cj as [Cj|[-> Cj]]; eauto; try (destruct M; discriminate).
  - destruct Ci as [Ci|[Ci [Di|[-> Di]]]], Cj as [Cj|[Cj [Dj|[-> Dj]]]]; eauto; try (destruct M; discriminate).
Qed.
Print Assumptions C160_no_race_partial.
(** a race: two threads whose next operations conflict; specification *)
Definition race (strict : bool) (s : state) : Prop := exists t u a b s1 s2, ops strict s (Go t) s1 = [a] /\ ops strict s (Go u) s2 = [b] /\ conflict a b.
(** C160 refuted: a thread that is no worker adds a timer while a worker looks into its own: the first writes the registry, under a shared lock only. *)
Theorem C160_foreign_thread_refuted : exists n l s, run (step n) init l = Some s /\ race false s.
Proof.
  exists 2, [Call 0 Prepare; Go 0; Go 0; Go 0; Call 0 Poll; Go 0; Call 1 AddEvent; Go 1]. eexists. split; [vm_compute; reflexivity|].
  exists 0, 1, (Access 0 Map false), (Access 1 Map true), init, init. split; [reflexivity|]. split; [reflexivity|]. repeat split; auto; discriminate.
Qed.
Print Assumptions C160_foreign_thread_refuted.
(** C160 refuted for the standard's reading of operator[]: two workers that look into their timers at the same time. *)
Theorem C160_operator_brackets_refuted : exists n l s, run_all (step n) workers_only init l /\ run (step n) init l = Some s /\ race true s.
Proof.
  exists 2, [Call 0 Prepare; Go 0; Go 0; Go 0; Call 1 Prepare; Go 1; Go 1; Go 1; Call 0 Poll; Go 0; Call 1 MaxSleep; Go 1]. eexists. split; [|split; [vm_compute; reflexivity|]].
  - cbn [run_all]. repeat (split; [exact I|intros s' Hs'; vm_compute in Hs'; injection Hs' as <-]). exact I.
  - exists 0, 1, (Access 0 Map true), (Access 1 Map true), init, init. split; [reflexivity|]. split; [reflexivity|]. repeat split; auto; discriminate.
Qed.
Print Assumptions C160_operator_brackets_refuted.
(** Two workers; the first adds a timer, a third thread stops the timers, the second prints the status. *)
Definition l160 := [Call 0 Prepare; Go 0; Go 0; Go 0; Call 1 Prepare; Go 1; Go 1; Go 1; Call 0 AddEvent; Go 0; Go 0; Go 0; Go 0; Go 0; Go 0; Call 2 QuickStop; Go 2; Go 2; Go 2; Go 2; Go 2; Call 1 Look; Go 1; Go 1; Go 1; Go 1; Go 1].
Example C160_case : run_all (step 3) workers_only init l160 /\ (exists s, run (step 3) init l160 = Some s) /\
  nth_error (history 3 false l160) 9 = Some (Access 0 (Heap 0) true) /\ nth_error (history 3 false l160) 15 = Some (Access 2 (Heap 0) true) /\
  happens_before (history 3 false l160) 9 15.
Proof.
  assert (A : run_all (step 3) workers_only init l160).
  { unfold l160. cbn [run_all]. repeat (split; [first [exact I|vm_compute; reflexivity]|intros s' Hs'; vm_compute in Hs'; injection Hs' as <-]). exact I. }
  assert (R : exists s, run (step 3) init l160 = Some s) by (eexists; vm_compute; reflexivity).
  split; [exact A|]. split; [exact R|]. split; [vm_compute; reflexivity|]. split; [vm_compute; reflexivity|]. destruct R as (s & R).
  eapply (C160_no_race_partial 3 l160 s A R 9 15); [lia|vm_compute; reflexivity|vm_compute; reflexivity|cbn; repeat split; auto; discriminate].
Qed.
