(** C155: a graceful stop() when the queues' answers may be out of date.

    thread_pool.cc 36-48 (stop), 56-119 (consumer), 121-128 (done: stop_requested(), then m_tasks.empty()), work_stealing_queue.h 38-87 (empty() and dequeue() look at one queue after the other),
    moodycamel's size_approx() and try_dequeue(), which read with relaxed order: of a queue into which another thread has put something they may say that it is empty,
    unless the reader knows of an element in it: unless the enqueueing of one that is still there happens before the question. size_approx() may also count elements that are no longer there.

    ThreadPool/Model.v (C15) takes the answers to be exact. Here a thread knows of the functors it has enqueued itself, and of what other threads knew that it has synchronised with:
    a worker that finds stop requested with the thread that requested it (stop_source: release, stop_token: acquire); further edges ([ESync]) may be there or not.
    (An identifier >= n that does nothing else can stand for a message: [ESync a m], later [ESync m b], hands on what a knew at the time of sending.)
    Nobody calls quick_stop(). Everything else as in Model.v; what other threads enqueue at any time, during and after stop(), is unrestricted. *)
From Coq Require Import List Arith Bool Lia.
From Verif.Common Require Import TS.
From Verif.ThreadPool Require Import Model.
Import ListNotations.
#[local] Arguments upd : simpl never.

(* what the state keeps of thread_pool.cc 36-48, 72-128, work_stealing_queue.h 37-87 *)
Record wstate := WS {
  q : nat -> list nat;
  wp : nat -> wpc;
  req : bool;                   (* stop was requested *)
  known : nat -> nat -> bool;   (* thread a knows that functor x was enqueued *)
  published : nat -> bool;      (* what the thread that requested the stop knew then *)
  seen : nat -> bool;           (* the worker has found stop requested *)
  acc : list nat;               (* accepted *)
  begun : list nat }.           (* executed *)
(* before anything has happened; thread_pool.cc 36-48, 72-128, work_stealing_queue.h 37-87 *)
Definition winit : wstate := WS (fun _ => []) (fun _ => WDone1 false) false (fun _ _ => false) (fun _ => false) (fun _ => false) [] [].

(* the steps of thread_pool.cc 36-48, 72-128, work_stealing_queue.h 37-87 *)
Inductive wevent :=
| EW (w k : nat) (stale : bool)   (* next step of worker w; k: which element; stale: an answer that is out of date, where that is possible *)
| EPut (a i x : nat)              (* thread a enqueues functor x into queue i *)
| EDone (w : nat)                 (* the functor of w returns *)
| ERequest (a : nat)              (* stop(): request_stop *)
| ESync (a b : nat).              (* something a did happens before what b does from now on *)

Section Weak.
Variable n : nat.
Variable ord : list nat.

(** may thread w be told that queue i is empty? *)
(* what size_approx() and try_dequeue() may answer: moodycamel, environment, not code of /repo *)
Definition may_be_empty (s : wstate) (w i : nat) : bool := negb (existsb (known s w) (q s i)).
(* bookkeeping of the model, no counterpart in /repo *)
Definition is_empty (s : wstate) (i : nat) : bool := match q s i with [] => true | _ => false end.
(* bookkeeping of the model, no counterpart in /repo *)
Definition set_wp s w p := WS (q s) (upd (wp s) w p) (req s) (known s) (published s) (seen s) (acc s) (begun s).
(* a worker finds stop requested: thread_pool.cc 121-124 *)
Definition see s w p := WS (q s) (upd (wp s) w p) (req s) (upd (known s) w (fun x => known s w x || published s x)) (published s) (upd (seen s) w true) (acc s) (begun s).
(* a functor is dequeued, work_stealing_queue.h 38-56, thread_pool.cc 75 *)
Definition take s w i r x := WS (upd (q s) i r) (upd (wp s) w (WExec x)) (req s) (upd (known s) w (upd (known s w) x true)) (published s) (seen s) (acc s) (begun s ++ [x]).
(** try_dequeue *)
(* one try_dequeue, work_stealing_queue.h 38-56 *)
Definition try_deq (s : wstate) (w i k : nat) (stale : bool) (p : wpc) : option wstate :=
  if is_empty s i || stale && may_be_empty s w i then Some (set_wp s w p)
  else match take_nth k (q s i) with Some (x, r) => Some (take s w i r x) | None => None end.
(* a worker calls functions of the pool only inside a task: thread_pool.cc 101-105 *)
Definition calls (s : wstate) (a : nat) : bool := if a <? n then match wp s a with WBody | WExec _ => true | _ => false end else true.

(* what each step does: thread_pool.cc 36-48, 72-128, work_stealing_queue.h 37-87 *)
Definition wstep (s : wstate) (e : wevent) : option wstate :=
  match e with
  | EW w k stale => if w <? n then
      match wp s w with
      | WDone1 sec => if req s && (seen s w || negb stale) then Some (see s w (WScan sec ord)) else Some (set_wp s w (after_done sec false))
      | WDone2 sec => None                                          (* m_stop_now is false *)
      | WScan sec [] => Some (set_wp s w (after_done sec true))
      | WScan sec (i :: rest) =>
          if is_empty s i then Some (set_wp s w (if stale then after_done sec false else WScan sec rest))
          else Some (set_wp s w (if stale && may_be_empty s w i then WScan sec rest else after_done sec false))
      | WBody => try_deq s w w k stale (WSteal ord)
      | WSteal [] => Some (set_wp s w (WDone1 true))
      | WSteal (i :: rest) => try_deq s w i k stale (WSteal rest)
      | WSleep => Some (set_wp s w (WDone1 false))
      | WExec _ | WExit => None
      end
    else None
  | EPut a i x => if calls s a && (i <? n) && negb (existsb (Nat.eqb x) (acc s)) then
      Some (WS (upd (q s) i (q s i ++ [x])) (wp s) (req s) (upd (known s) a (upd (known s a) x true)) (published s) (seen s) (acc s ++ [x]) (begun s))
    else None
  | EDone w => if w <? n then match wp s w with WExec _ => Some (set_wp s w (WDone1 false)) | _ => None end else None
  | ERequest a => if negb (req s) && negb (a <? n) then Some (WS (q s) (wp s) true (known s) (known s a) (seen s) (acc s) (begun s)) else None
  | ESync a b => Some (WS (q s) (wp s) (req s) (upd (known s) b (fun x => known s b x || known s a x)) (published s) (seen s) (acc s) (begun s))
  end.

(** ** specification *)
Definition all_ended (s : wstate) : Prop := forall w, w < n -> wp s w = WExit.
(** the enqueueing of x happens before what thread a does after the events [l] *)
Inductive before (x : nat) : list wevent -> nat -> Prop :=
| b_own l a i : before x (l ++ [EPut a i x]) a
| b_sync l a b : before x l a -> before x (l ++ [ESync a b]) b
| b_more l a e : before x l a -> before x (l ++ [e]) a.

(** ** proof *)
Definition live (p : wpc) (i : nat) : Prop := match p with WScan _ rest => In i rest | WExit => False | _ => True end.
Definition learns (s : wstate) (w x : nat) : Prop := known s w x = true \/ (req s = true /\ published s x = true /\ seen s w = false).
Record V (l : list wevent) (s : wstate) : Prop := {
  v_q : forall i, n <= i -> q s i = [];
  v_no2 : forall w sec, wp s w <> WDone2 sec;
  v_scan : forall w sec rest, wp s w = WScan sec rest -> seen s w = true;
  v_seen : forall w, w < n -> seen s w = true -> req s = true;
  v_early : req s = false -> forall w, w < n -> forall i, live (wp s w) i;
  v_acc : forall x, In x (acc s) <-> (exists i, In x (q s i)) \/ In x (begun s);
  v_put : forall a i x, In (EPut a i x) l -> In x (acc s);
  v_known : forall x, (exists a, known s a x = true) \/ published s x = true -> In x (acc s);
  v_good : forall i x, In x (q s i) -> (exists a j, a < n /\ In (EPut a j x) l) \/ (req s = true /\ published s x = true) -> exists w, w < n /\ live (wp s w) i /\ learns s w x;
  v_before : forall x a, before x l a -> known s a x = true;
  v_once : NoDup (begun s) /\ (forall i, NoDup (q s i)) /\ (forall i x, In x (q s i) -> ~ In x (begun s)) /\ forall i j x, In x (q s i) -> In x (q s j) -> i = j }.

Lemma before_nil x a : ~ before x [] a.
Proof. intros H. remember [] as l eqn:E. destruct H; destruct l; discriminate. Qed.
Lemma before_snoc x l e a : before x (l ++ [e]) a -> before x l a \/ (exists i, e = EPut a i x) \/ (exists b, e = ESync b a /\ before x l b).
Proof.
  intros H. remember (l ++ [e]) as m eqn:E. destruct H as [l' a i|l' a b H|l' a e' H]; apply app_inj_tail in E; destruct E as [-> <-]; eauto 6.
Qed.
Lemma V_init : V [] winit.
Proof.
  split; cbn; auto; try discriminate; try (intros; contradiction).
  - intros x. split; [intros []|intros [(i & [])|[]]].
  - intros x [(a & H)|H]; discriminate.
  - intros x a H. destruct (before_nil x a H).
  - repeat split; try constructor; auto. intros i j x [].
Qed.

Lemma in_snoc {A} (x y : A) l : In x (l ++ [y]) <-> In x l \/ y = x.
Proof. rewrite in_app_iff. cbn. tauto. Qed.
Definition silent (e : wevent) : bool := match e with EPut _ _ _ | ESync _ _ => false | _ => true end.
Lemma before_silent x l e a : silent e = true -> before x (l ++ [e]) a -> before x l a.
Proof. intros Q H. apply before_snoc in H. destruct H as [H|[(i & ->)|(b & -> & _)]]; [exact H|discriminate|discriminate]. Qed.
Lemma put_silent l e a i x : silent e = true -> In (EPut a i x) (l ++ [e]) -> In (EPut a i x) l.
Proof. intros Q H. apply in_snoc in H. destruct H as [H| ->]; [exact H|discriminate]. Qed.

(** a worker goes on *)
Lemma V_set l e s w p : V l s -> silent e = true -> (forall sec, p <> WDone2 sec) -> (forall sec rest, p = WScan sec rest -> seen s w = true) ->
  (req s = false -> w < n -> forall i, live p i) -> (forall i x, In x (q s i) -> learns s w x -> live (wp s w) i -> live p i) -> V (l ++ [e]) (set_wp s w p).
Proof.
  intros H Q P2 PS PE PL. split; cbn.
  - apply (v_q _ _ H).
  - intros u sec. unfold upd. destruct (u =? w); [apply P2|apply (v_no2 _ _ H)].
  - intros u sec rest. unfold upd. destruct (Nat.eqb_spec u w) as [XX|]; [first [subst u|rewrite XX in *]|]; [apply PS|apply (v_scan _ _ H)].
  - apply (v_seen _ _ H).
  - intros R u L i. unfold upd. destruct (Nat.eqb_spec u w) as [XX|]; [first [subst u|rewrite XX in *]|]; [auto|now apply (v_early _ _ H)].
  - apply (v_acc _ _ H).
  - intros a i x X. apply (v_put _ _ H a i). exact (put_silent _ _ _ _ _ Q X).
  - apply (v_known _ _ H).
  - intros i x X C. destruct (v_good _ _ H i x X) as (u & L & A & B).
    { destruct C as [(a & j & L & C)|C]; [left; exists a, j; split; [exact L|exact (put_silent _ _ _ _ _ Q C)]|auto]. }
    exists u. split; [exact L|]. split; [|exact B]. unfold upd. destruct (Nat.eqb_spec u w) as [XX|]; [first [subst u|rewrite XX in *]|]; [eauto|exact A].
  - intros x a B. apply (v_before _ _ H). exact (before_silent _ _ _ _ Q B).
  - apply (v_once _ _ H).
Qed.
(** a worker takes a functor *)
Lemma V_take l e s w i k x r : V l s -> silent e = true -> take_nth k (q s i) = Some (x, r) -> V (l ++ [e]) (take s w i r x).
Proof.
  intros H Q T. destruct (take_nth_spec _ _ _ _ T) as (l1 & l2 & E & Er & _).
  assert (IN : forall y, In y (q s i) <-> y = x \/ In y r) by (intros y; rewrite E, Er, !in_app_iff; cbn; intuition congruence).
  destruct (v_once _ _ H) as (O1 & O2 & O3 & O4).
  assert (NR : ~ In x r /\ NoDup r). { pose proof (O2 i) as N. rewrite E in N. rewrite Er. split; [exact (NoDup_remove_2 _ _ _ N)|exact (NoDup_remove_1 _ _ _ N)]. }
  assert (Qx : forall j y, In y (upd (q s) i r j) -> In y (q s j) /\ y <> x).
  { intros j y. unfold upd. destruct (Nat.eqb_spec j i) as [XX|N]; [first [subst j|rewrite XX in *]|]; intros Y.
    - split; [apply IN; auto|]. intros ->. now apply NR.
    - split; [exact Y|]. intros ->. apply N. apply (O4 j i x Y). apply IN. auto. }
  split; cbn.
  - intros j L. unfold upd. destruct (Nat.eqb_spec j i) as [XX|]; [first [subst j|rewrite XX in *]|]; [|now apply (v_q _ _ H)]. exfalso. rewrite (v_q _ _ H i L) in E. destruct l1; discriminate.
  - intros u sec. unfold upd. destruct (u =? w); [discriminate|apply (v_no2 _ _ H)].
  - intros u sec rest. unfold upd. destruct (Nat.eqb_spec u w) as [XX|]; [first [subst u|rewrite XX in *]|]; [discriminate|apply (v_scan _ _ H)].
  - apply (v_seen _ _ H).
  - intros R u L j. unfold upd. destruct (Nat.eqb_spec u w) as [XX|]; [first [subst u|rewrite XX in *]|]; [exact I|now apply (v_early _ _ H)].
  - intros y. rewrite (v_acc _ _ H y), in_snoc. split.
    + intros [(j & Y)|Y]; [|auto]. destruct (Nat.eq_dec y x) as [->|N]; [auto|]. left. exists j. unfold upd. destruct (Nat.eqb_spec j i) as [XX|]; [first [subst j|rewrite XX in *]|]; [|exact Y]. apply IN in Y. tauto.
    + intros [(j & Y)|[Y|<-]]; [left; exists j; now apply Qx|auto|]. left. exists i. apply IN. auto.
  - intros a j y X. apply (v_put _ _ H a j). exact (put_silent _ _ _ _ _ Q X).
  - intros y [(a & X)|X]; [|apply (v_known _ _ H); auto]. unfold upd in X. destruct (Nat.eqb_spec a w) as [XX|]; [first [subst a|rewrite XX in *]|]; [|apply (v_known _ _ H); eauto].
    destruct (Nat.eqb_spec y x) as [XX|]; [first [subst y|rewrite XX in *]|]; [|apply (v_known _ _ H); eauto]. apply (v_acc _ _ H). left. exists i. apply IN. auto.
  - intros j y X C. apply Qx in X. destruct X as (X & N). destruct (v_good _ _ H j y X) as (u & L & A & B).
    { destruct C as [(a & j' & L & C)|C]; [left; exists a, j'; split; [exact L|exact (put_silent _ _ _ _ _ Q C)]|auto]. }
    exists u. split; [exact L|]. unfold learns. cbn. unfold upd. destruct (Nat.eqb_spec u w) as [XX|]; [first [subst u|rewrite XX in *]|]; [|auto]. split; [exact I|]. destruct (Nat.eqb_spec y x) as [|_]; [contradiction|exact B].
  - intros y a B. apply before_silent in B; [|exact Q]. apply (v_before _ _ H) in B. unfold upd. destruct (Nat.eqb_spec a w) as [XX|]; [first [subst a|rewrite XX in *]|]; [|exact B]. destruct (y =? x); auto.
  - repeat split.
    + apply NoDup_snoc; [exact O1|]. apply (O3 i). apply IN. auto.
    + intros j. unfold upd. destruct (j =? i); [apply NR|apply O2].
    + intros j y Y. apply Qx in Y. rewrite in_snoc. intros [Z|Z]; [exact (O3 j y (proj1 Y) Z)|]. destruct Y as (_ & Y). congruence.
    + intros j1 j2 y A B. apply Qx in A. apply Qx in B. exact (O4 _ _ _ (proj1 A) (proj1 B)).
Qed.
(** a worker finds stop requested *)
Lemma V_see l e s w sec : (forall i, i < n <-> In i ord) -> V l s -> silent e = true -> req s = true -> V (l ++ [e]) (see s w (WScan sec ord)).
Proof.
  intros Hord H Q R. split; cbn.
  - apply (v_q _ _ H).
  - intros u sec'. unfold upd. destruct (u =? w); [discriminate|apply (v_no2 _ _ H)].
  - intros u sec' rest. unfold upd. destruct (Nat.eqb_spec u w) as [XX|]; [first [subst u|rewrite XX in *]|]; [auto|apply (v_scan _ _ H)].
  - intros u L _. exact R.
  - congruence.
  - apply (v_acc _ _ H).
  - intros a i x X. apply (v_put _ _ H a i). exact (put_silent _ _ _ _ _ Q X).
  - intros x [(a & X)|X]; [|apply (v_known _ _ H); auto]. unfold upd in X. destruct (Nat.eqb_spec a w) as [XX|]; [first [subst a|rewrite XX in *]|]; [|apply (v_known _ _ H); eauto]. apply orb_true_iff in X. apply (v_known _ _ H). destruct X; eauto.
  - intros i x X C. destruct (v_good _ _ H i x X) as (u & L & A & B).
    { destruct C as [(a & j & L & C)|C]; [left; exists a, j; split; [exact L|exact (put_silent _ _ _ _ _ Q C)]|auto]. }
    exists u. split; [exact L|]. unfold learns. cbn. unfold upd. destruct (Nat.eqb_spec u w) as [XX|]; [first [subst u|rewrite XX in *]|]; [|auto]. split.
    + cbn. apply Hord. destruct (Nat.lt_ge_cases i n) as [|G]; [assumption|]. rewrite (v_q _ _ H i G) in X. destruct X.
    + left. destruct B as [->|(_ & -> & _)]; [reflexivity|apply orb_true_r].
  - intros x a B. apply before_silent in B; [|exact Q]. apply (v_before _ _ H) in B. unfold upd. destruct (Nat.eqb_spec a w) as [XX|]; [first [subst a|rewrite XX in *]|]; [|exact B]. now rewrite B.
  - apply (v_once _ _ H).
Qed.
Lemma V_try l e s w i k b p s' : V l s -> silent e = true -> live p = (fun _ => True) -> (forall sec, p <> WDone2 sec) -> (forall sec rest, p <> WScan sec rest) -> try_deq s w i k b p = Some s' -> V (l ++ [e]) s'.
Proof.
  intros H Q P P2 PS E. unfold try_deq in E. destruct (is_empty s i || b && may_be_empty s w i).
  - injection E as <-. apply V_set; auto; try (intros; rewrite P; exact I). intros sec rest ->. now destruct (PS sec rest).
  - destruct (take_nth k (q s i)) as [[x r]|] eqn:T; [|discriminate]. injection E as <-. exact (V_take _ _ _ _ _ _ _ _ H Q T).
Qed.

Lemma V_step l s e s' : 0 < n -> (forall i, i < n <-> In i ord) -> V l s -> wstep s e = Some s' -> V (l ++ [e]) s'.
Proof.
  intros Hn Hord H E. destruct e as [w k b|a i x|w|a|a b]; cbn [wstep] in E.
  - destruct (Nat.ltb_spec w n) as [L|]; [|discriminate]. destruct (wp s w) as [sec|sec|sec [|i rest]| |[|i rest]| | |] eqn:W; try discriminate.
    + destruct (req s && (seen s w || negb b)) eqn:R; injection E as <-.
      * apply andb_true_iff in R. apply V_see; auto; apply R.
      * apply V_set; auto; destruct sec; cbn; auto; discriminate.
    + injection E as <-. apply V_set; auto; try (destruct sec; cbn; discriminate).
      * intros R _ i. pose proof (v_early _ _ H R w L i) as Z. rewrite W in Z. destruct Z.
      * intros i x _ _ Z. rewrite W in Z. destruct Z.
    + pose proof (v_scan _ _ H w sec _ W) as SN. pose proof (v_seen _ _ H w L SN) as RQ.
      assert (KN : forall x, learns s w x -> known s w x = true) by (intros x [?|(_ & _ & ?)]; [assumption|congruence]).
      destruct (is_empty s i) eqn:EM; injection E as <-.
      * destruct b; [apply V_set; auto; destruct sec; cbn; auto; discriminate|]. apply V_set; auto; try discriminate; try congruence.
        intros j x X LX Z. rewrite W in Z. cbn in Z |- *. destruct Z as [<-|]; [|assumption]. unfold is_empty in EM. destruct (q s i); [destruct X|discriminate].
      * destruct (b && may_be_empty s w i) eqn:ME; [|apply V_set; auto; destruct sec; cbn; auto; discriminate]. apply V_set; auto; try discriminate; try congruence.
        intros j x X LX Z. rewrite W in Z. cbn in Z |- *. destruct Z as [<-|]; [|assumption]. exfalso. apply andb_true_iff in ME. destruct ME as (_ & ME). unfold may_be_empty in ME. apply negb_true_iff in ME.
        assert (existsb (known s w) (q s i) = true) by (apply existsb_exists; eauto). congruence.
    + refine (V_try _ (EW w k b) _ _ _ _ _ _ _ H eq_refl _ _ _ E); [reflexivity|discriminate|discriminate].
    + injection E as <-. apply V_set; auto; cbn; auto; discriminate.
    + refine (V_try _ (EW w k b) _ _ _ _ _ _ _ H eq_refl _ _ _ E); [reflexivity|discriminate|discriminate].
    + injection E as <-. apply V_set; auto; cbn; auto; discriminate.
  - destruct (calls s a && (i <? n) && negb (existsb (Nat.eqb x) (acc s))) eqn:C; [|discriminate]. injection E as <-. apply andb_true_iff in C. destruct C as (C & F). apply andb_true_iff in C. destruct C as (C & Li). apply Nat.ltb_lt in Li.
    assert (NA : ~ In x (acc s)). { intros X. apply negb_true_iff in F. assert (Y : existsb (Nat.eqb x) (acc s) = true) by (apply existsb_exists; exists x; split; [exact X|apply Nat.eqb_refl]). congruence. }
    destruct (v_once _ _ H) as (O1 & O2 & O3 & O4).
    assert (Qx : forall j y, In y (upd (q s) i (q s i ++ [x]) j) <-> In y (q s j) \/ (y = x /\ j = i)).
    { intros j y. unfold upd. destruct (Nat.eqb_spec j i) as [XX|N]; [first [subst j|rewrite XX in *]|]; [rewrite in_snoc; intuition|intuition]. }
    assert (NQ : forall j, ~ In x (q s j)) by (intros j X; apply NA; apply (v_acc _ _ H); eauto).
    split; cbn.
    + intros j G. unfold upd. destruct (Nat.eqb_spec j i) as [XX|]; [first [subst j|rewrite XX in *]|]; [lia|now apply (v_q _ _ H)].
    + apply (v_no2 _ _ H).
    + apply (v_scan _ _ H).
    + apply (v_seen _ _ H).
    + apply (v_early _ _ H).
    + intros y. rewrite in_snoc, (v_acc _ _ H y). split.
      * intros [[(j & Y)|Y]|<-]; [left; exists j; apply Qx; auto|auto|left; exists i; apply Qx; auto].
      * intros [(j & Y)|Y]; [|auto]. apply Qx in Y. destruct Y as [Y|(-> & _)]; [left; left; eauto|auto].
    + intros a' j y Y. apply in_snoc in Y. rewrite in_snoc. destruct Y as [Y|[= <- <- <-]]; [left; exact (v_put _ _ H _ _ _ Y)|auto].
    + intros y Y. rewrite in_snoc. destruct (Nat.eq_dec x y) as [|N]; [auto|left]. apply (v_known _ _ H). destruct Y as [(a' & Y)|]; [|auto]. left. exists a'. unfold upd in Y. destruct (Nat.eqb_spec a' a) as [XX|]; [first [subst a'|rewrite XX in *]|]; [|exact Y]. destruct (Nat.eqb_spec y x); [congruence|exact Y].
    + intros j y X D. apply Qx in X. destruct X as [X|(-> & ->)].
      * destruct (v_good _ _ H j y X) as (u & L & A & B).
        { destruct D as [(a' & j' & L & D)|D]; [|auto]. apply in_snoc in D. destruct D as [D|D]; [eauto|]. exfalso. injection D as _ _ <-. exact (NQ _ X). }
        exists u. split; [exact L|]. split; [exact A|]. unfold learns in *. cbn. destruct B as [B|B]; [left|auto]. unfold upd. destruct (Nat.eqb_spec u a) as [XX|]; [first [subst u|rewrite XX in *]|]; [|exact B]. destruct (y =? x); auto.
      * assert (LA : a < n).
        { destruct D as [(a' & j' & L & D)|(_ & D)]; [|exfalso; apply NA; apply (v_known _ _ H); auto]. apply in_snoc in D. destruct D as [D|D]; [exfalso; apply NA; exact (v_put _ _ H _ _ _ D)|]. now injection D as <- _. }
        exists a. split; [exact LA|]. unfold calls in C. apply Nat.ltb_lt in LA. rewrite LA in C. split; [destruct (wp s a); try discriminate; exact I|]. left. cbn. now rewrite !upd_same.
    + intros y a' B. apply before_snoc in B. destruct B as [B|[(j & B)|(b' & B & _)]]; [| |discriminate].
      * apply (v_before _ _ H) in B. unfold upd. destruct (Nat.eqb_spec a' a) as [XX|]; [first [subst a'|rewrite XX in *]|]; [|exact B]. destruct (y =? x); auto.
      * injection B as <- _ <-. now rewrite !upd_same.
    + repeat split; auto.
      * intros j. unfold upd. destruct (Nat.eqb_spec j i) as [XX|]; [first [subst j|rewrite XX in *]|]; [|apply O2]. apply NoDup_snoc; [apply O2|apply NQ].
      * intros j y Y Z. apply Qx in Y. destruct Y as [Y|(-> & _)]; [exact (O3 _ _ Y Z)|]. apply NA. apply (v_acc _ _ H). auto.
      * intros j1 j2 y A B. apply Qx in A. apply Qx in B. destruct A as [A|(-> & ->)], B as [B|(B1 & ->)]; auto; [eauto| subst y; destruct (NQ _ A)|destruct (NQ _ B)].
  - destruct (Nat.ltb_spec w n) as [L|]; [|discriminate]. destruct (wp s w) eqn:W; try discriminate. injection E as <-. apply V_set; auto; cbn; auto; discriminate.
  - destruct (negb (req s) && negb (a <? n)) eqn:C; [|discriminate]. injection E as <-. apply andb_true_iff in C. destruct C as (C & _). apply negb_true_iff in C. split; cbn.
    + apply (v_q _ _ H).
    + apply (v_no2 _ _ H).
    + apply (v_scan _ _ H).
    + auto.
    + discriminate.
    + apply (v_acc _ _ H).
    + intros a' i x X. apply (v_put _ _ H a' i). exact (put_silent _ (ERequest a) _ _ _ eq_refl X).
    + intros x X. apply (v_known _ _ H). destruct X as [|X]; [auto|eauto].
    + intros i x X D. assert (S0 : seen s 0 = false). { destruct (seen s 0) eqn:S0; [|reflexivity]. pose proof (v_seen _ _ H 0 Hn S0). congruence. }
      destruct D as [(a' & j & L & D)|(_ & D)].
      * destruct (v_good _ _ H i x X) as (u & Lu & A & B). { left. exists a', j. split; [exact L|exact (put_silent _ (ERequest a) _ _ _ eq_refl D)]. }
        exists u. split; [exact Lu|]. split; [exact A|]. destruct B as [B|(B & _)]; [now left|congruence].
      * exists 0. split; [exact Hn|]. split; [exact (v_early _ _ H C 0 Hn i)|]. right. cbn. auto.
    + intros x a' B. apply before_silent in B; [|reflexivity]. exact (v_before _ _ H _ _ B).
    + apply (v_once _ _ H).
  - injection E as <-. assert (PUT : forall a' i x, In (EPut a' i x) (l ++ [ESync a b]) -> In (EPut a' i x) l) by (intros a' i x X; apply in_snoc in X; destruct X as [|X]; [assumption|discriminate]). split; cbn.
    + apply (v_q _ _ H).
    + apply (v_no2 _ _ H).
    + apply (v_scan _ _ H).
    + apply (v_seen _ _ H).
    + apply (v_early _ _ H).
    + apply (v_acc _ _ H).
    + intros a' i x X. exact (v_put _ _ H a' i x (PUT _ _ _ X)).
    + intros x [(a' & X)|X]; [|apply (v_known _ _ H); auto]. unfold upd in X. destruct (Nat.eqb_spec a' b) as [XX|]; [first [subst a'|rewrite XX in *]|]; [|apply (v_known _ _ H); eauto]. apply orb_true_iff in X. apply (v_known _ _ H). destruct X; eauto.
    + intros i x X D. destruct (v_good _ _ H i x X) as (u & L & A & B). { destruct D as [(a' & j & L & D)|D]; [left; exists a', j; auto|auto]. }
      exists u. split; [exact L|]. split; [exact A|]. unfold learns in *. cbn. destruct B as [B|B]; [left|auto]. unfold upd. destruct (Nat.eqb_spec u b) as [XX|]; [first [subst u|rewrite XX in *]|]; [|exact B]. now rewrite B.
    + intros x a' B. apply before_snoc in B. unfold upd. destruct B as [B|[(j & B)|(c & B & B')]]; [|discriminate|].
      * apply (v_before _ _ H) in B. destruct (Nat.eqb_spec a' b) as [XX|]; [first [subst a'|rewrite XX in *]|]; [|exact B]. now rewrite B.
      * injection B as <- <-. rewrite Nat.eqb_refl. apply (v_before _ _ H) in B'. rewrite B'. apply orb_true_r.
    + apply (v_once _ _ H).
Qed.
Lemma V_run l s : 0 < n -> (forall i, i < n <-> In i ord) -> run wstep winit l = Some s -> V l s.
Proof.
  intros Hn Hord. revert s. induction l as [|e l IH] using rev_ind; intros s R; [cbn in R; injection R as <-; apply V_init|].
  apply run_app_inv in R. destruct R as (s1 & R1 & R2). cbn in R2. destruct (wstep s1 e) as [s2|] eqn:E; [|discriminate]. injection R2 as <-. exact (V_step l s1 e s2 Hn Hord (IH s1 R1) E).
Qed.
End Weak.

Lemma published_kept n ord s e s' : wstep n ord s e = Some s' -> req s = true -> req s' = true /\ published s' = published s.
Proof.
  intros E R. destruct e as [w k b|a i x|w|a|a b]; cbn [wstep] in E; rewrite ?R in E; cbn in E;
  repeat match type of E with
  | (if ?c then _ else _) = _ => destruct c; try discriminate
  | try_deq _ _ _ _ _ _ = _ => unfold try_deq in E
  | match ?c with _ => _ end = _ => destruct c; try discriminate
  end; try discriminate; injection E as <-; auto.
Qed.
Lemma published_run n ord l : forall s s', run (wstep n ord) s l = Some s' -> req s = true -> published s' = published s /\ req s' = true.
Proof.
  induction l as [|e l IH]; cbn; intros s s' R Q; [injection R as <-; auto|]. destruct (wstep n ord s e) as [s1|] eqn:E; [|discriminate].
  destruct (published_kept _ _ _ _ _ E Q) as (Q1 & P1). destruct (IH _ _ R Q1) as (P2 & Q2). split; [congruence|exact Q2].
Qed.

(** C155: when all workers have ended, every functor that a task enqueued on a worker, at whatever time, has been executed, and so has every functor whose enqueueing happens before the request to stop;
    and nothing is executed that was not enqueued *)
Theorem C155_executed n ord l s : 0 < n -> (forall i, i < n <-> In i ord) -> run (wstep n ord) winit l = Some s -> all_ended n s ->
  (forall a i x, a < n -> In (EPut a i x) l -> In x (begun s)) /\
  (forall l1 a l2 x, l = l1 ++ ERequest a :: l2 -> before x l1 a -> In x (begun s)).
Proof.
  intros Hn Hord R A. pose proof (V_run _ _ _ _ Hn Hord R) as H.
  assert (G : forall x, In x (acc s) -> (exists a j, a < n /\ In (EPut a j x) l) \/ (req s = true /\ published s x = true) -> In x (begun s)).
  { intros x X C. apply (v_acc _ _ _ H) in X. destruct X as [(i & X)|]; [|assumption]. destruct (v_good _ _ _ H i x X C) as (w & L & LV & _). rewrite (A w L) in LV. destruct LV. }
  split.
  - intros a i x L X. apply G; [exact (v_put _ _ _ H _ _ _ X)|eauto].
  - intros l1 a l2 x El B. rewrite El in R. apply run_app_inv in R. destruct R as (s1 & R1 & R2). cbn [run] in R2. destruct (wstep n ord s1 (ERequest a)) as [s2|] eqn:E; [|discriminate].
    pose proof (v_before _ _ _ (V_run _ _ _ _ Hn Hord R1) x a B) as K. cbn [wstep] in E. destruct (negb (req s1) && negb (a <? n)); [|discriminate]. injection E as <-.
    destruct (published_run _ _ _ _ _ R2 eq_refl) as (P & Q). cbn in P. assert (PX : published s x = true) by now rewrite P. apply G; [apply (v_known _ _ _ H); auto|auto].
Qed.
(** every functor is executed at most once, whether the answers are up to date or not; and only what was accepted *)
Lemma accepted_put n ord l : forall s, run (wstep n ord) winit l = Some s -> forall x, In x (acc s) -> exists a i, In (EPut a i x) l.
Proof.
  induction l as [|e l IH] using rev_ind; intros s R x X; [cbn in R; injection R as <-; destruct X|].
  apply run_app_inv in R. destruct R as (s1 & R1 & R2). cbn [run] in R2. destruct (wstep n ord s1 e) as [s2|] eqn:E; [|discriminate]. injection R2 as <-.
  assert (D : acc s2 = acc s1 \/ exists a i y, e = EPut a i y /\ acc s2 = acc s1 ++ [y]).
  { clear IH R1 X. destruct e as [w k b|a i y|w|a|a b]; cbn [wstep] in E; [left|right; exists a, i, y|left..];
    repeat match type of E with
    | (if ?c then _ else _) = _ => destruct c; try discriminate
    | try_deq _ _ _ _ _ _ = _ => unfold try_deq in E
    | match ?c with _ => _ end = _ => destruct c; try discriminate
    end; injection E as <-; auto. }
  destruct D as [D|(a & i & y & -> & D)]; rewrite D in X.
  - destruct (IH _ R1 x X) as (a & i & Y). exists a, i. apply in_snoc. auto.
  - apply in_snoc in X. destruct X as [X|<-]; [destruct (IH _ R1 x X) as (b & j & Y); exists b, j; apply in_snoc; auto|exists a, i; apply in_snoc; auto].
Qed.
Theorem C155_once n ord l s : 0 < n -> (forall i, i < n <-> In i ord) -> run (wstep n ord) winit l = Some s ->
  NoDup (begun s) /\ forall x, In x (begun s) -> exists a i, In (EPut a i x) l.
Proof.
  intros Hn Hord R. pose proof (V_run _ _ _ _ Hn Hord R) as H. split; [apply (v_once _ _ _ H)|]. intros x X. apply (accepted_put _ _ _ _ R). apply (v_acc _ _ _ H). auto.
Qed.

(** having been enqueued earlier in time is not enough: without synchronisation between the thread that enqueues and the one that calls stop() the workers may end without it *)
Theorem C155_happens_before_is_needed : exists l1 l2 s, run (wstep 1 [0]) winit (l1 ++ ERequest 6 :: l2) = Some s /\ In (EPut 5 0 7) l1 /\ all_ended 1 s /\ begun s = [].
Proof.
  exists [EPut 5 0 7], [EW 0 0 false; EW 0 0 true; EW 0 0 true].
  destruct (run (wstep 1 [0]) winit ([EPut 5 0 7] ++ ERequest 6 :: [EW 0 0 false; EW 0 0 true; EW 0 0 true])) as [s|] eqn:E; [|discriminate (eq_trans (eq_sym E) eq_refl)].
  exists s. vm_compute in E. injection E as <-. repeat split; cbn; auto. intros w L. destruct w; [reflexivity|lia].
Qed.

(** two workers, thread 5 enqueues functor 7 into queue 1, thread 6 synchronises with it and calls stop(); worker 0 steals 7 and enqueues 8 into queue 1 from it; worker 1 is told that queue 1 is empty and ends; worker 0 executes 8 *)
Definition c155_before : list wevent := [EW 1 0 false; EW 1 0 false; EW 1 0 false; EW 1 0 false; EW 1 0 false; EPut 5 1 7; ESync 5 6].
Definition c155_after : list wevent :=
  [EW 0 0 false; EW 0 0 false; EW 0 0 true; EW 0 0 true; EW 0 0 true; EW 0 0 true; EPut 0 1 8;
   EW 1 0 false; EW 1 0 false; EW 1 0 true; EW 1 0 false;
   EDone 0; EW 0 0 true; EW 0 0 false; EW 0 0 true; EW 0 0 true; EW 0 0 true; EW 0 0 true; EDone 0; EW 0 0 true; EW 0 0 false; EW 0 0 false; EW 0 0 false].
Example C155_case : exists s, run (wstep 2 [0; 1]) winit (c155_before ++ ERequest 6 :: c155_after) = Some s /\ all_ended 2 s /\ begun s = [7; 8] /\ before 7 c155_before 6.
Proof.
  assert (B : before 7 c155_before 6). { apply (b_sync 7 [EW 1 0 false; EW 1 0 false; EW 1 0 false; EW 1 0 false; EW 1 0 false; EPut 5 1 7] 5 6). apply (b_own 7 [EW 1 0 false; EW 1 0 false; EW 1 0 false; EW 1 0 false; EW 1 0 false]). }
  assert (P : match run (wstep 2 [0; 1]) winit (c155_before ++ ERequest 6 :: c155_after) with Some s => (begun s, wp s 0, wp s 1) = ([7; 8], WExit, WExit) | None => False end) by (vm_compute; reflexivity).
  destruct (run (wstep 2 [0; 1]) winit (c155_before ++ ERequest 6 :: c155_after)) as [s|]; [|destruct P]. exists s. injection P as P0 P1 P2. repeat split; auto. intros [|[|w]] L; auto; lia.
Qed.
Print Assumptions C155_executed.
Print Assumptions C155_once.
Print Assumptions C155_happens_before_is_needed.
