(** C154: the future that thread_pool::enqueue() returns.

    thread_pool.h 83-130 (enqueue, enqueue_no_future: test, then put), 173-235 (a packaged_task in a shared pointer, std::bind; enqueue_no_future: the bare functor),
    thread_pool.cc 101-117 (the worker calls the functor and catches everything), 30-34, thread_pool.h 259-273 (the destructor: quick_stop(), then the members: m_thrs, ..., m_tasks).

    On top of ThreadPool/Model.v: what the functors return or throw, the std::futures, and the destruction of the pool with what is left in its queues.
    Taken from the C++ standard: std::packaged_task stores what the functor returns or throws and makes the future ready; destroyed without having been called, it stores broken_promise;
    std::future::get() blocks until the future is ready, and can be called once.
    Simplifications: the functors are numbered, and no number is used twice; a functor returns or throws a number; thread [n] is the one that destroys the pool, which is not a manually_stop one (C107). *)
From Coq Require Import List Arith Bool Lia Permutation.
From Verif.Common Require Import TS Sum.
From Verif.ThreadPool Require Import Model Spec Proofs.
Import ListNotations.
#[local] Arguments upd : simpl never.

(* what a functor does: environment, not code of /repo *)
Inductive outcome := Ret (v : nat) | Exc (e : nat).
(* what std::future::get() answers with: thread_pool.h 173-189 *)
Inductive answer := Res (o : outcome) | Broken.  (* std::future_error(broken_promise) *)
(* what the state keeps of thread_pool.h 83-130, 173-235, thread_pool.cc 30-34, 101-117 *)
Record rstate := RS {
  pool : state;
  kind : nat -> option bool;      (* accepted: with a future (true) or without one *)
  res : nat -> option answer;     (* what is in the shared state of the future *)
  getting : nat -> option nat;    (* thread a is in get() of the future of functor x *)
  taken : nat -> bool;            (* get() has been called *)
  logged : list nat;              (* exceptions that went to the log *)
  gone : bool }.                  (* the pool is destroyed *)
(* before anything has happened; thread_pool.h 83-130, 173-235, thread_pool.cc 30-34, 101-117 *)
Definition rinit : rstate := RS init (fun _ => None) (fun _ => None) (fun _ => None) (fun _ => false) [] false.

(* the steps of thread_pool.h 83-130, 173-235, thread_pool.cc 30-34, 101-117 *)
Inductive revent :=
| Step (e : event)                          (* a step of the pool, except for: *)
| Put (a i x : nat) (fut : bool)            (* enqueue (fut) or enqueue_no_future: into queue i *)
| Done (w x : nat) (o : outcome)            (* the functor x that worker w executes returns or throws *)
| Get (a x : nat)                           (* thread a calls get() of the future of x *)
| Got (a x : nat) (r : answer)              (* ... which returns or throws r *)
| Destroy.                                  (* the pool and its queues are destroyed *)

Section Results.
Variable n : nat.
Variable ord : list nat.

(* bookkeeping of the model, no counterpart in /repo *)
Definition is_none {A} (o : option A) : bool := match o with None => true | Some _ => false end.
(* bookkeeping of the model, no counterpart in /repo *)
Definition agent (e : event) : nat := match e with EWorker w _ => w | EEnqCheck a => a | EEnqPut a _ _ => a | EFinish w => w | EQuick a => a | EStop a => a | EStopDone a => a end.
(* bookkeeping of the model, no counterpart in /repo *)
Definition plain (e : event) : bool := match e with EEnqPut _ _ _ | EFinish _ => false | _ => true end.
(* bookkeeping of the model, no counterpart in /repo *)
Definition set_pool s p := RS p (kind s) (res s) (getting s) (taken s) (logged s) (gone s).
(* bookkeeping of the model, no counterpart in /repo *)
Definition executing (x : nat) (p : wpc) : bool := match p with WExec y => y =? x | _ => false end.
(* in m_tasks: thread_pool.h 173-235 *)
Definition in_queue (s : rstate) (x : nat) : bool := existsb (Nat.eqb x) (queued n (pool s)).

(* what each step does: thread_pool.h 83-130, 173-235, thread_pool.cc 30-34, 101-117 *)
Definition rstep (s : rstate) (e : revent) : option rstate :=
  match e with
  | Step e => if plain e && negb (gone s) && is_none (getting s (agent e)) then option_map (set_pool s) (next n ord (pool s) e) else None
  | Put a i x fut =>
      if negb (gone s) && is_none (getting s a) && is_none (kind s x) then
        option_map (fun p => RS p (upd (kind s) x (Some fut)) (res s) (getting s) (taken s) (logged s) (gone s)) (next n ord (pool s) (EEnqPut a i x))
      else None
  | Done w x o =>
      if negb (gone s) && is_none (getting s w) && executing x (wpcs (pool s) w) then
        option_map (fun p => match kind s x with
                             | Some true => RS p (kind s) (upd (res s) x (Some (Res o))) (getting s) (taken s) (logged s) (gone s)
                             | _ => RS p (kind s) (res s) (getting s) (taken s) (match o with Exc _ => logged s ++ [x] | Ret _ => logged s end) (gone s) end)
                   (next n ord (pool s) (EFinish w))
      else None
  | Get a x =>
      if is_none (getting s a) && negb (taken s x) && negb (enq_passed (pool s) a) && may_call n (pool s) a then
        match kind s x with
        | Some true => Some (RS (pool s) (kind s) (res s) (upd (getting s) a (Some x)) (upd (taken s) x true) (logged s) (gone s))
        | _ => None end
      else None
  | Got a x r =>
      match getting s a, res s x with
      | Some y, Some r' => if y =? x then
          match r, r' with
          | Broken, Broken => Some (RS (pool s) (kind s) (res s) (upd (getting s) a None) (taken s) (logged s) (gone s))
          | Res (Ret u), Res (Ret v) | Res (Exc u), Res (Exc v) => if u =? v then Some (RS (pool s) (kind s) (res s) (upd (getting s) a None) (taken s) (logged s) (gone s)) else None
          | _, _ => None end
        else None
      | _, _ => None end
  | Destroy =>
      if negb (gone s) && is_none (getting s n) then
        match spcs (pool s) n with
        | SReturned => Some (RS (pool s) (kind s) (fun x => match kind s x with Some true => if in_queue s x then Some Broken else res s x | _ => res s x end)
                               (getting s) (taken s) (logged s) true)
        | _ => None end
      else None
  end.

(** ** specification *)
Definition is_done (x : nat) (e : revent) : bool := match e with Done _ y _ => y =? x | _ => false end.
Definition is_got (x : nat) (e : revent) : bool := match e with Got _ y _ => y =? x | _ => false end.
Definition times (f : revent -> bool) (l : list revent) : nat := length (filter f l).
(** after stop() was called only running functors enqueue, and nobody calls quick_stop() *)
Definition rgraceful (s : rstate) (e : revent) : Prop :=
  match e with
  | Put a _ _ _ => stop_req (pool s) = true -> a < n
  | Step (EQuick _) => False
  | _ => True end.
(** the same with other results *)
Definition reo (g : nat -> outcome -> outcome) (e : revent) : revent :=
  match e with Done w x o => Done w x (g x o) | Got a x (Res o) => Got a x (Res (g x o)) | e => e end.

(** ** proof *)
Definition occ (x : nat) (l : list nat) : nat := count_occ Nat.eq_dec l x.
Definition one (b : bool) : nat := if b then 1 else 0.
Definition running (x : nat) (s : state) : nat := sum_to n (fun w => one (executing x (wpcs s w))).
Lemma occ_perm x l l' : Permutation l l' -> occ x l = occ x l'.
Proof. intros H. apply (proj1 (Permutation_count_occ Nat.eq_dec l l') H). Qed.
Lemma occ_app x l l' : occ x (l ++ l') = occ x l + occ x l'.
Proof. apply count_occ_app. Qed.
Lemma running_set s w p x : w < n -> running x (set_w s w p) + one (executing x (wpcs s w)) = running x s + one (executing x p).
Proof.
  intros H. unfold running. rewrite (sum_to_one n (fun v => one (executing x (wpcs (set_w s w p) v))) (fun v => one (executing x (wpcs s v))) w); auto.
  - cbn. rewrite upd_same. reflexivity.
  - intros i N. cbn. now rewrite upd_other.
Qed.
Lemma running_ext s s' x : wpcs s' = wpcs s -> running x s' = running x s.
Proof. intros E. unfold running. now rewrite E. Qed.
Definition put_of (x : nat) (e : event) : nat := match e with EEnqPut _ _ y => one (y =? x) | _ => 0 end.
Definition fin_of (x : nat) (s : state) (e : event) : nat := match e with EFinish w => one (executing x (wpcs s w)) | _ => 0 end.
Lemma run_step s e s' o x : step n ord s e = Some (s', o) -> occ x (accepted o) = put_of x e /\ running x s' + fin_of x s e = running x s + occ x (executed o).
Proof.
  intros Hs. unfold step in Hs. destruct (terminated s); [discriminate|].
  assert (same : forall s2, wpcs s2 = wpcs s -> occ x [] = 0 /\ running x s2 + 0 = running x s + occ x []) by (intros s2 E; rewrite (running_ext s s2 x E); cbn; lia).
  destruct e as [w k|a|a i y|w|a|a|a]; cbn [put_of fin_of].
  - destruct (Nat.ltb_spec w n) as [L|]; [|discriminate]. unfold worker_step in Hs.
    assert (mv : forall s2 p, wpcs s2 = wpcs s -> executing x p = false -> executing x (wpcs s w) = false -> running x (set_w s2 w p) + 0 = running x s + 0).
    { intros s2 p E F G. pose proof (running_set s2 w p x L) as R. rewrite E, F, G, (running_ext s s2 x E) in R. cbn in R. lia. }
    assert (tk : forall s2 y, wpcs s2 = wpcs s -> executing x (wpcs s w) = false -> running x (set_w s2 w (WExec y)) + 0 = running x s + occ x [y]).
    { intros s2 y E G. pose proof (running_set s2 w (WExec y) x L) as R. rewrite E, G, (running_ext s s2 x E) in R. cbn [executing] in R. unfold occ. cbn [count_occ]. destruct (Nat.eq_dec y x) as [->|N]; [rewrite Nat.eqb_refl in R|apply Nat.eqb_neq in N; rewrite N in R]; cbn in R; lia. }
    destruct (wpcs s w) as [sec|sec|sec [|i rest]| |[|i rest]| |z|] eqn:W; try discriminate.
    + injection Hs as <- <-. split; [reflexivity|]. apply mv; auto. destruct (stop_req s), sec; reflexivity.
    + injection Hs as <- <-. split; [reflexivity|]. apply mv; auto. destruct (stop_now s), sec; reflexivity.
    + injection Hs as <- <-. split; [reflexivity|]. apply mv; auto.
    + injection Hs as <- <-. split; [reflexivity|]. apply mv; auto. destruct (queues s i), sec; reflexivity.
    + destruct (enq_passed s w); [discriminate|]. destruct (queues s w) eqn:Eq; [injection Hs as <- <-; split; [reflexivity|]; apply mv; auto|].
      destruct (take_nth k _) as [[y r]|]; [|discriminate]. injection Hs as <- <-. split; [reflexivity|]. apply tk; auto.
    + injection Hs as <- <-. split; [reflexivity|]. apply mv; auto.
    + destruct (queues s i) eqn:Eq; [injection Hs as <- <-; split; [reflexivity|]; apply mv; auto|].
      destruct (take_nth k _) as [[y r]|]; [|discriminate]. injection Hs as <- <-. split; [reflexivity|]. apply tk; auto.
    + injection Hs as <- <-. split; [reflexivity|]. apply mv; auto.
  - destruct (may_call n s a && negb (enq_passed s a)); [|discriminate]. destruct (stop_now s); injection Hs as <- <-; apply same; reflexivity.
  - destruct (may_call n s a && enq_passed s a && Nat.ltb i n); [|discriminate]. injection Hs as <- <-. split; [|apply same; reflexivity].
    unfold occ. cbn [accepted count_occ]. destruct (Nat.eq_dec y x) as [->|N]; [now rewrite Nat.eqb_refl|apply Nat.eqb_neq in N; now rewrite N].
  - destruct (Nat.ltb_spec w n) as [L|]; [|discriminate]. destruct (wpcs s w) as [| | | | | |z|] eqn:W; try discriminate. destruct (enq_passed s w); [discriminate|].
    assert (G : running x (set_w s w (WDone1 false)) + one (executing x (WExec z)) = running x s + 0) by (pose proof (running_set s w (WDone1 false) x L) as R; rewrite W in R; cbn [one executing] in *; lia).
    destruct (spcs s w); try discriminate; injection Hs as <- <-; (split; [reflexivity|exact G]).
  - destruct (may_call n s a && negb (enq_passed s a)); [|discriminate]. injection Hs as <- <-. apply same; reflexivity.
  - destruct (may_call n s a && negb (enq_passed s a)); [|discriminate]. destruct (once s); [destruct (Nat.ltb a n)|]; injection Hs as <- <-; apply same; reflexivity.
  - destruct (spcs s a); try discriminate.
    + destruct (all_exited n s); [|discriminate]. injection Hs as <- <-. apply same; reflexivity.
    + destruct (once_done s); [|discriminate]. injection Hs as <- <-. apply same; reflexivity.
Qed.
(** where a functor is *)
Definition where_ (x : nat) (s : state) : nat := occ x (queued n s) + running x s.
Lemma pool_step s e s' x : Inv0 n s -> next n ord s e = Some s' -> Inv0 n s' /\ where_ x s' + fin_of x s e = where_ x s + put_of x e.
Proof.
  intros H0 Hn. unfold next in Hn. destruct (step n ord s e) as [[s1 o]|] eqn:E; [|discriminate]. cbn in Hn. injection Hn as ->.
  destruct (cons_step n ord s e s' o H0 E) as (H1 & P). destruct (run_step s e s' o x E) as (A & R). split; auto. apply (occ_perm x) in P. rewrite !occ_app in P. unfold where_. lia.
Qed.

Lemma times_app f l l' : times f (l ++ l') = times f l + times f l'.
Proof. unfold times. now rewrite filter_app, app_length. Qed.
Lemma times_one f e : times f [e] = one (f e).
Proof. unfold times. cbn. destruct (f e); reflexivity. Qed.
Lemma times_pos f l e : In e l -> f e = true -> 1 <= times f l.
Proof. intros H F. unfold times. assert (X : In e (filter f l)) by (apply filter_In; auto). destruct (filter f l); [destruct X|cbn; lia]. Qed.
Lemma times_zero f l : times f l = 0 -> forall e, In e l -> f e = false.
Proof. intros H e He. destruct (f e) eqn:F; auto. pose proof (times_pos f l e He F). lia. Qed.

Record INV (l : list revent) (s : rstate) : Prop := {
  v_q : Inv0 n (pool s);
  v_run : exists l', run (next n ord) init l' = Some (pool s);
  v_cnt : forall x, times (is_done x) l + where_ x (pool s) = one (negb (is_none (kind s x)));
  v_kind : forall x b, kind s x = Some b <-> exists a i, In (Put a i x b) l;
  v_res : forall x o, res s x = Some (Res o) <-> kind s x = Some true /\ exists w, In (Done w x o) l;
  v_broken : forall x, res s x = Some Broken <-> kind s x = Some true /\ gone s = true /\ times (is_done x) l = 0;
  v_gone : gone s = true <-> In Destroy l;
  v_gone_pool : gone s = true -> all_workers_exited n (pool s);
  v_getting : forall a x, getting s a = Some x -> kind s x = Some true /\ taken s x = true;
  v_one_getter : forall a b x, getting s a = Some x -> getting s b = Some x -> a = b;
  v_got : forall x, times (is_got x) l <= 1 /\ (taken s x = false -> times (is_got x) l = 0) /\ (forall a, getting s a = Some x -> times (is_got x) l = 0);
  v_logged : forall x, In x (logged s) <-> kind s x = Some false /\ exists w e, In (Done w x (Exc e)) l }.

Lemma INV_init : INV [] rinit.
Proof.
  split; cbn; try discriminate; try (intros; discriminate).
  - apply Inv0_init.
  - exists []. reflexivity.
  - intros x. unfold where_. rewrite queued_init. unfold running. replace (sum_to n _) with 0; [reflexivity|]. clear. induction n; cbn; auto.
  - intros x b. split; [discriminate|intros (a & i & [])].
  - intros x o. split; [discriminate|intros (? & _)]. discriminate.
  - intros x. split; [discriminate|intros (? & _)]. discriminate.
  - split; [discriminate|intros []].
  - intros x. repeat split; auto.
  - intros x. split; [intros []|intros (? & _)]. discriminate.
Qed.
Lemma in_snoc {A} (x y : A) l : In x (l ++ [y]) <-> In x l \/ y = x.
Proof. rewrite in_app_iff. cbn. tauto. Qed.
Lemma run_snoc {S E} (f : S -> E -> option S) s0 l e s s' : run f s0 l = Some s -> f s e = Some s' -> run f s0 (l ++ [e]) = Some s'.
Proof. intros R H. rewrite (run_app f s0 l [e] s R). cbn. now rewrite H. Qed.

(** an event that no field of the invariant but [v_q], [v_run], [v_cnt] and [v_gone_pool] looks at *)
Definition quiet (e : revent) : bool := match e with Step _ | Get _ _ => true | _ => false end.
Lemma quiet_done x e : quiet e = true -> is_done x e = false. Proof. destruct e; now try discriminate. Qed.
Lemma quiet_got x e : quiet e = true -> is_got x e = false. Proof. destruct e; now try discriminate. Qed.
Lemma quiet_in l e f : quiet e = true -> quiet f = false -> (In f (l ++ [e]) <-> In f l).
Proof. intros Q F. rewrite in_snoc. split; [intros [H|H]; auto; congruence|auto]. Qed.
Lemma none_true {A} (o : option A) : is_none o = true -> o = None.
Proof. destruct o; [discriminate|reflexivity]. Qed.
Lemma ex_iff {A} (P Q : A -> Prop) : (forall x, P x <-> Q x) -> ((exists x, P x) <-> exists x, Q x).
Proof. intros H. split; intros (x & Hx); exists x; now apply H. Qed.
Lemma gone_where l s x : INV l s -> gone s = true -> where_ x (pool s) = occ x (queued n (pool s)).
Proof.
  intros H G. pose proof (v_gone_pool _ _ H G) as X. unfold where_, running. replace (sum_to n _) with 0; [lia|]. symmetry.
  assert (Y : forall m, m <= n -> sum_to m (fun w => one (executing x (wpcs (pool s) w))) = 0).
  { induction m as [|m IH]; intros L; cbn; auto. rewrite IH by lia. rewrite (X m) by lia. reflexivity. }
  apply Y. lia.
Qed.
Lemma in_queue_occ s x : in_queue s x = negb (occ x (queued n (pool s)) =? 0).
Proof.
  unfold in_queue, occ. destruct (existsb (Nat.eqb x) (queued n (pool s))) eqn:E.
  - apply existsb_exists in E. destruct E as (y & Hy & E). apply Nat.eqb_eq in E. subst y. apply (count_occ_In Nat.eq_dec) in Hy. destruct (count_occ Nat.eq_dec (queued n (pool s)) x); [lia|reflexivity].
  - destruct (Nat.eqb_spec (count_occ Nat.eq_dec (queued n (pool s)) x) 0) as [Z|Z]; auto. exfalso. assert (X : In x (queued n (pool s))) by (apply (count_occ_In Nat.eq_dec); lia).
    assert (Y : existsb (Nat.eqb x) (queued n (pool s)) = true) by (apply existsb_exists; exists x; split; auto; apply Nat.eqb_refl). congruence.
Qed.

Lemma INV_step l s e s' : INV l s -> rstep s e = Some s' -> INV (l ++ [e]) s'.
Proof.
  intros H Hs. destruct e as [e|a i x fut|w x o|a x|a x r|]; cbn [rstep] in Hs.
  - (* Step *) destruct (plain e && negb (gone s) && is_none (getting s (agent e))) eqn:G; [|discriminate]. apply andb_true_iff in G. destruct G as [G _]. apply andb_true_iff in G. destruct G as [Pl G]. apply negb_true_iff in G.
    destruct (next n ord (pool s) e) as [p|] eqn:E; [|discriminate]. injection Hs as <-. set (e' := Step e). assert (Q : quiet e' = true) by reflexivity.
    split; cbn [pool kind res getting taken logged gone set_pool].
    + exact (proj1 (pool_step _ _ _ 0 (v_q _ _ H) E)).
    + destruct (v_run _ _ H) as (l' & R). exists (l' ++ [e]). exact (run_snoc _ _ _ _ _ _ R E).
    + intros x. rewrite times_app, times_one, quiet_done by auto. destruct (pool_step _ _ _ x (v_q _ _ H) E) as (_ & W). pose proof (v_cnt _ _ H x). destruct e; try discriminate; cbn [fin_of put_of one] in *; lia.
    + intros x b. rewrite (v_kind _ _ H x b). apply ex_iff. intros a. apply ex_iff. intros i. now rewrite quiet_in.
    + intros x o. rewrite (v_res _ _ H x o). split; intros (A & w & B); (split; [exact A|]); exists w; now apply quiet_in in B || apply quiet_in.
    + intros x. rewrite times_app, times_one, quiet_done, Nat.add_0_r by auto. apply (v_broken _ _ H).
    + rewrite quiet_in by auto. apply (v_gone _ _ H).
    + congruence.
    + apply (v_getting _ _ H).
    + apply (v_one_getter _ _ H).
    + intros x. rewrite times_app, times_one, quiet_got, Nat.add_0_r by auto. apply (v_got _ _ H).
    + intros x. rewrite (v_logged _ _ H x). split; intros (A & w & q & B); (split; [exact A|]); exists w, q; now apply quiet_in in B || apply quiet_in.
  - (* Put *) destruct (negb (gone s) && is_none (getting s a) && is_none (kind s x)) eqn:G; [|discriminate]. apply andb_true_iff in G. destruct G as [G Kx]. apply andb_true_iff in G. destruct G as [G _]. apply negb_true_iff in G. apply none_true in Kx.
    destruct (next n ord (pool s) (EEnqPut a i x)) as [p|] eqn:E; [|discriminate]. injection Hs as <-.
    assert (N0 : times (is_done x) l = 0 /\ where_ x (pool s) = 0) by (pose proof (v_cnt _ _ H x) as C; rewrite Kx in C; cbn in C; lia).
    assert (Rx : res s x = None).
    { destruct (res s x) as [[o|]|] eqn:R; auto; [apply (v_res _ _ H) in R|apply (v_broken _ _ H) in R]; destruct R; congruence. }
    assert (U : forall y, upd (kind s) x (Some fut) y = if y =? x then Some fut else kind s y) by reflexivity.
    split; cbn [pool kind res getting taken logged gone].
    + exact (proj1 (pool_step _ _ _ 0 (v_q _ _ H) E)).
    + destruct (v_run _ _ H) as (l' & R). exists (l' ++ [EEnqPut a i x]). exact (run_snoc _ _ _ _ _ _ R E).
    + intros y. rewrite times_app, times_one. cbn [is_done one]. destruct (pool_step _ _ _ y (v_q _ _ H) E) as (_ & W). pose proof (v_cnt _ _ H y) as C. cbn [fin_of put_of] in W. rewrite U. rewrite (Nat.eqb_sym x y) in W.
      destruct (y =? x) eqn:Y; [apply Nat.eqb_eq in Y; subst y; rewrite Kx in C|]; cbn [one is_none negb] in *; lia.
    + intros y b. rewrite U. destruct (Nat.eqb_spec y x) as [->|N].
      * split; [intros [= <-]; exists a, i; apply in_snoc; auto|]. intros (a' & i' & Y). apply in_snoc in Y. destruct Y as [Y|Y]; [|congruence]. exfalso. assert (Z : kind s x = Some b) by (apply (v_kind _ _ H); eauto). congruence.
      * rewrite (v_kind _ _ H y b). apply ex_iff. intros a'. apply ex_iff. intros i'. rewrite in_snoc. split; [auto|intros [?|?]; [auto|congruence]].
    + intros y o. rewrite U, (v_res _ _ H y o). destruct (Nat.eqb_spec y x) as [->|N].
      * split; intros (A & w & B); [congruence|]. exfalso. apply in_snoc in B. destruct B as [B|B]; [|discriminate]. pose proof (times_zero _ _ (proj1 N0) _ B) as Z. cbn in Z. rewrite Nat.eqb_refl in Z. discriminate.
      * split; intros (A & w & B); (split; [exact A|]); exists w; apply in_snoc in B || apply in_snoc; [auto|destruct B as [B|B]; [auto|discriminate]].
    + intros y. rewrite times_app, times_one. cbn [is_done one]. rewrite Nat.add_0_r, U, (v_broken _ _ H y). destruct (Nat.eqb_spec y x) as [->|N]; [|tauto]. rewrite G. split; intros (? & ? & _); discriminate.
    + rewrite in_snoc, (v_gone _ _ H). split; [auto|intros [?|?]; [auto|discriminate]].
    + congruence.
    + intros b y Y. rewrite U. destruct (v_getting _ _ H b y Y) as (A & B). destruct (Nat.eqb_spec y x) as [->|N]; [congruence|auto].
    + apply (v_one_getter _ _ H).
    + intros y. rewrite times_app, times_one. cbn [is_got one]. rewrite Nat.add_0_r. apply (v_got _ _ H).
    + intros y. rewrite U, (v_logged _ _ H y). destruct (Nat.eqb_spec y x) as [->|N].
      * split; intros (A & w & q & B); [congruence|]. exfalso. apply in_snoc in B. destruct B as [B|B]; [|discriminate]. pose proof (times_zero _ _ (proj1 N0) _ B) as Z. cbn in Z. rewrite Nat.eqb_refl in Z. discriminate.
      * split; intros (A & w & q & B); (split; [exact A|]); exists w, q; apply in_snoc in B || apply in_snoc; [auto|destruct B as [B|B]; [auto|discriminate]].
  - (* Done *) destruct (negb (gone s) && is_none (getting s w) && executing x (wpcs (pool s) w)) eqn:G; [|discriminate]. apply andb_true_iff in G. destruct G as [G Ex]. apply andb_true_iff in G. destruct G as [G _]. apply negb_true_iff in G.
    destruct (next n ord (pool s) (EFinish w)) as [p|] eqn:E; [|discriminate]. cbn [option_map] in Hs. injection Hs as <-.
    assert (Cx : forall y, times (is_done y) (l ++ [Done w x o]) + where_ y p = one (negb (is_none (kind s y)))).
    { intros y. rewrite times_app, times_one. cbn [is_done]. destruct (pool_step _ _ _ y (v_q _ _ H) E) as (_ & W). pose proof (v_cnt _ _ H y) as C. cbn [fin_of put_of] in W.
      assert (Ey : executing y (wpcs (pool s) w) = (x =? y)) by (unfold executing in *; destruct (wpcs (pool s) w); try discriminate; apply Nat.eqb_eq in Ex; now subst). rewrite Ey in W. lia. }
    assert (N0 : times (is_done x) l = 0 /\ kind s x <> None).
    { pose proof (Cx x) as C. rewrite times_app, times_one in C. cbn [is_done] in C. rewrite Nat.eqb_refl in C. cbn [one] in C. destruct (kind s x); cbn in C; [split; [lia|discriminate]|lia]. }
    assert (Nd : forall v o', ~ In (Done v x o') l) by (intros v o' B; pose proof (times_zero _ _ (proj1 N0) _ B) as Z; cbn in Z; rewrite Nat.eqb_refl in Z; discriminate).
    assert (Kd : forall y b, kind s y = Some b <-> exists a i, In (Put a i y b) (l ++ [Done w x o])).
    { intros y b. rewrite (v_kind _ _ H y b). apply ex_iff. intros a'. apply ex_iff. intros i'. rewrite in_snoc. split; [auto|intros [?|?]; [auto|congruence]]. }
    assert (Gn : gone s = true <-> In Destroy (l ++ [Done w x o])) by (rewrite in_snoc, (v_gone _ _ H); split; [auto|intros [?|?]; [auto|discriminate]]).
    assert (Gt : forall y, times (is_got y) (l ++ [Done w x o]) <= 1 /\ (taken s y = false -> times (is_got y) (l ++ [Done w x o]) = 0) /\ (forall a, getting s a = Some y -> times (is_got y) (l ++ [Done w x o]) = 0)).
    { intros y. rewrite times_app, times_one. cbn [is_got one]. rewrite Nat.add_0_r. apply (v_got _ _ H). }
    assert (Bk : forall y, res s y = Some Broken -> False) by (intros y Y; apply (v_broken _ _ H) in Y; destruct Y as (_ & Y & _); congruence).
    assert (Ind : forall v y o', In (Done v y o') (l ++ [Done w x o]) <-> In (Done v y o') l \/ (v = w /\ y = x /\ o' = o)).
    { intros v y o'. rewrite in_snoc. split; [intros [?|Y]; [auto|injection Y as -> -> ->; auto]|intros [?|(-> & -> & ->)]; auto]. }
    assert (Pq : Inv0 n p) by exact (proj1 (pool_step _ _ _ 0 (v_q _ _ H) E)).
    assert (Pr : exists l', run (next n ord) init l' = Some p) by (destruct (v_run _ _ H) as (l' & R); exists (l' ++ [EFinish w]); exact (run_snoc _ _ _ _ _ _ R E)).
    destruct (kind s x) as [[|]|] eqn:Kx; [| |destruct (proj2 N0 eq_refl)].
    + assert (U : forall y, upd (res s) x (Some (Res o)) y = if y =? x then Some (Res o) else res s y) by reflexivity.
      split; cbn [pool kind res getting taken logged gone]; auto; try congruence.
      * intros y o'. rewrite U. destruct (Nat.eqb_spec y x) as [->|N].
        -- split; [intros [= <-]; split; auto; exists w; apply Ind; auto|]. intros (_ & v & B). apply Ind in B. destruct B as [B|(_ & _ & ->)]; [destruct (Nd _ _ B)|reflexivity].
        -- rewrite (v_res _ _ H y o'). split; intros (A & v & B); (split; [exact A|]); exists v; [apply Ind; auto|apply Ind in B; destruct B as [B|(_ & B & _)]; [auto|congruence]].
      * intros y. rewrite U, G. split; [|intros (_ & ? & _); discriminate]. destruct (Nat.eqb_spec y x); [discriminate|]. intros Y. destruct (Bk _ Y).
      * apply (v_getting _ _ H).
      * apply (v_one_getter _ _ H).
      * intros y. rewrite (v_logged _ _ H y). split; intros (A & v & q & B); (split; [exact A|]); exists v, q; [apply Ind; auto|apply Ind in B; destruct B as [B|(_ & B & _)]; [auto|congruence]].
    + split; cbn [pool kind res getting taken logged gone]; auto; try congruence.
      * intros y o'. rewrite (v_res _ _ H y o'). split; intros (A & v & B); (split; [exact A|]); exists v; [apply Ind; auto|apply Ind in B; destruct B as [B|(_ & B & _)]; [auto|congruence]].
      * intros y. split; [intros Y; destruct (Bk _ Y)|intros (_ & ? & _); congruence].
      * apply (v_getting _ _ H).
      * apply (v_one_getter _ _ H).
      * intros y. assert (L : In y (match o with Exc _ => logged s ++ [x] | Ret _ => logged s end) <-> In y (logged s) \/ (y = x /\ exists q, o = Exc q)).
        { destruct o as [v|q]; [split; [auto|intros [?|(_ & q & ?)]; [auto|discriminate]]|]. rewrite in_snoc. split; [intros [?| ->]; [auto|right; split; eauto]|intros [?|(-> & _)]; auto]. }
        rewrite L, (v_logged _ _ H y). split.
        -- intros [(A & v & q & B)|(-> & q & ->)]; [split; auto; exists v, q; apply Ind; auto|]. split; auto. exists w, q. apply Ind. auto.
        -- intros (A & v & q & B). apply Ind in B. destruct B as [B|(_ & -> & <-)]; [left; eauto|right; eauto].
  - (* Get *) destruct (is_none (getting s a) && negb (taken s x) && negb (enq_passed (pool s) a) && may_call n (pool s) a) eqn:G; [|discriminate]. destruct (kind s x) as [[|]|] eqn:Kx; try discriminate. injection Hs as <-.
    apply andb_true_iff in G. destruct G as [G _]. apply andb_true_iff in G. destruct G as [G _]. apply andb_true_iff in G. destruct G as [G1 G2]. apply none_true in G1. apply negb_true_iff in G2.
    set (e' := Get a x). assert (Q : quiet e' = true) by reflexivity.
    assert (U : forall b, upd (getting s) a (Some x) b = if b =? a then Some x else getting s b) by reflexivity. assert (V : forall y, upd (taken s) x true y = if y =? x then true else taken s y) by reflexivity.
    assert (NG : forall b, getting s b <> Some x) by (intros b Y; apply (v_getting _ _ H) in Y; destruct Y; congruence).
    split; cbn [pool kind res getting taken logged gone].
    + exact (v_q _ _ H).
    + exact (v_run _ _ H).
    + intros y. rewrite times_app, times_one, quiet_done, Nat.add_0_r by auto. apply (v_cnt _ _ H).
    + intros y b. rewrite (v_kind _ _ H y b). apply ex_iff. intros a'. apply ex_iff. intros i. now rewrite quiet_in.
    + intros y o. rewrite (v_res _ _ H y o). split; intros (A & w & B); (split; [exact A|]); exists w; now apply quiet_in in B || apply quiet_in.
    + intros y. rewrite times_app, times_one, quiet_done, Nat.add_0_r by auto. apply (v_broken _ _ H).
    + rewrite quiet_in by auto. apply (v_gone _ _ H).
    + exact (v_gone_pool _ _ H).
    + intros b y. rewrite U, V. destruct (Nat.eqb_spec b a) as [->|]; [intros [= <-]; rewrite Nat.eqb_refl; auto|]. intros Y. destruct (v_getting _ _ H b y Y) as (A & B). split; auto. destruct (y =? x); auto.
    + intros b c y. rewrite !U. destruct (Nat.eqb_spec b a) as [->|], (Nat.eqb_spec c a) as [->|]; auto.
      * intros [= <-] Y. destruct (NG _ Y).
      * intros Y [= <-]. destruct (NG _ Y).
      * apply (v_one_getter _ _ H).
    + intros y. rewrite times_app, times_one, quiet_got, Nat.add_0_r by auto. destruct (v_got _ _ H y) as (A & B & C). split; auto. rewrite V. split; [destruct (y =? x); [discriminate|auto]|].
      intros b. rewrite U. destruct (Nat.eqb_spec b a) as [->|]; [intros [= <-]; auto|apply C].
    + intros y. rewrite (v_logged _ _ H y). split; intros (A & w & q & B); (split; [exact A|]); exists w, q; now apply quiet_in in B || apply quiet_in.
  - (* Got *) destruct (getting s a) as [y|] eqn:Ga; [|discriminate]. destruct (res s x) as [r'|] eqn:Rx; [|discriminate]. destruct (Nat.eqb_spec y x) as [->|]; [|discriminate].
    assert (S' : s' = RS (pool s) (kind s) (res s) (upd (getting s) a None) (taken s) (logged s) (gone s)).
    { destruct r as [[u|u]|], r' as [[v|v]|]; try discriminate; try (destruct (u =? v); [|discriminate]); now injection Hs as <-. } subst s'. clear Hs.
    assert (U : forall b, upd (getting s) a None b = if b =? a then None else getting s b) by reflexivity.
    assert (Ind : forall f, (forall b z q, f <> Got b z q) -> (In f (l ++ [Got a x r]) <-> In f l)) by (intros f F; rewrite in_snoc; split; [intros [?|Y]; [auto|destruct (F a x r); congruence]|auto]).
    assert (Cnt : forall z, times (is_done z) (l ++ [Got a x r]) = times (is_done z) l) by (intros z; rewrite times_app, times_one; cbn; lia).
    split; cbn [pool kind res getting taken logged gone].
    + exact (v_q _ _ H).
    + exact (v_run _ _ H).
    + intros z. rewrite Cnt. apply (v_cnt _ _ H).
    + intros z b. rewrite (v_kind _ _ H z b). apply ex_iff. intros a'. apply ex_iff. intros i. now rewrite Ind.
    + intros z o. rewrite (v_res _ _ H z o). split; intros (A & w & B); (split; [exact A|]); exists w; now apply Ind in B || apply Ind.
    + intros z. rewrite Cnt. apply (v_broken _ _ H).
    + rewrite Ind by discriminate. apply (v_gone _ _ H).
    + exact (v_gone_pool _ _ H).
    + intros b z. rewrite U. destruct (b =? a); [discriminate|]. apply (v_getting _ _ H).
    + intros b c z. rewrite !U. destruct (b =? a); [discriminate|]. destruct (c =? a); [discriminate|]. apply (v_one_getter _ _ H).
    + intros z. rewrite times_app, times_one. cbn [is_got]. destruct (v_got _ _ H z) as (A & B & C). destruct (Nat.eqb_spec x z) as [<-|N]; cbn [one].
      * rewrite (C a Ga). destruct (v_getting _ _ H a x Ga) as (_ & T). split; [lia|]. split; [congruence|]. intros b. rewrite U. destruct (Nat.eqb_spec b a); [discriminate|]. intros Y. pose proof (v_one_getter _ _ H a b x Ga Y). congruence.
      * rewrite Nat.add_0_r. split; auto. split; auto. intros b. rewrite U. destruct (b =? a); [discriminate|apply C].
    + intros z. rewrite (v_logged _ _ H z). split; intros (A & w & q & B); (split; [exact A|]); exists w, q; now apply Ind in B || apply Ind.
  - (* Destroy *) destruct (negb (gone s) && is_none (getting s n)) eqn:G; [|discriminate]. apply andb_true_iff in G. destruct G as [G _]. apply negb_true_iff in G. destruct (spcs (pool s) n) eqn:Sp; try discriminate. injection Hs as <-.
    assert (Ex : all_workers_exited n (pool s)) by (destruct (v_run _ _ H) as (l' & R); exact (stop_returns_after_exit n ord l' (pool s) n R Sp)).
    assert (Wh : forall x, where_ x (pool s) = occ x (queued n (pool s))).
    { intros x. unfold where_, running. assert (Y : forall m, m <= n -> sum_to m (fun w => one (executing x (wpcs (pool s) w))) = 0); [|rewrite Y; lia].
      induction m as [|m IH]; intros L; cbn; auto. rewrite IH by lia. rewrite (Ex m) by lia. reflexivity. }
    assert (Iq : forall x, kind s x = Some true -> in_queue s x = (times (is_done x) l =? 0)).
    { intros x Kx. rewrite in_queue_occ, <- Wh. pose proof (v_cnt _ _ H x) as C. rewrite Kx in C. cbn in C. destruct (times (is_done x) l) as [|[|]]; destruct (where_ x (pool s)); cbn in *; try lia; auto. }
    assert (Ind : forall f, f <> Destroy -> (In f (l ++ [Destroy]) <-> In f l)) by (intros f F; rewrite in_snoc; split; [intros [?|Y]; [auto|congruence]|auto]).
    assert (Cnt : forall z, times (is_done z) (l ++ [Destroy]) = times (is_done z) l) by (intros z; rewrite times_app, times_one; cbn; lia).
    split; cbn [pool kind res getting taken logged gone].
    + exact (v_q _ _ H).
    + exact (v_run _ _ H).
    + intros z. rewrite Cnt. apply (v_cnt _ _ H).
    + intros z b. rewrite (v_kind _ _ H z b). apply ex_iff. intros a'. apply ex_iff. intros i. now rewrite Ind.
    + intros z o. assert (X : res s z = Some (Res o) <-> kind s z = Some true /\ exists w, In (Done w z o) (l ++ [Destroy])).
      { rewrite (v_res _ _ H z o). split; intros (A & w & B); (split; [exact A|]); exists w; now apply Ind in B || apply Ind. }
      destruct (kind s z) as [[|]|] eqn:Kz; auto. destruct (in_queue s z) eqn:Q; [|exact X]. rewrite (Iq z Kz) in Q. apply Nat.eqb_eq in Q. split; [discriminate|]. intros (_ & w & B). apply Ind in B; [|discriminate].
      pose proof (times_zero _ _ Q _ B) as Z. cbn in Z. rewrite Nat.eqb_refl in Z. discriminate.
    + intros z. rewrite Cnt. assert (Nb : res s z <> Some Broken) by (intros Y; apply (v_broken _ _ H) in Y; destruct Y as (_ & Y & _); congruence).
      destruct (kind s z) as [[|]|] eqn:Kz; [|split; [congruence|intros (? & _); discriminate]|split; [congruence|intros (? & _); discriminate]].
      rewrite (Iq z Kz). destruct (Nat.eqb_spec (times (is_done z) l) 0); [split; auto|]. split; [congruence|]. intros (_ & _ & ?). congruence.
    + rewrite in_snoc. split; auto.
    + auto.
    + apply (v_getting _ _ H).
    + apply (v_one_getter _ _ H).
    + intros z. rewrite times_app, times_one. cbn [is_got one]. rewrite Nat.add_0_r. apply (v_got _ _ H).
    + intros z. rewrite (v_logged _ _ H z). split; intros (A & w & q & B); (split; [exact A|]); exists w, q; now apply Ind in B || apply Ind.
Qed.
Lemma INV_run l s : run rstep rinit l = Some s -> INV l s.
Proof.
  revert s. induction l as [|e l IH] using rev_ind; intros s R; [cbn in R; injection R as <-; apply INV_init|].
  apply run_app_inv in R. destruct R as (s1 & R1 & R2). cbn in R2. destruct (rstep s1 e) as [s2|] eqn:E; [|discriminate]. injection R2 as <-. exact (INV_step l s1 e s2 (IH s1 R1) E).
Qed.

Definition got_state (s : rstate) (a : nat) : rstate := RS (pool s) (kind s) (res s) (upd (getting s) a None) (taken s) (logged s) (gone s).
Lemma got_spec s a x r s' : rstep s (Got a x r) = Some s' <-> getting s a = Some x /\ res s x = Some r /\ s' = got_state s a.
Proof.
  cbn [rstep]. split.
  - destruct (getting s a) as [y|]; [|discriminate]. destruct (res s x) as [r'|]; [|discriminate]. destruct (Nat.eqb_spec y x) as [->|]; [|discriminate].
    destruct r as [[u|u]|], r' as [[v|v]|]; try discriminate; try (destruct (Nat.eqb_spec u v) as [->|]; [|discriminate]); intros [= <-]; auto.
  - intros (-> & -> & ->). rewrite Nat.eqb_refl. destruct r as [[u|u]|]; rewrite ?Nat.eqb_refl; reflexivity.
Qed.

(** What get() returns or throws is what the functor returned or threw, and that before get() returns; broken_promise only if the pool was destroyed and the functor never executed. *)
Theorem C154_answers l1 a x r l2 s : run rstep rinit (l1 ++ Got a x r :: l2) = Some s ->
  match r with
  | Res o => exists w, In (Done w x o) l1
  | Broken => In Destroy l1 /\ forall w o, ~ In (Done w x o) (l1 ++ Got a x r :: l2)
  end.
Proof.
  intros R. pose proof (INV_run _ _ R) as HR. apply run_app_inv in R. destruct R as (s1 & R1 & R2). pose proof (INV_run _ _ R1) as H. cbn [run] in R2. destruct (rstep s1 (Got a x r)) as [s2|] eqn:E; [|discriminate].
  apply got_spec in E. destruct E as (_ & E & Es). destruct r as [o|]; [exact (proj2 (proj1 (v_res _ _ H x o) E))|]. apply (v_broken _ _ H) in E. destruct E as (Kx & G & T). split; [now apply (v_gone _ _ H)|].
  intros w o B. (* after the destruction nothing is executed *)
  assert (Keep : forall l s0 s3, gone s0 = true -> run rstep s0 l = Some s3 -> forall v y q, ~ In (Done v y q) l).
  { clear. induction l as [|e l IH]; intros s0 s3 G R v y q; [intros []|]. cbn [run] in R. destruct (rstep s0 e) as [s1|] eqn:E; [|discriminate].
    assert (G1 : gone s1 = true).
    { destruct e as [e|b i z f|w z o|b z|b z r|]; [| | | |apply got_spec in E; destruct E as (_ & _ & ->); exact G|]; cbn [rstep] in E; rewrite ?G in E; cbn [negb andb] in E; rewrite ?andb_false_r in E; cbn [andb] in E; try discriminate.
      destruct (is_none _ && _ && _ && _); [|discriminate]. destruct (kind s0 z) as [[|]|]; try discriminate. injection E as <-. reflexivity. }
    intros [-> |B]; [|exact (IH s1 s3 G1 R v y q B)]. cbn [rstep] in E. rewrite G in E. discriminate. }
  apply in_app_or in B. destruct B as [B|[B|B]]; [|discriminate|].
  - pose proof (times_zero _ _ T _ B) as Z. cbn in Z. rewrite Nat.eqb_refl in Z. discriminate.
  - subst s2. exact (Keep l2 (got_state s1 a) s G R2 w x o B).
Qed.

(** Each functor is executed at most once, only after it was accepted, and its future answers at most once. *)
Theorem C154_once l s x : run rstep rinit l = Some s ->
  times (is_done x) l <= 1 /\ times (is_got x) l <= 1 /\ (forall w o, In (Done w x o) l -> exists a i fut, In (Put a i x fut) l).
Proof.
  intros R. pose proof (INV_run _ _ R) as H. pose proof (v_cnt _ _ H x) as C. split; [destruct (kind s x); cbn in C; lia|]. split; [apply (v_got _ _ H)|].
  intros w o B. pose proof (times_pos (is_done x) l _ B ltac:(cbn; apply Nat.eqb_refl)). destruct (kind s x) as [fut|] eqn:K; [|cbn in C; lia]. apply (v_kind _ _ H) in K. destruct K as (a & i & K). eauto.
Qed.

(** A thread in get() can go on as soon as the functor has been executed, or the pool has been destroyed. *)
Theorem C154_get_returns l s a x : run rstep rinit l = Some s -> getting s a = Some x ->
  (exists w o, In (Done w x o) l) \/ In Destroy l -> exists r s', rstep s (Got a x r) = Some s'.
Proof.
  intros R Ga. pose proof (INV_run _ _ R) as H. destruct (v_getting _ _ H a x Ga) as (Kx & _).
  assert (X : (exists w o, In (Done w x o) l) \/ (In Destroy l /\ times (is_done x) l = 0) -> exists r s', rstep s (Got a x r) = Some s').
  { intros [(w & o & B)|(D & T)].
    - exists (Res o), (got_state s a). apply got_spec. split; auto. split; auto. apply (v_res _ _ H). eauto.
    - exists Broken, (got_state s a). apply got_spec. split; auto. split; auto. apply (v_broken _ _ H). split; auto. split; auto. now apply (v_gone _ _ H). }
  intros [B|D]; [now apply X; left|]. destruct (times (is_done x) l) eqn:T; [apply X; auto|]. apply X. left.
  unfold times in T. destruct (filter (is_done x) l) as [|e r] eqn:F; [discriminate|]. assert (Y : In e (filter (is_done x) l)) by (rewrite F; now left). apply filter_In in Y. destruct Y as (Y & Z). destruct e as [| |w y o| | |]; try discriminate. cbn in Z. apply Nat.eqb_eq in Z. subst y. eauto.
Qed.

(** An exception goes to the future of the functor that threw it, or to the log if it has none; and nothing else depends on what the functors return or throw: with other results the same execution is possible, the pool doing the same. *)
Definition map_answer (g : nat -> outcome -> outcome) (x : nat) (r : answer) : answer := match r with Res o => Res (g x o) | Broken => Broken end.
Theorem C154_exceptions_contained l s : run rstep rinit l = Some s ->
  (forall x, In x (logged s) <-> (exists a i, In (Put a i x false) l) /\ exists w e, In (Done w x (Exc e)) l) /\
  forall g, exists s', run rstep rinit (map (reo g) l) = Some s' /\ pool s' = pool s.
Proof.
  intros R. pose proof (INV_run _ _ R) as H. split; [intros x; rewrite (v_logged _ _ H x), (v_kind _ _ H x false); reflexivity|]. intros g.
  assert (Sim : forall l s0 s1 t0, run rstep s0 l = Some s1 -> pool t0 = pool s0 -> kind t0 = kind s0 -> getting t0 = getting s0 -> taken t0 = taken s0 -> gone t0 = gone s0 -> (forall x, res t0 x = option_map (map_answer g x) (res s0 x)) ->
     exists t1, run rstep t0 (map (reo g) l) = Some t1 /\ pool t1 = pool s1).
  { clear. induction l as [|e l IH]; intros s0 s1 t0 R P K G T D Rs; cbn [run map] in *; [injection R as <-; eauto|]. destruct (rstep s0 e) as [s2|] eqn:E; [|discriminate].
    assert (X : exists t2, rstep t0 (reo g e) = Some t2 /\ pool t2 = pool s2 /\ kind t2 = kind s2 /\ getting t2 = getting s2 /\ taken t2 = taken s2 /\ gone t2 = gone s2 /\ (forall x, res t2 x = option_map (map_answer g x) (res s2 x))).
    { destruct e as [e|b i z f|w z o|b z|b z r|].
      - cbn [rstep reo] in *. rewrite P, G, D. destruct (plain e && negb (gone s0) && is_none (getting s0 (agent e))); [|discriminate]. destruct (next n ord (pool s0) e) as [p|]; [|discriminate]. injection E as <-. cbn. eexists. split; [reflexivity|]. repeat split; auto.
      - cbn [rstep reo] in *. rewrite P, G, D, K. destruct (negb (gone s0) && is_none (getting s0 b) && is_none (kind s0 z)); [|discriminate]. destruct (next n ord (pool s0) (EEnqPut b i z)) as [p|]; [|discriminate]. injection E as <-. cbn. eexists. split; [reflexivity|]. repeat split; auto.
      - cbn [rstep reo] in *. rewrite P, G, D. destruct (negb (gone s0) && is_none (getting s0 w) && executing z (wpcs (pool s0) w)); [|discriminate]. destruct (next n ord (pool s0) (EFinish w)) as [p|]; [|discriminate]. cbn [option_map] in *. rewrite K. injection E as <-. eexists. split; [reflexivity|].
        destruct (kind s0 z) as [[|]|]; cbn; repeat split; auto. intros x. unfold upd. destruct (Nat.eqb_spec x z) as [->|]; auto.
      - cbn [rstep reo] in *. rewrite P, G, T, K. destruct (is_none (getting s0 b) && negb (taken s0 z) && negb (enq_passed (pool s0) b) && may_call n (pool s0) b); [|discriminate]. destruct (kind s0 z) as [[|]|]; try discriminate. injection E as <-. eexists. split; [reflexivity|]. cbn. repeat split; auto; now rewrite ?G, ?T.
      - apply got_spec in E. destruct E as (Ga & Rz & ->). exists (got_state t0 b). split.
        + assert (Y : reo g (Got b z r) = Got b z (map_answer g z r)) by (destruct r; reflexivity). rewrite Y. apply got_spec. rewrite G, Rs, Rz. auto.
        + cbn. repeat split; auto. now rewrite G.
      - cbn [rstep reo] in *. rewrite P, G, D. destruct (negb (gone s0) && is_none (getting s0 n)); [|discriminate]. destruct (spcs (pool s0) n); try discriminate. injection E as <-. eexists. split; [reflexivity|]. cbn. repeat split; auto.
        intros x. rewrite K. unfold in_queue. rewrite P, Rs. destruct (kind s0 x) as [[|]|]; auto. destruct (existsb _ _); reflexivity. }
    destruct X as (t2 & E2 & A1 & A2 & A3 & A4 & A5 & A6). rewrite E2. exact (IH s2 s1 t2 R A1 A2 A3 A4 A5 A6). }
  apply (Sim l rinit s rinit R); auto.
Qed.

(** What holds of stop(): if only running functors enqueue after it was called, then when it has returned every functor accepted has been executed. *)
Fixpoint proj (l : list revent) : list event :=
  match l with [] => [] | Step e :: l' => e :: proj l' | Put a i x _ :: l' => EEnqPut a i x :: proj l' | Done w _ _ :: l' => EFinish w :: proj l' | _ :: l' => proj l' end.
Lemma proj_run l : forall s s', run rstep s l = Some s' -> run_all rstep rgraceful s l -> run (next n ord) (pool s) (proj l) = Some (pool s') /\ run_all (next n ord) (graceful n) (pool s) (proj l).
Proof.
  induction l as [|e l IH]; intros s s' R A; [cbn in R; injection R as <-; split; [reflexivity|exact I]|]. cbn [run] in R. destruct (rstep s e) as [s1|] eqn:E; [|discriminate]. cbn [run_all] in A. destruct A as (A & B). specialize (IH s1 s' R (B s1 E)). destruct IH as (I1 & I2).
  destruct e as [e|b i z f|w z o|b z|b z r|]; [| | | |apply got_spec in E; destruct E as (_ & _ & ->); auto|]; cbn [rstep proj] in *.
  - destruct (plain e && negb (gone s) && is_none (getting s (agent e))) eqn:Pl; [|discriminate]. destruct (next n ord (pool s) e) as [p|] eqn:N; [|discriminate]. injection E as <-. cbn [run run_all pool set_pool] in *. rewrite N. split; auto. split; [|intros s2 [= <-]; auto]. destruct e; cbn in *; auto; discriminate.
  - destruct (negb (gone s) && is_none (getting s b) && is_none (kind s z)); [|discriminate]. destruct (next n ord (pool s) (EEnqPut b i z)) as [p|] eqn:N; [|discriminate]. injection E as <-. cbn [run run_all pool] in *. rewrite N. split; auto. split; [exact A|intros s2 [= <-]; auto].
  - destruct (negb (gone s) && is_none (getting s w) && executing z (wpcs (pool s) w)); [|discriminate]. destruct (next n ord (pool s) (EFinish w)) as [p|] eqn:N; [|discriminate]. injection E as <-. cbn [run run_all] in *. rewrite N. assert (Y : forall X Y Z : rstate, pool X = p -> pool Y = p -> pool (match kind s z with Some true => X | _ => Y end) = p) by (intros; destruct (kind s z) as [[|]|]; auto).
    rewrite (Y _ _ rinit) in I1, I2 by reflexivity. split; auto. split; [exact (Logic.I)|intros s2 [= <-]; auto].
  - destruct (is_none _ && _ && _ && _); [|discriminate]. destruct (kind s z) as [[|]|]; try discriminate. injection E as <-. auto.
  - destruct (negb (gone s) && is_none (getting s n)); [|discriminate]. destruct (spcs (pool s) n); try discriminate. injection E as <-. auto.
Qed.
Theorem C154_answered_by_stop_partial : (forall i, i < n <-> In i ord) -> 0 < n -> forall l s a, run rstep rinit l = Some s -> run_all rstep rgraceful rinit l -> spcs (pool s) a = SReturned ->
  forall b i x fut, In (Put b i x fut) l -> exists w o, In (Done w x o) l.
Proof.
  intros Hord Hn l s a R A Sp b i x fut B. pose proof (INV_run _ _ R) as H. destruct (proj_run l rinit s R A) as (R' & A'). cbn [pool rinit] in *.
  pose proof (stop_returns_after_exit n ord _ _ a R' Sp) as Ex. pose proof (graceful_complete n ord Hord _ _ Hn A' R' Ex) as P1. pose proof (conservation n ord _ _ R') as P2.
  assert (Q : queued n (pool s) = []) by (apply Permutation_length in P1; apply Permutation_length in P2; rewrite app_length in P2; destruct (queued n (pool s)); [reflexivity|cbn in P2; lia]).
  assert (K : kind s x = Some fut) by (apply (v_kind _ _ H); eauto). pose proof (v_cnt _ _ H x) as C. rewrite K in C. unfold where_ in C. rewrite Q in C.
  assert (Rn : running x (pool s) = 0).
  { unfold running. assert (Y : forall m, m <= n -> sum_to m (fun w => one (executing x (wpcs (pool s) w))) = 0); [|apply Y; lia]. induction m as [|m IH]; intros L; cbn; auto. rewrite IH by lia. rewrite (Ex m) by lia. reflexivity. }
  rewrite Rn in C. cbn in C. unfold times in C. destruct (filter (is_done x) l) as [|e r] eqn:F; [discriminate|]. assert (Y : In e (filter (is_done x) l)) by (rewrite F; now left). apply filter_In in Y. destruct Y as (Y & Z). destruct e as [| |w y o| | |]; try discriminate. cbn in Z. apply Nat.eqb_eq in Z. subst y. eauto.
Qed.

(** A functor accepted when the workers have gone, or put into a queue after they have looked at it for the last time: the thread that owns the pool and calls get() waits for ever. *)
Theorem C154_owner_waits_forever l s x l' s' : run rstep rinit l = Some s -> all_workers_exited n (pool s) -> gone s = false -> getting s n = Some x -> (forall w o, ~ In (Done w x o) l) ->
  run rstep s l' = Some s' -> getting s' n = Some x /\ forall r, rstep s' (Got n x r) = None.
Proof.
  intros R Ex G Ga Nd R'. pose proof (INV_run _ _ R) as H.
  assert (Rx : res s x = None).
  { destruct (res s x) as [[o|]|] eqn:E; auto; [apply (v_res _ _ H) in E; destruct E as (_ & w & E); destruct (Nd _ _ E)|apply (v_broken _ _ H) in E; destruct E as (_ & E & _); congruence]. }
  assert (Keep : forall l0 s0 s1, all_workers_exited n (pool s0) -> gone s0 = false -> getting s0 n = Some x -> res s0 x = None -> run rstep s0 l0 = Some s1 -> getting s1 n = Some x /\ res s1 x = None).
  { clear. induction l0 as [|e l IH]; intros s0 s1 Ex G Ga Rx R; cbn [run] in R; [injection R as <-; auto|]. destruct (rstep s0 e) as [s2|] eqn:E; [|discriminate].
    assert (X : all_workers_exited n (pool s2) /\ gone s2 = false /\ getting s2 n = Some x /\ res s2 x = None); [|destruct X as (A & B & C & D); exact (IH s2 s1 A B C D R)].
    destruct e as [e|b i z f|w z o|b z|b z r|].
    - cbn [rstep] in E. destruct (plain e && negb (gone s0) && is_none (getting s0 (agent e))); [|discriminate]. destruct (next n ord (pool s0) e) as [p|] eqn:N; [|discriminate]. injection E as <-. cbn. repeat split; auto. intros w Hw. exact (exit_stays n ord _ _ _ N w (Ex w Hw)).
    - cbn [rstep] in E. destruct (negb (gone s0) && is_none (getting s0 b) && is_none (kind s0 z)); [|discriminate]. destruct (next n ord (pool s0) (EEnqPut b i z)) as [p|] eqn:N; [|discriminate]. injection E as <-. cbn. repeat split; auto. intros w Hw. exact (exit_stays n ord _ _ _ N w (Ex w Hw)).
    - cbn [rstep] in E. destruct (negb (gone s0) && is_none (getting s0 w) && executing z (wpcs (pool s0) w)); [|discriminate]. destruct (next n ord (pool s0) (EFinish w)) as [p|] eqn:N; [|discriminate]. exfalso. unfold next, step in N. destruct (terminated (pool s0)); [discriminate|]. destruct (Nat.ltb_spec w n) as [L|]; [|discriminate]. rewrite (Ex w L) in N. discriminate.
    - cbn [rstep] in E. destruct (is_none (getting s0 b) && negb (taken s0 z) && negb (enq_passed (pool s0) b) && may_call n (pool s0) b) eqn:C; [|discriminate]. destruct (kind s0 z) as [[|]|]; try discriminate. injection E as <-. cbn. repeat split; auto.
      rewrite upd_other; auto. intros ->. rewrite Ga in C. discriminate.
    - apply got_spec in E. destruct E as (Gb & Rz & ->). cbn. repeat split; auto. rewrite upd_other; auto. intros <-. rewrite Ga in Gb. injection Gb as <-. congruence.
    - cbn [rstep] in E. rewrite Ga in E. cbn in E. rewrite andb_false_r in E. discriminate. }
  destruct (Keep l' s s' Ex G Ga Rx R') as (A & B). split; auto. intros r. destruct (rstep s' (Got n x r)) as [s2|] eqn:E; auto. apply got_spec in E. destruct E as (_ & E & _). congruence.
Qed.
End Results.

(** ** cases *)
(** one worker. Thread 1 owns the pool: stop() returns, enqueue() is accepted, get() *)
Definition late : list revent :=
  [Step (EStop 1); Step (EWorker 0 0); Step (EWorker 0 0); Step (EWorker 0 0); Step (EWorker 0 0); Step (EStopDone 1); Step (EEnqCheck 1); Put 1 0 7 true; Get 1 7].
Theorem C154_stop_answers_refuted : exists l s, run (rstep 1 [0]) rinit l = Some s /\ In (Put 1 0 7 true) l /\ spcs (pool s) 1 = SReturned /\ getting s 1 = Some 7 /\
  forall l' s', run (rstep 1 [0]) s l' = Some s' -> forall r, rstep 1 [0] s' (Got 1 7 r) = None.
Proof.
  destruct (run_proj_ok (rstep 1 [0]) (fun s => (wpcs (pool s) 0, gone s, getting s 1, spcs (pool s) 1)) rinit late (WExit, false, Some 7, SReturned)) as (s & R & V); [vm_compute; reflexivity|]. injection V as V1 V2 V3 V4.
  exists late, s. split; [exact R|]. split; [unfold late; cbn; tauto|]. split; [exact V4|]. split; [exact V3|]. intros l' s' R'.
  refine (proj2 (C154_owner_waits_forever 1 [0] late s 7 l' s' R _ V2 V3 _ R')); [intros [|w] Hw; [exact V1|lia]|].
  intros w o B. unfold late in B. cbn in B. repeat (destruct B as [B|B]; [discriminate|]). exact B.
Qed.
(** two workers: a functor that returns 5, one that throws, one without a future that throws, one that is left when the pool is destroyed *)
Definition mixed : list revent :=
  [Step (EEnqCheck 2); Put 2 0 10 true; Step (EEnqCheck 3); Put 3 1 11 true; Get 3 10; Step (EEnqCheck 2); Put 2 0 12 false;
   Step (EWorker 0 0); Step (EWorker 0 0); Step (EWorker 1 0); Step (EWorker 1 0); Done 1 11 (Exc 1); Done 0 10 (Ret 5); Got 3 10 (Res (Ret 5));
   Step (EWorker 0 0); Step (EWorker 0 0); Done 0 12 (Exc 2); Get 3 11; Got 3 11 (Res (Exc 1));
   Step (EEnqCheck 2); Put 2 0 13 true; Get 4 13; Step (EQuick 2); Step (EStop 2);
   Step (EWorker 0 0); Step (EWorker 0 0); Step (EWorker 1 0); Step (EWorker 1 0); Step (EStopDone 2); Destroy; Got 4 13 Broken].
Example C154_case : exists s, run (rstep 2 [0; 1]) rinit mixed = Some s /\ logged s = [12] /\ gone s = true /\ map (res s) [10; 11; 12; 13] = [Some (Res (Ret 5)); Some (Res (Exc 1)); None; Some Broken].
Proof. destruct (run_proj_ok (rstep 2 [0; 1]) (fun s => (logged s, gone s, map (res s) [10; 11; 12; 13])) rinit mixed ([12], true, [Some (Res (Ret 5)); Some (Res (Exc 1)); None; Some Broken])) as (s & R & V); [vm_compute; reflexivity|]. exists s. injection V as V1 V2 V3 V4 V5 V6. split; [exact R|]. split; [exact V1|]. split; [exact V2|]. cbn [map]. rewrite V3, V4, V5, V6. reflexivity. Qed.
(** a graceful one: a functor enqueues another after stop() was called *)
Definition good : list revent :=
  [Step (EEnqCheck 1); Put 1 0 10 true; Step (EWorker 0 0); Step (EWorker 0 0); Step (EStop 1); Step (EEnqCheck 0); Put 0 0 11 true; Done 0 10 (Ret 1);
   Step (EWorker 0 0); Step (EWorker 0 0); Step (EWorker 0 0); Step (EWorker 0 0); Done 0 11 (Ret 2); Step (EWorker 0 0); Step (EWorker 0 0); Step (EWorker 0 0); Step (EWorker 0 0); Step (EStopDone 1)].
Example C154_case_graceful : exists s, run (rstep 1 [0]) rinit good = Some s /\ run_all (rstep 1 [0]) (rgraceful 1) rinit good /\ spcs (pool s) 1 = SReturned.
Proof.
  destruct (run_proj_ok (rstep 1 [0]) (fun s => spcs (pool s) 1) rinit good SReturned) as (s & R & V); [vm_compute; reflexivity|]. exists s. split; [exact R|]. split; [|exact V]. clear R V.
  apply (run_allb_ok (rstep 1 [0]) (fun s e => match e with Put a _ _ _ => negb (stop_req (pool s)) || Nat.ltb a 1 | Step (EQuick _) => false | _ => true end)); [|vm_compute; reflexivity].
  intros s0 e. destruct e as [[]| | | | |]; cbn [rgraceful]; auto; try discriminate. intros Hb Hs. rewrite Hs in Hb. cbn [negb orb] in Hb. now apply Nat.ltb_lt in Hb.
Qed.

Print Assumptions C154_answers.
Print Assumptions C154_once.
Print Assumptions C154_get_returns.
Print Assumptions C154_exceptions_contained.
Print Assumptions C154_answered_by_stop_partial.
Print Assumptions C154_owner_waits_forever.
Print Assumptions C154_stop_answers_refuted.
