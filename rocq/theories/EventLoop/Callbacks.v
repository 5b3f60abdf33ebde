(** C142, C143: the callbacks of user event loops run under the container's std::shared_mutex.

    src/user_event_loop.cc 12-103, include/koios/user_event_loops.h 22-41, include/koios/user_event_loop_interface.h.

    Any number of threads call the functions of one user_event_loops object; each takes m_mutex (unique in thread_specific_preparation() and add_loop(), 14 and 76; shared in the
    others) and calls the loops one by one while it has it. What a callback does is left open, except that it may call a function of the same container
    once ([nested]). std::shared_mutex: a unique lock is granted when nobody has the mutex, a shared one when nobody has it uniquely; which request is granted next is open.
    do_occured_nonblk() and quick_stop() access m_cleanning (33-34, 64-65) in a step of their own. *)
From Coq Require Import List Arith Bool Lia.
From Verif.Common Require Import TS Sum.
Import ListNotations.

(* the functions of user_event_loops, user_event_loops.h 22-41 *)
Inductive oper := Poll | MaxSleep | Stop | QuickStop | UntilDone | Empty | Print | Prepare | AddLoop (lp : nat).
(* which of them take m_mutex uniquely: user_event_loop.cc 14, 76 *)
Definition unique (o : oper) : bool := match o with Prepare | AddLoop _ => true | _ => false end.
(* which of them access m_cleanning: user_event_loop.cc 33-34, 64-65 *)
Definition uses_flag (o : oper) : bool := match o with Poll | QuickStop => true | _ => false end.
(* where a thread is in a function of user_event_loop.cc 12-103 *)
Inductive frame :=
| Wait (o : oper)                                  (* asks for m_mutex *)
| Flag (o : oper)                                  (* has it, about to access m_cleanning *)
| Run (o : oper) (todo : list nat)                 (* has it, between callbacks *)
| InCb (o : oper) (lp : nat) (todo : list nat) (called : bool).   (* inside the callback of loop lp *)
(* what the state keeps of user_event_loop.cc 12-103, user_event_loops.h 22-41 *)
Record state := St {
  stk : nat -> list frame;             (* the calls of a thread, innermost first *)
  readers : list nat; writer : option nat;
  loops : list nat; attrs : list nat;  (* m_loops; the threads with an entry in m_attrs *)
  cleanning : bool }.
(* before anything has happened; user_event_loop.cc 12-103, user_event_loops.h 22-41 *)
Definition init : state := St (fun _ => []) [] None [] [] false.
(* the steps of user_event_loop.cc 12-103, user_event_loops.h 22-41 *)
Inductive event := Begin (t : nat) (o : oper) | Grant (t : nat) | Touch (t : nat) | CbBegin (t : nat) | CbCall (t : nat) | CbEnd (t : nat) (answer : bool) | Finish (t : nat).
(* bookkeeping of the model, no counterpart in /repo *)
Definition by_ (e : event) : nat := match e with Begin t _ | Grant t | Touch t | CbBegin t | CbCall t | CbEnd t _ | Finish t => t end.

Section M.
  Variable n : nat.                                   (* threads *)
  Variable nested : nat -> oper -> option oper.       (* what the callback of a loop, made by an operation, calls *)
  (* bookkeeping of the model, no counterpart in /repo *)
  Definition set_stk (s : state) t x := St (upd (stk s) t x) (readers s) (writer s) (loops s) (attrs s) (cleanning s).
  (* bookkeeping of the model, no counterpart in /repo *)
  Fixpoint del (t : nat) (l : list nat) : list nat := match l with [] => [] | x :: l' => if x =? t then l' else x :: del t l' end.
  Definition step (s : state) (e : event) : option state :=
    match e with
    | Begin t o => if t <? n then match stk s t with [] => Some (set_stk s t [Wait o]) | _ => None end else None
    | Grant t =>
        match stk s t with
        | Wait o :: k =>
          match writer s with
          | Some _ => None
          | None =>
            if unique o then
              match readers s with
              | _ :: _ => None
              | [] => match o with
                      | AddLoop lp => Some (St (upd (stk s) t (Run o (repeat lp (length (attrs s))) :: k)) [] (Some t) (loops s ++ [lp]) (attrs s) (cleanning s))    (* 76-81 *)
                      | _ => Some (St (upd (stk s) t (Run o (loops s) :: k)) [] (Some t) (loops s) (if in_dec Nat.eq_dec t (attrs s) then attrs s else attrs s ++ [t]) (cleanning s))   (* 14-19 *)
                      end
              end
            else Some (St (upd (stk s) t ((if uses_flag o then Flag o else Run o (loops s)) :: k)) (t :: readers s) None (loops s) (attrs s) (cleanning s))
          end
        | _ => None
        end
    | Touch t =>
        match stk s t with
        | Flag QuickStop :: k => Some (St (upd (stk s) t (Run QuickStop (loops s) :: k)) (readers s) (writer s) (loops s) (attrs s) true)                   (* 34 *)
        | Flag o :: k => Some (set_stk s t (Run o (if cleanning s then [] else loops s) :: k))                                                                (* 65 *)
        | _ => None
        end
    | CbBegin t => match stk s t with Run o (lp :: todo) :: k => Some (set_stk s t (InCb o lp todo false :: k)) | _ => None end
    | CbCall t => match stk s t with
                  | InCb o lp todo false :: k => match nested lp o with Some o' => Some (set_stk s t (Wait o' :: InCb o lp todo true :: k)) | None => None end
                  | _ => None end
    | CbEnd t answer =>
        match stk s t with
        | InCb o lp todo called :: k =>
            if called || match nested lp o with None => true | Some _ => false end
            then Some (set_stk s t (Run o (match o with Empty => if answer then todo else [] | _ => todo end) :: k))      (* 89-90: the first loop that is not empty *)
            else None
        | _ => None end
    | Finish t =>
        match stk s t with
        | Run o [] :: k => Some (if unique o then St (upd (stk s) t k) (readers s) None (loops s) (attrs s) (cleanning s)
                                 else St (upd (stk s) t k) (del t (readers s)) (writer s) (loops s) (attrs s) (cleanning s))
        | _ => None end
    end.

  Definition runs (f : frame) : option oper := match f with Wait _ => None | Flag o | Run o _ | InCb o _ _ _ => Some o end.
  Fixpoint held (u : bool) (k : list frame) : nat := match k with [] => 0 | f :: k' => (match runs f with Some o => if Bool.eqb (unique o) u then 1 else 0 | None => 0 end) + held u k' end.
  Record Inv (s : state) : Prop := {
    v_out : forall t, n <= t -> stk s t = [];
    v_read : forall t, count_occ Nat.eq_dec (readers s) t = held false (stk s t);
    v_write : forall t, held true (stk s t) = match writer s with Some w => if t =? w then 1 else 0 | None => 0 end;
    v_excl : writer s <> None -> readers s = [];
    v_flag : forall t o, In (Flag o) (stk s t) -> uses_flag o = true }.

  Lemma count_del t u l : count_occ Nat.eq_dec (del t l) u = if u =? t then pred (count_occ Nat.eq_dec l u) else count_occ Nat.eq_dec l u.
  Proof.
    induction l as [|x l IH]; cbn [del]; [cbn; now destruct (u =? t)|]. destruct (Nat.eqb_spec x t) as [->|N].
    - cbn [count_occ]. destruct (Nat.eq_dec t u) as [->|M]; [now rewrite Nat.eqb_refl|]. destruct (Nat.eqb_spec u t); [congruence|reflexivity].
    - cbn [count_occ]. rewrite IH. destruct (Nat.eq_dec x u) as [->|M]; [|reflexivity]. destruct (Nat.eqb_spec u t); [congruence|reflexivity].
  Qed.
  Lemma updE {A} (f : nat -> A) i p j : upd f i p j = if j =? i then p else f j.
  Proof. destruct (Nat.eqb_spec j i); [subst; apply upd_same|now apply upd_other]. Qed.
  Lemma Inv_init : Inv init.
  Proof. split; cbn; auto; try contradiction. Qed.
  Lemma Inv_step s e s' : Inv s -> step s e = Some s' -> Inv s'.
  Proof.
    intros HI Hs.
    (* a step of thread t that leaves the lock alone *)
    assert (Same : forall t f g k k' cl, stk s t = f ++ k -> k' = g ++ k -> t < n -> (forall b, held b g = held b f) -> (forall o, In (Flag o) g -> uses_flag o = true) ->
      Inv (St (upd (stk s) t k') (readers s) (writer s) (loops s) (attrs s) cl)).
    { intros t f g k k' cl Ek -> Ht Hh Hf. assert (HA : forall b x y, held b (x ++ y) = held b x + held b y) by (intros b x y; induction x; cbn [app held]; [reflexivity|rewrite IHx; lia]).
      split; cbn [stk readers writer].
      - intros u Hu. rewrite updE. destruct (Nat.eqb_spec u t); [lia|now apply (v_out _ HI)].
      - intros u. rewrite updE, (v_read _ HI). destruct (Nat.eqb_spec u t) as [->|]; auto. rewrite Ek, !HA, Hh. reflexivity.
      - intros u. rewrite <- (v_write _ HI u), updE. destruct (Nat.eqb_spec u t) as [->|]; auto. rewrite Ek, !HA, Hh. reflexivity.
      - apply (v_excl _ HI).
      - intros u o. rewrite updE. destruct (Nat.eqb_spec u t) as [->|]; [|apply (v_flag _ HI)]. intros H. apply in_app_or in H as [H|H]; [now apply Hf|]. apply (v_flag _ HI t). rewrite Ek. apply in_or_app. now right. }
    assert (Lt : forall t f k, stk s t = f :: k -> t < n) by (intros t f k E; destruct (Nat.lt_ge_cases t n) as [|H]; auto; apply (v_out _ HI) in H; congruence).
    destruct e as [t o|t|t|t|t|t b|t]; unfold step in Hs.
    - destruct (Nat.ltb_spec t n) as [Ht|]; [|discriminate]. destruct (stk s t) eqn:E; [|discriminate]. injection Hs as <-. apply (Same t [] [Wait o] []); auto; cbn; try tauto. intros o' [H|[]]; discriminate.
    - destruct (stk s t) as [|[o|o|o todo|o lp todo called] k] eqn:E; try discriminate. pose proof (Lt _ _ _ E) as Ht. destruct (writer s) eqn:Ew; [discriminate|].
      destruct (unique o) eqn:Eu.
      + destruct (readers s) eqn:Er; [|discriminate].
        assert (G : forall lps na td, Inv (St (upd (stk s) t (Run o td :: k)) [] (Some t) lps na (cleanning s))).
        { intros lps na td. split; cbn [stk readers writer].
          - intros u Hu. rewrite updE. destruct (Nat.eqb_spec u t); [lia|now apply (v_out _ HI)].
          - intros u. pose proof (v_read _ HI u) as X. rewrite Er in X. rewrite updE. destruct (Nat.eqb_spec u t) as [->|]; auto. rewrite E in X. cbn in X |- *. rewrite Eu. exact X.
          - intros u. pose proof (v_write _ HI u) as X. rewrite Ew in X. rewrite updE. destruct (Nat.eqb_spec u t) as [->|]; auto. rewrite E in X. cbn in X |- *. rewrite Eu. cbn. lia.
          - auto.
          - intros u o'. rewrite updE. destruct (Nat.eqb_spec u t) as [->|]; [|apply (v_flag _ HI)]. intros [H|H]; [discriminate|]. apply (v_flag _ HI t). rewrite E. now right. }
        destruct o; try discriminate; injection Hs as <-; apply G.
      + injection Hs as <-. split; cbn [stk readers writer].
        * intros u Hu. rewrite updE. destruct (Nat.eqb_spec u t); [lia|now apply (v_out _ HI)].
        * intros u. pose proof (v_read _ HI u) as X. rewrite updE. cbn [count_occ]. destruct (Nat.eqb_spec u t) as [->|N].
          -- destruct (Nat.eq_dec t t); [|contradiction]. rewrite X, E. cbn. destruct (uses_flag o); cbn; rewrite Eu; reflexivity.
          -- destruct (Nat.eq_dec t u); [congruence|exact X].
        * intros u. pose proof (v_write _ HI u) as X. rewrite Ew in X. rewrite updE. destruct (Nat.eqb_spec u t) as [->|]; auto. rewrite E in X. cbn in X |- *. destruct (uses_flag o); cbn; rewrite Eu; exact X.
        * congruence.
        * intros u o'. rewrite updE. destruct (Nat.eqb_spec u t) as [->|]; [|apply (v_flag _ HI)]. intros [H|H]; [destruct (uses_flag o) eqn:Ef; congruence|]. apply (v_flag _ HI t). rewrite E. now right.
    - destruct (stk s t) as [|[o|o|o todo|o lp todo called] k] eqn:E; try discriminate. pose proof (Lt _ _ _ E) as Ht.
      destruct o; injection Hs as <-; (eapply (Same t [Flag _] [Run _ _] k); [exact E|reflexivity|exact Ht|intros b; reflexivity|intros o' [H|[]]; discriminate]).
    - destruct (stk s t) as [|[o|o|o todo|o lp todo called] k] eqn:E; try discriminate. destruct todo as [|lp todo]; [discriminate|]. pose proof (Lt _ _ _ E) as Ht. injection Hs as <-.
      eapply (Same t [Run _ _] [InCb _ _ _ _] k); [exact E|reflexivity|exact Ht|intros b; reflexivity|intros o' [H|[]]; discriminate].
    - destruct (stk s t) as [|[o|o|o todo|o lp todo called] k] eqn:E; try discriminate. destruct called; [discriminate|]. pose proof (Lt _ _ _ E) as Ht. destruct (nested lp o) as [o'|]; [|discriminate]. injection Hs as <-.
      eapply (Same t [InCb _ _ _ _] [Wait o'; InCb _ _ _ _] k); [exact E|reflexivity|exact Ht|intros b; reflexivity|intros o2 [H|[H|[]]]; discriminate].
    - destruct (stk s t) as [|[o|o|o todo|o lp todo called] k] eqn:E; try discriminate. pose proof (Lt _ _ _ E) as Ht. destruct (called || _); [|discriminate]. injection Hs as <-.
      eapply (Same t [InCb _ _ _ _] [Run _ _] k); [exact E|reflexivity|exact Ht|intros b0; reflexivity|intros o' [H|[]]; discriminate].
    - destruct (stk s t) as [|[o|o|o todo|o lp todo called] k] eqn:E; try discriminate. destruct todo; [|discriminate]. pose proof (Lt _ _ _ E) as Ht. injection Hs as <-.
      assert (F : forall u o', In (Flag o') (upd (stk s) t k u) -> uses_flag o' = true).
      { intros u o'. rewrite updE. destruct (Nat.eqb_spec u t) as [->|]; [|apply (v_flag _ HI)]. intros H. apply (v_flag _ HI t). rewrite E. now right. }
      assert (O : forall u, n <= u -> upd (stk s) t k u = []) by (intros u Hu; rewrite updE; destruct (Nat.eqb_spec u t); [lia|now apply (v_out _ HI)]).
      destruct (unique o) eqn:Eu; split; cbn [stk readers writer]; auto.
      + intros u. rewrite (v_read _ HI), updE. destruct (Nat.eqb_spec u t) as [->|]; auto. rewrite E. cbn. rewrite Eu. reflexivity.
      + intros u. pose proof (v_write _ HI u) as X. pose proof (v_write _ HI t) as Y. rewrite E in Y. cbn in Y. rewrite Eu in Y. cbn in Y. destruct (writer s) as [w|]; [|lia]. destruct (Nat.eqb_spec t w) as [<-|]; [|lia].
        rewrite updE. destruct (Nat.eqb_spec u t) as [Q|]; [cbn; lia|exact X].
      + congruence.
      + intros u. rewrite count_del, (v_read _ HI), updE. destruct (Nat.eqb_spec u t) as [->|]; auto. rewrite E. cbn. rewrite Eu. reflexivity.
      + intros u. rewrite <- (v_write _ HI u), updE. destruct (Nat.eqb_spec u t) as [->|]; auto. rewrite E. cbn. rewrite Eu. reflexivity.
      + intros H. rewrite (v_excl _ HI H). reflexivity.
  Qed.
  Lemma Inv_run l s : run step init l = Some s -> Inv s.
  Proof. intros Hr. refine (run_inv step Inv _ l init s Inv_init Hr). intros; eapply Inv_step; eauto. Qed.

  (** thread [t] has the mutex *)
  Definition inside (s : state) (t : nat) (o : oper) : Prop := exists f, In f (stk s t) /\ runs f = Some o.
  Lemma held_in b k f o : In f k -> runs f = Some o -> unique o = b -> 0 < held b k.
  Proof. induction k as [|x k IH]; cbn; [contradiction|]. intros [->|H] R U; [rewrite R, U, Bool.eqb_reflx; lia|]. specialize (IH H R U). lia. Qed.
  Lemma alone s t u o o' : Inv s -> inside s t o -> unique o = true -> inside s u o' -> u = t.
  Proof.
    intros HI (f & Hf & Rf) Eo (g & Hg & Rg). pose proof (held_in _ _ _ _ Hf Rf Eo) as A. pose proof (v_write _ HI t) as W. destruct (writer s) as [w|] eqn:Ew; [|lia]. destruct (Nat.eqb_spec t w) as [<-|]; [|lia].
    destruct (unique o') eqn:Eo'.
    - pose proof (held_in _ _ _ _ Hg Rg Eo') as B. pose proof (v_write _ HI u) as X. rewrite Ew in X. destruct (Nat.eqb_spec u t); [auto|lia].
    - pose proof (held_in _ _ _ _ Hg Rg Eo') as B. rewrite <- (v_read _ HI) in B. rewrite (v_excl _ HI) in B by congruence. cbn in B. lia.
  Qed.
  (** a call out of a callback that cannot be granted *)
  Definition hopeless (k : list frame) : Prop := exists o' o lp todo called k', k = Wait o' :: InCb o lp todo called :: k' /\ (unique o' = true \/ unique o = true).
  Lemma never_granted s t e s' : Inv s -> hopeless (stk s t) -> step s e = Some s' -> stk s' t = stk s t.
  Proof.
    intros HI (o' & o & lp & todo & called & k & Ek & U) Hs.
    assert (H : by_ e <> t -> stk s' t = stk s t).
    { intros N. destruct e; cbn in N; unfold step, set_stk in Hs; repeat match type of Hs with context[match ?x with _ => _ end] => destruct x; try discriminate end; injection Hs as <-; cbn [stk]; now rewrite upd_other by auto. }
    destruct (Nat.eq_dec (by_ e) t) as [E|N]; [|auto]. exfalso. destruct e as [x z|x|x|x|x|x z|x]; cbn in E; subst x; unfold step in Hs; rewrite Ek in Hs; try discriminate.
    - destruct (t <? n); discriminate.
    - destruct (writer s) eqn:Ew; [discriminate|]. destruct (unique o) eqn:Eo.
      + assert (B : 0 < held true (stk s t)) by (eapply held_in; [rewrite Ek; right; left; reflexivity|reflexivity|exact Eo]). rewrite (v_write _ HI), Ew in B. lia.
      + destruct U as [U|U]; [|discriminate]. rewrite U in Hs. assert (B : 0 < held false (stk s t)) by (eapply held_in; [rewrite Ek; right; left; reflexivity|reflexivity|exact Eo]).
        rewrite <- (v_read _ HI) in B. destruct (readers s); [cbn in B; lia|discriminate].
  Qed.
  Lemma stays_hopeless s t : Inv s -> hopeless (stk s t) -> forall l s', run step s l = Some s' -> stk s' t = stk s t /\ Inv s'.
  Proof.
    intros HI Hh l. revert s HI Hh. induction l as [|e l IH]; intros s HI Hh s' Hr; cbn [run] in Hr; [injection Hr as <-; auto|].
    destruct (step s e) as [s1|] eqn:E; [|discriminate]. pose proof (never_granted _ _ _ _ HI Hh E) as X. destruct (IH s1 (Inv_step _ _ _ HI E) ltac:(now rewrite X) s' Hr) as [A B]. split; [congruence|exact B].
  Qed.

  (** inside the callback of loop [lp], called by [o] on thread [t] *)
  Definition incb (s : state) (t : nat) (o : oper) (lp : nat) : Prop := exists todo called, In (InCb o lp todo called) (stk s t).
  Lemma incb_inside s t o lp : incb s t o lp -> inside s t o.
  Proof. intros (td & c & H). eexists. split; [exact H|reflexivity]. Qed.

  (** C142 (first part): while a thread prepares loops (thread_specific_preparation() or add_loop()) no other thread is inside any callback of any loop, whatever the callbacks call. *)
  Theorem C142_preparation_alone l s t u o o' lp lp' : run step init l = Some s ->
    incb s t o lp -> (o = Prepare \/ exists x, o = AddLoop x) -> incb s u o' lp' -> u = t.
  Proof. intros Hr Ht Ho Hu. eapply alone; [exact (Inv_run _ _ Hr)|apply incb_inside in Ht; exact Ht|destruct Ho as [->|[x ->]]; reflexivity|apply incb_inside in Hu; exact Hu]. Qed.

  (** C142 (second part): the list of loops never changes under a thread that goes through it. *)
  Theorem C142_list_is_stable l s e s' : run step init l = Some s -> step s e = Some s' -> loops s' <> loops s -> forall t f, In f (stk s t) -> runs f = None.
  Proof.
    intros Hr Hs Hl t f Hf. pose proof (Inv_run _ _ Hr) as HI. destruct (runs f) as [o|] eqn:R; [|reflexivity]. exfalso.
    assert (G : writer s = None /\ readers s = []).
    { destruct e; unfold step, set_stk in Hs; repeat match type of Hs with context[match ?x with _ => _ end] => destruct x eqn:?; try discriminate end; injection Hs as <-; cbn [loops] in Hl; try congruence; auto. }
    destruct G as [Gw Gr]. destruct (unique o) eqn:U; pose proof (held_in _ _ _ _ Hf R U) as B; [rewrite (v_write _ HI), Gw in B|rewrite <- (v_read _ HI), Gr in B; cbn in B]; lia.
  Qed.

  (** What a callback may not do: [o'] is called inside a callback made by [o], and one of the two takes the mutex uniquely. The call never returns; and, depending on [o],
      no function of the container, or none that adds or prepares, is ever served for any thread again. *)
  Lemma nobody_served s t o o' lp todo called k u s' : Inv s -> stk s t = Wait o' :: InCb o lp todo called :: k -> (unique o = true \/ exists p k', stk s u = Wait p :: k' /\ unique p = true) ->
    step s (Grant u) = Some s' -> False.
  Proof.
    intros HI Ek U Hs. unfold step in Hs. destruct (stk s u) as [|[p|p|p td|p lp' td c] k'] eqn:E; try discriminate. destruct (writer s) eqn:Ew; [discriminate|]. destruct (unique o) eqn:Eo.
    - assert (B : 0 < held true (stk s t)) by (eapply held_in; [rewrite Ek; right; left; reflexivity|reflexivity|exact Eo]). rewrite (v_write _ HI), Ew in B. lia.
    - destruct U as [U|(p' & k2 & E2 & U)]; [discriminate|]. injection E2 as -> ->. rewrite U in Hs. assert (B : 0 < held false (stk s t)) by (eapply held_in; [rewrite Ek; right; left; reflexivity|reflexivity|exact Eo]).
      rewrite <- (v_read _ HI) in B. destruct (readers s); [cbn in B; lia|discriminate].
  Qed.

  Theorem C142_blocked_for_good l s t o o' lp todo called k : run step init l = Some s -> stk s t = Wait o' :: InCb o lp todo called :: k -> unique o' = true \/ unique o = true ->
    forall l2 s2, run step s l2 = Some s2 ->
      stk s2 t = stk s t /\                                                                                         (* the call has not returned *)
      (unique o = true -> forall u, step s2 (Grant u) = None) /\                                                    (* nobody is served *)
      (forall u p k', stk s2 u = Wait p :: k' -> unique p = true -> step s2 (Grant u) = None).                      (* no add_loop(), no preparation *)
  Proof.
    intros Hr Ek U l2 s2 H2. destruct (stays_hopeless s t (Inv_run _ _ Hr)) with (l := l2) (s' := s2) as [E HI]; auto; [exists o', o, lp, todo, called, k; auto|]. split; [exact E|]. rewrite Ek in E. split.
    - intros Uo u. destruct (step s2 (Grant u)) eqn:S2; [|reflexivity]. exfalso. eapply (nobody_served s2 t o o'); eauto.
    - intros u p k' Eu Up. destruct (step s2 (Grant u)) eqn:S2; [|reflexivity]. exfalso. eapply (nobody_served s2 t o o'); eauto.
  Qed.

  (** Callbacks that call nothing of the container. *)
  Section Plain.
    Hypothesis plain : forall lp o, nested lp o = None.
    Definition waits (k : list frame) : nat := match k with Wait Prepare :: _ | Wait (AddLoop _) :: _ => 1 | _ => 0 end.
    Definition cap (s : state) : nat := length (loops s) + length (attrs s) + sum_to n (fun t => waits (stk s t)).
    Definition weight (A : nat) (k : list frame) : nat :=
      match k with [] => 0 | Wait _ :: _ => 3 + 2 * A | Flag _ :: _ => 2 + 2 * A | Run _ td :: _ => 1 + 2 * length td | InCb _ _ td _ :: _ => 2 + 2 * length td end.
    Definition measure (A : nat) (s : state) : nat := sum_to n (fun t => weight A (stk s t)).
    Definition flat (s : state) : Prop := forall t, length (stk s t) <= 1.
    Definition isBegin (e : event) : bool := match e with Begin _ _ => true | _ => false end.
    Lemma flat_step s e s' : flat s -> step s e = Some s' -> flat s'.
    Proof.
      intros F Hs u. destruct (Nat.eq_dec u (by_ e)) as [->|N].
      - pose proof (F (by_ e)) as X. destruct e; cbn [by_] in *; unfold step, set_stk in Hs; rewrite ?plain in Hs;
        repeat match type of Hs with context[match ?x with _ => _ end] => destruct x eqn:?; try discriminate end; injection Hs as <-; cbn [stk]; rewrite upd_same;
        repeat match goal with H : stk s _ = _ |- _ => rewrite H in X; clear H end; cbn [length] in *; try lia; try (match goal with H : nested _ _ = Some _ |- _ => rewrite plain in H; discriminate end).
      - assert (E : stk s' u = stk s u); [|rewrite E; apply F].
        destruct e; cbn in N; unfold step, set_stk in Hs; repeat match type of Hs with context[match ?x with _ => _ end] => destruct x; try discriminate end; injection Hs as <-; cbn [stk]; now rewrite upd_other by auto.
    Qed.
    Lemma flat_run l s : run step init l = Some s -> flat s.
    Proof. intros Hr. refine (run_inv step flat _ l init s _ Hr); [intros; eapply flat_step; eauto|]. intros t. cbn. lia. Qed.
    Lemma sum_upd (w : list frame -> nat) (f : nat -> list frame) t k : t < n -> sum_to n (fun u => w (upd f t k u)) + w (f t) = sum_to n (fun u => w (f u)) + w k.
    Proof.
      intros Ht. pose proof (sum_to_one n (fun u => w (upd f t k u)) (fun u => w (f u)) t Ht) as X. cbn beta in X. rewrite upd_same in X. apply X. intros i Hi. now rewrite upd_other.
    Qed.
    Lemma step_decr A s e s' : Inv s -> flat s -> cap s <= A -> isBegin e = false -> step s e = Some s' -> cap s' <= cap s /\ measure A s' < measure A s.
    Proof.
      intros HI F HA Hb Hs.
      assert (Lt : forall t f k, stk s t = f :: k -> t < n) by (intros t f k E; destruct (Nat.lt_ge_cases t n) as [|H]; auto; apply (v_out _ HI) in H; congruence).
      assert (Fk : forall t f k, stk s t = f :: k -> k = []) by (intros t f k E; pose proof (F t) as X; rewrite E in X; cbn in X; destruct k; [auto|cbn in X; lia]).
      unfold cap, measure in *.
      destruct e as [t o|t|t|t|t|t b|t]; [discriminate| | | | | |]; unfold step in Hs;
        (destruct (stk s t) as [|[o|o|o todo|o lp todo called] k] eqn:E; try discriminate); pose proof (Lt _ _ _ E) as Ht; pose proof (Fk _ _ _ E) as ->;
        pose proof (fun k => sum_upd waits (stk s) t k Ht) as SW; pose proof (fun k => sum_upd (weight A) (stk s) t k Ht) as SM; rewrite E in SW, SM.
      - destruct (writer s) eqn:Ew; [discriminate|]. destruct (unique o) eqn:Eu.
        + destruct (readers s) eqn:Er; [|discriminate]. destruct o; try discriminate; injection Hs as <-; cbn [loops attrs stk].
          * specialize (SW [Run Prepare (loops s)]). specialize (SM [Run Prepare (loops s)]). cbn [waits weight] in SW, SM.
            destruct (in_dec Nat.eq_dec t (attrs s)); rewrite ?app_length; cbn [length]; lia.
          * specialize (SW [Run (AddLoop lp) (repeat lp (length (attrs s)))]). specialize (SM [Run (AddLoop lp) (repeat lp (length (attrs s)))]). cbn [waits weight] in SW, SM. rewrite repeat_length in SM.
            rewrite app_length; cbn [length]; lia.
        + injection Hs as <-; cbn [loops attrs stk]. assert (W0 : waits [Wait o] = 0) by (destruct o; try reflexivity; discriminate). rewrite W0 in SW.
          destruct (uses_flag o); [specialize (SW [Flag o]); specialize (SM [Flag o])|specialize (SW [Run o (loops s)]); specialize (SM [Run o (loops s)])]; cbn [waits weight] in SW, SM; lia.
      - assert (G : exists k' cl, s' = St (upd (stk s) t k') (readers s) (writer s) (loops s) (attrs s) cl /\ waits k' = 0 /\ weight A k' <= 1 + 2 * length (loops s)).
        { destruct o; injection Hs as <-; do 2 eexists; (split; [reflexivity|]); cbn [waits weight]; (split; [reflexivity|]); try lia; destruct (cleanning s); cbn [length]; lia. }
        destruct G as (k' & cl & -> & W & M). cbn [loops attrs stk]. specialize (SW k'). specialize (SM k'). cbn [waits weight] in SW, SM. lia.
      - destruct todo as [|lp todo]; [discriminate|]. injection Hs as <-. unfold set_stk; cbn [loops attrs stk]. specialize (SW [InCb o lp todo false]). specialize (SM [InCb o lp todo false]). cbn [waits weight length] in SW, SM. lia.
      - destruct called; [discriminate|]. rewrite plain in Hs. discriminate.
      - destruct (called || _); [|discriminate]. injection Hs as <-. unfold set_stk; cbn [loops attrs stk]. set (td := match o with Empty => if b then todo else [] | _ => todo end).
        assert (length td <= length todo) by (subst td; destruct o; try lia; destruct b; cbn; lia). specialize (SW [Run o td]). specialize (SM [Run o td]). cbn [waits weight] in SW, SM. lia.
      - destruct todo; [|discriminate]. specialize (SW []). specialize (SM []). cbn [waits weight length] in SW, SM. injection Hs as <-. destruct (unique o); cbn [loops attrs stk]; lia.
    Qed.
    Lemma runs_out A : forall l s s', Inv s -> flat s -> cap s <= A -> (forall e, In e l -> isBegin e = false) -> run step s l = Some s' -> length l + measure A s' <= measure A s.
    Proof.
      induction l as [|e l IH]; intros s s' HI F HA Hb Hr; cbn [run] in Hr; [injection Hr as <-; cbn; lia|]. destruct (step s e) as [s1|] eqn:E; [|discriminate].
      destruct (step_decr A s e s1 HI F HA (Hb e (or_introl eq_refl)) E) as [C M].
      pose proof (IH s1 s' (Inv_step _ _ _ HI E) (flat_step _ _ _ F E) ltac:(lia) ltac:(intros; apply Hb; now right) Hr) as X. cbn [length]. lia.
    Qed.
    (** somebody can go on *)
    Lemma can_go s t : Inv s -> flat s -> stk s t <> [] -> exists e, isBegin e = false /\ step s e <> None.
    Proof.
      intros HI F Hn.
      assert (Act : forall u f k, stk s u = f :: k -> runs f <> None -> exists e, isBegin e = false /\ step s e <> None).
      { intros u [o|o|o [|lp todo]|o lp todo called] k E R; cbn in R; [congruence| | | |].
        - exists (Touch u). split; [reflexivity|]. unfold step. rewrite E. destruct o; discriminate.
        - exists (Finish u). split; [reflexivity|]. unfold step. rewrite E. discriminate.
        - exists (CbBegin u). split; [reflexivity|]. unfold step. rewrite E. discriminate.
        - exists (CbEnd u true). split; [reflexivity|]. unfold step. rewrite E, plain. rewrite orb_true_r. discriminate. }
      assert (Top : forall u b, 0 < held b (stk s u) -> exists f k, stk s u = f :: k /\ runs f <> None).
      { intros u b H. pose proof (F u) as X. destruct (stk s u) as [|f [|g k]]; cbn in H, X; [lia| |lia]. exists f, []. split; [reflexivity|]. destruct (runs f); [discriminate|lia]. }
      destruct (writer s) as [w|] eqn:Ew.
      - pose proof (v_write _ HI w) as W. rewrite Ew, Nat.eqb_refl in W. destruct (Top w true ltac:(lia)) as (f & k & E & R). eapply Act; eauto.
      - destruct (readers s) as [|r rs] eqn:Er.
        + destruct (stk s t) as [|f k] eqn:E; [congruence|]. destruct (runs f) eqn:R; [eapply Act; [exact E|congruence]|]. destruct f; try discriminate. exists (Grant t). split; [reflexivity|]. unfold step. rewrite E, Ew, Er. destruct o; discriminate.
        + pose proof (v_read _ HI r) as X. rewrite Er in X. cbn [count_occ] in X. destruct (Nat.eq_dec r r); [|contradiction]. destruct (Top r false ltac:(lia)) as (f & k & E & R). eapply Act; eauto.
    Qed.
    Lemma all_return A : forall m s, measure A s <= m -> Inv s -> flat s -> cap s <= A -> exists l s', (forall e, In e l -> isBegin e = false) /\ run step s l = Some s' /\ forall t, stk s' t = [].
    Proof.
      induction m as [|m IH]; intros s Hm HI F HA.
      - destruct (List.existsb (fun t => match stk s t with [] => false | _ => true end) (seq 0 n)) eqn:X.
        + apply existsb_exists in X as (t & Ht & Et). destruct (can_go s t HI F) as (e & Eb & Es); [now destruct (stk s t)|]. destruct (step s e) as [s1|] eqn:E; [|congruence]. destruct (step_decr A s e s1 HI F HA Eb E). lia.
        + exists [], s. split; [intros e []|]. split; [reflexivity|]. intros t. destruct (Nat.lt_ge_cases t n) as [Ht|Ht]; [|now apply (v_out _ HI)].
          destruct (stk s t) eqn:E; [reflexivity|]. exfalso. rewrite <- not_true_iff_false in X. apply X. apply existsb_exists. exists t. split; [apply in_seq; lia|]. now rewrite E.
      - destruct (List.existsb (fun t => match stk s t with [] => false | _ => true end) (seq 0 n)) eqn:X.
        + apply existsb_exists in X as (t & Ht & Et). destruct (can_go s t HI F) as (e & Eb & Es); [now destruct (stk s t)|]. destruct (step s e) as [s1|] eqn:E; [|congruence]. destruct (step_decr A s e s1 HI F HA Eb E) as [C M].
          destruct (IH s1 ltac:(lia) (Inv_step _ _ _ HI E) (flat_step _ _ _ F E) ltac:(lia)) as (l & s' & Lb & Lr & Ls). exists (e :: l), s'. split; [intros e' [<-|H]; auto|]. split; [cbn [run]; now rewrite E|exact Ls].
        + exists [], s. split; [intros e []|]. split; [reflexivity|]. intros t. destruct (Nat.lt_ge_cases t n) as [Ht|Ht]; [|now apply (v_out _ HI)].
          destruct (stk s t) eqn:E; [reflexivity|]. exfalso. rewrite <- not_true_iff_false in X. apply X. apply existsb_exists. exists t. split; [apply in_seq; lia|]. now rewrite E.
    Qed.
  End Plain.

  (** after the flag is set, no pass that tests it later calls anybody *)
  Definition quiet (k : list frame) : Prop := forall f, In f k -> match f with Run Poll (_ :: _) | InCb Poll _ _ _ => False | _ => True end.
  Lemma quiet_step s e s' t : cleanning s = true -> quiet (stk s t) -> step s e = Some s' -> cleanning s' = true /\ quiet (stk s' t).
  Proof.
    intros Hc Q Hs. split.
    - destruct e; unfold step, set_stk in Hs; repeat match type of Hs with context[match ?x with _ => _ end] => destruct x; try discriminate end; injection Hs as <-; cbn [cleanning]; auto.
    - destruct (Nat.eq_dec t (by_ e)) as [->|N].
      + intros f Hf. destruct e; cbn [by_] in *; unfold step, set_stk in Hs; repeat match type of Hs with context[match ?x with _ => _ end] => destruct x eqn:?; try discriminate end; injection Hs as <-; cbn [stk] in Hf; rewrite upd_same in Hf;
          repeat match goal with H : stk s _ = _ |- _ => rewrite H in Q; clear H end; cbn [In] in Hf;
          repeat (destruct Hf as [Hf|Hf]; [subst f|]); try contradiction; try exact I; try discriminate; try (apply Q; cbn [In]; tauto).
        all: try (specialize (Q _ (or_introl eq_refl)); cbn in Q; contradiction).
        all: try (match goal with |- context[match ?o with Poll => _ | _ => _ end] => destruct o; try exact I; try discriminate end).
        all: try (specialize (Q _ (or_introl eq_refl)); cbn in Q; contradiction).
      + assert (E : stk s' t = stk s t); [|now rewrite E].
        destruct e; cbn in N; unfold step, set_stk in Hs; repeat match type of Hs with context[match ?x with _ => _ end] => destruct x; try discriminate end; injection Hs as <-; cbn [stk]; now rewrite upd_other by auto.
  Qed.
End M.

(** C142 (third part): when no callback calls a function of the container, every call returns. From every reachable state the calls under way can all return, in whatever order the
    requests are served; a run in which nobody begins a new call has a bounded number of steps; and as long as a call is under way some step is possible.
    Partial: for callbacks that call the container it is false, see below. *)
Theorem C142_calls_return_partial n nested l s : (forall lp o, nested lp o = None) -> run (step n nested) init l = Some s ->
  (exists l2 s2, (forall e, In e l2 -> isBegin e = false) /\ run (step n nested) s l2 = Some s2 /\ forall t, stk s2 t = []) /\
  (exists bound, forall l2 s2, (forall e, In e l2 -> isBegin e = false) -> run (step n nested) s l2 = Some s2 -> length l2 <= bound) /\
  (forall t, stk s t <> [] -> exists e, isBegin e = false /\ step n nested s e <> None).
Proof.
  intros Hp Hr. pose proof (Inv_run _ _ _ _ Hr) as HI. pose proof (flat_run _ _ Hp _ _ Hr) as F. split; [|split].
  - eapply (all_return n nested Hp (cap n s) (measure n (cap n s) s)); eauto.
  - exists (measure n (cap n s) s). intros l2 s2 Hb H2. pose proof (runs_out n nested Hp (cap n s) l2 s s2 HI F (le_n _) Hb H2). lia.
  - intros t. now apply can_go.
Qed.
(** C142 refuted in general: a callback of do_occured_nonblk() that adds a loop. Worker 0 polls, the callback calls add_loop(): it never returns, and no loop is ever added and no worker ever
    prepared again, by anybody. *)
Definition adds (lp : nat) (o : oper) : option oper := match o with Poll => Some (AddLoop 9) | _ => None end.
Definition l_adds : list event := [Begin 1 (AddLoop 7); Grant 1; Finish 1; Begin 0 Poll; Grant 0; Touch 0; CbBegin 0; CbCall 0; Begin 1 (AddLoop 8)].
Theorem C142_add_from_callback_refuted : exists s, run (step 2 adds) init l_adds = Some s /\ loops s = [7] /\
  stk s 0 = [Wait (AddLoop 9); InCb Poll 7 [] true] /\ stk s 1 = [Wait (AddLoop 8)] /\
  forall l2 s2, run (step 2 adds) s l2 = Some s2 -> stk s2 0 = stk s 0 /\ step 2 adds s2 (Grant 0) = None /\ (stk s2 1 = stk s 1 -> step 2 adds s2 (Grant 1) = None).
Proof.
  eexists. split; [vm_compute; reflexivity|]. set (s := St _ _ _ _ _ _). split; [reflexivity|]. split; [reflexivity|]. split; [reflexivity|].
  intros l2 s2 H2. destruct (C142_blocked_for_good 2 adds l_adds s 0 Poll (AddLoop 9) 7 [] true [] eq_refl eq_refl (or_introl eq_refl) l2 s2 H2) as (E & _ & U).
  split; [exact E|]. split; [apply (U 0 (AddLoop 9) [InCb Poll 7 [] true]); [rewrite E|]; reflexivity|]. intros E1. apply (U 1 (AddLoop 8) []); [rewrite E1|]; reflexivity.
Qed.
(** a loop whose preparation asks the container something: the whole container is dead *)
Definition asks (lp : nat) (o : oper) : option oper := match o with Prepare => Some Empty | _ => None end.
Theorem C142_ask_from_preparation_refuted : exists s, run (step 2 asks) init [Begin 1 (AddLoop 7); Grant 1; Finish 1; Begin 0 Prepare; Grant 0; CbBegin 0; CbCall 0; Begin 1 Poll] = Some s /\
  forall l2 s2, run (step 2 asks) s l2 = Some s2 -> stk s2 0 = [Wait Empty; InCb Prepare 7 [] true] /\ forall u, step 2 asks s2 (Grant u) = None.
Proof.
  eexists. split; [vm_compute; reflexivity|]. set (s := St _ _ _ _ _ _). intros l2 s2 H2.
  destruct (C142_blocked_for_good 2 asks [Begin 1 (AddLoop 7); Grant 1; Finish 1; Begin 0 Prepare; Grant 0; CbBegin 0; CbCall 0; Begin 1 Poll] s 0 Prepare Empty 7 [] true [] eq_refl eq_refl (or_intror eq_refl) l2 s2 H2) as (E & U & _).
  split; [exact E|]. apply U. reflexivity.
Qed.
(** C142: a case. Two loops, two workers and a third thread; the workers poll at the same time. *)
Example C142_case : exists s, run (step 3 (fun _ _ => None)) init
    [Begin 0 Prepare; Grant 0; Finish 0; Begin 2 (AddLoop 7); Grant 2; CbBegin 2; Begin 1 Prepare; CbEnd 2 true; Finish 2; Grant 1; CbBegin 1; CbEnd 1 true; Finish 1;
     Begin 0 Poll; Begin 1 Poll; Grant 0; Grant 1; Touch 0; Touch 1; CbBegin 0; CbBegin 1; Begin 2 (AddLoop 8)] = Some s /\
    incb s 0 Poll 7 /\ incb s 1 Poll 7 /\ step 3 (fun _ _ => None) s (Grant 2) = None.
Proof. eexists. split; [vm_compute; reflexivity|]. repeat split; try (do 2 eexists; left; reflexivity). Qed.

(** C143: quick_stop() and polling. Once quick_stop() has set the flag, a thread that was not going through the loops for a poll calls no loop's do_occured_nonblk() any more,
    whatever else happens and however long (the accesses of the flag taken one at a time; see the next theorem). *)
Theorem C143_no_poll_after_quick_stop_partial n nested l s t u k : run (step n nested) init l = Some s -> stk s t = Flag QuickStop :: k ->
  (forall lp, ~ incb s u Poll lp) -> (forall lp td, ~ In (Run Poll (lp :: td)) (stk s u)) -> u <> t ->
  forall s1 l2 s2, step n nested s (Touch t) = Some s1 -> run (step n nested) s1 l2 = Some s2 -> forall lp, ~ incb s2 u Poll lp.
Proof.
  intros Hr Ek N1 N2 Ne s1 l2 s2 Hs H2.
  assert (Q : cleanning s1 = true /\ quiet (stk s1 u)).
  { unfold step in Hs. rewrite Ek in Hs. injection Hs as <-. split; [reflexivity|]. cbn [stk]. rewrite upd_other by auto. intros f Hf. destruct f as [o|o|o [|lp td]|o lp td c]; try exact I; destruct o; try exact I.
    - now apply (N2 lp td).
    - apply (N1 lp). now exists td, c. }
  clear Hs. assert (G : forall l3 x y, cleanning x = true /\ quiet (stk x u) -> run (step n nested) x l3 = Some y -> quiet (stk y u)).
  { induction l3 as [|e l3 IH]; intros x y Hx Hy; cbn [run] in Hy; [injection Hy as <-; apply Hx|]. destruct (step n nested x e) as [x1|] eqn:E; [|discriminate]. apply (IH x1 y); auto. destruct Hx. eapply quiet_step; eauto. }
  intros lp (td & c & H). apply (G _ _ _ Q H2) in H. exact H.
Qed.
(** C143 refuted as to the accesses themselves: m_cleanning is a plain bool, both functions have only the shared lock, and both accesses can be next at the same time: a data race. *)
Theorem C143_flag_race_refuted : exists s, run (step 2 (fun _ _ => None)) init [Begin 0 Poll; Grant 0; Begin 1 QuickStop; Grant 1] = Some s /\
  stk s 0 = [Flag Poll] /\ stk s 1 = [Flag QuickStop] /\ step 2 (fun _ _ => None) s (Touch 0) <> None /\ step 2 (fun _ _ => None) s (Touch 1) <> None.
Proof. eexists. split; [vm_compute; reflexivity|]. repeat split; discriminate. Qed.
(** C143: a case. The poll begun before still calls the loop, the one begun after does not; quick_stop() itself reaches the loop. *)
Example C143_case : exists s s2, run (step 3 (fun _ _ => None)) init
    [Begin 2 (AddLoop 7); Grant 2; Finish 2; Begin 0 Poll; Grant 0; Touch 0; Begin 2 QuickStop; Grant 2; Begin 1 Poll; Grant 1] = Some s /\ stk s 2 = [Flag QuickStop] /\
    run (step 3 (fun _ _ => None)) s [Touch 2; Touch 1; CbBegin 0; CbBegin 2] = Some s2 /\ incb s2 0 Poll 7 /\ incb s2 2 QuickStop 7 /\ stk s2 1 = [Run Poll []].
Proof. do 2 eexists. split; [vm_compute; reflexivity|]. split; [reflexivity|]. split; [vm_compute; reflexivity|]. repeat split; do 2 eexists; left; reflexivity. Qed.
Print Assumptions C142_preparation_alone.
Print Assumptions C142_list_is_stable.
Print Assumptions C142_blocked_for_good.
Print Assumptions C142_calls_return_partial.
Print Assumptions C142_add_from_callback_refuted.
Print Assumptions C142_ask_from_preparation_refuted.
Print Assumptions C143_no_poll_after_quick_stop_partial.
Print Assumptions C143_flag_race_refuted.
