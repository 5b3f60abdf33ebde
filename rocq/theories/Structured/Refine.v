(** C139: the steps of Model.v are runs of the models of the three classes: every mutex of a program goes through a run of Mutex/Model.v on one thread, every group through a run of
    WaitGroup/Model.v on one thread, and the future of every task through a run of Future/Model.v. *)
From Coq Require Import List Arith Bool Lia NArith.
From Verif.Common Require Import TS Sum.
From Verif.Structured Require Import Model Spec Proofs.
From Verif Require Mutex.Model Mutex.Single WaitGroup.Model WaitGroup.Single Future.Model.
Import ListNotations.

(** what task [i] has to do with [r] *)
Inductive rel := Nothing | Waiting | Woken_up.
Definition proj (s : state) (r : res) (i : nat) : rel :=
  match stat s i with
  | Waits r' => if res_eq_dec r' r then Waiting else Nothing
  | Woken r' => if res_eq_dec r' r then Woken_up else Nothing
  | _ => Nothing end.
(** ** specification: what it is to agree *)
Definition same_mutex (s : state) (m : nat) (ms : Mutex.Model.state) : Prop :=
  Mutex.Model.flag ms = match own s m with Some _ => true | None => false end /\ Mutex.Model.waitings ms = queue s m /\
  forall i, Mutex.Model.at_ ms i = match proj s (M m) i with Waiting => Mutex.Model.Waiting | Woken_up => Mutex.Model.Woken
                                   | Nothing => match own s m with Some j => if j =? i then Mutex.Model.Owner else Mutex.Model.Idle | None => Mutex.Model.Idle end end.
Definition same_group (s : state) (g : nat) (gs : WaitGroup.Model.state) : Prop :=
  WaitGroup.Model.count gs = N.of_nat (cnt s g) /\ WaitGroup.Model.waitings gs = gqueue s g /\
  forall i, WaitGroup.Model.at_ gs i = match proj s (G g) i with Waiting => WaitGroup.Model.Waiting | Woken_up => WaitGroup.Model.Woken | Nothing => WaitGroup.Model.Idle end.
(** the future of a task; one consumer, number 0; what the value is does not matter here *)
Definition same_future (s : state) (x : nat) (fs : Future.Model.state) : Prop :=
  Future.Model.asserted fs = false /\
  Future.Model.fulfilled fs = match stat s x with Finished => Some (Future.Model.Value 0) | _ => None end /\
  (Future.Model.at_ (Future.Model.futs fs 0) = Future.Model.Waiting <-> exists j, proj s (F x) j = Waiting) /\
  (Future.Model.at_ (Future.Model.futs fs 0) = Future.Model.Woken <-> exists j, proj s (F x) j = Woken_up) /\
  (Future.Model.at_ (Future.Model.futs fs 0) = Future.Model.Idle <-> forall j, proj s (F x) j = Nothing).
(** how often a program adds to a group *)
Fixpoint adds (g : nat) (p : list action) : nat := match p with [] => 0 | Add g' k :: p => (if g' =? g then k else 0) + adds g p | _ :: p => adds g p end.

(** ** what a step touches *)
Definition touch (s : state) (e : event) : option res :=
  match e with
  | Pick t => match stat s t with Woken r => Some r | _ => None end
  | Go => match cur s with
          | None => None
          | Some t => match prog s t with
                      | [] => Some (F t)
                      | Lock m :: _ | Unlock m :: _ => Some (M m)
                      | Add g _ :: _ | Done g :: _ | Wait g :: _ => Some (G g)
                      | Join x :: _ => Some (F x)
                      | Spawn _ :: _ | Pause :: _ => None end
          end
  end.
Section Ref.
  Variables (n : nat) (roots : nat -> bool) (progs : nat -> list action) (rank : res -> nat) (given : nat -> list nat).
  Notation P := (P n roots progs rank given).
  Ltac fields := cbn [prog stat cur own queue cnt gqueue joiner].
  Ltac ud := repeat match goal with
    | |- context[upd _ ?i _ ?j] => destruct (Nat.eq_dec j i) as [->|?]; [rewrite ?upd_same in *|rewrite ?(upd_other _ i j) in * by assumption]
    | H : context[upd _ ?i _ ?j] |- _ => destruct (Nat.eq_dec j i) as [->|?]; [rewrite ?upd_same in *|rewrite ?(upd_other _ i j) in * by assumption] end.
  Ltac rd := repeat match goal with |- context[res_eq_dec ?a ?b] => destruct (res_eq_dec a b) end.
  Lemma frame s held futs e s' : P s held futs -> step n s e = Some s' -> forall r, touch s e <> Some r ->
    (forall i, proj s' r i = proj s r i) /\
    match r with
    | M m => own s' m = own s m /\ queue s' m = queue s m
    | G g => cnt s' g = cnt s g /\ gqueue s' g = gqueue s g
    | F x => joiner s' x = joiner s x /\ (stat s' x = Finished <-> stat s x = Finished) /\ (stat s' x = Dormant -> stat s x = Dormant) end.
  Proof.
    intros HP Hs r Ht. destruct e as [t|]; unfold step in Hs; unfold touch in Ht.
    - destruct (t <? n); [|discriminate]. destruct (cur s) eqn:Ec; [discriminate|].
      assert (Es' : s' = St (prog s) (upd (stat s) t Running) (Some t) (own s) (queue s) (cnt s) (gqueue s) (joiner s)) by (destruct (stat s t); congruence). subst s'. unfold proj. fields. split.
      + intros i. ud; auto. destruct (stat s t) eqn:E; try discriminate; auto. rd; congruence.
      + destruct r; auto. split; auto. destruct (stat s t) eqn:E; try discriminate; split; ud; rewrite ?E in *; auto; try discriminate; try (split; discriminate); tauto.
    - destruct (cur s) as [t|] eqn:Ec; [|discriminate]. assert (Er : stat s t = Running) by now apply (p_cur _ _ _ _ _ _ _ _ HP).
      destruct (prog s t) as [|[m|m|g k|g|g|x|x|] p] eqn:Ep.
      + destruct (joiner s t) as [j|] eqn:Ej; injection Hs as <-; unfold proj; fields; split.
        * assert (Wj : stat s j = Waits (F t)) by (now apply (p_j _ _ _ _ _ _ _ _ HP)). intros i. ud; auto; rewrite ?Wj, ?Er; rd; congruence.
        * assert (Wj : stat s j = Waits (F t)) by (now apply (p_j _ _ _ _ _ _ _ _ HP)). destruct r as [| |x]; auto. assert (x <> t) by congruence. repeat split; ud; auto; try congruence; rewrite ?Wj; discriminate.
        * intros i. ud; auto; rewrite ?Er; auto.
        * destruct r as [| |x]; auto. assert (x <> t) by congruence. repeat split; ud; auto; congruence.
      + destruct (own s m) eqn:Eo; injection Hs as <-; unfold proj; fields; split; auto.
        * intros i. ud; auto. rewrite Er. rd; congruence.
        * destruct r as [m'| |x]; auto; [split; ud; congruence|]. repeat split; ud; auto; congruence.
        * destruct r as [m'| |x]; auto; [split; ud; congruence|]. repeat split; auto.
      + destruct (queue s m) as [|w q] eqn:Eq; injection Hs as <-; unfold proj; fields; split; auto.
        * destruct r as [m'| |x]; auto; [split; ud; congruence|]. repeat split; auto.
        * assert (Ew : stat s w = Waits (M m)) by (apply (p_q _ _ _ _ _ _ _ _ HP); rewrite Eq; now left). intros i. ud; auto. rewrite Ew. rd; congruence.
        * assert (Ew : stat s w = Waits (M m)) by (apply (p_q _ _ _ _ _ _ _ _ HP); rewrite Eq; now left). destruct r as [m'| |x]; auto; [split; ud; congruence|]. repeat split; ud; auto; congruence.
      + injection Hs as <-; unfold proj; fields; split; auto. destruct r as [m'|g'|x]; auto; [split; ud; congruence|]. repeat split; auto.
      + destruct (cnt s g) as [|[|k]] eqn:Eg; [discriminate| |]; injection Hs as <-; unfold proj; fields.
        * pose proof (wake_spec n roots progs rank given s held futs g HP) as WA. split.
          -- intros i. destruct (WA i) as [[X ->]|[X ->]]; auto. rewrite X. rd; congruence.
          -- destruct r as [m'|g'|x]; auto; [split; ud; congruence|]. destruct (WA x) as [[X ->]|[X ->]]; auto. rewrite X. repeat split; congruence. repeat split; auto.
        * split; auto. destruct r as [m'|g'|x]; auto; [split; ud; congruence|]. repeat split; auto.
      + destruct (cnt s g) eqn:Eg; injection Hs as <-; unfold proj; fields; split; auto.
        * destruct r as [m'|g'|x]; auto. repeat split; auto.
        * intros i. ud; auto. rewrite Er. rd; congruence.
        * destruct r as [m'|g'|x]; auto; [split; ud; congruence|]. repeat split; ud; auto; congruence.
      + destruct (stat s x) eqn:Ex; try discriminate. injection Hs as <-; unfold proj; fields; split.
        * intros i. ud; auto. rewrite Ex. auto.
        * destruct r as [m'|g'|x']; auto. repeat split; ud; auto; congruence.
      + destruct (stat s x) eqn:Ex; try discriminate; try (destruct (joiner s x) eqn:Ej; try discriminate); injection Hs as <-; unfold proj; fields; split; try reflexivity.
        all: try (intros i; ud; auto; rewrite Er; rd; congruence).
        all: destruct r as [m'|g'|x']; auto; repeat split; ud; auto; congruence.
      + injection Hs as <-; unfold proj; fields; split; [intros i; ud; auto; rewrite Er; auto|]. destruct r as [m'|g'|x']; auto; repeat split; ud; auto; congruence.
  Qed.

  (** *** mutexes *)
  Definition handed (s : state) : Prop := forall i m, stat s i = Woken (M m) -> own s m = Some i.
  Lemma has_own s held futs m t : P s held futs -> In (M m) (held t) -> own s m = Some t.
  Proof.
    intros HP H. apply c_in in H. pose proof (p_own _ _ _ _ _ _ _ _ HP m t) as X. destruct (own s m) as [j|]; [|lia]. destruct (Nat.eqb_spec t j); [congruence|lia].
  Qed.
  Lemma handed_step s held futs e s' : P s held futs -> handed s -> step n s e = Some s' -> handed s'.
  Proof.
    intros HP H Hs i m E. destruct (touch s e) as [r|] eqn:Et; [destruct (res_eq_dec r (M m)) as [->|N]|].
    - destruct e as [t|]; unfold step in Hs; unfold touch in Et.
      + destruct (t <? n); [|discriminate]. destruct (cur s); [discriminate|]. destruct (stat s t); try discriminate. injection Hs as <-. cbn [stat own] in *. ud; [discriminate|auto].
      + destruct (cur s) as [t|] eqn:Ec; [|discriminate]. assert (Er : stat s t = Running) by now apply (p_cur _ _ _ _ _ _ _ _ HP). assert (Ht : t < n) by (destruct (Nat.lt_ge_cases t n) as [|X]; auto; apply (p_out _ _ _ _ _ _ _ _ HP) in X; congruence).
        pose proof (p_ord _ _ _ _ _ _ _ _ HP t Ht) as Ord. rewrite Er in Ord. destruct (prog s t) as [|[m'|m'|g k|g|g|x|x|] p] eqn:Ep; try discriminate; injection Et as ->.
        * destruct (own s m) eqn:Eo; injection Hs as <-; cbn [stat own] in *; ud; try discriminate; auto. apply H in E. congruence.
        * cbn [ordered] in Ord. destruct Ord as [Hm _]. pose proof (has_own _ _ _ _ _ HP Hm) as Eo. destruct (queue s m); injection Hs as <-; cbn [stat own] in *.
          -- apply H in E as E2. congruence.
          -- rewrite upd_same. destruct (Nat.eq_dec i n0) as [->|N0]; auto. rewrite upd_other in E by auto. apply H in E as E2. congruence.
    - destruct (frame _ _ _ _ _ HP Hs (M m) ltac:(congruence)) as [A [B _]]. rewrite B. apply H. specialize (A i). unfold proj in A. rewrite E in A. destruct (res_eq_dec (M m) (M m)); [|congruence]. destruct (stat s i); try discriminate; destruct (res_eq_dec r0 (M m)); try discriminate; congruence.
    - destruct (frame _ _ _ _ _ HP Hs (M m) ltac:(congruence)) as [A [B _]]. rewrite B. apply H. specialize (A i). unfold proj in A. rewrite E in A. destruct (res_eq_dec (M m) (M m)); [|congruence]. destruct (stat s i); try discriminate; destruct (res_eq_dec r (M m)); try discriminate; congruence.
  Qed.
  Lemma proj_w s r i : proj s r i = Waiting <-> stat s i = Waits r.
  Proof. unfold proj. destruct (stat s i); try (split; discriminate); rd; split; congruence. Qed.
  Lemma proj_k s r i : proj s r i = Woken_up <-> stat s i = Woken r.
  Proof. unfold proj. destruct (stat s i); try (split; discriminate); rd; split; congruence. Qed.
  Lemma proj_run s r i : stat s i = Running -> proj s r i = Nothing.
  Proof. unfold proj. now intros ->. Qed.
End Ref.
Section Runs.
  (** runs put together *)
  Context {S E : Type} (st : S -> E -> option S) (Q : S -> E -> Prop) (R : S -> Prop).
  Definition goes (s : S) (l : list E) : Prop := exists s', run_all st Q s l /\ run st s l = Some s' /\ R s'.
  Lemma goes_cons e l s s1 : Q s e -> st s e = Some s1 -> goes s1 l -> goes s (e :: l).
  Proof. intros H1 H2 (s' & A & B & C). exists s'. cbn [run_all run]. rewrite H2. repeat split; auto. intros x [= <-]. exact A. Qed.
  Lemma goes_nil s : R s -> goes s [].
  Proof. intros H. exists s. split; [exact I|]. split; [reflexivity|exact H]. Qed.
End Runs.
Lemma run_all_app {S E} (st : S -> E -> option S) Q : forall l1 l2 s s1, run_all st Q s l1 -> run st s l1 = Some s1 -> run_all st Q s1 l2 -> run_all st Q s (l1 ++ l2).
Proof.
  induction l1 as [|e l1 IH]; cbn; intros l2 s s1 H1 Hr H2; [injection Hr as <-; exact H2|]. destruct H1 as [A B]. split; auto. intros s' E1. rewrite E1 in Hr. eauto.
Qed.
Section RefMutex.
  Variables (n : nat) (roots : nat -> bool) (progs : nat -> list action) (rank : res -> nat) (given : nat -> list nat).
  Notation P := (P n roots progs rank given).
  Ltac ud := repeat match goal with
    | |- context[upd _ ?i _ ?j] => destruct (Nat.eq_dec j i) as [->|?]; [rewrite ?upd_same in *|rewrite ?(upd_other _ i j) in * by assumption]
    | H : context[upd _ ?i _ ?j] |- _ => destruct (Nat.eq_dec j i) as [->|?]; [rewrite ?upd_same in *|rewrite ?(upd_other _ i j) in * by assumption] end.
  Ltac rd := repeat match goal with |- context[res_eq_dec ?a ?b] => destruct (res_eq_dec a b) end.
  Ltac ed := repeat match goal with |- context[?a =? ?b] => destruct (Nat.eqb_spec a b) end.
  Definition mutex_events (s : state) (m : nat) (e : event) : list Mutex.Model.event :=
    match touch s e with
    | Some r => if res_eq_dec r (M m) then
        match e with
        | Pick t => [Mutex.Model.EResume t]
        | Go => match cur s with
                | Some t => match prog s t with
                            | Lock _ :: _ => match own s m with None => [Mutex.Model.EAcquire t] | Some _ => [Mutex.Model.EAcquire t; Mutex.Model.EEnqueue t] end
                            | _ => match queue s m with [] => [Mutex.Model.EClear t; Mutex.Model.ERelTAS t; Mutex.Model.ERelNone t; Mutex.Model.ERelClear t] | _ => [Mutex.Model.EClear t; Mutex.Model.ERelTAS t; Mutex.Model.ERelDeq t 0] end
                            end
                | None => [] end
        end else []
    | None => [] end.
  Ltac oth NI := split; [|first [exact I|reflexivity]]; let i := fresh in let Hi := fresh in intros i Hi; cbn [Mutex.Model.goto Mutex.Model.set_flag Mutex.Model.at_ Mutex.Single.who] in *;
    repeat (destruct (Nat.eq_dec i _) as [->|] in Hi); ud; auto; rewrite NI in Hi; discriminate.
  Lemma mutex_step s held futs e s' m ms : P s held futs -> handed s -> same_mutex s m ms -> step n s e = Some s' ->
    goes (Mutex.Model.step false) Mutex.Single.one_thread (same_mutex s' m) ms (mutex_events s m e).
  Proof.
    intros HP Hh (Sf & Sw & Sa) Hs.
    assert (NI : forall i, Mutex.Single.inside (Mutex.Model.at_ ms i) = false).
    { intros i. rewrite Sa. destruct (proj s (M m) i); auto. destruct (own s m) as [j|]; auto. destruct (j =? i); auto. }
    unfold mutex_events.
    assert (Fr : touch s e <> Some (M m) -> goes (Mutex.Model.step false) Mutex.Single.one_thread (same_mutex s' m) ms []).
    { intros Nt. destruct (frame _ _ _ _ _ _ _ _ _ _ HP Hs (M m) Nt) as [A [B C]]. apply goes_nil. split; [rewrite B; exact Sf|]. split; [congruence|]. intros i. rewrite A, B. apply Sa. }
    destruct (touch s e) as [r|] eqn:Et; [|apply Fr; discriminate]. destruct (res_eq_dec r (M m)) as [->|N]; [|apply Fr; congruence]. clear Fr.
    destruct e as [t|]; unfold step in Hs; unfold touch in Et.
    - destruct (t <? n); [|discriminate]. destruct (cur s) eqn:Ec; [discriminate|]. destruct (stat s t) as [| |r| | |] eqn:Est; try discriminate. injection Et as ->. injection Hs as <-.
      pose proof (Hh _ _ Est) as Eo. assert (Wt : Mutex.Model.at_ ms t = Mutex.Model.Woken) by (rewrite Sa, (proj2 (proj_k s (M m) t) Est); reflexivity).
      eapply goes_cons; [oth NI|unfold Mutex.Model.step; rewrite Wt; reflexivity|]. apply goes_nil.
      split; [exact Sf|]. split; [exact Sw|]. intros i. cbn [Mutex.Model.goto Mutex.Model.at_ own]. unfold proj in *. cbn [stat]. ud; [rewrite Eo, Nat.eqb_refl; reflexivity|]. apply Sa.
    - destruct (cur s) as [t|] eqn:Ec; [|discriminate]. assert (Er : stat s t = Running) by now apply (p_cur _ _ _ _ _ _ _ _ HP). assert (Ht : t < n) by (destruct (Nat.lt_ge_cases t n) as [|X]; auto; apply (p_out _ _ _ _ _ _ _ _ HP) in X; congruence).
      pose proof (p_ord _ _ _ _ _ _ _ _ HP t Ht) as Ord. rewrite Er in Ord. destruct (prog s t) as [|[m'|m'|g k|g|g|x|x|] p] eqn:Ep; try discriminate; injection Et as ->; cbn [ordered] in Ord; destruct Ord as [Hl _].
      + destruct (own s m) as [o|] eqn:Eo; injection Hs as <-.
        * assert (Not : o <> t). { intros ->. pose proof (p_own _ _ _ _ _ _ _ _ HP m t) as X. rewrite Eo, Nat.eqb_refl in X. assert (In (M m) (held t)) by (apply c_in; lia). destruct Hl as [_ Hl]. apply Hl in H. lia. }
          assert (It : Mutex.Model.at_ ms t = Mutex.Model.Idle) by (rewrite Sa, (proj_run s (M m) t Er); destruct (Nat.eqb_spec o t); congruence).
          eapply goes_cons; [oth NI|unfold Mutex.Model.step; rewrite It; unfold Mutex.Model.hold_this_immediately; rewrite Sf; cbn [negb]; reflexivity|].
          eapply goes_cons; [oth NI|unfold Mutex.Model.step; cbn [Mutex.Model.goto Mutex.Model.at_]; rewrite upd_same; reflexivity|].
          apply goes_nil. split; [cbn; rewrite Eo; reflexivity|]. split; [cbn; rewrite upd_same, Sw; reflexivity|]. intros i. cbn [Mutex.Model.goto Mutex.Model.add_waiting Mutex.Model.set_flag Mutex.Model.at_ own]. unfold proj in *. cbn [stat]. ud; [rd; [reflexivity|congruence]|]. rewrite Sa, Eo. reflexivity.
        * assert (It : Mutex.Model.at_ ms t = Mutex.Model.Idle) by (rewrite Sa, (proj_run s (M m) t Er); reflexivity).
          eapply goes_cons; [oth NI|unfold Mutex.Model.step; rewrite It; unfold Mutex.Model.hold_this_immediately; rewrite Sf; reflexivity|].
          apply goes_nil. split; [cbn; rewrite upd_same; reflexivity|]. split; [exact Sw|]. intros i. cbn [Mutex.Model.goto Mutex.Model.add_waiting Mutex.Model.set_flag Mutex.Model.at_ own negb]. unfold proj in *. cbn [stat]. rewrite upd_same. ud; [rewrite Er, Nat.eqb_refl; reflexivity|]. rewrite Sa.
          destruct (Nat.eqb_spec t i); [congruence|]. reflexivity.
      + pose proof (has_own _ _ _ _ _ _ _ _ _ _ HP Hl) as Hm.
        assert (It : Mutex.Model.at_ ms t = Mutex.Model.Owner) by (rewrite Sa, (proj_run s (M m) t Er), Hm, Nat.eqb_refl; reflexivity).
        destruct (queue s m) as [|w q] eqn:Eq; injection Hs as <-.
        * eapply goes_cons; [oth NI|unfold Mutex.Model.step; rewrite It; reflexivity|].
          eapply goes_cons; [oth NI|unfold Mutex.Model.step; cbn [Mutex.Model.goto Mutex.Model.at_]; rewrite upd_same; reflexivity|].
          eapply goes_cons; [oth NI|unfold Mutex.Model.step; cbn; rewrite upd_same, Sw; reflexivity|].
          eapply goes_cons; [oth NI|unfold Mutex.Model.step; cbn [Mutex.Model.goto Mutex.Model.at_]; rewrite upd_same; reflexivity|].
          apply goes_nil. split; [cbn; rewrite upd_same; reflexivity|]. split; [cbn; congruence|]. intros i. cbn [Mutex.Model.goto Mutex.Model.add_waiting Mutex.Model.set_flag Mutex.Model.at_ own negb]. unfold proj in *. cbn [stat]. rewrite upd_same. ud; [rewrite Er; reflexivity|]. rewrite Sa, Hm.
          destruct (Nat.eqb_spec t i); [congruence|]. reflexivity.
        * assert (Ew : stat s w = Waits (M m)) by (apply (p_q _ _ _ _ _ _ _ _ HP); rewrite Eq; now left). assert (Nwt : w <> t) by congruence. assert (Ntw : t <> w) by congruence.
          eapply goes_cons; [oth NI|unfold Mutex.Model.step; rewrite It; reflexivity|].
          eapply goes_cons; [oth NI|unfold Mutex.Model.step; cbn [Mutex.Model.goto Mutex.Model.at_]; rewrite upd_same; reflexivity|].
          eapply goes_cons; [oth NI|unfold Mutex.Model.step; cbn; rewrite upd_same, Sw; reflexivity|].
          apply goes_nil. split; [cbn; rewrite upd_same; reflexivity|]. split; [cbn; rewrite upd_same; reflexivity|]. intros i. cbn [Mutex.Model.goto Mutex.Model.add_waiting Mutex.Model.set_flag Mutex.Model.at_ own negb]. unfold proj in *. cbn [stat]. rewrite upd_same. ud; try contradiction.
          -- rewrite Er. destruct (Nat.eqb_spec w t); congruence.
          -- rd; congruence.
          -- rewrite Sa, Hm. destruct (Nat.eqb_spec t i), (Nat.eqb_spec w i); try congruence; reflexivity.
  Qed.
End RefMutex.
Section RefGroup.
  Variables (n : nat) (roots : nat -> bool) (progs : nat -> list action) (rank : res -> nat) (given : nat -> list nat).
  Notation P := (P n roots progs rank given).
  Ltac ud := repeat match goal with
    | |- context[upd _ ?i _ ?j] => destruct (Nat.eq_dec j i) as [->|?]; [rewrite ?upd_same in *|rewrite ?(upd_other _ i j) in * by assumption]
    | H : context[upd _ ?i _ ?j] |- _ => destruct (Nat.eq_dec j i) as [->|?]; [rewrite ?upd_same in *|rewrite ?(upd_other _ i j) in * by assumption] end.
  Ltac rd := repeat match goal with |- context[res_eq_dec ?a ?b] => destruct (res_eq_dec a b) end.
  (** the counter stays below what is added in all *)
  Definition bounded (s : state) (g : nat) : Prop := cnt s g + sum_to n (fun i => adds g (prog s i)) <= sum_to n (fun i => adds g (progs i)).
  Lemma bounded_init g : bounded (init roots progs) g.
  Proof. unfold bounded, init. cbn. lia. Qed.
  Lemma bounded_step s held futs e s' g : P s held futs -> step n s e = Some s' -> bounded s g -> bounded s' g.
  Proof.
    intros HP Hs B. unfold bounded in *. destruct e as [t|]; unfold step in Hs.
    - destruct (t <? n); [|discriminate]. destruct (cur s); [discriminate|]. destruct (stat s t); try discriminate; injection Hs as <-; exact B.
    - destruct (cur s) as [t|] eqn:Ec; [|discriminate]. assert (Er : stat s t = Running) by now apply (p_cur _ _ _ _ _ _ _ _ HP). assert (Ht : t < n) by (destruct (Nat.lt_ge_cases t n) as [|X]; auto; apply (p_out _ _ _ _ _ _ _ _ HP) in X; congruence).
      assert (U : forall p, sum_to n (fun i => adds g (upd (prog s) t p i)) + adds g (prog s t) = sum_to n (fun i => adds g (prog s i)) + adds g p).
      { intros p. pose proof (sum_to_one n (fun j => adds g (upd (prog s) t p j)) (fun j => adds g (prog s j)) t Ht) as H. cbn beta in H. rewrite upd_same in H. apply H. intros j Hj. now rewrite upd_other. }
      destruct (prog s t) as [|a p] eqn:Ep; [destruct (joiner s t); injection Hs as <-; exact B|]. specialize (U p). destruct a as [m|m|g' k|g'|g'|x|x|]; cbn [adds] in U.
      + destruct (own s m); injection Hs as <-; cbn [cnt prog]; lia.
      + destruct (queue s m); injection Hs as <-; cbn [cnt prog]; lia.
      + injection Hs as <-; cbn [cnt prog]. destruct (Nat.eqb_spec g' g) as [->|N]; [rewrite upd_same|rewrite upd_other by auto]; lia.
      + destruct (cnt s g') as [|[|k]] eqn:Eg; try discriminate; injection Hs as <-; cbn [cnt prog]; (destruct (Nat.eq_dec g g') as [->|N]; [rewrite upd_same|rewrite upd_other by auto]); lia.
      + destruct (cnt s g'); injection Hs as <-; cbn [cnt prog]; lia.
      + destruct (stat s x); try discriminate. injection Hs as <-; cbn [cnt prog]; lia.
      + destruct (stat s x); try discriminate; try (destruct (joiner s x); try discriminate); injection Hs as <-; cbn [cnt prog]; lia.
      + injection Hs as <-; cbn [cnt prog]; lia.
  Qed.
  Definition use (s : WaitGroup.Model.state) (e : WaitGroup.Model.event) : Prop := WaitGroup.Single.one_thread s e /\ WaitGroup.Single.by_one s e.
  Definition group_events (s : state) (g : nat) (e : event) : list WaitGroup.Model.event :=
    match touch s e with
    | Some r => if res_eq_dec r (G g) then
        match e with
        | Pick t => [WaitGroup.Model.EResume t]
        | Go => match cur s with
                | Some t => match prog s t with
                            | Add _ k :: _ => [WaitGroup.Model.EAdd t (N.of_nat k)]
                            | Wait _ :: _ => match cnt s g with O => [WaitGroup.Model.EWait t] | _ => [WaitGroup.Model.EWait t; WaitGroup.Model.EEnqueue t] end
                            | _ => match cnt s g with S O => WaitGroup.Model.EDone t 1 :: repeat (WaitGroup.Model.EDrain t 0) (length (gqueue s g)) ++ [WaitGroup.Model.EDrainEnd t] | _ => [WaitGroup.Model.EDone t 1] end
                            end
                | None => [] end
        end else []
    | None => [] end.
  Lemma drains (R : WaitGroup.Model.state -> Prop) t : forall q a f, f t = WaitGroup.Model.Draining -> (forall i, i <> t -> WaitGroup.Single.inside (f i) = false) -> NoDup q -> ~ In t q ->
    R (WaitGroup.Model.St a [] (upd (fun i => if existsb (Nat.eqb i) q then WaitGroup.Model.Woken else f i) t WaitGroup.Model.Idle)) ->
    (forall c1 f1 f2, (forall i, f1 i = f2 i) -> R (WaitGroup.Model.St c1 [] f1) -> R (WaitGroup.Model.St c1 [] f2)) ->
    goes WaitGroup.Model.step use R (WaitGroup.Model.St a q f) (repeat (WaitGroup.Model.EDrain t 0) (length q) ++ [WaitGroup.Model.EDrainEnd t]).
  Proof.
    induction q as [|w q IH]; intros a f Ft Fo Nd Nt HR Ext; cbn [length repeat app].
    - eapply goes_cons; [split; [|exact I]|unfold WaitGroup.Model.step; cbn [WaitGroup.Model.at_ WaitGroup.Model.waitings]; rewrite Ft; reflexivity|].
      + intros i Hi. cbn in *. destruct (Nat.eq_dec i t) as [->|N]; auto. rewrite (Fo i N) in Hi. discriminate.
      + apply goes_nil. unfold WaitGroup.Model.goto. cbn [WaitGroup.Model.count WaitGroup.Model.waitings WaitGroup.Model.at_]. exact HR.
    - inversion Nd as [|? ? Nw Nq]; subst. assert (Nwt : w <> t) by (intros ->; apply Nt; now left).
      eapply goes_cons; [split; [|exact I]|unfold WaitGroup.Model.step; cbn [WaitGroup.Model.at_ WaitGroup.Model.waitings]; rewrite Ft; reflexivity|].
      + intros i Hi. cbn in *. destruct (Nat.eq_dec i t) as [->|N]; auto. rewrite (Fo i N) in Hi. discriminate.
      + unfold WaitGroup.Model.goto. cbn [WaitGroup.Model.count WaitGroup.Model.waitings WaitGroup.Model.at_]. apply IH; auto.
        * rewrite upd_other; auto.
        * intros i Hi. ud; auto.
        * intros X. apply Nt. now right.
        * eapply Ext; [|exact HR]. intros i. cbn [existsb]. ud; auto.
          -- now rewrite Nat.eqb_refl; cbn; destruct (existsb _ q).
          -- destruct (Nat.eqb_spec i w); [contradiction|]. reflexivity.
  Qed.
  Lemma group_step s held futs e s' g gs : P s held futs -> bounded s g -> (N.of_nat (sum_to n (fun i => adds g (progs i))) < WaitGroup.Model.size_max1)%N -> same_group s g gs -> step n s e = Some s' ->
    goes WaitGroup.Model.step use (same_group s' g) gs (group_events s g e).
  Proof.
    intros HP Bd Mx (Sc & Sw & Sa) Hs.
    assert (NI : forall i, WaitGroup.Single.inside (WaitGroup.Model.at_ gs i) = false) by (intros i; rewrite Sa; destruct (proj s (G g) i); auto).
    assert (OT : forall e, WaitGroup.Single.one_thread gs e) by (intros e0 i Hi; rewrite NI in Hi; discriminate).
    unfold group_events.
    assert (Fr : touch s e <> Some (G g) -> goes WaitGroup.Model.step use (same_group s' g) gs []).
    { intros Nt. destruct (frame _ _ _ _ _ _ _ _ _ _ HP Hs (G g) Nt) as [A [B C]]. apply goes_nil. split; [rewrite B; exact Sc|]. split; [congruence|]. intros i. rewrite A. apply Sa. }
    destruct (touch s e) as [r|] eqn:Et; [|apply Fr; discriminate]. destruct (res_eq_dec r (G g)) as [->|N]; [|apply Fr; congruence]. clear Fr.
    destruct e as [t|]; unfold step in Hs; unfold touch in Et.
    - destruct (t <? n); [|discriminate]. destruct (cur s) eqn:Ec; [discriminate|]. destruct (stat s t) as [| |r| | |] eqn:Est; try discriminate. injection Et as ->. injection Hs as <-.
      assert (Wt : WaitGroup.Model.at_ gs t = WaitGroup.Model.Woken) by (rewrite Sa, (proj2 (proj_k s (G g) t) Est); reflexivity).
      eapply goes_cons; [split; [apply OT|exact I]|unfold WaitGroup.Model.step; rewrite Wt; reflexivity|]. apply goes_nil.
      split; [exact Sc|]. split; [exact Sw|]. intros i. cbn [WaitGroup.Model.goto WaitGroup.Model.at_]. unfold proj in *. cbn [stat]. ud; [reflexivity|]. apply Sa.
    - destruct (cur s) as [t|] eqn:Ec; [|discriminate]. assert (Er : stat s t = Running) by now apply (p_cur _ _ _ _ _ _ _ _ HP). assert (Ht : t < n) by (destruct (Nat.lt_ge_cases t n) as [|X]; auto; apply (p_out _ _ _ _ _ _ _ _ HP) in X; congruence).
      assert (It : WaitGroup.Model.at_ gs t = WaitGroup.Model.Idle) by (rewrite Sa, (proj_run s (G g) t Er); reflexivity).
      destruct (prog s t) as [|[m'|m'|g' k|g'|g'|x|x|] p] eqn:Ep; try discriminate; injection Et as ->.
      + injection Hs as <-. assert (Lim : (N.of_nat (cnt s g) + N.of_nat k < WaitGroup.Model.size_max1)%N).
        { enough (cnt s g + k <= sum_to n (fun i => adds g (progs i))) by lia. unfold bounded in Bd. enough (k <= sum_to n (fun i => adds g (prog s i))) by lia. enough (adds g (prog s t) <= sum_to n (fun i => adds g (prog s i))) as X by (rewrite Ep in X; cbn in X; rewrite Nat.eqb_refl in X; lia).
          clear -Ht. revert Ht. generalize n. intros k0. induction k0 as [|k0 IH]; intros; [lia|]. cbn. destruct (Nat.eq_dec t k0) as [->|]; [lia|]. specialize (IH ltac:(lia)). lia. }
        eapply goes_cons; [split; [apply OT|cbn; rewrite Sc; exact Lim]|unfold WaitGroup.Model.step; rewrite It; reflexivity|]. apply goes_nil.
        split; [cbn; rewrite upd_same, Sc; unfold WaitGroup.Model.add64; rewrite N.mod_small by exact Lim; lia|]. split; [exact Sw|]. intros i. cbn [WaitGroup.Model.set_count WaitGroup.Model.at_]. unfold proj in *. cbn [stat]. apply Sa.
      + assert (Mc : (N.of_nat (cnt s g) < WaitGroup.Model.size_max1)%N) by (unfold bounded in Bd; lia).
        assert (S1 : cnt s g <> 0 -> WaitGroup.Model.sub64 (N.of_nat (cnt s g)) 1 = N.of_nat (cnt s g - 1)).
        { intros Nz. unfold WaitGroup.Model.sub64. rewrite (N.mod_small 1) by reflexivity. replace (N.of_nat (cnt s g) + (WaitGroup.Model.size_max1 - 1))%N with (N.of_nat (cnt s g - 1) + 1 * WaitGroup.Model.size_max1)%N by (unfold WaitGroup.Model.size_max1; lia). rewrite N.mod_add by discriminate. apply N.mod_small. lia. }
        destruct (cnt s g) as [|[|k]] eqn:Eg; [discriminate| |]; injection Hs as <-.
        * eapply goes_cons; [split; [apply OT|cbn; rewrite Sc; lia]|unfold WaitGroup.Model.step; rewrite It, Sc; cbn [N.eqb Pos.eqb N.of_nat Pos.of_succ_nat]; reflexivity|].
          change (WaitGroup.Model.sub64 1 1) with 0%N. unfold WaitGroup.Model.goto, WaitGroup.Model.set_count. cbn [WaitGroup.Model.count WaitGroup.Model.waitings WaitGroup.Model.at_]. rewrite Sw.
          pose proof (wake_spec n roots progs rank given s held futs g HP) as WA.
          apply drains.
          -- apply upd_same.
          -- intros i Hi. rewrite upd_other by auto. apply NI.
          -- apply (p_gnd _ _ _ _ _ _ _ _ HP).
          -- intros X. apply (p_g _ _ _ _ _ _ _ _ HP) in X. congruence.
          -- split; [cbn [WaitGroup.Model.count cnt]; rewrite upd_same; reflexivity|]. split; [cbn [WaitGroup.Model.waitings gqueue]; rewrite upd_same; reflexivity|]. intros i. cbn [WaitGroup.Model.at_]. unfold proj. cbn [stat].
             destruct (Nat.eq_dec i t) as [->|Ni]; [rewrite upd_same; destruct (WA t) as [[X ->]|[X ->]]; [congruence|]; rewrite Er; reflexivity|]. rewrite !upd_other by auto. destruct (WA i) as [[X E1]|[X E1]]; unfold wake_all in E1.
             ++ assert (Ex : existsb (Nat.eqb i) (gqueue s g) = true) by (apply existsb_exists; exists i; split; [now apply (p_g _ _ _ _ _ _ _ _ HP)|apply Nat.eqb_refl]). unfold wake_all. rewrite Ex. rd; congruence.
             ++ assert (Ex : existsb (Nat.eqb i) (gqueue s g) = false). { destruct (existsb (Nat.eqb i) (gqueue s g)) eqn:Y; auto. exfalso. apply existsb_exists in Y as (j & Hj & Ej). apply Nat.eqb_eq in Ej. subst j. now apply (p_g _ _ _ _ _ _ _ _ HP) in Hj. }
                unfold wake_all. rewrite Ex. exact (Sa i).
          -- intros c1 f1 f2 Hf (A & B & C). split; [exact A|]. split; [exact B|]. intros i. cbn [WaitGroup.Model.at_] in *. rewrite <- Hf. apply C.
        * assert (E1 : (N.of_nat (S (S k)) =? 1)%N = false) by (apply N.eqb_neq; lia).
          eapply goes_cons; [split; [apply OT|cbn [WaitGroup.Single.by_one]; rewrite Sc; lia]|unfold WaitGroup.Model.step; rewrite It, Sc, E1; reflexivity|]. apply goes_nil.
          split; [cbn [WaitGroup.Model.set_count WaitGroup.Model.count cnt]; rewrite upd_same, (S1 ltac:(discriminate)); f_equal; lia|]. split; [exact Sw|]. intros i. cbn [WaitGroup.Model.set_count WaitGroup.Model.at_]. unfold proj in *. cbn [stat]. apply Sa.
      + destruct (cnt s g) as [|k] eqn:Eg; injection Hs as <-.
        * eapply goes_cons; [split; [apply OT|exact I]|unfold WaitGroup.Model.step; rewrite It, Sc; cbn [N.of_nat N.eqb]; reflexivity|]. apply goes_nil.
          split; [cbn; rewrite Eg; exact Sc|]. split; [exact Sw|]. intros i. cbn [WaitGroup.Model.goto WaitGroup.Model.at_]. unfold proj in *. cbn [stat]. ud; [rewrite Er; reflexivity|]. apply Sa.
        * assert (E1 : (N.of_nat (S k) =? 0)%N = false) by (apply N.eqb_neq; lia).
          eapply goes_cons; [split; [apply OT|exact I]|unfold WaitGroup.Model.step; rewrite It, Sc, E1; reflexivity|].
          eapply goes_cons; [split; [|exact I]|unfold WaitGroup.Model.step; cbn [WaitGroup.Model.goto WaitGroup.Model.at_]; rewrite upd_same; reflexivity|].
          -- intros i Hi. cbn in *. destruct (Nat.eq_dec i t) as [->|Ni]; auto. rewrite upd_other in Hi by auto. rewrite NI in Hi. discriminate.
          -- apply goes_nil. split; [cbn [WaitGroup.Model.goto WaitGroup.Model.count cnt]; rewrite Eg; exact Sc|]. split; [cbn; rewrite upd_same, Sw; reflexivity|]. intros i. cbn [WaitGroup.Model.goto WaitGroup.Model.at_]. unfold proj in *. cbn [stat]. ud; [rd; congruence|]. apply Sa.
  Qed.
End RefGroup.
Section RefFuture.
  Variables (n : nat) (roots : nat -> bool) (progs : nat -> list action) (rank : res -> nat) (given : nat -> list nat).
  Notation P := (P n roots progs rank given).
  Ltac ud := repeat match goal with
    | |- context[upd _ ?i _ ?j] => destruct (Nat.eq_dec j i) as [->|?]; [rewrite ?upd_same in *|rewrite ?(upd_other _ i j) in * by assumption]
    | H : context[upd _ ?i _ ?j] |- _ => destruct (Nat.eq_dec j i) as [->|?]; [rewrite ?upd_same in *|rewrite ?(upd_other _ i j) in * by assumption] end.
  Ltac rd := repeat match goal with |- context[res_eq_dec ?a ?b] => destruct (res_eq_dec a b) end.
  Definition v0 : Future.Model.result := Future.Model.Value 0.
  Record keeps (s : state) (futs : nat -> list nat) (x : nat) (fs : Future.Model.state) : Prop := {
    k_a : Future.Model.asserted fs = false;
    k_f : Future.Model.fulfilled fs = match stat s x with Finished => Some v0 | _ => None end;
    k_s : ((exists j, joiner s x = Some j) /\ Future.Model.ss_waiting fs = Some 0 /\ Future.Model.ss_ff fs = None /\ Future.Model.futs fs 0 = Future.Model.Fut None false Future.Model.Waiting /\ forall k, proj s (F x) k <> Woken_up)
      \/ (joiner s x = None /\ Future.Model.ss_waiting fs = None /\ (exists j, forall k, proj s (F x) k = Woken_up <-> k = j) /\ (forall i, ~ In x (futs i)) /\ stat s x = Finished /\ Future.Model.ss_ff fs = Some v0 /\ Future.Model.futs fs 0 = Future.Model.Fut None false Future.Model.Woken)
      \/ (joiner s x = None /\ Future.Model.ss_waiting fs = None /\ (forall k, proj s (F x) k <> Woken_up) /\ Future.Model.at_ (Future.Model.futs fs 0) = Future.Model.Idle
          /\ ((exists i, In x (futs i)) \/ stat s x = Dormant -> Future.Model.ss_ff fs = Future.Model.fulfilled fs /\ Future.Model.futs fs 0 = Future.Model.Fut None false Future.Model.Idle)) }.
  Lemma keeps_same s held futs x fs : P s held futs -> keeps s futs x fs -> same_future s x fs.
  Proof.
    intros HP [A B C]. split; [exact A|]. split; [exact B|].
    assert (JW : forall j, proj s (F x) j = Waiting <-> joiner s x = Some j) by (intros j; rewrite proj_w; symmetry; apply (p_j _ _ _ _ _ _ _ _ HP)).
    assert (All : (forall j, proj s (F x) j = Nothing) <-> (forall j, proj s (F x) j <> Waiting) /\ (forall j, proj s (F x) j <> Woken_up)).
    { split; [intros H; split; intros j; rewrite H; discriminate|]. intros [H1 H2] j. specialize (H1 j). specialize (H2 j). destruct (proj s (F x) j); congruence. }
    destruct C as [((j & Ej) & _ & _ & Ef & Nk)|[(Ej & _ & (j & Hj) & _ & _ & _ & Ef)|(Ej & _ & Nk & Ef & _)]]; rewrite Ef; cbn [Future.Model.at_].
    - split; [|split]; (split; [intros H|]); try discriminate; auto.
      + exists j. now apply JW.
      + intros (k & Hk). now apply Nk in Hk.
      + intros H. specialize (H j). rewrite (proj2 (JW j) Ej) in H. discriminate.
    - split; [|split]; (split; [intros H|]); try discriminate; auto.
      + intros (k & Hk). apply JW in Hk. congruence.
      + exists j. now apply Hj.
      + intros H. specialize (H j). rewrite (proj2 (Hj j) eq_refl) in H. discriminate.
    - split; [|split]; (split; [intros H|]); try discriminate; auto.
      + intros (k & Hk). apply JW in Hk. congruence.
      + intros (k & Hk). now apply Nk in Hk.
      + intros j. apply All. split; auto. intros k Hk. apply JW in Hk. congruence.
  Qed.
  Definition future_events (s : state) (x : nat) (e : event) : list Future.Model.event :=
    match touch s e with
    | Some r => if res_eq_dec r (F x) then
        match e with
        | Pick _ => [Future.Model.EResume 0]
        | Go => match cur s with
                | Some t => match prog s t with
                            | [] => [Future.Model.ESet v0 0]
                            | _ => match stat s x with Finished => [Future.Model.EAwait 0] | _ => [Future.Model.EAwait 0; Future.Model.ESuspend 0] end
                            end
                | None => [] end
        end else []
    | None => [] end.
  Definition any (s : Future.Model.state) (e : Future.Model.event) : Prop := True.
  Lemma future_step s held futs e s' held' futs' x fs : P s held futs -> P s' held' futs' -> fewer s e futs futs' -> keeps s futs x fs -> step n s e = Some s' ->
    goes (Future.Model.step 1 false) any (keeps s' futs' x) fs (future_events s x e).
  Proof.
    intros HP HP' Fw K Hs. unfold future_events.
    assert (Fr : touch s e <> Some (F x) -> goes (Future.Model.step 1 false) any (keeps s' futs' x) fs []).
    { intros Nt. destruct (frame _ _ _ _ _ _ _ _ _ _ HP Hs (F x) Nt) as [A [B [C D]]]. apply goes_nil. destruct K as [Ka Kf Ks]. split; auto.
      - rewrite Kf. destruct (stat s x) eqn:E1; destruct (stat s' x) eqn:E2; auto; try (destruct (proj1 C eq_refl); discriminate); try (pose proof (proj2 C eq_refl); discriminate). all: pose proof (proj1 C eq_refl); discriminate.
      - assert (Fu : forall i, In x (futs' i) -> In x (futs i) \/ stat s x = Dormant) by (intros i Hi; exact (proj1 (Fw i x Hi))).
        destruct Ks as [((j & Ej) & K1 & K2 & K3 & K4)|[(Ej & K1 & (j & Hj) & K2 & K3 & K4 & K5)|(Ej & K1 & K2 & K3 & K4)]].
        + left. split; [exists j; congruence|]. repeat split; auto. intros k. rewrite A. apply K4.
        + right. left. split; [congruence|]. split; auto. split; [exists j; intros k; rewrite A; apply Hj|]. split; [intros i Hi; destruct (Fu i Hi) as [X|X]; [now apply K2 in X|congruence]|]. split; [now apply C|]. auto.
        + right. right. split; [congruence|]. split; auto. split; [intros k; rewrite A; apply K2|]. split; auto. intros H. apply K4. destruct H as [(i & Hi)|H]; [|right; auto]. destruct (Fu i Hi); [left; eauto|auto]. }
    destruct (touch s e) as [r|] eqn:Et; [|apply Fr; discriminate]. destruct (res_eq_dec r (F x)) as [->|N]; [|apply Fr; congruence]. clear Fr.
    destruct K as [Ka Kf Ks]. destruct fs as [ssf ssw fu ful asr]. cbn [Future.Model.asserted Future.Model.fulfilled Future.Model.ss_waiting Future.Model.ss_ff Future.Model.futs] in *. subst asr.
    destruct e as [t|]; pose proof Hs as Hs0; unfold step in Hs; unfold touch in Et.
    - destruct (t <? n); [|discriminate]. destruct (cur s) eqn:Ec; [discriminate|]. destruct (stat s t) as [| |r| | |] eqn:Est; try discriminate. injection Et as ->. injection Hs as <-.
      assert (Pt : proj s (F x) t = Woken_up) by now apply proj_k.
      destruct Ks as [(_ & _ & _ & _ & K4)|[(Ej & -> & (j & Hj) & K2 & K3 & -> & K5)|(_ & _ & K4 & _)]]; [now apply K4 in Pt| |now apply K4 in Pt].
      assert (j = t) by (symmetry; now apply Hj). subst j. assert (Nxt : x <> t) by congruence.
      eapply goes_cons; [exact I|unfold Future.Model.step; cbn [Future.Model.asserted Future.Model.futs]; rewrite K5; cbn [Future.Model.at_]; reflexivity|]. apply goes_nil.
      unfold Future.Model.get_nonblk, Future.Model.fetch. cbn [Future.Model.futs]. rewrite K5. cbn. unfold Future.Model.goto, Future.Model.set_fut. cbn. split; cbn [Future.Model.asserted Future.Model.fulfilled stat]; auto.
      + rewrite upd_other by auto. exact Kf.
      + right. right. cbn [joiner Future.Model.ss_waiting]. split; auto. split; auto. split.
        * intros k. unfold proj. cbn [stat]. ud; [discriminate|]. intros X. apply (proj1 (Hj k)) in X. contradiction.
        * cbn. split; [rewrite ?upd_same; reflexivity|]. intros [(i & Hi)|X]; [destruct (proj1 (Fw i x Hi)) as [Y|Y]; [now apply K2 in Y|congruence]|]. rewrite upd_other in X by auto. congruence.
    - destruct (cur s) as [t|] eqn:Ec; [|discriminate]. assert (Er : stat s t = Running) by now apply (p_cur _ _ _ _ _ _ _ _ HP). assert (Ht : t < n) by (destruct (Nat.lt_ge_cases t n) as [|X]; auto; apply (p_out _ _ _ _ _ _ _ _ HP) in X; congruence).
      destruct (prog s t) as [|[m'|m'|g' k|g'|g'|y|y|] p] eqn:Ep; try discriminate; injection Et as ->.
      + rewrite Er in Kf. subst ful. assert (NoD : forall i, In x (futs' i) -> In x (futs i)) by (intros i Hi; destruct (proj1 (Fw i x Hi)); congruence).
        destruct Ks as [((j & Ej) & -> & -> & K3 & K4)|[(_ & _ & _ & _ & K3 & _)|(Ej & -> & K2 & K3 & K4)]]; [|congruence|]; rewrite Ej in Hs; injection Hs as <-.
        * assert (Wj : stat s j = Waits (F x)) by (now apply (p_j _ _ _ _ _ _ _ _ HP)). assert (Njx : j <> x) by congruence.
          eapply goes_cons; [exact I|unfold Future.Model.step, Future.Model.none_blocked; cbn [Future.Model.asserted Future.Model.futs Future.Model.fulfilled]; rewrite K3; cbn [Future.Model.at_ orb]; reflexivity|]. apply goes_nil.
          unfold Future.Model.set_value. cbn. unfold Future.Model.wake, Future.Model.goto, Future.Model.set_fut. cbn. rewrite K3. cbn. split; cbn [Future.Model.asserted Future.Model.fulfilled stat joiner]; auto.
          -- rewrite upd_other by auto. rewrite ?upd_same. reflexivity.
          -- right. left. cbn. rewrite ?upd_same. split; auto. split; auto. split.
             ++ exists j. intros k. unfold proj. cbn [stat]. destruct (Nat.eq_dec k j) as [->|Nk]; [rewrite ?upd_same; rd; [tauto|congruence]|]. rewrite upd_other by auto. destruct (Nat.eq_dec k x) as [->|Nk2]; [rewrite ?upd_same; split; congruence|]. rewrite upd_other by auto. split; [|congruence]. intros X. exfalso. apply (K4 k). exact X.
             ++ split; [intros i Hi; apply NoD, (p_fut _ _ _ _ _ _ _ _ HP) in Hi; destruct Hi; congruence|]. split; [rewrite upd_other by auto; apply upd_same|]. split; [reflexivity|]. rewrite ?upd_same. reflexivity.
        * eapply goes_cons; [exact I|unfold Future.Model.step, Future.Model.none_blocked; cbn [Future.Model.asserted Future.Model.futs Future.Model.fulfilled]; rewrite K3; cbn [Future.Model.at_ orb]; reflexivity|]. apply goes_nil.
          unfold Future.Model.set_value. cbn. rewrite K3. cbn. split; cbn [Future.Model.asserted Future.Model.fulfilled stat joiner]; auto.
          -- rewrite ?upd_same. reflexivity.
          -- right. right. cbn. split; auto. split; auto. split; [|split; [exact K3|]].
             ++ intros k. unfold proj. cbn [stat]. ud; [discriminate|]. apply K2.
             ++ intros [(i & Hi)|X]; [|rewrite ?upd_same in X; discriminate]. destruct K4 as [_ K4]; [left; eauto|]. auto.
      + pose proof (p_ord _ _ _ _ _ _ _ _ HP t Ht) as Ord. rewrite Er, Ep in Ord. cbn [ordered] in Ord. destruct Ord as [Hi0 [Hw _]]. destruct (p_fut _ _ _ _ _ _ _ _ HP t x Hi0) as [Nd Nj]. assert (Nxt : x <> t) by (intros ->; destruct Hw; lia).
        assert (NoF : forall i, ~ In x (futs' i)) by (intros i Hi; destruct (Fw i x Hi) as [_ X]; eauto).
        destruct Ks as [((j & Ej) & _)|[(_ & _ & _ & K2 & _)|(Ej & -> & K2 & K3 & K4)]]; [congruence|now apply K2 in Hi0|]. destruct K4 as [K4 K5]; [left; eauto|]. subst ssf. rewrite Nj in Hs.
        destruct (stat s x) eqn:Ex; try congruence; injection Hs as <-; subst ful.
        1-4: eapply goes_cons; [exact I|unfold Future.Model.step; cbn [Future.Model.asserted Future.Model.futs Nat.ltb Nat.leb]; rewrite K5; cbn [Future.Model.at_]; unfold Future.Model.fetch; cbn [Future.Model.futs]; rewrite K5; cbn; rewrite ?upd_same; cbn; reflexivity|];
             unfold Future.Model.goto, Future.Model.set_fut; cbn; rewrite ?upd_same; cbn;
             (eapply goes_cons; [exact I|unfold Future.Model.step; cbn; rewrite ?upd_same; cbn; reflexivity|]); apply goes_nil; unfold Future.Model.set_waiting; cbn; split; cbn [Future.Model.asserted Future.Model.fulfilled stat joiner]; auto;
             [rewrite upd_other, Ex by auto; reflexivity|]; left; cbn; rewrite ?upd_same; (split; [eauto|]); repeat (split; [reflexivity|]); intros k; unfold proj; cbn [stat]; ud; [rd; discriminate|]; apply K2.
        eapply goes_cons; [exact I|unfold Future.Model.step; cbn [Future.Model.asserted Future.Model.futs Nat.ltb Nat.leb]; rewrite K5; cbn [Future.Model.at_]; unfold Future.Model.fetch; cbn [Future.Model.futs]; rewrite K5; cbn; rewrite ?upd_same; cbn; reflexivity|].
        apply goes_nil. unfold Future.Model.get_nonblk, Future.Model.fetch. cbn. rewrite ?upd_same. cbn. rewrite ?upd_same. cbn. split; cbn [Future.Model.asserted Future.Model.fulfilled stat joiner]; auto.
        * rewrite Ex. reflexivity.
        * right. right. cbn. rewrite ?upd_same. split; auto. split; auto. split; [exact K2|]. split; [reflexivity|]. intros [(i & Hi)|X]; [now apply NoF in Hi|congruence].
  Qed.
  Lemma keeps_init x : (forall i, roots i = true -> i < n) -> keeps (init roots progs) (fun _ => []) x Future.Model.init.
  Proof.
    intros _. split; cbn; auto; [destruct (roots x); reflexivity|]. right. right. split; auto. split; auto. split; [intros k; unfold proj; cbn; destruct (roots k); discriminate|]. split; auto.
  Qed.
End RefFuture.

(** Of every run of well-formed programs, up to any of its states: each mutex went through a run of the mutex of Mutex/Model.v on one thread, each group through a run of the group of
    WaitGroup/Model.v on one thread with the counter in range, and the future of each task through a run of Future/Model.v without a failed assertion. *)
Theorem C139_refines_the_models : forall n roots progs rank given, well_formed n roots progs rank given -> (forall g, (N.of_nat (sum_to n (fun i => adds g (progs i))) < 2 ^ 64)%N) ->
  forall l s, run (step n) (init roots progs) l = Some s ->
  (forall m, exists ml ms, run_all (Mutex.Model.step false) Mutex.Single.one_thread Mutex.Model.init ml /\ run (Mutex.Model.step false) Mutex.Model.init ml = Some ms /\ same_mutex s m ms) /\
  (forall g, exists gl gs, run_all WaitGroup.Model.step (fun s e => WaitGroup.Single.one_thread s e /\ WaitGroup.Single.by_one s e) WaitGroup.Model.init gl /\ run WaitGroup.Model.step WaitGroup.Model.init gl = Some gs /\ same_group s g gs) /\
  (forall x, exists fl fs, run (Future.Model.step 1 false) Future.Model.init fl = Some fs /\ same_future s x fs).
Proof.
  intros n roots progs rank given WF Mx l s Hr.
  assert (Gen : forall l s0 held futs, P n roots progs rank given s0 held futs -> handed s0 -> (forall g, bounded n progs s0 g) -> run (step n) s0 l = Some s ->
     (forall m ms, same_mutex s0 m ms -> exists ml, goes (Mutex.Model.step false) Mutex.Single.one_thread (same_mutex s m) ms ml) /\
     (forall g gs, same_group s0 g gs -> exists gl, goes WaitGroup.Model.step use (same_group s g) gs gl) /\
     (forall x fs, keeps s0 futs x fs -> exists fl, goes (Future.Model.step 1 false) any (same_future s x) fs fl)).
  { induction l0 as [|e l0 IH]; intros s0 held futs HP Hh Hb Hl; cbn [run] in Hl.
    - injection Hl as ->. split; [|split]; intros.
      + exists []. now apply goes_nil.
      + exists []. now apply goes_nil.
      + exists []. apply goes_nil. eapply keeps_same; eauto.
    - destruct (step n s0 e) as [s1|] eqn:E; [|discriminate]. destruct (P_step_futs _ _ _ _ _ _ _ _ _ _ HP E) as (h1 & f1 & HP1 & Fw & _).
      destruct (IH s1 h1 f1 HP1 (handed_step _ _ _ _ _ _ _ _ _ _ HP Hh E) (fun g => bounded_step _ _ _ _ _ _ _ _ _ _ g HP E (Hb g)) Hl) as (I1 & I2 & I3). split; [|split].
      + intros m ms Sm. destruct (mutex_step _ _ _ _ _ _ _ _ _ _ _ _ HP Hh Sm E) as (ms1 & A & B & C). destruct (I1 m ms1 C) as (ml & ms2 & A2 & B2 & C2).
        exists (mutex_events s0 m e ++ ml), ms2. split; [exact (run_all_app _ _ _ _ _ _ A B A2)|]. split; [|exact C2]. rewrite (run_app _ _ _ _ _ B). exact B2.
      + intros g gs Sg. destruct (group_step _ _ _ _ _ _ _ _ _ _ _ _ HP (Hb g) (Mx g) Sg E) as (gs1 & A & B & C). destruct (I2 g gs1 C) as (gl & gs2 & A2 & B2 & C2).
        exists (group_events s0 g e ++ gl), gs2. split; [exact (run_all_app _ _ _ _ _ _ A B A2)|]. split; [|exact C2]. rewrite (run_app _ _ _ _ _ B). exact B2.
      + intros x fs Kf. destruct (future_step _ _ _ _ _ _ _ _ _ _ _ _ _ _ HP HP1 Fw Kf E) as (fs1 & A & B & C). destruct (I3 x fs1 C) as (fl & fs2 & A2 & B2 & C2).
        exists (future_events s0 x e ++ fl), fs2. split; [exact (run_all_app _ _ _ _ _ _ A B A2)|]. split; [|exact C2]. rewrite (run_app _ _ _ _ _ B). exact B2. }
  destruct (Gen l _ _ _ (P_init _ _ _ _ _ WF)) as (I1 & I2 & I3); auto.
  - intros i m. cbn. destruct (roots i); discriminate.
  - intros g. apply bounded_init.
  - assert (N0 : forall r i, proj (init roots progs) r i = Nothing) by (intros r i; unfold proj; cbn; destruct (roots i); reflexivity). split; [|split].
    + intros m. destruct (I1 m Mutex.Model.init) as (ml & ms & A & B & C); [|eauto]. split; [reflexivity|]. split; [reflexivity|]. intros i. rewrite N0. reflexivity.
    + intros g. destruct (I2 g WaitGroup.Model.init) as (gl & gs & A & B & C); [|exists gl, gs; auto]. split; [reflexivity|]. split; [reflexivity|]. intros i. rewrite N0. reflexivity.
    + intros x. destruct (I3 x Future.Model.init) as (fl & fs & _ & B & C); [|eauto]. apply (keeps_init n). apply WF.
Qed.
Print Assumptions C139_refines_the_models.
