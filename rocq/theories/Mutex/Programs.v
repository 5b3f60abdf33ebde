(** C135: programs of coroutines that lock koios::mutexes, on one worker.

    Any number of tasks, each with a program of lock, unlock and other suspension points; any number of mutexes. One worker executes one task until it suspends (thread_pool.cc 72-118), picking any ready one next (the order of the scheduler's queue is left open). On one worker the operations of a mutex are not interrupted, so each is one step here; that these steps are the steps of Model.v is [C135_refines_the_model] below.
      lock:   acq_lk_aw.h 27-41, coroutine_mutex.h 69-77;   unlock: coroutine_mutex.h 86-90, coroutine_mutex.cc 39-52, waiting_handle.cc 13-17. *)
From Coq Require Import List Arith Bool Lia.
From Verif.Common Require Import TS Sum.
From Verif.Mutex Require Import Model Spec Proofs Single.
Import ListNotations.

(* what a task does: acq_lk_aw.h 27-41 (lock), coroutine_mutex.h 86-90 (unlock) *)
Inductive action := Lock (m : nat) | Unlock (m : nat) | Pause.   (* Pause: any co_await that comes back by itself *)
(* where a task is: acq_lk_aw.h 27-41, thread_pool.cc 72-118 *)
Inductive status := Ready | Handed (m : nat) | Running | Waits (m : nat) | Finished.  (* Handed m: ready, woken by an unlock of m *)
(* what the state keeps of acq_lk_aw.h 27-41, coroutine_mutex.h 69-90, coroutine_mutex.cc 39-52, thread_pool.cc 72-118 *)
Record pstate := PSt { prog : nat -> list action; stat : nat -> status; cur : option nat; own : nat -> option nat; queue : nat -> list nat }.
(* before anything has happened; acq_lk_aw.h 27-41, coroutine_mutex.h 69-90, coroutine_mutex.cc 39-52, thread_pool.cc 72-118 *)
Definition pinit (progs : nat -> list action) : pstate := {| prog := progs; stat := fun _ => Ready; cur := None; own := fun _ => None; queue := fun _ => [] |}.
(* the steps of acq_lk_aw.h 27-41, coroutine_mutex.h 69-90, coroutine_mutex.cc 39-52, thread_pool.cc 72-118 *)
Inductive pevent := Pick (t : nat) | Go.
(* what each step does: acq_lk_aw.h 27-41, coroutine_mutex.h 69-90, coroutine_mutex.cc 39-52, thread_pool.cc 72-118 *)
Definition pstep (n : nat) (s : pstate) (e : pevent) : option pstate :=
  match e with
  | Pick t => if t <? n then match cur s, stat s t with
              | None, (Ready | Handed _) => Some (PSt (prog s) (upd (stat s) t Running) (Some t) (own s) (queue s))
              | _, _ => None end else None
  | Go => match cur s with
          | None => None
          | Some t =>
              match prog s t with
              | [] => Some (PSt (prog s) (upd (stat s) t Finished) None (own s) (queue s))
              | Lock m :: p =>
                  match own s m with
                  | None => Some (PSt (upd (prog s) t p) (stat s) (Some t) (upd (own s) m (Some t)) (queue s))
                  | Some _ => Some (PSt (upd (prog s) t p) (upd (stat s) t (Waits m)) None (own s) (upd (queue s) m (queue s m ++ [t])))
                  end
              | Unlock m :: p =>
                  match queue s m with
                  | w :: r => Some (PSt (upd (prog s) t p) (upd (stat s) w (Handed m)) (Some t) (upd (own s) m (Some w)) (upd (queue s) m r))
                  | [] => Some (PSt (upd (prog s) t p) (stat s) (Some t) (upd (own s) m None) (queue s))
                  end
              | Pause :: p => Some (PSt (upd (prog s) t p) (upd (stat s) t Ready) None (own s) (queue s))
              end
          end
  end.

(** ** specification: well-formed programs *)
(** unlocks what it holds, takes mutexes in increasing order only, and ends with none *)
Fixpoint ordered (held : list nat) (p : list action) : Prop :=
  match p with
  | [] => held = []
  | Lock m :: p => (forall h, In h held -> h < m) /\ ordered (m :: held) p
  | Unlock m :: p => In m held /\ ordered (remove Nat.eq_dec m held) p
  | Pause :: p => ordered held p
  end.

(** ** proof *)
Record P (n : nat) (s : pstate) (held : nat -> list nat) : Prop := {
  p_own : forall m i, own s m = Some i <-> In m (held i);
  p_lt : forall i, n <= i -> held i = [] /\ (stat s i = Ready);
  p_cur : forall t, cur s = Some t <-> stat s t = Running;
  p_fin : forall i, stat s i = Finished -> held i = [];
  p_q : forall m i, In i (queue s m) <-> stat s i = Waits m;
  p_nd : forall m, NoDup (queue s m);
  p_qo : forall m, queue s m <> [] -> own s m <> None;
  p_ord : forall i, match stat s i with
                    | Finished => True
                    | Waits m => (forall h, In h (held i) -> h < m) /\ ordered (m :: held i) (prog s i)
                    | _ => i < n -> ordered (held i) (prog s i) end }.
Definition weight (s : pstate) (i : nat) : nat := 2 * length (prog s i) + match stat s i with Ready | Handed _ | Waits _ => 2 | Running => 1 | Finished => 0 end.
Definition weight_all (n : nat) (s : pstate) : nat := sum_to n (weight s).

Lemma updE {A} (f : nat -> A) i p j : upd f i p j = if j =? i then p else f j.
Proof. destruct (Nat.eqb_spec j i); [subst; apply upd_same|now apply upd_other]. Qed.
Ltac ue := rewrite ?updE in *; repeat match goal with
  | H : context[?a =? ?b] |- _ => destruct (Nat.eqb_spec a b); subst
  | |- context[?a =? ?b] => destruct (Nat.eqb_spec a b); subst end.
Lemma sum_one_lt n f g t : t < n -> (forall i, i <> t -> f i = g i) -> f t < g t -> sum_to n f < sum_to n g.
Proof. intros Ht H L. pose proof (sum_to_one n f g t Ht H). lia. Qed.
Lemma P_step n s e s' held : P n s held -> pstep n s e = Some s' -> (exists held', P n s' held') /\ weight_all n s' < weight_all n s.
Proof.
  intros HP Hs. destruct HP as [Po Pl Pc Pf Pq Pn Pqo Pr]. destruct e as [t|]; unfold pstep in Hs.
  - destruct (Nat.ltb_spec t n) as [Ht|]; [|discriminate]. destruct (cur s) eqn:Ec; [discriminate|].
    assert (NR : forall i, stat s i <> Running) by (intros i H; apply Pc in H; congruence).
    assert (Ho : ordered (held t) (prog s t)) by (specialize (Pr t); destruct (stat s t); try discriminate; auto).
    assert (Hw : forall m, stat s t <> Waits m) by (intros m H; rewrite H in Hs; discriminate).
    assert (W : weight s t = 2 * length (prog s t) + 2) by (unfold weight; destruct (stat s t); try discriminate; reflexivity).
    assert (Es' : s' = PSt (prog s) (upd (stat s) t Running) (Some t) (own s) (queue s)) by (destruct (stat s t); congruence). subst s'. split.
    + exists held. split; cbn [prog stat cur own queue]; auto.
      * intros i Hi. destruct (Pl i Hi). ue; [lia|]. auto.
      * intros i. split; intros H; [injection H as <-; ue; congruence|]. ue; [reflexivity|]. now apply NR in H.
      * intros i H. ue; [discriminate|auto].
      * intros m i. rewrite Pq. ue; [|tauto]. split; [intros H; now apply Hw in H|discriminate].
      * intros i. ue; auto. apply Pr.
    + apply (sum_one_lt n _ _ t Ht).
      * intros i Hi. unfold weight. cbn [prog stat]. ue; [contradiction|reflexivity].
      * rewrite W. unfold weight. cbn [prog stat]. ue; [lia|contradiction].
  - destruct (cur s) as [t|] eqn:Ec; [|discriminate]. pose proof (proj1 (Pc t) eq_refl) as Er.
    assert (Ht : t < n) by (destruct (Nat.lt_ge_cases t n) as [|H]; auto; destruct (Pl t H); congruence).
    assert (One : forall i, stat s i = Running -> i = t) by (intros i H; apply Pc in H; congruence).
    assert (Ho : ordered (held t) (prog s t)) by (specialize (Pr t); rewrite Er in Pr; auto).
    assert (W : weight s t = 2 * length (prog s t) + 1) by (unfold weight; rewrite Er; reflexivity).
    destruct (prog s t) as [|[m|m|] p] eqn:Ep; cbn [ordered length] in *.
    + injection Hs as <-. split.
      * exists held. split; cbn [prog stat cur own queue]; auto.
        -- intros i Hi. destruct (Pl i Hi). ue; [lia|]. auto.
        -- intros i. split; [discriminate|]. intros H. ue; [discriminate|]. now apply One in H.
        -- intros i H. ue; auto.
        -- intros m i. rewrite Pq. ue; [|tauto]. rewrite Er. split; discriminate.
        -- intros i. ue; auto. apply Pr.
      * apply (sum_one_lt n _ _ t Ht).
        -- intros i Hi. unfold weight. cbn [prog stat]. ue; [contradiction|reflexivity].
        -- rewrite W. unfold weight. cbn [prog stat]. rewrite Ep. ue; [cbn; lia|contradiction].
    + destruct Ho as [Hl Ho]. destruct (own s m) as [o|] eqn:Eo; injection Hs as <-; split.
      * exists held. split; cbn [prog stat cur own queue]; auto.
        -- intros i Hi. destruct (Pl i Hi). ue; [lia|]. auto.
        -- intros i. split; [discriminate|]. intros H. ue; [discriminate|]. now apply One in H.
        -- intros i H. ue; [discriminate|auto].
        -- intros m' i. ue; rewrite ?in_app_iff, ?Pq; cbn; rewrite ?Er; split; try tauto; try congruence; try discriminate. intros [H|[H|[]]]; congruence.
        -- intros m'. ue; auto. apply NoDup_snoc; auto. rewrite Pq, Er. discriminate.
        -- intros m'. ue; auto. congruence.
        -- intros i. ue; auto. apply Pr.
      * apply (sum_one_lt n _ _ t Ht).
        -- intros i Hi. unfold weight. cbn [prog stat]. ue; [contradiction|reflexivity].
        -- rewrite W. unfold weight. cbn [prog stat]. ue; [lia|contradiction].
      * exists (upd held t (m :: held t)). split; cbn [prog stat cur own queue]; auto.
        -- intros m' i. pose proof (Po m' i) as H. ue; cbn; intuition congruence.
        -- intros i Hi. destruct (Pl i Hi). ue; [lia|]. auto.
        -- intros i H. ue; [congruence|auto].
        -- intros m' H. ue; [discriminate|auto].
        -- intros i. ue; [rewrite Er; auto|]. apply Pr.
      * apply (sum_one_lt n _ _ t Ht).
        -- intros i Hi. unfold weight. cbn [prog stat]. ue; [contradiction|reflexivity].
        -- rewrite W. unfold weight. cbn [prog stat]. rewrite Er. ue; [lia|contradiction].
    + destruct Ho as [Hi0 Ho]. destruct (queue s m) as [|w r] eqn:Eq; injection Hs as <-; split.
      * exists (upd held t (remove Nat.eq_dec m (held t))). split; cbn [prog stat cur own queue]; auto.
        -- intros m' i. pose proof (Po m' i) as H. pose proof (Po m t) as H2. ue; split; try congruence; try tauto.
           ++ intros X. now apply remove_In in X.
           ++ intros X. exfalso. apply Po in X. apply H2 in Hi0. congruence.
           ++ intros X. apply in_in_remove; tauto.
           ++ intros X. apply in_remove in X. tauto.
        -- intros i Hi. destruct (Pl i Hi). ue; [lia|]. auto.
        -- intros i H. ue; [congruence|auto].
        -- intros m' H. ue; [congruence|auto].
        -- intros i. ue; [rewrite Er; auto|]. apply Pr.
      * apply (sum_one_lt n _ _ t Ht).
        -- intros i Hi. unfold weight. cbn [prog stat]. ue; [contradiction|reflexivity].
        -- rewrite W. unfold weight. cbn [prog stat]. rewrite Er. ue; [lia|contradiction].
      * assert (Ew : stat s w = Waits m) by (apply Pq; rewrite Eq; now left). assert (Nwt : w <> t) by congruence. assert (Ntw : t <> w) by congruence.
        assert (Nw : ~ In w r) by (specialize (Pn m); rewrite Eq in Pn; now inversion Pn).
        pose proof (Pr w) as Prw. rewrite Ew in Prw. destruct Prw as [Pw1 Pw2].
        exists (upd (upd held t (remove Nat.eq_dec m (held t))) w (m :: held w)). split; cbn [prog stat cur own queue].
        -- intros m' i. pose proof (Po m' i) as H. pose proof (Po m t) as H2. ue; cbn; try contradiction; split; try congruence; try tauto.
           ++ intros X. exfalso. now apply remove_In in X.
           ++ intros X. exfalso. apply Po in X. apply H2 in Hi0. congruence.
           ++ intros [X|X]; [congruence|tauto].
           ++ intros X. apply in_in_remove; tauto.
           ++ intros X. apply in_remove in X. tauto.
        -- intros i Hi. destruct (Pl i Hi) as [A B]. ue; auto; [congruence|lia].
        -- intros i. rewrite Pc. ue; [|tauto]. rewrite Ew. split; discriminate.
        -- intros i H. ue; [discriminate|congruence|auto].
        -- intros m' i. pose proof (Pq m' i) as X. ue; rewrite ?Eq in *; cbn in *; try tauto; try (split; [tauto|congruence]).
           ++ rewrite <- X. split; [tauto|]. intros [Y|Y]; (congruence || exact Y).
           ++ rewrite X, Ew. split; congruence.
        -- intros m'. pose proof (Pn m'). ue; auto. rewrite Eq in H. now inversion H.
        -- intros m' H. ue; [discriminate|auto].
        -- intros i. ue; auto; try contradiction; [rewrite Er; auto|]. apply Pr.
      * assert (Ww : stat s w = Waits m) by (apply Pq; rewrite Eq; now left). assert (Nwt : w <> t) by congruence.
        apply (sum_one_lt n _ _ t Ht).
        -- intros i Hi. unfold weight. cbn [prog stat]. ue; try contradiction; auto. rewrite Ww. reflexivity.
        -- rewrite W. unfold weight. cbn [prog stat]. ue; try contradiction; try congruence. rewrite Er. lia.
    + injection Hs as <-. split.
      * exists held. split; cbn [prog stat cur own queue]; auto.
        -- intros i Hi. destruct (Pl i Hi). ue; [lia|]. auto.
        -- intros i. split; [discriminate|]. intros H. ue; [discriminate|]. now apply One in H.
        -- intros i H. ue; [discriminate|auto].
        -- intros m i. rewrite Pq. ue; [|tauto]. rewrite Er. split; discriminate.
        -- intros i. ue; auto. apply Pr.
      * apply (sum_one_lt n _ _ t Ht).
        -- intros i Hi. unfold weight. cbn [prog stat]. ue; [contradiction|reflexivity].
        -- rewrite W. unfold weight. cbn [prog stat]. ue; [lia|contradiction].
Qed.

Definition stuck (n : nat) (s : pstate) : Prop := forall e, pstep n s e = None.
Lemma bounded_waits s : forall n, exists B, forall i m, i < n -> stat s i = Waits m -> m < B.
Proof.
  induction n as [|n (B & IH)]; [exists 0; intros; lia|]. exists (B + match stat s n with Waits m => S m | _ => 0 end).
  intros i m Hi E. destruct (Nat.eq_dec i n) as [->|N]; [rewrite E; lia|]. specialize (IH i m ltac:(lia) E). lia.
Qed.
Lemma progress n s held : P n s held -> stuck n s -> forall i, i < n -> stat s i = Finished.
Proof.
  intros [Po Pl Pc Pf Pq Pn Pqo Pr] St.
  assert (C0 : cur s = None).
  { destruct (cur s) as [t|] eqn:E; auto. specialize (St Go). unfold pstep in St. rewrite E in St. destruct (prog s t) as [|[m|m|] p]; try discriminate; [destruct (own s m)|destruct (queue s m)]; discriminate. }
  assert (WF : forall i, i < n -> stat s i = Finished \/ exists m, stat s i = Waits m).
  { intros i Hi. specialize (St (Pick i)). unfold pstep in St. apply Nat.ltb_lt in Hi. rewrite Hi, C0 in St. destruct (stat s i) eqn:E; try discriminate; eauto. apply Pc in E. congruence. }
  assert (Up : forall i m, i < n -> stat s i = Waits m -> exists j m', j < n /\ stat s j = Waits m' /\ m < m').
  { intros i m Hi E. assert (Q : own s m <> None). { apply Pqo. intros X. apply Pq in E. rewrite X in E. contradiction. }
    destruct (own s m) as [j|] eqn:Ej; [|congruence]. apply Po in Ej. assert (Hj : j < n). { destruct (Nat.lt_ge_cases j n) as [|H]; auto. destruct (Pl j H) as [X _]. rewrite X in Ej. contradiction. }
    destruct (WF j Hj) as [X|(m' & X)]; [apply Pf in X; rewrite X in Ej; contradiction|]. exists j, m'. repeat split; auto. specialize (Pr j). rewrite X in Pr. now apply Pr. }
  destruct (bounded_waits s n) as (B & HB).
  assert (Far : forall k i m, i < n -> stat s i = Waits m -> exists j m', j < n /\ stat s j = Waits m' /\ m + k <= m').
  { induction k as [|k IH]; intros i m Hi E; [exists i, m; repeat split; auto; lia|]. destruct (IH i m Hi E) as (j & m1 & Hj & Ej & L). destruct (Up j m1 Hj Ej) as (j2 & m2 & A1 & A2 & A3). exists j2, m2. repeat split; auto. lia. }
  intros i Hi. destruct (WF i Hi) as [H|(m & H)]; auto. exfalso. destruct (Far B i m Hi H) as (j & m' & A1 & A2 & A3). specialize (HB j m' A1 A2). lia.
Qed.
Lemma P_init n progs : (forall i, i < n -> ordered [] (progs i)) -> P n (pinit progs) (fun _ => []).
Proof.
  intros H. split; cbn; auto; try discriminate; try tauto.
  - intros; split; [discriminate|tauto].
  - intros; split; discriminate.
  - intros; split; [tauto|discriminate].
  - intros; constructor.
Qed.
Lemma P_run n : forall l s s' held, P n s held -> run (pstep n) s l = Some s' -> (exists held', P n s' held') /\ length l + weight_all n s' <= weight_all n s.
Proof.
  induction l as [|e l IH]; intros s s' held HP Hr; cbn [run] in Hr; [injection Hr as <-; split; eauto|].
  destruct (pstep n s e) as [s1|] eqn:E; [|discriminate]. destruct (P_step _ _ _ _ _ HP E) as [(held1 & HP1) L]. destruct (IH _ _ _ HP1 Hr) as [H1 H2]. split; auto. cbn [length]. lia.
Qed.

(** C135: on one worker, tasks that lock mutexes in a fixed order complete, under every schedule: no schedule is longer than the programs allow, and where nothing more can be done every task has finished. *)
Theorem C135_completes : forall n progs, (forall i, i < n -> ordered [] (progs i)) -> forall l s, run (pstep n) (pinit progs) l = Some s ->
  length l <= sum_to n (fun i => 2 * length (progs i) + 2) /\ (stuck n s -> forall i, i < n -> stat s i = Finished).
Proof.
  intros n progs Hp l s Hr. destruct (P_run n l _ _ _ (P_init n progs Hp) Hr) as [(held & HP) L]. split; [|intros St; now apply (progress n s held)].
  change (weight_all n (pinit progs)) with (sum_to n (fun i => 2 * length (progs i) + 2)) in L. lia.
Qed.

(** ** the steps are the steps of Model.v *)
(** where task [i] is with respect to mutex [m] *)
Definition place (s : pstate) (m i : nat) : pc :=
  match own s m with
  | Some j => if j =? i then match stat s i with Handed m' => if m' =? m then Woken else Owner | _ => Owner end
              else match stat s i with Waits m' => if m' =? m then Waiting else Idle | _ => Idle end
  | None => Idle
  end.
Definition same (s : pstate) (m : nat) (ms : state) : Prop :=
  flag ms = match own s m with Some _ => true | None => false end /\ waitings ms = queue s m /\ forall i, at_ ms i = place s m i.
(** what a step does to mutex [m] *)
Definition model_events (s : pstate) (m : nat) (e : pevent) : list event :=
  match e with
  | Pick t => match stat s t with Handed m' => if m' =? m then [EResume t] else [] | _ => [] end
  | Go => match cur s with
          | None => []
          | Some t =>
              match prog s t with
              | Lock m' :: _ => if m' =? m then match own s m with None => [EAcquire t] | Some _ => [EAcquire t; EEnqueue t] end else []
              | Unlock m' :: _ => if m' =? m then match queue s m with [] => [EClear t; ERelTAS t; ERelNone t; ERelClear t] | _ => [EClear t; ERelTAS t; ERelDeq t 0] end else []
              | _ => []
              end
          end
  end.
Lemma run_all_app {S E} (st : S -> E -> option S) Q : forall l1 l2 s s1, run_all st Q s l1 -> run st s l1 = Some s1 -> run_all st Q s1 l2 -> run_all st Q s (l1 ++ l2).
Proof.
  induction l1 as [|e l1 IH]; cbn; intros l2 s s1 H1 Hr H2; [injection Hr as <-; exact H2|]. destruct H1 as [A B]. split; auto. intros s' E1. rewrite E1 in Hr. eauto.
Qed.
Definition handed_own (s : pstate) : Prop := forall i m, stat s i = Handed m -> own s m = Some i.
Lemma handed_step n s e s' held : P n s held -> handed_own s -> pstep n s e = Some s' -> handed_own s'.
Proof.
  intros [Po Pl Pc Pf Pq Pn Pqo Pr] H Hs. destruct e as [t|]; unfold pstep in Hs.
  - destruct (t <? n); [|discriminate]. destruct (cur s); [discriminate|].
    assert (Es' : s' = PSt (prog s) (upd (stat s) t Running) (Some t) (own s) (queue s)) by (destruct (stat s t); congruence). subst s'.
    intros i m E. cbn [stat own] in *. ue; [discriminate|auto].
  - destruct (cur s) as [t|] eqn:Ec; [|discriminate]. pose proof (proj1 (Pc t) eq_refl) as Er.
    specialize (Pr t). rewrite Er in Pr.
    assert (Ht : t < n) by (destruct (Nat.lt_ge_cases t n) as [|X]; auto; destruct (Pl t X); congruence). specialize (Pr Ht).
    destruct (prog s t) as [|[m|m|] p] eqn:Ep; cbn [ordered] in Pr.
    + injection Hs as <-. intros i m E. cbn [stat own] in *. ue; [discriminate|auto].
    + destruct (own s m) eqn:Eo; injection Hs as <-; intros i m' E; cbn [stat own] in *.
      * ue; [discriminate|auto].
      * ue; [apply H in E; congruence|auto].
    + destruct Pr as [Pm _]. apply Po in Pm. destruct (queue s m) as [|w r] eqn:Eq; injection Hs as <-; intros i m' E; cbn [stat own] in *.
      * ue; [apply H in E as E2; congruence|auto].
      * ue; auto; try congruence. apply H in E as E2. congruence.
    + injection Hs as <-. intros i m E. cbn [stat own] in *. ue; [discriminate|auto].
Qed.
Lemma ex_cons m s' : forall e l ms ms1, one_thread ms e -> step false ms e = Some ms1 ->
  (exists ms', run_all (step false) one_thread ms1 l /\ run (step false) ms1 l = Some ms' /\ same s' m ms') ->
  exists ms', run_all (step false) one_thread ms (e :: l) /\ run (step false) ms (e :: l) = Some ms' /\ same s' m ms'.
Proof.
  intros e l ms ms1 Q E (ms' & A & B & C). exists ms'. cbn [run_all run]. rewrite E. repeat split; auto; try (now apply Q); try apply C. intros x [= <-]. exact A.
Qed.
Lemma ex_nil m s' ms : same s' m ms -> exists ms', run_all (step false) one_thread ms [] /\ run (step false) ms [] = Some ms' /\ same s' m ms'.
Proof. intros H. exists ms. split; [exact I|]. split; [reflexivity|exact H]. Qed.
Ltac oth NI := split; [|first [exact I|reflexivity]]; let i := fresh in let Hi := fresh in intros i Hi; cbn [goto set_flag at_ who] in *; ue; auto; rewrite NI in Hi; discriminate.
Lemma same_step n s e s' held m ms : P n s held -> handed_own s -> same s m ms -> pstep n s e = Some s' ->
  exists ms', run_all (step false) one_thread ms (model_events s m e) /\ run (step false) ms (model_events s m e) = Some ms' /\ same s' m ms'.
Proof.
  intros HP Hh (Sf & Sw & Sa) Hs. destruct HP as [Po Pl Pc Pf Pq Pn Pqo Pr].
  assert (NI : forall i, inside (at_ ms i) = false).
  { intros i. rewrite Sa. unfold place. destruct (own s m) as [j|]; auto. destruct (j =? i); destruct (stat s i); auto; try destruct (_ =? m); auto. }
  destruct e as [t|]; unfold pstep in Hs.
  - destruct (t <? n) eqn:Ht; [|discriminate]. destruct (cur s) eqn:Ec; [discriminate|].
    assert (Es' : s' = PSt (prog s) (upd (stat s) t Running) (Some t) (own s) (queue s)) by (destruct (stat s t); congruence). subst s'.
    cbn [model_events]. destruct (stat s t) as [|m'| |m'|] eqn:Et; try discriminate.
    + exists ms. split; [exact I|]. split; [reflexivity|]. split; [exact Sf|]. split; [exact Sw|]. intros i. rewrite Sa. unfold place. cbn [own stat]. destruct (own s m) as [j|]; auto. ue; rewrite ?Et; auto.
    + destruct (Nat.eqb_spec m' m) as [->|Nm].
      * apply Hh in Et as Eo. assert (Wt : at_ ms t = Woken) by (rewrite Sa; unfold place; rewrite Eo, Et, !Nat.eqb_refl; reflexivity).
        exists (goto ms t Owner). cbn [run_all run step]. rewrite Wt.
        split; [split; [|intros; exact I]; split; [|exact I]; intros j Hj; rewrite NI in Hj; discriminate|]. split; [reflexivity|].
        split; [exact Sf|]. split; [exact Sw|]. intros i. unfold place in *. cbn [goto at_ own stat]. specialize (Sa i). rewrite Eo in *. ue; try congruence; auto.
      * exists ms. split; [exact I|]. split; [reflexivity|]. split; [exact Sf|]. split; [exact Sw|]. intros i. rewrite Sa. unfold place. cbn [own stat]. destruct (own s m) as [j|]; auto. ue; rewrite ?Et; auto; ue; congruence.
  - destruct (cur s) as [t|] eqn:Ec; [|discriminate]. pose proof (proj1 (Pc t) eq_refl) as Er.
    assert (Ht : t < n) by (destruct (Nat.lt_ge_cases t n) as [|X]; auto; destruct (Pl t X); congruence).
    pose proof (Pr t) as Prt. rewrite Er in Prt. specialize (Prt Ht).
    cbn [model_events]. rewrite Ec. destruct (prog s t) as [|[m'|m'|] p] eqn:Ep; cbn [ordered] in Prt.
    + injection Hs as <-. exists ms. split; [exact I|]. split; [reflexivity|]. split; [exact Sf|]. split; [exact Sw|]. intros i. rewrite Sa. unfold place. cbn [own stat]. destruct (own s m) as [j|]; auto. ue; rewrite ?Er; auto.
    + destruct Prt as [Hl _]. destruct (Nat.eqb_spec m' m) as [->|Nm].
      * destruct (own s m) as [o|] eqn:Eo; injection Hs as <-.
        -- assert (Not : o <> t). { intros ->. apply Po in Eo. apply Hl in Eo. lia. }
           assert (It : at_ ms t = Idle) by (rewrite Sa; unfold place; rewrite Eo, Er; destruct (Nat.eqb_spec o t); congruence).
           eapply ex_cons; [oth NI|unfold step; rewrite It; unfold hold_this_immediately; rewrite Sf; cbn [negb]; reflexivity|].
           eapply ex_cons; [oth NI|unfold step; cbn [goto at_]; rewrite upd_same; reflexivity|].
           apply ex_nil.
           split; [cbn; rewrite Eo; reflexivity|]. split; [cbn; rewrite upd_same, Sw; reflexivity|]. intros i. cbn [goto add_waiting set_flag at_]. unfold place. cbn [own stat]. rewrite Eo. specialize (Sa i). unfold place in Sa. rewrite Eo in Sa. ue; try congruence; auto.
        -- assert (It : at_ ms t = Idle) by (rewrite Sa; unfold place; rewrite Eo; reflexivity).
           assert (Q0 : queue s m = []) by (destruct (queue s m) eqn:X; auto; exfalso; now apply (Pqo m ltac:(rewrite X; discriminate))).
           eapply ex_cons; [oth NI|unfold step; rewrite It; unfold hold_this_immediately; rewrite Sf; reflexivity|].
           apply ex_nil.
           split; [cbn; rewrite upd_same; reflexivity|]. split; [exact Sw|]. intros i. cbn [goto add_waiting set_flag at_ negb]. unfold place. cbn [own stat]. rewrite upd_same. specialize (Sa i). unfold place in Sa. rewrite Eo in Sa. ue; try congruence; auto.
              ** rewrite Er. reflexivity.
              ** rewrite Sa. destruct (stat s i) eqn:Ei; auto. ue; auto. apply Pq in Ei. rewrite Q0 in Ei. contradiction.
      * exists ms. split; [exact I|]. split; [reflexivity|]. destruct (own s m') as [o|] eqn:Eo; injection Hs as <-.
        -- split; [exact Sf|]. split; [cbn [queue]; ue; congruence|]. intros i. rewrite Sa. unfold place. cbn [own stat]. destruct (own s m) as [j|]; auto. ue; rewrite ?Er; auto; ue; congruence.
        -- split; [cbn [own]; ue; congruence|]. split; [exact Sw|]. intros i. rewrite Sa. unfold place. cbn [own stat]. rewrite upd_other by congruence. reflexivity.
    + destruct Prt as [Hm _]. apply Po in Hm. destruct (Nat.eqb_spec m' m) as [->|Nm].
      * assert (It : at_ ms t = Owner) by (rewrite Sa; unfold place; rewrite Hm, Er, Nat.eqb_refl; reflexivity).
        destruct (queue s m) as [|w r] eqn:Eq; injection Hs as <-.
        -- eapply ex_cons; [oth NI|unfold step; rewrite It; reflexivity|].
           eapply ex_cons; [oth NI|unfold step; cbn [goto at_]; rewrite upd_same; reflexivity|].
           eapply ex_cons; [oth NI|unfold step; cbn; rewrite upd_same, Sw; reflexivity|].
           eapply ex_cons; [oth NI|unfold step; cbn [goto at_]; rewrite upd_same; reflexivity|].
           apply ex_nil.
           split; [cbn; rewrite upd_same; reflexivity|]. split; [cbn; congruence|]. intros i. cbn [goto add_waiting set_flag at_ negb]. unfold place. cbn [own stat]. rewrite upd_same. specialize (Sa i). unfold place in Sa. rewrite Hm in Sa. ue; try congruence; auto.
              rewrite Sa. destruct (stat s i) eqn:Ei; auto. ue; auto. apply Pq in Ei. rewrite Eq in Ei. contradiction.
        -- assert (Ew : stat s w = Waits m) by (apply Pq; rewrite Eq; now left). assert (Nwt : w <> t) by congruence.
           eapply ex_cons; [oth NI|unfold step; rewrite It; reflexivity|].
           eapply ex_cons; [oth NI|unfold step; cbn [goto at_]; rewrite upd_same; reflexivity|].
           eapply ex_cons; [oth NI|unfold step; cbn; rewrite upd_same, Sw; reflexivity|].
           apply ex_nil.
           split; [cbn; rewrite upd_same; reflexivity|]. split; [cbn; rewrite upd_same; reflexivity|]. intros i. cbn [goto add_waiting set_flag at_ negb]. unfold place. cbn [own stat]. rewrite upd_same. specialize (Sa i). unfold place in Sa. rewrite Hm in Sa. ue; try congruence; auto. rewrite Er. reflexivity.
      * exists ms. split; [exact I|]. split; [reflexivity|]. destruct (queue s m') as [|w r] eqn:Eq; injection Hs as <-.
        -- split; [cbn [own]; ue; congruence|]. split; [exact Sw|]. intros i. rewrite Sa. unfold place. cbn [own stat]. rewrite upd_other by congruence. reflexivity.
        -- assert (Ew : stat s w = Waits m') by (apply Pq; rewrite Eq; now left).
           split; [cbn [own]; ue; congruence|]. split; [cbn [queue]; ue; congruence|]. intros i. rewrite Sa. unfold place. cbn [own stat]. rewrite upd_other by congruence. destruct (own s m) as [j|]; auto. ue; rewrite ?Ew; auto; ue; congruence.
    + injection Hs as <-. exists ms. split; [exact I|]. split; [reflexivity|]. split; [exact Sf|]. split; [exact Sw|]. intros i. rewrite Sa. unfold place. cbn [own stat]. destruct (own s m) as [j|]; auto. ue; rewrite ?Er; auto.
Qed.

Lemma same_run n : forall l s s' held m ms, P n s held -> handed_own s -> same s m ms -> run (pstep n) s l = Some s' ->
  exists ml ms', run_all (step false) one_thread ms ml /\ run (step false) ms ml = Some ms' /\ same s' m ms'.
Proof.
  induction l as [|e l IH]; intros s s' held m ms HP Hh HS Hr; cbn [run] in Hr.
  - injection Hr as <-. exists [], ms. split; [exact I|]. split; [reflexivity|exact HS].
  - destruct (pstep n s e) as [s1|] eqn:E; [|discriminate]. destruct (P_step _ _ _ _ _ HP E) as [(held1 & HP1) _].
    destruct (same_step _ _ _ _ _ _ _ HP Hh HS E) as (ms1 & A & B & C). pose proof (handed_step _ _ _ _ _ HP Hh E) as Hh1.
    destruct (IH _ _ _ _ _ HP1 Hh1 C Hr) as (ml & ms2 & A2 & B2 & C2). exists (model_events s m e ++ ml), ms2. split; [exact (run_all_app _ _ _ _ _ _ A B A2)|]. split; [|exact C2]. rewrite (run_app _ _ _ _ _ B). exact B2.
Qed.
(** Each mutex of such a run goes through a run of Model.v on one thread (the flag, the queue and where every task is agree at its end, for every prefix of the run): what a step above does at once is what the atomic operations of coroutine_mutex.cc do one after the other. *)
Theorem C135_refines_the_model : forall n progs, (forall i, i < n -> ordered [] (progs i)) -> forall l s m, run (pstep n) (pinit progs) l = Some s ->
  exists ml ms, run_all (step false) one_thread init ml /\ run (step false) init ml = Some ms /\ same s m ms.
Proof.
  intros n progs Hp l s m Hr. eapply same_run; [apply P_init, Hp| | |exact Hr]; [discriminate|]. split; [reflexivity|]. split; [reflexivity|]. intros i. reflexivity.
Qed.

(** ** non-vacuity *)
Definition two (i : nat) : list action := match i with 0 | 1 => [Lock 0; Pause; Lock 1; Pause; Unlock 1; Unlock 0] | _ => [] end.
Lemma two_ordered : forall i, i < 2 -> ordered [] (two i).
Proof.
  intros i Hi. assert (E : two i = [Lock 0; Pause; Lock 1; Pause; Unlock 1; Unlock 0]) by (destruct i as [|[|]]; [reflexivity|reflexivity|lia]). rewrite E. cbn.
  repeat split; auto; intros h H; repeat destruct H as [<-|H]; try contradiction; lia.
Qed.
(** task 1 waits for mutex 0 while task 0 is suspended with it; both finish *)
Example C135_case : exists l s, run (pstep 2) (pinit two) l = Some s /\ (exists l1 l2 s1, l = l1 ++ l2 /\ run (pstep 2) (pinit two) l1 = Some s1 /\ stat s1 1 = Waits 0 /\ own s1 0 = Some 0) /\ stat s 0 = Finished /\ stat s 1 = Finished.
Proof.
  exists ([Pick 0; Go; Go; Pick 1; Go] ++ [Pick 0; Go; Go; Pick 0; Go; Go; Go; Pick 1; Go; Pick 1; Go; Go; Pick 1; Go; Go; Go]). eexists. split; [vm_compute; reflexivity|]. split; [|split; reflexivity].
  do 3 eexists. split; [reflexivity|]. split; [vm_compute; reflexivity|]. split; reflexivity.
Qed.
(** without the order the two tasks stop for ever, each waiting for the other's mutex *)
Definition crossed (i : nat) : list action := match i with 0 => [Lock 0; Pause; Lock 1; Unlock 1; Unlock 0] | 1 => [Lock 1; Pause; Lock 0; Unlock 0; Unlock 1] | _ => [] end.
Theorem C135_order_is_needed : exists l s, run (pstep 2) (pinit crossed) l = Some s /\ stuck 2 s /\ stat s 0 = Waits 1 /\ stat s 1 = Waits 0.
Proof.
  exists [Pick 0; Go; Go; Pick 1; Go; Go; Pick 0; Go; Pick 1; Go]. eexists. split; [vm_compute; reflexivity|]. split; [|split; reflexivity].
  intros [t|]; [|reflexivity]. destruct t as [|[|t]]; reflexivity.
Qed.
Print Assumptions C135_refines_the_model.
Print Assumptions C135_completes.
Print Assumptions C135_order_is_needed.
