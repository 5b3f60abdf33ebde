(** C145: theorems. *)
From Coq Require Import List Arith Bool Lia.
From Verif.Common Require Import TS Sum.
From Verif.Structured Require Import Model Spec Proofs Props Scoped ScopedSpec ScopedProofs.
Import ListNotations.

(** only tasks that another one started, or a root, ever run *)
Lemma linear_reached n roots progs rank given : well_formed n roots progs rank given -> forall l s, run (Model.step n) (Model.init roots progs) l = Some s ->
  (forall i x, In x (starts (prog s i)) -> In x (starts (progs i))) /\ forall i, stat s i <> Dormant -> reached roots progs i.
Proof.
  intros WF l. induction l as [|e l IH] using rev_ind; intros s Hr.
  - injection Hr as <-. split; [auto|]. intros i. cbn. destruct (roots i) eqn:R; [now constructor|congruence].
  - apply run_app_inv in Hr as (s1 & H1 & H2). cbn [run] in H2. destruct (Model.step n s1 e) as [s2|] eqn:E; [|discriminate]. injection H2 as ->. destruct (IH _ H1) as [A B].
    destruct (P_run n roots progs rank given l _ _ _ _ (P_init _ _ _ _ _ WF) H1) as [(held & futs & HP) _]. destruct e as [t|].
    + unfold Model.step in E. destruct (t <? n); [|discriminate]. destruct (cur s1); [discriminate|].
      assert (Nd : stat s1 t <> Dormant) by (intros X; rewrite X in E; discriminate). destruct (stat s1 t) eqn:Et; try discriminate; injection E as <-; cbn [prog stat]; (split; [exact A|]); intros i; rewrite updE; destruct (Nat.eqb_spec i t) as [->|]; auto; intros _; apply B; congruence.
    + unfold Model.step in E. destruct (cur s1) as [t|] eqn:Ec; [|discriminate]. assert (Er : stat s1 t = Running) by now apply (p_cur _ _ _ _ _ _ _ _ HP).
      assert (Rt : reached roots progs t) by (apply B; congruence).
      assert (Ap : forall a p, prog s1 t = a :: p -> forall i x, In x (starts (upd (prog s1) t p i)) -> In x (starts (progs i))).
      { intros a p Ep i x. rewrite updE. destruct (Nat.eqb_spec i t) as [->|]; [|apply A]. intros H. apply A. rewrite Ep. destruct a; cbn; auto. }
      destruct (prog s1 t) as [|[m|m|g k|g|g|c|c|] p] eqn:Ep.
      * destruct (joiner s1 t) as [j|] eqn:Ej; injection E as <-; cbn [prog stat]; (split; [exact A|]); intros i; rewrite !updE; [destruct (Nat.eqb_spec i j) as [->|]|]; try (destruct (Nat.eqb_spec i t) as [->|]; auto).
        intros _. apply B. rewrite (proj1 (p_j _ _ _ _ _ _ _ _ HP t j) Ej). discriminate.
      * destruct (own s1 m); injection E as <-; cbn [prog stat]; (split; [now apply (Ap _ _ eq_refl)|]); auto. intros i. rewrite updE. destruct (Nat.eqb_spec i t) as [->|]; auto.
      * destruct (queue s1 m) as [|w r] eqn:Eq; injection E as <-; cbn [prog stat]; (split; [now apply (Ap _ _ eq_refl)|]); auto. intros i. rewrite updE. destruct (Nat.eqb_spec i w) as [->|]; auto. intros _. apply B. rewrite (proj1 (p_q _ _ _ _ _ _ _ _ HP m w)); [discriminate|rewrite Eq; now left].
      * injection E as <-; cbn [prog stat]; (split; [now apply (Ap _ _ eq_refl)|]); auto.
      * destruct (cnt s1 g) as [|[|k]]; [discriminate| |]; injection E as <-; cbn [prog stat]; (split; [now apply (Ap _ _ eq_refl)|]); auto. intros i. unfold wake_all. destruct (existsb (Nat.eqb i) (gqueue s1 g)) eqn:X; auto.
        apply existsb_exists in X as (j & Hj & Ej). apply Nat.eqb_eq in Ej. subst j. intros _. apply B. rewrite (proj1 (p_g _ _ _ _ _ _ _ _ HP g i) Hj). discriminate.
      * destruct (cnt s1 g); injection E as <-; cbn [prog stat]; (split; [now apply (Ap _ _ eq_refl)|]); auto. intros i. rewrite updE. destruct (Nat.eqb_spec i t) as [->|]; auto.
      * destruct (stat s1 c); try discriminate. injection E as <-; cbn [prog stat]. split; [now apply (Ap _ _ eq_refl)|]. intros i. rewrite updE. destruct (Nat.eqb_spec i c) as [->|]; auto. intros _. apply (r_start _ _ t); auto. apply A. rewrite Ep. now left.
      * destruct (stat s1 c); try discriminate; try (destruct (joiner s1 c); try discriminate); injection E as <-; cbn [prog stat]; (split; [now apply (Ap _ _ eq_refl)|]); auto; intros i; rewrite updE; destruct (Nat.eqb_spec i t) as [->|]; auto.
      * injection E as <-; cbn [prog stat]. split; [now apply (Ap _ _ eq_refl)|]. intros i. rewrite updE. destruct (Nat.eqb_spec i t) as [->|]; auto.
Qed.

Section T.
  Variables (n : nat) (given : nat -> list nat) (roots : nat -> bool) (bodies : nat -> code) (rank : res -> nat).
  Hypothesis WS : well_scoped bodies roots rank given n.
  Variables (l : list event) (s : Scoped.state).
  Hypothesis Hr : run (Scoped.step n given) (Scoped.init given roots bodies) l = Some s.
  Lemma sim_of : exists out q, (forall i, i < n -> out i = snd (lin given out (bodies i))) /\ Sim n given roots bodies out s q.
  Proof.
    destruct (has_out n given roots bodies rank WS) as (out & Hout). destruct (Sim_init n given roots bodies out Hout) as (q0 & S0).
    destruct (run_sim n given roots bodies rank WS out l _ _ _ S0 Hr) as (q & HS). eauto.
  Qed.
  Lemma bound_of : length l <= 1 + sum_to n (fun i => 2 * (size (bodies i) + length (given i) + 1)).
  Proof.
    destruct (has_out n given roots bodies rank WS) as (out & Hout). destruct (Sim_init n given roots bodies out Hout) as (q0 & S0).
    pose proof (run_measure n given roots bodies rank WS out l _ _ _ S0 Hr) as M. rewrite (measure_init n given roots bodies) in M.
    rewrite (sum_to_ext n (fun i => 2 * (size (bodies i) + length (given i) + 1)) (fun i => 2 * (size (bodies i) + length (given i)) + 2)) by (intros; lia). lia.
  Qed.
  Lemma results_of t o : result s t = Some o -> begun bodies roots t /\ exists st, means bodies (bodies t) o st.
  Proof.
    intros H. destruct sim_of as (out & q & Hout & HS). destruct (s_res _ _ _ _ _ _ _ HS t o H) as [-> Hf]. destruct (s_run _ _ _ _ _ _ _ HS) as (l' & Hl).
    destruct (linear_reached n roots _ rank given (scoped_well_formed n given roots bodies rank WS out) l' _ Hl) as [_ B].
    assert (Rb : reached roots (progs given bodies out) t) by (apply B; cbn; congruence).
    assert (RB : forall i, reached roots (progs given bodies out) i -> begun bodies roots i /\ i < n).
    { induction 1 as [i R|i x Hi [IH Hn] Hx]; [split; [now constructor|now apply (ws_roots _ _ _ _ _ WS i)]|].
      pose proof (means_body n given roots bodies rank WS out Hout i Hn) as Mb. rewrite starts_progs in Hx. split; [eapply b_start; eauto|]. rewrite <- starts_progs in Hx. now apply (ws_starts _ _ _ _ _ WS i x Hn), (starts_in given bodies out). }
    destruct (RB t Rb) as [X Y]. split; [exact X|]. eexists. now apply (means_body n given roots bodies rank WS out Hout).
  Qed.
  Lemma stuck_of : ScopedSpec.stuck n given s -> (forall i, begun bodies roots i -> stat (base s) i = Finished /\ result s i <> None) /\
    (forall m, own (base s) m = None /\ queue (base s) m = []) /\ (forall g, cnt (base s) g = 0 /\ gqueue (base s) g = []) /\ forall i, stat (base s) i = Finished \/ stat (base s) i = Dormant.
  Proof.
    intros St. destruct sim_of as (out & q & Hout & HS). pose proof (scoped_stuck n given roots bodies rank WS out s q HS St) as St'. destruct (s_run _ _ _ _ _ _ _ HS) as (l' & Hl).
    pose proof (scoped_well_formed n given roots bodies rank WS out) as WF. split.
    - intros i Hb. destruct (begun_reached n given roots bodies rank WS out Hout i Hb) as [Hre _]. pose proof (proj2 (C139_completes _ _ _ _ _ WF l' _ Hl) St' i Hre) as F. cbn in F. split; [exact F|]. rewrite (s_fin _ _ _ _ _ _ _ HS i F). discriminate.
    - exact (C139_leaves_nothing _ _ _ _ _ WF l' _ Hl St').
  Qed.
End T.

(** Whatever the worker picks next and whatever the tasks throw: a run has at most so many steps, and when nothing can go on, exactly the tasks that were to be started have ended,
    each with the value or the exception that its code, with the results of the tasks it awaits, gives. *)
Theorem C145_completes : forall n given roots bodies rank, well_scoped bodies roots rank given n -> forall l s, run (Scoped.step n given) (Scoped.init given roots bodies) l = Some s ->
  length l <= 1 + sum_to n (fun i => 2 * (size (bodies i) + length (given i) + 1)) /\
  (ScopedSpec.stuck n given s -> forall i o, result s i = Some o <-> begun bodies roots i /\ exists st, means bodies (bodies i) o st).
Proof.
  intros n given roots bodies rank WS l s Hr. split; [exact (bound_of n given roots bodies rank WS l s Hr)|]. intros St i o. split; [apply (results_of n given roots bodies rank WS l s Hr)|].
  intros [Hb (st & Hm)]. destruct (proj1 (stuck_of n given roots bodies rank WS l s Hr St) i Hb) as [_ X]. destruct (result s i) as [o'|] eqn:E; [|congruence].
  destruct (results_of n given roots bodies rank WS l s Hr i o' E) as [_ (st' & Hm')]. now destruct (means_det _ _ _ _ Hm _ _ Hm') as [-> _].
Qed.
(** No exception leaves a mutex locked or a group waiting. *)
Theorem C145_leaves_nothing : forall n given roots bodies rank, well_scoped bodies roots rank given n -> forall l s, run (Scoped.step n given) (Scoped.init given roots bodies) l = Some s -> ScopedSpec.stuck n given s ->
  (forall m, own (base s) m = None /\ queue (base s) m = []) /\ (forall g, cnt (base s) g = 0 /\ gqueue (base s) g = []) /\ forall i, stat (base s) i = Finished \/ stat (base s) i = Dormant.
Proof. intros n given roots bodies rank WS l s Hr St. exact (proj2 (stuck_of n given roots bodies rank WS l s Hr St)). Qed.
(** Also of a run that has not ended: a task that has ended, ended as its code says. *)
Theorem C145_exceptions_arrive : forall n given roots bodies rank, well_scoped bodies roots rank given n -> forall l s t o, run (Scoped.step n given) (Scoped.init given roots bodies) l = Some s -> result s t = Some o -> exists st, means bodies (bodies t) o st.
Proof. intros n given roots bodies rank WS l s t o Hr H. exact (proj2 (results_of n given roots bodies rank WS l s Hr t o H)). Qed.
(** How the tasks are interleaved does not matter for their results. *)
Theorem C145_order_does_not_matter : forall n given roots bodies rank, well_scoped bodies roots rank given n -> forall l1 s1 l2 s2,
  run (Scoped.step n given) (Scoped.init given roots bodies) l1 = Some s1 -> run (Scoped.step n given) (Scoped.init given roots bodies) l2 = Some s2 -> ScopedSpec.stuck n given s1 -> ScopedSpec.stuck n given s2 -> forall i, result s1 i = result s2 i.
Proof.
  intros n given roots bodies rank WS l1 s1 l2 s2 H1 H2 S1 S2 i. destruct (C145_completes _ _ _ _ _ WS _ _ H1) as [_ A]. destruct (C145_completes _ _ _ _ _ WS _ _ H2) as [_ B].
  destruct (result s1 i) as [o|] eqn:E1; [symmetry; apply (B S2), (A S1), E1|]. destruct (result s2 i) as [o|] eqn:E2; [|reflexivity]. apply (B S2), (A S1) in E2. congruence.
Qed.
(** The running task can always go on. *)
Theorem C145_no_misuse : forall n given roots bodies rank, well_scoped bodies roots rank given n -> forall l s t, run (Scoped.step n given) (Scoped.init given roots bodies) l = Some s -> cur (base s) = Some t -> Scoped.step n given s Go <> None.
Proof.
  intros n given roots bodies rank WS l s t Hr Hc. destruct (sim_of n given roots bodies rank WS l s Hr) as (out & q & Hout & HS). exact (scoped_go n given roots bodies rank WS out s q t HS Hc).
Qed.

(** ** a case: task 0 starts task 1 and task 2, both report to a group; they throw with the mutex locked; task 0 catches what task 1 threw and waits for the group *)
Definition throwing (i : nat) : code :=
  match i with
  | 0 => Seq (Try (With 1 (Seq (Start 2) (Locked 0 Suspend))) (WaitFor 0)) (Throw 9)
  | 1 => Locked 0 (Seq Suspend (Throw 7))
  | 2 => Locked 0 (Throw 8)
  | _ => Skip end.
Example C145_case : exists rank, well_scoped throwing first rank pool_given 3 /\ (forall i, i < 3 -> begun throwing first i)
  /\ exists l1 l2 s1 s, run (Scoped.step 3 pool_given) (Scoped.init pool_given first throwing) l1 = Some s1 /\ exc s1 1 = Some 7 /\ stat (base s1) 0 = Waits (F 1) /\ stat (base s1) 2 = Waits (M 0) /\ own (base s1) 0 = Some 1
  /\ run (Scoped.step 3 pool_given) s1 l2 = Some s /\ ScopedSpec.stuck 3 pool_given s /\ result s 0 = Some (Some 9) /\ result s 1 = Some (Some 7) /\ result s 2 = Some (Some 8).
Proof.
  assert (M1 : means throwing (throwing 1) (Some 7) []) by (cbn; constructor; apply (m_seq _ _ _ [] (Some 7) []); constructor).
  assert (M0 : means throwing (throwing 0) (Some 9) ([1; 2] ++ [])).
  { cbn. apply (m_seq _ _ _ [1; 2] (Some 9) []); [|constructor]. apply (m_try_x _ _ _ 7 [1; 2] None []); [|constructor]. apply (m_with _ 1 _ (Some 7) [2] []); [|exact M1]. apply (m_seq _ _ _ [2] None []); [constructor|]. constructor. constructor. }
  exists (fun r => match r with M _ => 5 | G _ => 4 | F 0 => 0 | F _ => 3 end). split; [|split].
  - split.
    + intros i Hi. destruct i as [|[|[|i]]]; [| | |lia]; cbn; unfold may_wait; cbn; repeat split; try lia; intros h H; cbn in *; intuition (subst; lia).
    + intros i H. apply Nat.eqb_eq in H. subst i. split; [lia|reflexivity].
    + intros i t Hi H. destruct i as [|[|[|i]]]; cbn in H; try contradiction; try lia. destruct H as [<-|[<-|[]]]; split; (lia || reflexivity).
    + intros i Hi. destruct i as [|[|[|i]]]; cbn; [|constructor|constructor|lia]. constructor; [|constructor; [|constructor]]; cbn; intuition discriminate.
    + intros i j t Hi Hj A B. destruct i as [|[|[|i]]]; cbn in A; try contradiction; try lia. destruct j as [|[|[|j]]]; cbn in B; try contradiction; try lia.
  - assert (B0 : begun throwing first 0) by now constructor. intros i Hi. destruct i as [|[|[|i]]]; [exact B0| | |lia]; (apply (b_start _ _ 0 (Some 9) ([1; 2] ++ [])); [exact B0|exact M0|cbn; auto]).
  - exists (Pick 0 :: repeat Go 7 ++ Pick 1 :: repeat Go 1 ++ Pick 2 :: repeat Go 1 ++ Pick 0 :: repeat Go 2 ++ Pick 1 :: repeat Go 2 ++ [Pick 1; Go]), (repeat Go 3 ++ Pick 0 :: repeat Go 3 ++ Pick 2 :: repeat Go 4 ++ Pick 0 :: repeat Go 2). do 2 eexists.
    split; [vm_compute; reflexivity|]. do 4 (split; [vm_compute; reflexivity|]). split; [vm_compute; reflexivity|]. split; [|repeat split; vm_compute; reflexivity].
    intros [t|]; [|vm_compute; reflexivity]. do 3 (destruct t as [|t]; [vm_compute; reflexivity|]). reflexivity.
Qed.
Print Assumptions C145_completes.
Print Assumptions C145_leaves_nothing.
Print Assumptions C145_exceptions_arrive.
Print Assumptions C145_order_does_not_matter.
Print Assumptions C145_no_misuse.
