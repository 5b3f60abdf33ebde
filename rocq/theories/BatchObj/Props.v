From Coq Require Import List Arith Bool Lia.
From Verif.Common Require Import TS.
From Verif.BatchObj Require Import Model Spec Proofs.
Import ListNotations.

(** C99: in every proper history there is no undefined behaviour, and executing a batch gives the kernel exactly the operations that
    were put into it (or into the batches it was moved from), in order, each with the argument it was given - however many batches there
    are, however they are moved, filled, executed and destroyed. *)
Theorem C99_exec_submits_what_was_asked : forall l b s s',
  run_all step proper init (l ++ [EExec b]) -> run step init l = Some s -> step s (EExec b) = Some s' ->
  ub s' = false /\ observe s (EExec b) s' = [Submits b (asked l b)].
Proof.
  intros l b s s' HA Hr Hs.
  assert (HA1 : run_all step proper init l /\ proper s (EExec b)).
  { clear Hs. revert HA Hr. generalize init. induction l as [|e l IH]; cbn; intros s0 HA Hr.
    - inversion Hr; subst. split; [exact I|apply HA].
    - destruct HA as [H1 H2]. destruct (step s0 e) as [s1|] eqn:E; [|discriminate]. destruct (IH s1 (H2 _ eq_refl) Hr) as [H3 H4].
      split; [|exact H4]. split; [exact H1|]. intros s2 E2. inversion E2; subst. exact H3. }
  destruct HA1 as [HA1 Hp]. destruct (init_ok l s HA1 Hr) as [HI HR].
  destruct (st_exec s (asked l) HI HR b s' Hp Hs) as [HI' _]. split; [exact (i_ub _ HI')|].
  cbn. unfold step in Hs. rewrite (i_ub _ HI) in Hs. destruct (batches s b) as [y|] eqn:Eb; [|discriminate].
  f_equal. f_equal. unfold reads. rewrite Eb. exact (HR _ _ Eb).
Qed.
Print Assumptions C99_exec_submits_what_was_asked.

(** C99: at every moment, every argument of an operation in a live batch can still be read with the value that was given. *)
Theorem C99_copies_live_as_long_as_the_batch : forall l s b,
  run_all step proper init l -> run step init l = Some s ->
  ub s = false /\ (forall y, batches s b = Some y -> reads s b = asked l b).
Proof.
  intros l s b HA Hr. destruct (init_ok l s HA Hr) as [HI HR]. split; [exact (i_ub _ HI)|].
  intros y Eb. unfold reads. rewrite Eb. exact (HR _ _ Eb).
Qed.
Print Assumptions C99_copies_live_as_long_as_the_batch.

(** C99: no proper event is refused by an undefined access (execution always possible on a filled, not moved-from batch). *)
Theorem C99_exec_possible : forall l s b y,
  run_all step proper init l -> run step init l = Some s ->
  batches s b = Some y -> moved s b = false -> asked l b <> [] -> exists s', step s (EExec b) = Some s' /\ ub s' = false.
Proof.
  intros l s b y HA Hr Eb Em Hn. destruct (init_ok l s HA Hr) as [HI HR]. exists s. split; [|exact (i_ub _ HI)].
  eapply exec_ok; eauto. intros E. apply Hn. rewrite <- (HR _ _ Eb), E. reflexivity.
Qed.
Print Assumptions C99_exec_possible.

(** C99, what is left behind: a batch that was moved from is spent, whatever it held and even if it was never filled: to execute it again before
    something is put into it is undefined (the assertion of iouring_op_batch.cc 18), and so is executing a fresh batch. *)
Theorem C99_spent_batch : forall s d b s1, step s (EMove d b) = Some s1 -> ub s = false -> exists s2, step s1 (EExec b) = Some s2 /\ ub s2 = true.
Proof.
  intros s d b s1 Hs Hu. unfold step in Hs. rewrite Hu in Hs. destruct (batches s b) as [y|] eqn:Eb; [|discriminate]. destruct (batches s d) eqn:Ed; [discriminate|].
  destruct (moved s d); [discriminate|]. injection Hs as <-. assert (N : b <> d) by congruence. unfold step. cbn [set_moved set_batch ub batches]. rewrite Hu.
  rewrite upd_other by exact N. rewrite upd_same. cbn. eauto.
Qed.
Print Assumptions C99_spent_batch.
Theorem C99_fresh_batch : forall s b a s1, (step s (ENew b a) = Some s1 \/ step s (ENewIn b a) = Some s1) -> exists s2, step s1 (EExec b) = Some s2 /\ ub s2 = true.
Proof.
  intros s b a s1 [Hs|Hs]; unfold step in Hs; destruct (ub s) eqn:Hu; try discriminate;
    (destruct (_ && _); [|discriminate]); injection Hs as <-; unfold step; cbn [set_batch ub batches]; try rewrite Hu; rewrite upd_same; cbn; eauto.
Qed.
Print Assumptions C99_fresh_batch.

(** C99: nothing is leaked: a copied argument that exists belongs to a batch that exists. *)
Theorem C99_no_leak : forall l s c,
  run_all step proper init l -> run step init l = Some s -> (forall b, batches s b = None) -> cells s c = None.
Proof.
  intros l s c HA Hr Hn. destruct (init_ok l s HA Hr) as [HI _]. destruct (cells s c) eqn:E; [|reflexivity].
  destruct (i_noleak _ HI c) as (b & y & Eb & _); [congruence|]. rewrite Hn in Eb. discriminate.
Qed.
Print Assumptions C99_no_leak.

(** Checking [proper] by computation: object and resource numbers in the examples are below 5. *)
Definition all5 (p : nat -> bool) : bool := forallb p [0;1;2;3;4].
Definition properb (s : state) (e : event) : bool :=
  match e with
  | EAssign d s_ => negb (moved s d) && negb (moved s s_) &&
      match batches s d, batches s s_ with
      | Some bd, Some bs => is_none (mbr bd) && is_none (mbr bs) && Nat.eqb (mr bd) (mr bs) | _, _ => false end
  | EPrep b _ _ _ | EPrepPlain b _ => negb (moved s b)
  | EExec b => negb (moved s b) && match batches s b with Some y => negb (match entries y with [] => true | _ => false end) | None => true end
  | EUserDrop a => all5 (fun b => match batches s b with Some y => moved s b || negb (Nat.eqb (mr y) a) | None => true end)
  | ENewIn b a => all5 (fun b' => match batches s b' with Some y => match mbr y with Some a' => negb (Nat.eqb a' a) | None => true end | None => true end)
  | _ => true
  end.
Definition small (s : state) : Prop := forall b, 5 <= b -> batches s b = None.
Definition okb (s : state) (e : event) : bool :=
  properb s e && match e with ENew b _ | ENewIn b _ | EMove b _ => b <? 5 | _ => true end.
Lemma all5_spec p b : all5 p = true -> b < 5 -> p b = true.
Proof. unfold all5. intros H Hb. rewrite forallb_forall in H. apply H. do 5 (destruct b as [|b]; [cbn; tauto|]). lia. Qed.
Lemma properb_ok s e : small s -> okb s e = true -> proper s e.
Proof.
  intros Hs H. apply andb_true_iff in H. destruct H as [H _]. destruct e; cbn [proper properb] in *; auto.
  - intros b' y Eb Em. destruct (Nat.lt_ge_cases b' 5) as [Hl|Hl]; [|rewrite (Hs _ Hl) in Eb; discriminate].
    pose proof (all5_spec _ b' H Hl) as H1. cbn in H1. rewrite Eb, Em in H1. cbn in H1. apply negb_true_iff in H1. now apply Nat.eqb_neq.
  - intros b' y Eb. destruct (Nat.lt_ge_cases b' 5) as [Hl|Hl]; [|rewrite (Hs _ Hl) in Eb; discriminate].
    pose proof (all5_spec _ b' H Hl) as H1. cbn in H1. rewrite Eb in H1. destruct (mbr y); [|discriminate].
    apply negb_true_iff in H1. apply Nat.eqb_neq in H1. congruence.
  - now apply negb_true_iff.
  - now apply negb_true_iff.
  - apply andb_true_iff in H. destruct H as [H H3]. apply andb_true_iff in H. destruct H as [H1 H2].
    apply negb_true_iff in H1, H2. split; [auto|]. split; [auto|]. intros bd bs E1 E2. rewrite E1, E2 in H3.
    apply andb_true_iff in H3. destruct H3 as [H3 H4]. apply andb_true_iff in H3. destruct H3 as [H3 H5].
    split; [now apply is_none_true|]. split; [now apply is_none_true|]. now apply Nat.eqb_eq.
  - apply andb_true_iff in H. destruct H as [H1 H2]. apply negb_true_iff in H1. split; [auto|].
    intros y E. rewrite E in H2. destruct (entries y); [discriminate|easy].
Qed.
Lemma kill_cells_batches l : forall s, batches (kill_cells s l) = batches s.
Proof.
  induction l as [|c l IH]; intros s; [reflexivity|]. cbn. unfold kill_cells in IH. rewrite IH. unfold kill_cell.
  destruct (cells s c); [destruct (_ && _)|]; reflexivity.
Qed.
Lemma taint_batches l : forall s, batches (fold_left taint l s) = batches s.
Proof. induction l as [|c l IH]; intros s; [reflexivity|]. cbn. rewrite IH. unfold taint. destruct (cells s c); reflexivity. Qed.
Lemma drop_own_batches s o : batches (drop_own s o) = batches s.
Proof. destruct o; reflexivity. Qed.
Lemma small_step s e s' : small s -> okb s e = true -> step s e = Some s' -> small s'.
Proof.
  intros Hs H E. apply andb_true_iff in H. destruct H as [_ H]. unfold step in E. destruct (ub s); [discriminate|]. intros b Hb.
  destruct e; try (apply Nat.ltb_lt in H).
  - apply bt_inv in E. destruct E as [_ <-]. now apply Hs.
  - apply bt_inv in E. destruct E as [_ <-]. now apply Hs.
  - apply bt_inv in E. destruct E as [_ <-]. cbn. rewrite upd_other by lia. now apply Hs.
  - apply bt_inv in E. destruct E as [_ <-]. cbn. rewrite upd_other by lia. now apply Hs.
  - destruct (batches s b0) eqn:Eb; [|discriminate]. destruct (is_none _); [|discriminate].
    destruct (_ && _) in E; inversion E; subst; cbn; [|now apply Hs]. rewrite upd_other; [now apply Hs|]. intros ->. rewrite (Hs _ Hb) in Eb. discriminate.
  - destruct (batches s b0) eqn:Eb; [|discriminate].
    destruct (alive _ _) in E; inversion E; subst; cbn; [|now apply Hs]. rewrite upd_other; [now apply Hs|]. intros ->. rewrite (Hs _ Hb) in Eb. discriminate.
  - destruct (batches s s0) eqn:Eb; [|discriminate]. destruct (batches s d); [discriminate|]. destruct (moved s d); [discriminate|].
    inversion E; subst; cbn. rewrite upd_other by lia. rewrite upd_other; [now apply Hs|]. intros ->. rewrite (Hs _ Hb) in Eb. discriminate.
  - destruct (batches s d) as [bd|] eqn:Ed; [|discriminate]. destruct (batches s s0) as [bs|] eqn:Eb; [|discriminate].
    destruct (Nat.eqb d s0); [discriminate|]. inversion E; subst. unfold assign.
    destruct (_ && _); cbn; [|rewrite drop_own_batches; now apply Hs].
    assert (b <> d /\ b <> s0) as [? ?] by (split; intros ->; rewrite (Hs _ Hb) in *; discriminate).
    rewrite upd_other by auto. rewrite upd_other by auto.
    destruct (Nat.eqb _ _); rewrite ?taint_batches, kill_cells_batches, drop_own_batches; now apply Hs.
  - destruct (batches s b0) as [y|] eqn:Eb; [|discriminate]. inversion E; subst. cbn.
    assert (b <> b0) by (intros ->; rewrite (Hs _ Hb) in Eb; discriminate). rewrite upd_other by auto. rewrite drop_own_batches.
    destruct (entries y); [|destruct (alive _ _); cbn]; rewrite kill_cells_batches; now apply Hs.
  - destruct (batches s b0) as [y|]; [|discriminate]. destruct (_ && _) in E; inversion E; subst; cbn; now apply Hs.
Qed.
Lemma check_proper l : run_allb step okb init l = true -> run_all step proper init l.
Proof.
  apply (run_allb_inv_ok step small okb proper); [intros; now apply properb_ok| |easy]. intros; eapply small_step; eauto.
Qed.

(** A history with two own-resource batches, one of them moved twice, and two sharing a user resource, one assigned to the other. *)
Definition demo := [ENew 0 0; EPrep 0 0 10 100; EPrepPlain 0 11; EMove 1 0; EKill 0; EPrep 1 1 12 101; EMove 2 1;
                    EUser 1; ENewIn 3 1; ENewIn 4 1; EPrep 3 2 13 102; EPrep 4 3 14 103; EAssign 3 4; EKill 4].
Example C99_case : run_all step proper init (demo ++ [EExec 2]) /\ run_all step proper init (demo ++ [EExec 3]) /\
  asked demo 2 = [(10, Some 100); (11, None); (12, Some 101)] /\ asked demo 3 = [(14, Some 103)] /\
  (exists s, run step init demo = Some s /\ reads s 2 = asked demo 2 /\ reads s 3 = asked demo 3).
Proof.
  split; [apply check_proper; vm_compute; reflexivity|]. split; [apply check_proper; vm_compute; reflexivity|].
  split; [reflexivity|]. split; [reflexivity|]. eexists. split; [vm_compute; reflexivity|]. split; vm_compute; reflexivity.
Qed.
Example C99_no_leak_case : exists s, run step init (demo ++ [EKill 1; EKill 2; EKill 3]) = Some s /\
  run_all step proper init (demo ++ [EKill 1; EKill 2; EKill 3]) /\ batches s 2 = None /\ batches s 3 = None.
Proof.
  eexists. split; [vm_compute; reflexivity|]. split; [apply check_proper; vm_compute; reflexivity|]. split; reflexivity.
Qed.

(** C100 (a batch can be move-assigned) is false: assigning to a batch that was default-constructed and not moved from, in any
    properly reached state and whatever the source, first destroys the resource the target's containers still refer to. *)
Theorem C100_assign_to_own_resource_refuted : forall l s d b bd bs a,
  run_all step proper init l -> run step init l = Some s ->
  batches s d = Some bd -> mbr bd = Some a -> batches s b = Some bs -> d <> b ->
  exists s', step s (EAssign d b) = Some s' /\ ub s' = true.
Proof.
  intros l s d b bd bs a HA Hr Ed Hm Eb Hne. destruct (init_ok l s HA Hr) as [HI _].
  unfold step. rewrite (i_ub _ HI), Ed, Eb. destruct (Nat.eqb_spec d b); [congruence|]. eexists. split; [reflexivity|].
  destruct (moved s d) eqn:Em. { destruct (i_moved _ HI _ _ Ed Em) as (E & _). congruence. }
  destruct (i_good _ HI _ _ Ed Em) as [G1 G2 G3 G4 _ _ _]. unfold assign. rewrite Hm. cbn [drop_own].
  assert (alive (drop_res s a) (ralloc bd) = false) as ->; [|reflexivity].
  unfold alive, drop_res. cbn. rewrite G2, <- (G4 _ Hm), upd_same. reflexivity.
Qed.
Print Assumptions C100_assign_to_own_resource_refuted.
Example C100_case : exists s bd bs, run step init [ENew 0 0; ENew 1 1; EPrep 1 0 5 6] = Some s /\
  run_all step proper init [ENew 0 0; ENew 1 1; EPrep 1 0 5 6] /\ batches s 0 = Some bd /\ mbr bd = Some 0 /\ batches s 1 = Some bs.
Proof.
  do 3 eexists. split; [vm_compute; reflexivity|]. split; [apply check_proper; vm_compute; reflexivity|]. now repeat split.
Qed.

(** ... and so is assigning a default-constructed batch with copied arguments to one that uses a user resource: the elements take over
    buffers that are later given back to the wrong resource. *)
Theorem C100_assign_from_own_resource_refuted : forall l s d b bd bs a c r,
  run_all step proper init l -> run step init l = Some s ->
  batches s d = Some bd -> moved s d = false -> mbr bd = None -> batches s b = Some bs -> mbr bs = Some a -> d <> b -> data bs = c :: r ->
  exists s' s'', run step s [EAssign d b] = Some s' /\ ub s' = false /\ step s' (EKill d) = Some s'' /\ ub s'' = true.
Proof.
  intros l s d b bd bs a c r HA Hr Ed Em Hm Eb Hms Hne Hdat. destruct (init_ok l s HA Hr) as [HI _].
  assert (Emb : moved s b = false).
  { destruct (moved s b) eqn:E; [|reflexivity]. destruct (i_moved _ HI _ _ Eb E) as (F & _). congruence. }
  destruct (i_good _ HI _ _ Ed Em) as [G1 G2 G3 G4 G5 G6 G7]. destruct (i_good _ HI _ _ Eb Emb) as [K1 K2 K3 K4 K5 K6 K7].
  assert (Hmr : mr bd <> mr bs). { rewrite <- (K4 _ Hms). eapply (i_own _ HI b d); eauto. }
  cbn [run]. unfold step at 1. rewrite (i_ub _ HI), Ed, Eb. destruct (Nat.eqb_spec d b); [congruence|].
  unfold assign. rewrite Hm. cbn [drop_own]. rewrite G2, G3, K2, K3, G1, K1. cbn [andb].
  destruct (Nat.eqb_spec (mr bd) (mr bs)); [congruence|].
  destruct (kill_cells_ok (data bd) s G5) as (L1 & L2 & L3 & L4 & L5 & L6).
  { intros c' Hi. destruct (G6 c' Hi) as (x & E1 & E2 & E3). exists x. rewrite E2. auto. }
  set (s1 := kill_cells s (data bd)) in *.
  assert (HT : forall dl s0, (forall c', In c' dl -> cells s0 c' <> None) ->
             ub (fold_left taint dl s0) = ub s0 /\
             (forall c', In c' dl -> exists x, cells (fold_left taint dl s0) c' = Some x /\ right_alloc x = false)).
  { induction dl as [|c0 dl IH]; intros s0 H0; cbn.
    - split; [reflexivity|]. intros ? [].
    - assert (Ht : exists x, taint s0 c0 = add_cell s0 c0 x /\ right_alloc x = false).
      { unfold taint. destruct (cells s0 c0) as [x|] eqn:E; [|exfalso; eapply H0; [now left|exact E]]. eexists. split; reflexivity. }
      destruct Ht as (x & -> & Hx). destruct (IH (add_cell s0 c0 x)) as [IH1 IH2].
      { intros c' Hi. cbn. unfold upd. destruct (Nat.eqb c' c0); [easy|]. apply H0. now right. }
      split; [rewrite IH1; reflexivity|]. intros c' [<-|Hi]; [|auto].
      destruct (in_dec Nat.eq_dec c0 dl) as [|Hn]; [auto|]. exists x. split; [|exact Hx].
      assert (HK : forall dl s0, ~ In c0 dl -> (forall c', In c' dl -> cells s0 c' <> None) -> cells (fold_left taint dl s0) c0 = cells s0 c0).
      { clear. induction dl as [|c1 dl IH]; intros s0 H H0; [reflexivity|]. cbn. rewrite IH.
        - unfold taint. destruct (cells s0 c1) eqn:E; [|reflexivity]. cbn. rewrite upd_other; [reflexivity|]. intros ->. apply H. now left.
        - intros Hi. apply H. now right.
        - intros c' Hi. unfold taint. destruct (cells s0 c1) eqn:E; [|exfalso; eapply H0; [now left|exact E]].
          cbn. unfold upd. destruct (Nat.eqb c' c1); [easy|]. apply H0. now right. }
      rewrite HK; [cbn; apply upd_same|exact Hn|]. intros c' Hi. cbn. unfold upd. destruct (Nat.eqb c' c0); [easy|]. apply H0. now right. }
  assert (HC1 : forall c', In c' (data bs) -> cells s1 c' <> None).
  { intros c' Hi. rewrite L6; [|eapply (i_disj _ HI b d); eauto]. destruct (K6 c' Hi) as (x & E & _). congruence. }
  destruct (HT (data bs) s1 HC1) as [T1 T2]. set (s2 := fold_left taint (data bs) s1) in *.
  eexists. eexists. split; [reflexivity|]. split; [cbn; rewrite T1, L1; apply HI|].
  unfold step. cbn [ub set_moved set_batch]. rewrite T1, L1, (i_ub _ HI). cbn [batches set_moved set_batch]. rewrite upd_same. split; [reflexivity|].
  cbn [mbr data entries ralloc].
  assert (HU : forall s0, ub s0 = true -> forall dl, ub (kill_cells s0 dl) = true).
  { intros s0 H0 dl. revert s0 H0. induction dl as [|c0 dl IH]; intros s0 H0; [exact H0|]. cbn. apply IH. unfold kill_cell.
    destruct (cells s0 c0); [destruct (_ && _)|]; cbn; auto. }
  assert (HU2 : forall s0 o, ub s0 = true -> ub (drop_own s0 o) = true) by (intros s0 [o|] H0; auto).
  match goal with |- context [kill_cells ?S0 (data bs)] => set (s3 := S0) in *; assert (HK : ub (kill_cells s3 (data bs)) = true) end.
  { rewrite Hdat. cbn. apply HU. unfold kill_cell. destruct (T2 c) as (x & E & Hx); [rewrite Hdat; now left|].
    change (cells s3 c) with (cells s2 c). rewrite E, Hx, andb_false_r. reflexivity. }
  cbn [ub set_batch]. apply HU2. destruct (entries bs); [exact HK|].
  destruct (alive (kill_cells s3 (data bs)) (mr bd)); [exact HK|reflexivity].
Qed.
Print Assumptions C100_assign_from_own_resource_refuted.
Example C100_from_case : exists s bd bs, run step init [EUser 1; ENewIn 0 1; ENew 1 0; EPrep 1 0 5 6] = Some s /\
  run_all step proper init [EUser 1; ENewIn 0 1; ENew 1 0; EPrep 1 0 5 6] /\
  batches s 0 = Some bd /\ moved s 0 = false /\ mbr bd = None /\ batches s 1 = Some bs /\ mbr bs = Some 0 /\ data bs = [0].
Proof.
  do 3 eexists. split; [vm_compute; reflexivity|]. split; [apply check_proper; vm_compute; reflexivity|]. now repeat split.
Qed.

(** What remains of C100: two batches made from the same user resource. After the assignment the target executes what the source was
    asked for. (The general statement for histories containing such assignments is C99.) *)
Theorem C100_same_user_resource_partial : forall l d b s s',
  run_all step proper init l -> run step init l = Some s -> proper s (EAssign d b) -> step s (EAssign d b) = Some s' ->
  ub s' = false /\ reads s' d = asked l b /\ reads s' b = [].
Proof.
  intros l d b s s' HA Hr Hp Hs. destruct (init_ok l s HA Hr) as [HI HR].
  assert (Hne : d <> b /\ batches s d <> None /\ batches s b <> None).
  { unfold step in Hs. rewrite (i_ub _ HI) in Hs. destruct (batches s d); [|discriminate]. destruct (batches s b); [|discriminate].
    destruct (Nat.eqb_spec d b); [discriminate|easy]. }
  destruct Hne as (Hne & Hd & Hb).
  destruct (step_ok _ _ _ _ HI HR Hp Hs) as [HI' HR']. split; [exact (i_ub _ HI')|].
  assert (HX : forall x, batches s' x <> None -> reads s' x = ask (asked l) (EAssign d b) x).
  { intros x Hx. destruct (batches s' x) as [y|] eqn:E; [|congruence]. unfold reads. rewrite E. exact (HR' _ _ E). }
  cbn [ask] in HX.
  assert (HY : batches s' d <> None /\ batches s' b <> None).
  { unfold step in Hs. rewrite (i_ub _ HI) in Hs. destruct (batches s d) as [bd|]; [|discriminate]. destruct (batches s b) as [bs|]; [|discriminate].
    destruct (Nat.eqb_spec d b); [discriminate|]. inversion Hs; subst. unfold assign in *. destruct (_ && _).
    - cbn. rewrite upd_same. rewrite upd_other by auto. rewrite upd_same. easy.
    - pose proof (i_ub _ HI') as U. discriminate. }
  destruct HY as [HY1 HY2]. rewrite (HX d HY1), (HX b HY2). rewrite upd_same. rewrite upd_other by auto. rewrite upd_same. auto.
Qed.
Print Assumptions C100_same_user_resource_partial.
