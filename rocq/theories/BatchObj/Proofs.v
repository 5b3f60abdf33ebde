From Coq Require Import List Arith Bool Lia.
From Verif.Common Require Import TS.
From Verif.BatchObj Require Import Model Spec.
Import ListNotations.

Definition good_cell (s : state) (a c : nat) : Prop :=
  exists x, cells s c = Some x /\ where_ x = a /\ right_alloc x = true.
Record good (s : state) (y : batch) : Prop := Good {
  g_alive : alive s (mr y) = true;
  g_r : ralloc y = mr y;
  g_d : dalloc y = mr y;
  g_own : forall a, mbr y = Some a -> a = mr y;
  g_nodup : NoDup (data y);
  g_cells : forall c, In c (data y) -> good_cell s (mr y) c;
  g_ent : forall o c, In (o, Some c) (entries y) -> In c (data y)
}.
Definition hollow (y : batch) : Prop := mbr y = None /\ entries y = [] /\ data y = [].
Record Inv (s : state) : Prop := MkInv {
  i_ub : ub s = false;
  i_good : forall b y, batches s b = Some y -> moved s b = false -> good s y;
  i_moved : forall b y, batches s b = Some y -> moved s b = true -> hollow y;
  i_disj : forall b b' y y' c, batches s b = Some y -> batches s b' = Some y' -> b <> b' -> In c (data y) -> ~ In c (data y');
  i_own : forall b b' y y' a, batches s b = Some y -> batches s b' = Some y' -> b <> b' -> mbr y = Some a ->
            moved s b' = false -> mr y' <> a;
  i_res : forall b y a, batches s b = Some y -> mbr y = Some a -> res s a <> None;
  i_noleak : forall c, cells s c <> None -> exists b y, batches s b = Some y /\ In c (data y)
}.

Lemma inv_init : Inv init.
Proof. constructor; cbn; try easy. Qed.

Lemma alive_res s a : alive s a = true -> res s a = Some true.
Proof. unfold alive. destruct (res s a) as [[|]|]; easy. Qed.

(** killing the cells of one batch *)
Lemma kill_cells_ok l : forall s,
  NoDup l -> (forall c, In c l -> exists x, cells s c = Some x /\ alive s (where_ x) = true /\ right_alloc x = true) ->
  let s' := kill_cells s l in
  ub s' = ub s /\ res s' = res s /\ batches s' = batches s /\ moved s' = moved s /\
  (forall c, In c l -> cells s' c = None) /\ (forall c, ~ In c l -> cells s' c = cells s c).
Proof.
  induction l as [|c l IH]; intros s Hn Hc; cbn.
  - repeat split; auto. intros ? [].
  - inversion Hn as [|? ? Hni Hn']; subst. destruct (Hc c (or_introl eq_refl)) as (x & E1 & E2 & E3).
    assert (Ek : kill_cell s c = St (res s) (upd (cells s) c None) (batches s) (moved s) (ub s)).
    { unfold kill_cell. now rewrite E1, E2, E3. }
    rewrite Ek. destruct (IH (St (res s) (upd (cells s) c None) (batches s) (moved s) (ub s)) Hn') as (H1 & H2 & H3 & H4 & H5 & H6).
    { intros d Hd. assert (d <> c) by (intros ->; auto). cbn. rewrite upd_other by auto. exact (Hc d (or_intror Hd)). }
    unfold kill_cells in *. rewrite H1, H2, H3, H4. repeat split; auto.
    + intros d [<-|Hd]; [|auto]. destruct (in_dec Nat.eq_dec c l); [auto|]. rewrite H6 by auto. cbn. now rewrite upd_same.
    + intros d Hd. rewrite H6 by auto. cbn. rewrite upd_other; auto.
Qed.

Lemma good_same s s' y : res s' = res s -> (forall c, In c (data y) -> cells s' c = cells s c) -> good s y -> good s' y.
Proof.
  intros Hr Hc [H1 H2 H3 H4 H5 H6 H7]. constructor; auto.
  - unfold alive in *. now rewrite Hr.
  - intros c Hi. unfold good_cell. rewrite Hc by auto. now apply H6.
Qed.

Lemma good_mono s s' y :
  (alive s (mr y) = true -> alive s' (mr y) = true) -> (forall c, In c (data y) -> cells s' c = cells s c) -> good s y -> good s' y.
Proof.
  intros Hr Hc [H1 H2 H3 H4 H5 H6 H7]. constructor; auto.
  intros c Hi. unfold good_cell. rewrite Hc by auto. now apply H6.
Qed.

Definition content_of (s : state) (o : option nat) : option nat :=
  match o with Some c => match cells s c with Some x => Some (content x) | None => None end | None => None end.
Definition read_entries (s : state) (l : list (nat * option nat)) := map (fun e => (fst e, content_of s (snd e))) l.
Lemma reads_entries s b y : batches s b = Some y -> reads s b = read_entries s (entries y).
Proof. intros H. unfold reads. now rewrite H. Qed.
Lemma read_entries_same s s' l : (forall o c, In (o, Some c) l -> cells s' c = cells s c) -> read_entries s' l = read_entries s l.
Proof.
  intros H. unfold read_entries. apply map_ext_in. intros [o [c|]] Hi; cbn; [|reflexivity]. now rewrite (H o c Hi).
Qed.

Definition Rel (s : state) (a : nat -> list (nat * option nat)) : Prop :=
  forall b y, batches s b = Some y -> read_entries s (entries y) = a b.

Lemma hollow_ent y o c : hollow y -> In (o, Some c) (entries y) -> False.
Proof. intros (_ & E & _). rewrite E. intros []. Qed.
Lemma ent_data s b y o c : Inv s -> batches s b = Some y -> In (o, Some c) (entries y) -> In c (data y).
Proof.
  intros I Hb Hi. destruct (moved s b) eqn:Em.
  - exfalso. eapply hollow_ent; [eapply i_moved|]; eauto.
  - exact (g_ent _ _ (i_good _ I _ _ Hb Em) _ _ Hi).
Qed.
Lemma data_cell s b y c : Inv s -> batches s b = Some y -> In c (data y) -> good_cell s (mr y) c.
Proof.
  intros I Hb Hi. destruct (moved s b) eqn:Em.
  - destruct (i_moved _ I _ _ Hb Em) as (_ & _ & E). rewrite E in Hi. destruct Hi.
  - exact (g_cells _ _ (i_good _ I _ _ Hb Em) _ Hi).
Qed.

Ltac dupd := repeat match goal with
  | H : context [upd _ ?i _ ?j] |- _ => unfold upd in H at 1; destruct (Nat.eqb_spec j i)
  | |- context [upd _ ?i _ ?j] => unfold upd at 1; destruct (Nat.eqb_spec j i)
  end.

Ltac somes := repeat (cbn [mbr mr ralloc dalloc entries data] in *; match goal with E : Some _ = Some _ |- _ => inversion E; subst; clear E end);
  cbn [mbr mr ralloc dalloc entries data] in *.
Ltac inapp := repeat match goal with
  | H : In _ (_ ++ _) |- _ => apply in_app_iff in H; destruct H as [H|H]
  | H : In _ [_] |- _ => destruct H as [H|[]]; subst
  end.
Ltac dj HI := match goal with
  | E1 : batches ?s ?b1 = Some ?y1, E2 : batches ?s ?b2 = Some ?y2, H1 : In ?c (data ?y1), H2 : In ?c (data ?y2) |- _ =>
      exfalso; solve [eapply (i_disj _ HI b1 b2 y1 y2 c E1 E2); [congruence|exact H1|exact H2]]
  end.
Ltac ow HI := match goal with
  | E1 : batches ?s ?b1 = Some ?y1, E2 : batches ?s ?b2 = Some ?y2, H1 : mbr ?y1 = Some ?z |- mr ?y2 <> ?z =>
      solve [eapply (i_own _ HI b1 b2 y1 y2 z E1 E2); [congruence|exact H1|congruence]]
  end.
Ltac rs HI := match goal with
  | E1 : batches ?s ?b1 = Some ?y1, H1 : mbr ?y1 = Some ?z |- _ => solve [eapply (i_res _ HI b1 y1 z E1 H1)]
  end.

Lemma bt_inv (p : bool) (A : Type) (x y : A) : (if p then Some x else None) = Some y -> p = true /\ x = y.
Proof. destruct p; [intros E; inversion E; auto|discriminate]. Qed.
Lemma is_none_true {A} (o : option A) : is_none o = true -> o = None.
Proof. destruct o; easy. Qed.

Section Step.
  Variables (s : state) (a : nat -> list (nat * option nat)).
  Hypothesis (HI : Inv s) (HR : Rel s a).

  Lemma st_user x s' : step s (EUser x) = Some s' -> Inv s' /\ Rel s' (ask a (EUser x)).
  Proof.
    unfold step. rewrite (i_ub _ HI). intros H. apply bt_inv in H. destruct H as [H1 <-]. apply is_none_true in H1.
    split; [|exact HR]. constructor; cbn; try (apply HI); try reflexivity.
    - intros b y Hb Hm. apply (good_mono s); cbn; auto; [|now apply (i_good _ HI b)].
      unfold alive; cbn. dupd; [now subst; rewrite H1|auto].
    - intros b y z Hb Hz. dupd; [easy|]. eapply i_res; eauto.
  Qed.

  Lemma st_drop x s' : proper s (EUserDrop x) -> step s (EUserDrop x) = Some s' -> Inv s' /\ Rel s' (ask a (EUserDrop x)).
  Proof.
    unfold step, proper. rewrite (i_ub _ HI). intros Hp H. apply bt_inv in H. destruct H as [H1 <-].
    assert (Hc : forall b y c, batches s b = Some y -> In c (data y) -> cells (drop_res s x) c = cells s c).
    { intros b y c Hb Hi. destruct (data_cell _ _ _ _ HI Hb Hi) as (z & E1 & E2 & E3). cbn. rewrite E1.
      destruct (Nat.eqb_spec (where_ z) x); [|reflexivity]. exfalso. destruct (moved s b) eqn:Em.
      - destruct (i_moved _ HI _ _ Hb Em) as (_ & _ & E). rewrite E in Hi. destruct Hi.
      - apply (Hp b y Hb Em). congruence. }
    split.
    - constructor; cbn; try (apply HI).
      + intros b y Hb Hm. apply (good_mono s); auto; [|eauto|now apply (i_good _ HI b)].
        unfold alive; cbn. dupd; [exfalso; eapply Hp; eauto|auto].
      + intros b y z Hb Hz. dupd; [easy|]. eapply i_res; eauto.
      + intros c Hn. apply (i_noleak _ HI). destruct (cells s c); [easy|congruence].
    - intros b y Hb. cbn [ask]. rewrite <- (HR _ _ Hb). apply read_entries_same. intros o c Hi. eapply Hc; eauto. eapply ent_data; eauto.
  Qed.

  Lemma st_new b x s' : step s (ENew b x) = Some s' -> Inv s' /\ Rel s' (ask a (ENew b x)).
  Proof.
    unfold step. rewrite (i_ub _ HI). intros H. apply bt_inv in H. destruct H as [H1 <-].
    apply andb_true_iff in H1. destruct H1 as [H1 H3]. apply andb_true_iff in H1. destruct H1 as [H1 H2].
    apply is_none_true in H1, H2. apply negb_true_iff in H3.
    assert (Ha : forall z, alive s z = true -> z <> x). { intros z Hz ->. unfold alive in Hz. now rewrite H2 in Hz. }
    split.
    - constructor; cbn; try reflexivity.
      + intros b' y Hb Hm. dupd.
        * inversion Hb; subst. constructor; cbn; auto; try easy; [|intros ? ?; congruence|constructor].
          unfold alive; cbn. now rewrite upd_same.
        * apply (good_mono s); auto; [|now apply (i_good _ HI b')]. intros Hz. unfold alive; cbn. rewrite upd_other; auto.
      + intros b' y Hb Hm. dupd; [congruence|]. eapply i_moved; eauto.
      + intros b1 b2 y1 y2 c E1 E2 Hne Hi1 Hi2. dupd; subst; try congruence; somes; inapp; try tauto; try dj HI; try solve [eapply Hf; eauto].
      + intros b1 b2 y1 y2 z E1 E2 Hne Hz Hm. dupd; subst; try congruence; somes; try congruence; try ow HI;
          try solve [apply Ha; eapply g_alive; eapply (i_good _ HI); eauto]; try solve [intros ->; eapply (i_res _ HI); eauto].
      + intros b1 y1 z E1 Hz. dupd; subst; try easy; somes; try congruence; try rs HI.
      + intros c Hn. destruct (i_noleak _ HI c Hn) as (b1 & y1 & E1 & Hi). exists b1, y1. split; [|auto]. rewrite upd_other; congruence.
    - intros b' y Hb. cbn [batches ask set_batch] in Hb |- *. unfold upd in Hb |- *. destruct (Nat.eqb_spec b' b); [now inversion Hb|]. rewrite <- (HR _ _ Hb). now apply read_entries_same.
  Qed.

  Lemma st_newin b x s' : proper s (ENewIn b x) -> step s (ENewIn b x) = Some s' -> Inv s' /\ Rel s' (ask a (ENewIn b x)).
  Proof.
    unfold step, proper. rewrite (i_ub _ HI). intros Hp H. apply bt_inv in H. destruct H as [H1 <-].
    apply andb_true_iff in H1. destruct H1 as [H1 H3]. apply andb_true_iff in H1. destruct H1 as [H1 H2].
    apply is_none_true in H1. apply negb_true_iff in H3.
    split.
    - constructor; cbn; try apply HI.
      + intros b' y Hb Hm. dupd.
        * inversion Hb; subst. constructor; cbn; auto; try easy; constructor.
        * apply (good_mono s); auto. now apply (i_good _ HI b').
      + intros b' y Hb Hm. dupd; [congruence|]. eapply i_moved; eauto.
      + intros b1 b2 y1 y2 c E1 E2 Hne Hi1 Hi2. dupd; subst; try congruence; somes; inapp; try tauto; try dj HI; try solve [eapply Hf; eauto].
      + intros b1 b2 y1 y2 z E1 E2 Hne Hz Hm. dupd; subst; try congruence; somes; try congruence; try ow HI; try solve [intros ->; eapply Hp; eauto].
      + intros b1 y1 z E1 Hz. dupd; subst; try easy; somes; try congruence; try rs HI.
      + intros c Hn. destruct (i_noleak _ HI c Hn) as (b1 & y1 & E1 & Hi). exists b1, y1. split; [|auto]. rewrite upd_other; congruence.
    - intros b' y Hb. cbn [batches ask set_batch] in Hb |- *. unfold upd in Hb |- *. destruct (Nat.eqb_spec b' b); [now inversion Hb|]. rewrite <- (HR _ _ Hb). now apply read_entries_same.
  Qed.

  Lemma st_prep b c op x s' : proper s (EPrep b c op x) -> step s (EPrep b c op x) = Some s' -> Inv s' /\ Rel s' (ask a (EPrep b c op x)).
  Proof.
    unfold step, proper. rewrite (i_ub _ HI). intros Hp H. destruct (batches s b) as [y|] eqn:Eb; [|discriminate].
    destruct (is_none (cells s c)) eqn:Ec; [|discriminate]. apply is_none_true in Ec.
    pose proof (i_good _ HI _ _ Eb Hp) as G. destruct G as [G1 G2 G3 G4 G5 G6 G7]. rewrite G2, G3, G1 in H. cbn in H.
    inversion H; subst s'; clear H.
    assert (Hf : forall b' y', batches s b' = Some y' -> ~ In c (data y')).
    { intros b' y' E1 Hi. destruct (data_cell _ _ _ _ HI E1 Hi) as (z & E2 & _). congruence. }
    assert (Hc : forall b' y' c', batches s b' = Some y' -> In c' (data y') -> upd (cells s) c (Some (Cell (mr y) x true)) c' = cells s c').
    { intros b' y' c' E1 Hi. rewrite upd_other; [auto|]. intros ->. eapply Hf; eauto. }
    split.
    - constructor; cbn; try apply HI.
      + intros b' y' E1 Hm. dupd.
        * inversion E1; subst. constructor; cbn; auto.
          -- apply NoDup_snoc; eauto.
          -- intros c' Hi. apply in_app_iff in Hi. destruct Hi as [Hi|[<-|[]]].
             ++ unfold good_cell. cbn. rewrite (Hc b y c') by auto. now apply G6.
             ++ exists (Cell (mr y) x true). cbn. rewrite upd_same. auto.
          -- intros o c' Hi. apply in_app_iff. apply in_app_iff in Hi. destruct Hi as [Hi|[E2|[]]]; [left; eauto|].
             inversion E2; subst. right; now left.
        * apply (good_mono s); auto; [|now apply (i_good _ HI b')]. intros c' Hi. cbn. eapply Hc; eauto.
      + intros b' y' E1 Hm. dupd; [congruence|]. eapply i_moved; eauto.
      + intros b1 b2 y1 y2 c' E1 E2 Hne Hi1 Hi2. dupd; subst; try congruence; somes; inapp; try tauto; try dj HI; try solve [eapply Hf; eauto].
      + intros b1 b2 y1 y2 z E1 E2 Hne Hz Hm. dupd; subst; try congruence; somes; try congruence; try ow HI.
      + intros b1 y1 z E1 Hz. dupd; subst; try easy; somes; try congruence; try rs HI.
      + intros c' Hn. destruct (Nat.eq_dec c' c) as [->|Hne].
        * exists b, (B (mbr y) (mr y) (mr y) (mr y) (entries y ++ [(op, Some c)]) (data y ++ [c])). rewrite upd_same. split; [auto|].
          cbn. apply in_app_iff. right; now left.
        * rewrite upd_other in Hn by auto. destruct (i_noleak _ HI c' Hn) as (b1 & y1 & E1 & Hi). destruct (Nat.eq_dec b1 b) as [->|].
          -- exists b. eexists. rewrite upd_same. split; [reflexivity|]. cbn. apply in_app_iff. left. congruence.
          -- exists b1, y1. rewrite upd_other by auto. auto.
    - intros b' y' E1. cbn in *. unfold upd in E1 |- *. destruct (Nat.eqb_spec b' b).
      + inversion E1; subst. cbn. unfold read_entries. rewrite map_app. f_equal.
        * rewrite <- (HR _ _ Eb). apply read_entries_same. intros o c' Hi. cbn. eapply Hc; eauto.
        * cbn. now rewrite upd_same.
      + rewrite <- (HR _ _ E1). apply read_entries_same. intros o c' Hi. cbn. eapply Hc; eauto. eapply ent_data; eauto.
  Qed.

  Lemma st_plain b op s' : proper s (EPrepPlain b op) -> step s (EPrepPlain b op) = Some s' -> Inv s' /\ Rel s' (ask a (EPrepPlain b op)).
  Proof.
    unfold step, proper. rewrite (i_ub _ HI). intros Hp H. destruct (batches s b) as [y|] eqn:Eb; [|discriminate].
    pose proof (i_good _ HI _ _ Eb Hp) as G. destruct G as [G1 G2 G3 G4 G5 G6 G7]. rewrite G2, G1 in H.
    inversion H; subst s'; clear H.
    split.
    - constructor; cbn; try apply HI.
      + intros b' y' E1 Hm. dupd.
        * inversion E1; subst. constructor; cbn; auto.
          intros o c' Hi. apply in_app_iff in Hi. destruct Hi as [Hi|[E2|[]]]; [eauto|discriminate].
        * apply (good_mono s); auto. now apply (i_good _ HI b').
      + intros b' y' E1 Hm. dupd; [congruence|]. eapply i_moved; eauto.
      + intros b1 b2 y1 y2 c' E1 E2 Hne Hi1 Hi2. dupd; subst; try congruence; somes; inapp; try tauto; try dj HI; try solve [eapply Hf; eauto].
      + intros b1 b2 y1 y2 z E1 E2 Hne Hz Hm. dupd; subst; try congruence; somes; try congruence; try ow HI.
      + intros b1 y1 z E1 Hz. dupd; subst; try easy; somes; try congruence; try rs HI.
      + intros c' Hn. destruct (i_noleak _ HI c' Hn) as (b1 & y1 & E1 & Hi). destruct (Nat.eq_dec b1 b) as [->|].
        * exists b. eexists. rewrite upd_same. split; [reflexivity|]. cbn. congruence.
        * exists b1, y1. rewrite upd_other by auto. auto.
    - intros b' y' E1. cbn in *. unfold upd in E1 |- *. destruct (Nat.eqb_spec b' b).
      + inversion E1; subst. cbn. unfold read_entries. rewrite map_app. f_equal. now rewrite <- (HR _ _ Eb).
      + rewrite <- (HR _ _ E1). now apply read_entries_same.
  Qed.

  Lemma st_move d b s' : step s (EMove d b) = Some s' -> Inv s' /\ Rel s' (ask a (EMove d b)).
  Proof.
    unfold step. rewrite (i_ub _ HI). intros H. destruct (batches s b) as [y|] eqn:Eb; [|discriminate].
    destruct (batches s d) eqn:Ed; [discriminate|]. destruct (moved s d) eqn:Em; [discriminate|]. inversion H; subst s'; clear H.
    assert (Hne : d <> b) by congruence.
    split.
    - constructor; cbn; try apply HI.
      + intros b' y' E1 Hm. dupd; subst; try congruence.
        * inversion E1; subst. apply (good_mono s); auto. now apply (i_good _ HI b).
        * apply (good_mono s); auto. now apply (i_good _ HI b').
      + intros b' y' E1 Hm. dupd; subst; try congruence.
        * inversion E1; subst. now repeat split.
        * inversion E1; subst. eapply i_moved; eauto.
        * eapply i_moved; eauto.
      + intros b1 b2 y1 y2 c' E1 E2 Hn Hi1 Hi2. dupd; subst; try congruence; somes; inapp; try tauto; try dj HI; try solve [eapply Hf; eauto].
      + intros b1 b2 y1 y2 z E1 E2 Hn Hz Hm. dupd; subst; try congruence; somes; try congruence; try ow HI.
      + intros b1 y1 z E1 Hz. dupd; subst; try easy; somes; try congruence; try rs HI.
      + intros c' Hn. destruct (i_noleak _ HI c' Hn) as (b1 & y1 & E1 & Hi). destruct (Nat.eq_dec b1 b) as [->|].
        * exists d, y. rewrite upd_same. split; congruence.
        * exists b1, y1. rewrite upd_other by congruence. rewrite upd_other by auto. auto.
    - intros b' y' E1. cbn in *. unfold upd in *. destruct (Nat.eqb_spec b' d); destruct (Nat.eqb_spec b' b); subst; try congruence.
      + inversion E1; subst. rewrite <- (HR _ _ Eb). now apply read_entries_same.
      + inversion E1; subst. reflexivity.
      + rewrite <- (HR _ _ E1). now apply read_entries_same.
  Qed.

  Lemma st_assign d b s' : proper s (EAssign d b) -> step s (EAssign d b) = Some s' -> Inv s' /\ Rel s' (ask a (EAssign d b)).
  Proof.
    unfold step, proper. rewrite (i_ub _ HI). intros (Hm1 & Hm2 & Hp) H. destruct (batches s d) as [yd|] eqn:Ed; [|discriminate].
    destruct (batches s b) as [y|] eqn:Eb; [|discriminate]. destruct (Nat.eqb_spec d b) as [|Hne]; [discriminate|].
    destruct (Hp _ _ eq_refl eq_refl) as (P1 & P2 & P3). inversion H; subst s'; clear H.
    pose proof (i_good _ HI _ _ Eb Hm2) as [G1 G2 G3 G4 G5 G6 G7].
    pose proof (i_good _ HI _ _ Ed Hm1) as [K1 K2 K3 K4 K5 K6 K7].
    unfold assign. rewrite P1. cbn [drop_own]. rewrite G2, G3, K2, K3, G1, K1. cbn [andb]. rewrite P3, Nat.eqb_refl.
    destruct (kill_cells_ok (data yd) s K5) as (L1 & L2 & L3 & L4 & L5 & L6).
    { intros c Hi. destruct (K6 c Hi) as (x & E1 & E2 & E3). exists x. rewrite E2. auto. }
    set (s1 := kill_cells s (data yd)) in *.
    assert (Hc : forall b' y' c', b' <> d -> batches s b' = Some y' -> In c' (data y') -> cells s1 c' = cells s c').
    { intros b' y' c' Hn E1 Hi. apply L6. eapply (i_disj _ HI b' d); eauto. }
    split.
    - constructor; cbn; rewrite ?L1, ?L2, ?L3, ?L4; try apply HI.
      + intros b' y' E1 Hm. dupd; subst; try congruence.
        * inversion E1; subst. constructor; cbn; auto; try congruence. { unfold alive in *. cbn. now rewrite L2. }
          intros c Hi. unfold good_cell. cbn. rewrite (Hc b y c) by auto. now apply G6.
        * apply (good_mono s); auto; [| |now apply (i_good _ HI b')].
          -- unfold alive. cbn. now rewrite L2.
          -- intros c Hi. cbn. eapply Hc; eauto.
      + intros b' y' E1 Hm. dupd; subst; try congruence.
        * inversion E1; subst. now repeat split.
        * eapply i_moved; eauto.
      + intros b1 b2 y1 y2 c' E1 E2 Hn Hi1 Hi2. dupd; subst; try congruence; somes; inapp; try tauto; try dj HI; try solve [eapply Hf; eauto].
      + intros b1 b2 y1 y2 z E1 E2 Hn Hz Hm. dupd; subst; try congruence; somes; try congruence; try ow HI.
      + intros b1 y1 z E1 Hz. dupd; subst; try easy; somes; try congruence; try rs HI.
      + intros c' Hn. destruct (in_dec Nat.eq_dec c' (data yd)) as [Hi|Hi]; [rewrite (L5 c' Hi) in Hn; congruence|].
        rewrite (L6 c' Hi) in Hn. destruct (i_noleak _ HI c' Hn) as (b1 & y1 & E1 & Hi1). destruct (Nat.eq_dec b1 b) as [->|].
        * exists d. eexists. rewrite upd_same. split; [reflexivity|]. cbn. congruence.
        * exists b1, y1. rewrite upd_other by congruence. rewrite upd_other by auto. auto.
    - intros b' y' E1. cbn in *. rewrite L3 in E1. unfold upd in *. destruct (Nat.eqb_spec b' d); destruct (Nat.eqb_spec b' b); subst; try congruence.
      + inversion E1; subst. cbn. rewrite <- (HR _ _ Eb). apply read_entries_same. intros o c Hi. cbn. eapply Hc; eauto.
      + inversion E1; subst. reflexivity.
      + rewrite <- (HR _ _ E1). apply read_entries_same. intros o c Hi. cbn. eapply Hc; eauto. eapply ent_data; eauto.
  Qed.

  Lemma st_kill b s' : step s (EKill b) = Some s' -> Inv s' /\ Rel s' (ask a (EKill b)).
  Proof.
    unfold step. rewrite (i_ub _ HI). intros H. destruct (batches s b) as [y|] eqn:Eb; [|discriminate].
    assert (Hd : NoDup (data y) /\ (forall c, In c (data y) -> exists x, cells s c = Some x /\ alive s (where_ x) = true /\ right_alloc x = true) /\
                 (entries y <> [] -> alive s (ralloc y) = true)).
    { destruct (moved s b) eqn:Em.
      - destruct (i_moved _ HI _ _ Eb Em) as (E1 & E2 & E3). rewrite E2, E3. split; [constructor|]. split; [intros ? []|congruence].
      - destruct (i_good _ HI _ _ Eb Em) as [G1 G2 G3 G4 G5 G6 G7]. split; [auto|]. split; [|congruence].
        intros c Hi. destruct (G6 c Hi) as (x & E1 & E2 & E3). exists x. rewrite E2. auto. }
    destruct Hd as (D1 & D2 & D3). destruct (kill_cells_ok (data y) s D1 D2) as (L1 & L2 & L3 & L4 & L5 & L6).
    set (s1 := kill_cells s (data y)) in *.
    assert (E : match entries y with [] => s1 | _ => if alive s1 (ralloc y) then s1 else set_ub s1 end = s1).
    { destruct (entries y); [reflexivity|]. assert (alive s1 (ralloc y) = true) as ->; [|reflexivity].
      unfold alive in *. rewrite L2. apply D3. easy. }
    rewrite E in H. inversion H; subst s'; clear H E.
    assert (Hw : forall a', mbr y = Some a' -> moved s b = false /\ a' = mr y).
    { intros a' E. destruct (moved s b) eqn:Em.
      - destruct (i_moved _ HI _ _ Eb Em) as (E1 & _). congruence.
      - split; [reflexivity|]. exact (g_own _ _ (i_good _ HI _ _ Eb Em) _ E). }
    set (s2 := drop_own s1 (mbr y)).
    assert (Hs2 : ub s2 = ub s1 /\ batches s2 = batches s1 /\ moved s2 = moved s1). { unfold s2. destruct (mbr y); cbn; auto. }
    destruct Hs2 as (M1 & M2 & M3).
    assert (Hal : forall b' y', b' <> b -> batches s b' = Some y' -> moved s b' = false -> alive s2 (mr y') = alive s (mr y')).
    { intros b' y' Hn E1 Em. unfold s2, drop_own. destruct (mbr y) as [a'|] eqn:E2; unfold alive; cbn; rewrite L2; [|reflexivity].
      rewrite upd_other; [reflexivity|]. eapply (i_own _ HI b b'); eauto. }
    assert (Hce : forall b' y' c', b' <> b -> batches s b' = Some y' -> In c' (data y') -> cells s2 c' = cells s c').
    { intros b' y' c' Hn E1 Hi. assert (cells s1 c' = cells s c') as E3.
      { apply L6. eapply (i_disj _ HI b' b); eauto. }
      unfold s2, drop_own. destruct (mbr y) as [a'|] eqn:E2; [|exact E3]. cbn. rewrite E3.
      destruct (data_cell _ _ _ _ HI E1 Hi) as (x & F1 & F2 & F3). rewrite F1. rewrite F2. destruct (Nat.eqb_spec (mr y') a'); [|reflexivity].
      exfalso. destruct (moved s b') eqn:Em'. { destruct (i_moved _ HI _ _ E1 Em') as (_ & _ & F). rewrite F in Hi. destruct Hi. }
      eapply (i_own _ HI b b'); eauto. }
    split.
    - constructor; cbn; rewrite ?M1, ?M2, ?M3, ?L1, ?L3, ?L4; try apply HI.
      + intros b' y' E1 Hm. dupd; subst; [discriminate|].
        apply (good_mono s); [|intros c Hi; cbn; eapply Hce; eauto|now apply (i_good _ HI b')].
        intros Hz. transitivity (alive s2 (mr y')); [reflexivity|]. erewrite Hal; eauto.
      + intros b' y' E1 Hm. dupd; subst; [discriminate|]. eapply i_moved; eauto.
      + intros b1 b2 y1 y2 c' E1 E2 Hn Hi1 Hi2. dupd; subst; try congruence; somes; inapp; try tauto; try dj HI; try solve [eapply Hf; eauto].
      + intros b1 b2 y1 y2 z E1 E2 Hn Hz Hm. dupd; subst; try congruence; somes; try congruence; try ow HI.
      + intros b1 y1 z E1 Hz. dupd; subst; [discriminate|]. unfold s2, drop_own. destruct (mbr y); cbn; rewrite L2; [dupd; [easy|]|]; eapply i_res; eauto.
      + intros c' Hn. assert (Hn1 : cells s1 c' <> None).
        { intros E. apply Hn. unfold s2, drop_own. destruct (mbr y); cbn; [now rewrite E|exact E]. }
        destruct (in_dec Nat.eq_dec c' (data y)) as [Hi|Hi]; [rewrite (L5 c' Hi) in Hn1; congruence|].
        rewrite (L6 c' Hi) in Hn1. destruct (i_noleak _ HI c' Hn1) as (b1 & y1 & E1 & Hi1). exists b1, y1. rewrite upd_other; [auto|congruence].
    - intros b' y' E1. cbn [batches ask set_batch] in E1 |- *. rewrite M2, L3 in E1. unfold upd in E1. destruct (Nat.eqb_spec b' b); [discriminate|].
      rewrite <- (HR _ _ E1). apply read_entries_same. intros o c Hi. cbn. eapply Hce; eauto. eapply ent_data; eauto.
  Qed.

  Lemma exec_ok b y : batches s b = Some y -> moved s b = false -> entries y <> [] -> step s (EExec b) = Some s.
  Proof.
    intros Eb Em Hn. unfold step. rewrite (i_ub _ HI), Eb. destruct (i_good _ HI _ _ Eb Em) as [G1 G2 G3 G4 G5 G6 G7].
    destruct (forallb _ (entries y)) eqn:E1; cbn.
    - destruct (entries y); [congruence|reflexivity].
    - assert (false = true); [|easy]. rewrite <- E1. apply forallb_forall. intros [o [c|]] Hi; cbn; [|reflexivity].
      destruct (G6 c (G7 _ _ Hi)) as (x & E & _). now rewrite E.
  Qed.
  Lemma st_exec b s' : proper s (EExec b) -> step s (EExec b) = Some s' -> Inv s' /\ Rel s' (ask a (EExec b)).
  Proof.
    intros (Hm & Hp) H. destruct (batches s b) as [y|] eqn:Eb.
    - rewrite (exec_ok b y Eb Hm (Hp _ eq_refl)) in H. inversion H; subst. auto.
    - unfold step in H. rewrite (i_ub _ HI), Eb in H. discriminate.
  Qed.
End Step.

Lemma step_ok s a e s' : Inv s -> Rel s a -> proper s e -> step s e = Some s' -> Inv s' /\ Rel s' (ask a e).
Proof.
  intros HI HR Hp Hs. destruct e.
  - eapply st_user; eauto.
  - eapply st_drop; eauto.
  - eapply st_new; eauto.
  - eapply st_newin; eauto.
  - eapply st_prep; eauto.
  - eapply st_plain; eauto.
  - eapply st_move; eauto.
  - eapply st_assign; eauto.
  - eapply st_kill; eauto.
  - eapply st_exec; eauto.
Qed.
Lemma run_ok l : forall s a s', Inv s -> Rel s a -> run_all step proper s l -> run step s l = Some s' -> Inv s' /\ Rel s' (fold_left ask l a).
Proof.
  induction l as [|e l IH]; cbn; intros s a s' HI HR HA Hr.
  - inversion Hr; subst. auto.
  - destruct HA as [Hp HA]. destruct (step s e) as [s1|] eqn:E; [|discriminate].
    destruct (step_ok _ _ _ _ HI HR Hp E) as [HI1 HR1]. eapply IH; eauto.
Qed.
Lemma init_ok l s : run_all step proper init l -> run step init l = Some s -> Inv s /\ Rel s (asked l).
Proof. intros. eapply run_ok; eauto using inv_init. intros b y E. discriminate. Qed.
