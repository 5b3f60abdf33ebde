From Coq Require Import List Arith Bool Lia.
From Verif.Common Require Import TS.
From Verif.Future Require Import Model Spec.
Import ListNotations.

Ltac updc j i := destruct (Nat.eq_dec j i) as [->|?]; [rewrite ?upd_same in *|rewrite ?(upd_other _ i j) in * by assumption].

(** ** Safety for any number of futures.
    At most one copy of the frame exists: in the shared state or in one future. *)
Record Inv (s : state) : Prop := {
  i_none : fulfilled s = None -> ss_ff s = None /\ forall i, m_ff (futs s i) = None;
  i_ss : forall r, ss_ff s = Some r -> fulfilled s = Some r /\ forall i, m_ff (futs s i) = None;
  i_fut : forall i r, m_ff (futs s i) = Some r -> fulfilled s = Some r /\ ss_ff s = None /\
                      forall j, j <> i -> m_ff (futs s j) = None;
  i_got : forall i, m_has_got (futs s i) = true -> m_ff (futs s i) <> None
}.

Definition delivered (s : state) (b : bool) : Prop :=
  b = true <-> exists i, m_has_got (futs s i) = true.

Lemma Inv_init : Inv init.
Proof. constructor; cbn; intros; auto; discriminate. Qed.

(** two states that agree on frames and has_got flags *)
Definition same (s s' : state) : Prop :=
  ss_ff s' = ss_ff s /\ fulfilled s' = fulfilled s /\
  (forall i, m_ff (futs s' i) = m_ff (futs s i)) /\ (forall i, m_has_got (futs s' i) = m_has_got (futs s i)).
Lemma same_Inv s s' : same s s' -> Inv s -> Inv s'.
Proof.
  intros (E1 & E2 & E3 & E4) [A B C D]. constructor.
  - rewrite E1, E2. intros H. destruct (A H) as [X Y]. split; [assumption|]. intros; rewrite E3; auto.
  - rewrite E1, E2. intros r H. destruct (B r H) as [X Y]. split; [assumption|]. intros; rewrite E3; auto.
  - intros i r. rewrite E3, E1, E2. intros H. destruct (C i r H) as (X & Y & Z). repeat split; auto.
    intros; rewrite E3; auto.
  - intros i. rewrite E3, E4. auto.
Qed.
Lemma same_delivered s s' b : same s s' -> delivered s b -> delivered s' b.
Proof.
  intros (_ & _ & _ & E4) H. unfold delivered in *. rewrite H. split; intros [i Hi]; exists i; now rewrite E4 in *.
Qed.
Lemma same_trans a b c : same a b -> same b c -> same a c.
Proof.
  intros (A1 & A2 & A3 & A4) (B1 & B2 & B3 & B4). repeat split; try congruence; intros; rewrite ?B3, ?B4; auto.
Qed.
Lemma goto_same s i p : same s (goto s i p).
Proof. repeat split; cbn; intros j; updc j i; reflexivity. Qed.
Lemma same_refl s : same s s. Proof. repeat split. Qed.

Lemma fetch_Inv s i : Inv s -> Inv (fetch s i).
Proof.
  intros HI. unfold fetch. destruct (m_ff (futs s i)) eqn:Ei; [assumption|].
  destruct HI as [A B C D]. constructor; cbn.
  - intros H. destruct (A H) as [X Y]. split; [reflexivity|]. intros j; updc j i; cbn; auto.
  - discriminate.
  - intros j r. updc j i; cbn.
    + intros H. destruct (B r H) as [X Y]. repeat split; auto. intros k Hk. rewrite upd_other; auto.
    + intros H. destruct (C j r H) as (X & Y & Z). repeat split; auto.
      intros k Hk. updc k i; cbn; auto.
  - intros j. updc j i; cbn.
    + intros H. specialize (D i H). congruence.
    + apply D.
Qed.
Lemma fetch_got s i j : m_has_got (futs (fetch s i) j) = m_has_got (futs s j).
Proof. unfold fetch. destruct (m_ff (futs s i)); [reflexivity|]. cbn. updc j i; reflexivity. Qed.
Lemma fetch_at s i j : at_ (futs (fetch s i) j) = at_ (futs s j).
Proof. unfold fetch. destruct (m_ff (futs s i)); [reflexivity|]. cbn. updc j i; reflexivity. Qed.
Lemma fetch_fulfilled s i : fulfilled (fetch s i) = fulfilled s.
Proof. unfold fetch. destruct (m_ff (futs s i)); reflexivity. Qed.
Lemma fetch_waiting s i : ss_waiting (fetch s i) = ss_waiting s.
Proof. unfold fetch. destruct (m_ff (futs s i)); reflexivity. Qed.
Lemma fetch_delivered s i b : delivered s b -> delivered (fetch s i) b.
Proof.
  intros H. unfold delivered in *. rewrite H. split; intros [j Hj]; exists j; now rewrite fetch_got in *.
Qed.

Lemma get_nonblk_spec s i b :
  Inv s -> delivered s b ->
  let '(s', o) := get_nonblk s i in
  Inv s' /\ fulfilled s' = fulfilled s /\
  match o with
  | Returns v => fulfilled s = Some (Value v) /\ b = false /\ delivered s' true
  | Rethrows e => fulfilled s = Some (Exception e) /\ b = false /\ delivered s' true
  | NotReady => delivered s' b
  | AlreadyGot => b = true /\ delivered s' b
  end.
Proof.
  intros HI HD. unfold get_nonblk.
  pose proof (fetch_Inv s i HI) as HI1. pose proof (fetch_delivered s i b HD) as HD1.
  pose proof (fetch_fulfilled s i) as HF. set (s1 := fetch s i) in *. rewrite <- HF. clearbody s1. clear HI HD HF s.
  destruct (m_ff (futs s1 i)) as [r|] eqn:Er; [|auto].
  destruct (m_has_got (futs s1 i)) eqn:Eg.
  - split; [assumption|]. split; [reflexivity|]. split; [|assumption]. apply HD1. eauto.
  - assert (HI2 : Inv (set_fut s1 i {| m_ff := Some r; m_has_got := true; at_ := at_ (futs s1 i) |})).
    { destruct HI1 as [A B C D]. constructor; cbn.
      - intros H. destruct (A H) as [_ Y]. rewrite Y in Er. discriminate.
      - intros r0 H. destruct (B r0 H) as [_ Y]. rewrite Y in Er. discriminate.
      - intros j r0. updc j i; cbn.
        + intros H. inversion H; subst. destruct (C i r0 Er) as (X & Y & Z). repeat split; auto.
          intros k Hk. rewrite upd_other; auto.
        + intros H. destruct (C j r0 H) as (X & Y & Z). rewrite Z in Er by auto. discriminate.
      - intros j. updc j i; cbn; [discriminate|]. apply D. }
    assert (Hb : b = false).
    { destruct b; [|reflexivity]. exfalso. destruct (proj1 HD1 eq_refl) as [j Hj].
      pose proof (i_got _ HI1 j Hj) as X. destruct (Nat.eq_dec j i) as [->|Hn]; [congruence|].
      destruct (i_fut _ HI1 i r Er) as (_ & _ & Z). rewrite Z in X; auto. }
    assert (HD2 : delivered (set_fut s1 i {| m_ff := Some r; m_has_got := true; at_ := at_ (futs s1 i) |}) true).
    { split; [|auto]. intros _. exists i. cbn. now rewrite upd_same. }
    destruct (i_fut _ HI1 i r Er) as (X & _ & _).
    destruct r; (split; [assumption|]; split; [reflexivity|]; split; [assumption|]; split; assumption).
Qed.

Lemma faithful_trace n sp l : forall s b,
  Inv s -> delivered s b -> faithful (fulfilled s) b (trace (step n sp) observe s l).
Proof.
  induction l as [|e l IH]; cbn [trace]; intros s b HI HD; [exact I|].
  destruct (step n sp s e) as [s'|] eqn:Hs; [|exact I].
  unfold step in Hs. destruct (asserted s); [discriminate|].
  assert (quiet : forall t, same s t -> faithful (fulfilled s) b (trace (step n sp) observe t l)).
  { intros t Ht. replace (fulfilled s) with (fulfilled t) by apply Ht.
    apply IH; [eapply same_Inv; eauto|eapply same_delivered; eauto]. }
  assert (got : forall t i, fulfilled t = fulfilled s -> Inv t -> delivered t b ->
     forall s2, same (fst (get_nonblk t i)) s2 ->
     faithful (fulfilled s) b ([Got i (snd (get_nonblk t i))] ++ trace (step n sp) observe s2 l)).
  { intros t i Ef HIt HDt s2 Hs2. pose proof (get_nonblk_spec t i b HIt HDt) as G.
    destruct (get_nonblk t i) as [t' o]. cbn [fst snd app] in *. destruct G as (G1 & G2 & G3).
    assert (E2 : fulfilled s2 = fulfilled s) by (destruct Hs2 as (_ & X & _); congruence).
    rewrite <- Ef, <- G2. replace (fulfilled t') with (fulfilled s2) by apply Hs2.
    destruct o; cbn [faithful].
    - destruct G3 as (X & Y & Z). split; [congruence|]. split; [assumption|].
      apply IH; [eapply same_Inv; eauto|eapply same_delivered; eauto].
    - destruct G3 as (X & Y & Z). split; [congruence|]. split; [assumption|].
      apply IH; [eapply same_Inv; eauto|eapply same_delivered; eauto].
    - apply IH; [eapply same_Inv; eauto|eapply same_delivered; eauto].
    - destruct G3 as (X & Z). split; [assumption|].
      apply IH; [eapply same_Inv; eauto|eapply same_delivered; eauto]. }
  destruct e as [r w|i|i|i|i|i|i|i|i]; cbn [observe].
  - (* ESet *)
    destruct (fulfilled s) eqn:Ef; [discriminate|].
    destruct (none_blocked n s || _) in Hs; [|discriminate]. inversion Hs; subst s'; clear Hs.
    cbn [app faithful]. split; [reflexivity|].
    assert (Hsame : same (St (Some r) None (futs s) (Some r) (asserted s)) (set_value s r w)).
    { unfold set_value, wake. set (s1 := St (Some r) None (futs s) (Some r) (asserted s)).
      set (s2 := match ss_waiting s with Some i => goto s1 i Woken | None => s1 end).
      assert (H2 : same s1 s2) by (unfold s2; destruct (ss_waiting s); [apply goto_same|apply same_refl]).
      destruct (at_ (futs s2 w)); auto. eapply same_trans; [exact H2|apply goto_same]. }
    assert (HI1 : Inv (St (Some r) None (futs s) (Some r) (asserted s))).
    { destruct HI as [A B C D]. destruct (A Ef) as [X Y]. constructor; cbn.
      - discriminate.
      - intros r0 H. inversion H; subst. auto.
      - intros i r0. rewrite Y. discriminate.
      - auto. }
    replace (Some r) with (fulfilled (set_value s r w)) by apply Hsame.
    apply IH; [eapply same_Inv; eauto|eapply same_delivered; eauto].
  - (* EReady *)
    destruct (Nat.ltb i n); [|discriminate]. destruct (at_ (futs s i)); inversion Hs; subst s'; clear Hs.
    cbn [app faithful]. split.
    + destruct (m_ff (futs (fetch s i) i)) as [r|] eqn:Er; [|discriminate]. intros _.
      destruct (i_fut _ (fetch_Inv s i HI) i r Er) as (X & _). rewrite fetch_fulfilled in X. congruence.
    + rewrite <- (fetch_fulfilled s i). apply IH; [now apply fetch_Inv|now apply fetch_delivered].
  - (* EGetNonblk *)
    destruct (Nat.ltb i n); [|discriminate]. destruct (at_ (futs s i)); inversion Hs; subst s'; clear Hs.
    apply got; auto. apply same_refl.
  - (* EGet *)
    destruct (Nat.ltb i n); [|discriminate]. destruct (at_ (futs s i)); try discriminate.
    destruct (m_has_got (futs s i)) eqn:Eg; inversion Hs; subst s'; clear Hs; cbn [app faithful].
    + split; [apply HD; eauto|]. now apply IH.
    + apply quiet. apply goto_same.
  - destruct sp; [|discriminate]. destruct (at_ (futs s i)); inversion Hs; subst s'; clear Hs.
    apply quiet. apply goto_same.
  - destruct (at_ (futs s i)) eqn:Ea; inversion Hs; subst s'; clear Hs.
    apply (got (fetch s i)); auto using fetch_Inv, fetch_delivered, fetch_fulfilled. apply goto_same.
  - (* EAwait *)
    destruct (Nat.ltb i n); [|discriminate]. destruct (at_ (futs s i)) eqn:Ea; try discriminate.
    destruct (m_ff (futs (fetch s i) i)) as [r|] eqn:Er; inversion Hs; subst s'; clear Hs.
    + assert (Hat : at_ (futs (fst (get_nonblk (fetch s i) i)) i) = Idle).
      { unfold get_nonblk. assert (Ef : fetch (fetch s i) i = fetch s i) by (unfold fetch at 1; now rewrite Er).
        rewrite Ef, Er. destruct (m_has_got (futs (fetch s i) i)); cbn; rewrite ?upd_same; cbn; rewrite fetch_at; assumption. }
      rewrite Hat. apply (got (fetch s i)); auto using fetch_Inv, fetch_delivered, fetch_fulfilled. apply same_refl.
    + assert (Hat : at_ (futs (goto (fetch s i) i Suspending) i) = Suspending) by (cbn; now rewrite upd_same).
      rewrite Hat. cbn [app].
      replace (fulfilled s) with (fulfilled (goto (fetch s i) i Suspending)) by (cbn; apply fetch_fulfilled).
      apply IH.
      * eapply same_Inv; [apply goto_same|]. now apply fetch_Inv.
      * eapply same_delivered; [apply goto_same|]. now apply fetch_delivered.
  - (* ESuspend *)
    destruct (at_ (futs s i)); inversion Hs; subst s'; clear Hs. cbn [app]. apply quiet.
    unfold set_waiting, wake. destruct (ss_waiting s); [repeat split|].
    destruct (ss_ff s) eqn:Es; [apply goto_same|].
    pose proof (goto_same s i Waiting) as (X1 & X2 & X3 & X4). repeat split; cbn; auto.
  - (* EResume *)
    destruct (at_ (futs s i)); inversion Hs; subst s'; clear Hs.
    apply got; auto. apply goto_same.
Qed.

Lemma faithful_delivery n sp l : faithful None false (trace (step n sp) observe init l).
Proof.
  apply (faithful_trace n sp l init false); [apply Inv_init|].
  split; [discriminate|]. intros [i Hi]. discriminate.
Qed.

(** ** One future (n = 1): no lost wake-up *)
#[local] Arguments upd : simpl never.
Lemma Inv_step n sp s e s' : Inv s -> step n sp s e = Some s' -> Inv s'.
Proof.
  intros HI Hs.
  assert (HD : delivered s true \/ delivered s false \/ True) by auto.
  unfold step in Hs. destruct (asserted s); [discriminate|].
  assert (G : forall t i, Inv t -> Inv (fst (get_nonblk t i))).
  { intros t i HIt. unfold get_nonblk. pose proof (fetch_Inv t i HIt) as HI1. set (s1 := fetch t i) in *.
    destruct (m_ff (futs s1 i)) as [r|] eqn:Er; [|assumption].
    destruct (m_has_got (futs s1 i)) eqn:Eg; [assumption|]. cbn.
    destruct HI1 as [A B C D]. constructor; cbn.
    - intros H. destruct (A H) as [_ Y]. rewrite Y in Er. discriminate.
    - intros r0 H. destruct (B r0 H) as [_ Y]. rewrite Y in Er. discriminate.
    - intros j r0. updc j i; cbn.
      + intros H. inversion H; subst. destruct (C i r0 Er) as (X & Y & Z). repeat split; auto.
        intros k Hk. rewrite upd_other; auto.
      + intros H. destruct (C j r0 H) as (X & Y & Z). rewrite Z in Er by auto. discriminate.
    - intros j. updc j i; cbn; [discriminate|]. apply D. }
  destruct e as [r w|i|i|i|i|i|i|i|i].
  - destruct (fulfilled s) eqn:Ef; [discriminate|].
    destruct (none_blocked n s || _) in Hs; [|discriminate]. inversion Hs; subst s'; clear Hs.
    assert (HI1 : Inv (St (Some r) None (futs s) (Some r) (asserted s))).
    { destruct HI as [A B C D]. destruct (A Ef) as [X Y]. constructor; cbn.
      - discriminate.
      - intros r0 H. inversion H; subst. auto.
      - intros i r0. rewrite Y. discriminate.
      - auto. }
    unfold set_value, wake. set (s1 := St (Some r) None (futs s) (Some r) (asserted s)) in *.
    set (s2 := match ss_waiting s with Some i => goto s1 i Woken | None => s1 end).
    assert (H2 : same s1 s2) by (unfold s2; destruct (ss_waiting s); [apply goto_same|apply same_refl]).
    destruct (at_ (futs s2 w)); eauto using same_Inv.
    eapply same_Inv; [apply goto_same|]. eauto using same_Inv.
  - destruct (Nat.ltb i n); [|discriminate]. destruct (at_ (futs s i)); inversion Hs; subst. now apply fetch_Inv.
  - destruct (Nat.ltb i n); [|discriminate]. destruct (at_ (futs s i)); inversion Hs; subst. now apply G.
  - destruct (Nat.ltb i n); [|discriminate]. destruct (at_ (futs s i)); try discriminate.
    destruct (m_has_got (futs s i)); inversion Hs; subst; [assumption|]. eapply same_Inv; [apply goto_same|assumption].
  - destruct sp; [|discriminate]. destruct (at_ (futs s i)); inversion Hs; subst. eapply same_Inv; [apply goto_same|assumption].
  - destruct (at_ (futs s i)); inversion Hs; subst. eapply same_Inv; [apply goto_same|]. apply G. now apply fetch_Inv.
  - destruct (Nat.ltb i n); [|discriminate]. destruct (at_ (futs s i)); try discriminate.
    destruct (m_ff (futs (fetch s i) i)); inversion Hs; subst.
    + apply G. now apply fetch_Inv.
    + eapply same_Inv; [apply goto_same|]. now apply fetch_Inv.
  - destruct (at_ (futs s i)); inversion Hs; subst. unfold set_waiting, wake.
    destruct (ss_waiting s); [eapply same_Inv; [|exact HI]; repeat split|].
    destruct (ss_ff s) eqn:Es; [eapply same_Inv; [apply goto_same|assumption]|].
    eapply same_Inv; [|exact HI]. pose proof (goto_same s i Waiting) as (X1 & X2 & X3 & X4). repeat split; cbn; auto.
  - destruct (at_ (futs s i)); inversion Hs; subst. eapply same_Inv; [apply goto_same|]. now apply G.
Qed.

Definition fresh : fut := {| m_ff := None; m_has_got := false; at_ := Idle |}.

Definition K (ss : option result) (w : option nat) (f : fut) (ful : option result) : Prop :=
  (* nothing stored yet *)
  (ful = None /\ ss = None /\ m_ff f = None /\ m_has_got f = false /\
     ((w = Some 0 /\ at_ f = Waiting) \/ (w = None /\ at_ f <> Waiting /\ at_ f <> Woken))) \/
  (* stored, still in the shared state *)
  (exists r, ful = Some r /\ ss = Some r /\ m_ff f = None /\ m_has_got f = false /\ w = None /\ at_ f <> Waiting) \/
  (* stored and fetched by the future *)
  (exists r, ful = Some r /\ ss = None /\ m_ff f = Some r /\ w = None /\
     (at_ f = Idle \/ at_ f = Blocked \/ at_ f = Notified)).

Record Inv1 (s : state) : Prop := {
  j_inv : Inv s;
  j_assert : asserted s = false;
  j_other : forall i, i <> 0 -> futs s i = fresh;
  j_K : K (ss_ff s) (ss_waiting s) (futs s 0) (fulfilled s)
}.

Lemma Inv1_init : Inv1 init.
Proof.
  constructor; cbn; auto; try discriminate.
  - apply Inv_init.
  - left; cbn. repeat split; auto. right. repeat split; discriminate.
Qed.

Lemma Inv1_step sp s e s' : Inv1 s -> step 1 sp s e = Some s' -> Inv1 s'.
Proof.
  intros J Hs. pose proof (Inv_step _ _ _ _ _ (j_inv _ J) Hs) as HI'.
  destruct J as [HI JA JO JK].
  unfold step in Hs. rewrite JA in Hs.
  assert (Hidle : forall i, at_ (futs s i) <> Idle -> i = 0).
  { intros i Hi. destruct i; [reflexivity|]. rewrite (JO (S i)) in Hi by discriminate. now cbn in Hi. }
  destruct s as [ss w fs ful asr]. cbn [ss_ff ss_waiting futs fulfilled asserted] in *. subst asr. clear HI.
  assert (fin : forall s1, Some s1 = Some s' -> (forall i, i <> 0 -> futs s1 i = fresh) -> asserted s1 = false ->
       K (ss_ff s1) (ss_waiting s1) (futs s1 0) (fulfilled s1) -> Inv1 s').
  { intros s1 E; inversion E; subst. intros; constructor; auto. }
  destruct (fs 0) as [ff0 hg0 at0] eqn:E0.
  destruct e as [r v|i|i|i|i|i|i|i|i].
  - (* ESet *)
    destruct JK as [JK|[(r0 & Ef & _)|(r0 & Ef & _)]]; cbn in *; try (rewrite Ef in Hs; discriminate).
    destruct JK as (-> & -> & -> & -> & JK).
    match goal with H : (if ?b then _ else _) = _ |- _ => destruct b; [|discriminate] end.
    assert (Hv : v <> 0 -> at_ (fs v) = Idle) by (intros; rewrite JO; auto).
    unfold set_value, wake in Hs. cbn [ss_waiting futs asserted] in Hs.
    destruct JK as [[-> ->]|(-> & N1 & N2)].
    + set (s2 := goto _ 0 Woken) in Hs.
      assert (HH : match at_ (futs s2 v) with Blocked => goto s2 v Notified | _ => s2 end = s2).
      { subst s2. cbn. updc v 0; cbn; [reflexivity|]. now rewrite Hv. }
      rewrite HH in Hs. clear HH. eapply fin; [exact Hs|..]; subst s2; cbn; auto.
      * intros. rewrite upd_other; auto.
      * rewrite upd_same, E0. right; left. exists r; cbn. repeat split; discriminate.
    + cbn in Hs. destruct (Nat.eq_dec v 0) as [->|Hn].
      * rewrite E0 in Hs. cbn in Hs. destruct at0; cbn in Hs; try congruence;
          (eapply fin; [exact Hs|cbn; intros; rewrite ?upd_other by assumption; auto|reflexivity|]); cbn;
          rewrite ?upd_same, E0; right; left; exists r; cbn; repeat split; discriminate.
      * rewrite Hv in Hs by assumption. eapply fin; [exact Hs|..]; cbn; auto.
        rewrite E0; right; left; exists r; cbn; repeat split; assumption.
  - (* EReady *)
    destruct i; [|discriminate]. cbn in Hs. rewrite E0 in Hs. cbn in Hs. destruct at0; try discriminate.
    unfold fetch in Hs; cbn in Hs. rewrite E0 in Hs. cbn in Hs.
    unfold K in JK; cbn in JK. destruct JK as [JK|[(r0 & JK)|(r0 & JK)]]; decompose [and or] JK; clear JK; subst; try discriminate;
    (eapply fin; [exact Hs|cbn; intros; rewrite ?upd_other by assumption; auto|reflexivity|]); cbn; rewrite ?upd_same, ?E0; cbn.
    + left; cbn; repeat split; right; repeat split; auto.
    + right; right; exists r0; cbn. auto 10.
    + right; right; exists r0; cbn. auto 10.
  - (* EGetNonblk *)
    destruct i; [|discriminate]. cbn in Hs. rewrite E0 in Hs. cbn in Hs. destruct at0; try discriminate.
    unfold get_nonblk, fetch in Hs; cbn in Hs. rewrite E0 in Hs. cbn in Hs.
    unfold K in JK; cbn in JK. destruct JK as [JK|[(r0 & JK)|(r0 & JK)]]; decompose [and or] JK; clear JK; subst; try discriminate; cbn in Hs;
    rewrite ?upd_same, ?E0 in Hs; cbn in Hs; try (destruct hg0; cbn in Hs);
    (eapply fin; [exact Hs|cbn; intros; rewrite ?upd_other by assumption; auto|reflexivity|]); cbn; rewrite ?upd_same, ?E0; cbn;
    solve [left; cbn; repeat split; right; repeat split; auto | right; right; exists r0; cbn; auto 10].
  - (* EGet *)
    destruct i; [|discriminate]. cbn in Hs. rewrite E0 in Hs. cbn in Hs. destruct at0; try discriminate.
    unfold K in JK; cbn in JK. destruct JK as [JK|[(r0 & JK)|(r0 & JK)]]; decompose [and or] JK; clear JK; subst; try discriminate; cbn in Hs;
    rewrite ?upd_same, ?E0 in Hs; cbn in Hs; try (destruct hg0; cbn in Hs);
    (eapply fin; [exact Hs|cbn; intros; rewrite ?upd_other by assumption; auto|reflexivity|]); cbn; rewrite ?upd_same, ?E0; cbn;
    solve [left; cbn; repeat split; right; repeat split; try discriminate; auto | right; right; exists r0; cbn; auto 10
          |right; left; exists r0; cbn; repeat split; discriminate].
  - (* ESpurious *)
    destruct sp; [|discriminate].
    destruct i; [|rewrite (JO (S i)) in Hs by discriminate; discriminate]. cbn in Hs. rewrite E0 in Hs. cbn in Hs. destruct at0; try discriminate.
    unfold K in JK; cbn in JK. destruct JK as [JK|[(r0 & JK)|(r0 & JK)]]; decompose [and or] JK; clear JK; subst; try discriminate; cbn in Hs;
    (eapply fin; [exact Hs|cbn; intros; rewrite ?upd_other by assumption; auto|reflexivity|]); cbn; rewrite ?upd_same, ?E0; cbn;
    solve [left; cbn; repeat split; right; repeat split; try discriminate; auto | right; right; exists r0; cbn; auto 10
          |right; left; exists r0; cbn; repeat split; discriminate].
  - (* EGetRest *)
    destruct i; [|rewrite (JO (S i)) in Hs by discriminate; discriminate]. cbn in Hs. rewrite E0 in Hs. cbn in Hs. destruct at0; try discriminate.
    unfold get_nonblk, fetch in Hs; cbn in Hs. rewrite E0 in Hs. cbn in Hs.
    unfold K in JK; cbn in JK. destruct JK as [JK|[(r0 & JK)|(r0 & JK)]]; decompose [and or] JK; clear JK; subst; try discriminate; cbn in Hs;
    rewrite ?upd_same, ?E0 in Hs; cbn in Hs; rewrite ?upd_same, ?E0 in Hs; cbn in Hs; try (destruct hg0; cbn in Hs);
    (eapply fin; [exact Hs|cbn; intros; rewrite ?upd_other by assumption; auto|reflexivity|]); cbn; rewrite ?upd_same, ?E0; cbn; rewrite ?upd_same, ?E0; cbn;
    solve [left; cbn; repeat split; right; repeat split; try discriminate; auto | right; right; exists r0; cbn; auto 10
          |right; left; exists r0; cbn; repeat split; discriminate].
  - (* EAwait *)
    destruct i; [|discriminate]. cbn in Hs. rewrite E0 in Hs. cbn in Hs. destruct at0; try discriminate.
    unfold get_nonblk, fetch in Hs; cbn in Hs. rewrite E0 in Hs. cbn in Hs.
    unfold K in JK; cbn in JK. destruct JK as [JK|[(r0 & JK)|(r0 & JK)]]; decompose [and or] JK; clear JK; subst; try discriminate; cbn in Hs;
    rewrite ?upd_same, ?E0 in Hs; cbn in Hs; rewrite ?upd_same, ?E0 in Hs; cbn in Hs; rewrite ?upd_same, ?E0 in Hs; cbn in Hs; try (destruct hg0; cbn in Hs);
    (eapply fin; [exact Hs|cbn; intros; rewrite ?upd_other by assumption; auto|reflexivity|]); cbn; rewrite ?upd_same, ?E0; cbn; rewrite ?upd_same, ?E0; cbn;
    solve [left; cbn; repeat split; right; repeat split; try discriminate; auto | right; right; exists r0; cbn; auto 10
          |right; left; exists r0; cbn; repeat split; discriminate].
  - (* ESuspend *)
    destruct i; [|rewrite (JO (S i)) in Hs by discriminate; discriminate]. cbn in Hs. rewrite E0 in Hs. cbn in Hs. destruct at0; try discriminate.
    unfold K in JK; cbn in JK. destruct JK as [JK|[(r0 & JK)|(r0 & JK)]]; decompose [and or] JK; clear JK; subst; try discriminate; cbn in Hs;
    (eapply fin; [exact Hs|cbn; intros; rewrite ?upd_other by assumption; auto|reflexivity|]); cbn; rewrite ?upd_same, ?E0; cbn;
    solve [left; cbn; repeat split; left; repeat split; auto
          |right; left; exists r0; cbn; repeat split; discriminate].
  - (* EResume *)
    destruct i; [|rewrite (JO (S i)) in Hs by discriminate; discriminate]. cbn in Hs. rewrite E0 in Hs. cbn in Hs. destruct at0; try discriminate.
    unfold get_nonblk, fetch in Hs; cbn in Hs. rewrite E0 in Hs. cbn in Hs.
    unfold K in JK; cbn in JK. destruct JK as [JK|[(r0 & JK)|(r0 & JK)]]; decompose [and or] JK; clear JK; subst; try discriminate; try congruence; cbn in Hs;
    rewrite ?upd_same, ?E0 in Hs; cbn in Hs; rewrite ?upd_same, ?E0 in Hs; cbn in Hs; rewrite ?upd_same, ?E0 in Hs; cbn in Hs; try (destruct hg0; cbn in Hs);
    (eapply fin; [exact Hs|cbn; intros; rewrite ?upd_other by assumption; auto|reflexivity|]); cbn; rewrite ?upd_same, ?E0; cbn; rewrite ?upd_same, ?E0; cbn;
    solve [right; right; exists r0; cbn; auto 10].
Qed.

Lemma Inv1_run sp l s : run (step 1 sp) init l = Some s -> Inv1 s.
Proof. intros Hr. refine (run_inv (step 1 sp) Inv1 _ l init s Inv1_init Hr). intros; eapply Inv1_step; eauto. Qed.

(** a coroutine inside co_await, promise fulfilled: at most two steps, all enabled, later it holds exactly the result *)
Lemma await_gets sp l s r :
  run (step 1 sp) init l = Some s -> awaiting s 0 -> fulfilled s = Some r ->
  exists l' s', (l' = [EResume 0] \/ l' = [ESuspend 0; EResume 0]) /\
    run (step 1 sp) s l' = Some s' /\ trace (step 1 sp) observe s l' = [Got 0 (as_outcome r)] /\ at_ (futs s' 0) = Idle.
Proof.
  intros Hr Ha Hf. apply Inv1_run in Hr. destruct Hr as [_ JA _ JK].
  destruct s as [ss w fs ful asr]. cbn in *. unfold awaiting in Ha. cbn in Ha. subst ful asr.
  destruct (fs 0) as [ff hg a] eqn:E0. cbn in *.
  destruct JK as [(X & _)|[(r0 & X1 & X2 & X3 & X4 & X5 & X6)|(r0 & X1 & X2 & X3 & X4 & X5)]]; cbn in *; [discriminate| |].
  - inversion X1; subst; clear X1. destruct Ha as [->|[->| ->]]; [|congruence|].
    + eexists [ESuspend 0; EResume 0], _. split; [auto|]. split; [|split].
      * cbn. rewrite E0. cbn. rewrite E0. cbn. reflexivity.
      * cbn. rewrite E0. cbn. rewrite E0. cbn. unfold get_nonblk, fetch. repeat progress (cbn; rewrite ?upd_same, ?E0). destruct r0; reflexivity.
      * cbn. now rewrite upd_same.
    + eexists [EResume 0], _. split; [auto|]. split; [|split].
      * cbn. rewrite E0. cbn. reflexivity.
      * cbn. rewrite E0. cbn. unfold get_nonblk, fetch. cbn. rewrite ?E0; cbn. rewrite ?upd_same; cbn. destruct r0; reflexivity.
      * cbn. now rewrite upd_same.
  - subst. intuition congruence.
Qed.

(** never resumed before fulfilment, and the assertion never fires *)
Lemma woken_fulfilled sp l s :
  run (step 1 sp) init l = Some s -> asserted s = false /\ (at_ (futs s 0) = Woken -> fulfilled s <> None) /\
    (ss_waiting s = Some 0 <-> at_ (futs s 0) = Waiting).
Proof.
  intros Hr. apply Inv1_run in Hr. destruct Hr as [_ JA _ JK]. split; [assumption|].
  unfold K in JK. decompose [and or ex] JK; clear JK; split; try split; intros; congruence.
Qed.

(** ** Exact answers *)
Definition notaken (o : outcome) : bool := match o with Returns _ | Rethrows _ => true | _ => false end.
Lemma deliv_step n sp s e s' b :
  Inv s -> delivered s b -> step n sp s e = Some s' -> delivered s' (b || taken (observe s e s')).
Proof.
  intros HI HD Hs. unfold step in Hs. destruct (asserted s); [discriminate|].
  assert (got : forall t i, Inv t -> delivered t b ->
     forall s2, same (fst (get_nonblk t i)) s2 -> delivered s2 (b || taken [Got i (snd (get_nonblk t i))])).
  { intros t i HIt HDt s2 Hs2. pose proof (get_nonblk_spec t i b HIt HDt) as G.
    destruct (get_nonblk t i) as [t' o]. cbn [fst snd] in *. destruct G as (G1 & G2 & G3).
    eapply same_delivered; [exact Hs2|].
    destruct o; cbn; rewrite ?orb_false_r, ?orb_true_r; tauto. }
  assert (q : forall s2, same s s2 -> delivered s2 (b || false)).
  { intros. rewrite orb_false_r. eapply same_delivered; eauto. }
  destruct e as [r w|i|i|i|i|i|i|i|i]; cbn [observe].
  - destruct (fulfilled s) eqn:Ef; [discriminate|].
    match goal with H : (if ?c then _ else _) = _ |- _ => destruct c; [|discriminate] end. inversion Hs; subst s'; clear Hs.
    cbn. rewrite orb_false_r. unfold set_value, wake. set (s1 := St (Some r) None (futs s) (Some r) (asserted s)).
    set (s2 := match ss_waiting s with Some i => goto s1 i Woken | None => s1 end).
    assert (H2 : same s1 s2) by (unfold s2; destruct (ss_waiting s); [apply goto_same|apply same_refl]).
    assert (H1 : delivered s1 b) by exact HD.
    destruct (at_ (futs s2 w)); eauto using same_delivered.
    eapply same_delivered; [apply goto_same|]. eauto using same_delivered.
  - destruct (Nat.ltb i n); [|discriminate]. destruct (at_ (futs s i)); inversion Hs; subst. cbn. rewrite orb_false_r. now apply fetch_delivered.
  - destruct (Nat.ltb i n); [|discriminate]. destruct (at_ (futs s i)); inversion Hs; subst. apply got; auto. apply same_refl.
  - destruct (Nat.ltb i n); [|discriminate]. destruct (at_ (futs s i)); try discriminate.
    destruct (m_has_got (futs s i)); inversion Hs; subst; cbn; [rewrite orb_false_r; assumption|]. apply q. apply goto_same.
  - destruct sp; [|discriminate]. destruct (at_ (futs s i)); inversion Hs; subst. apply q. apply goto_same.
  - destruct (at_ (futs s i)); inversion Hs; subst. apply got; auto using fetch_Inv, fetch_delivered. apply goto_same.
  - destruct (Nat.ltb i n); [|discriminate]. destruct (at_ (futs s i)) eqn:Ea; try discriminate.
    destruct (m_ff (futs (fetch s i) i)) as [r|] eqn:Er; inversion Hs; subst s'; clear Hs.
    + assert (Hat : at_ (futs (fst (get_nonblk (fetch s i) i)) i) = Idle).
      { unfold get_nonblk. assert (Ef : fetch (fetch s i) i = fetch s i) by (unfold fetch at 1; now rewrite Er).
        rewrite Ef, Er. destruct (m_has_got (futs (fetch s i) i)); cbn; rewrite ?upd_same; cbn; rewrite fetch_at; assumption. }
      rewrite Hat. apply got; auto using fetch_Inv, fetch_delivered. apply same_refl.
    + assert (Hat : at_ (futs (goto (fetch s i) i Suspending) i) = Suspending) by (cbn; now rewrite upd_same).
      rewrite Hat. cbn. rewrite orb_false_r. eapply same_delivered; [apply goto_same|]. now apply fetch_delivered.
  - destruct (at_ (futs s i)); inversion Hs; subst s'; clear Hs. cbn [app]. apply q.
    unfold set_waiting, wake. destruct (ss_waiting s); [repeat split|].
    destruct (ss_ff s) eqn:Es; [apply goto_same|].
    pose proof (goto_same s i Waiting) as (X1 & X2 & X3 & X4). repeat split; cbn; auto.
  - destruct (at_ (futs s i)); inversion Hs; subst. apply got; auto. apply goto_same.
Qed.

Lemma taken_app l1 l2 : taken (l1 ++ l2) = taken l1 || taken l2.
Proof. apply existsb_app. Qed.

Lemma deliv_run n sp l : forall s s' b,
  Inv s -> delivered s b -> run (step n sp) s l = Some s' -> delivered s' (b || taken (trace (step n sp) observe s l)).
Proof.
  induction l as [|e l IH]; cbn [run trace]; intros s s' b HI HD Hr.
  - inversion Hr; subst. cbn. now rewrite orb_false_r.
  - destruct (step n sp s e) as [s1|] eqn:E; [|discriminate].
    rewrite taken_app, orb_assoc. apply (IH s1); auto.
    + eapply Inv_step; eauto.
    + eapply deliv_step; eauto.
Qed.

Lemma deliv_init : delivered init false.
Proof. split; [discriminate|]. intros [i Hi]. discriminate. Qed.

Lemma fetch_stored s i : fulfilled (fst (get_nonblk s i)) = fulfilled s.
Proof.
  unfold get_nonblk. destruct (m_ff (futs (fetch s i) i)); cbn; [|apply fetch_fulfilled].
  destruct (m_has_got (futs (fetch s i) i)); cbn; apply fetch_fulfilled.
Qed.

Lemma stored_run n sp l : forall s s',
  run (step n sp) s l = Some s' ->
  fulfilled s' = match fulfilled s with Some r => Some r | None => stored (trace (step n sp) observe s l) end.
Proof.
  induction l as [|e l IH]; cbn [run trace]; intros s s' Hr.
  - inversion Hr; subst. cbn. now destruct (fulfilled s').
  - destruct (step n sp s e) as [s1|] eqn:E; [|discriminate]. rewrite (IH _ _ Hr). clear IH.
    assert (Q : (exists r w, e = ESet r w) \/ (fulfilled s1 = fulfilled s /\ forall l', stored (observe s e s1 ++ l') = stored l')).
    { unfold step in E. destruct (asserted s); [discriminate|].
      destruct e as [r w|i|i|i|i|i|i|i|i]; [left; eauto|right..]; cbn [observe].
      - destruct (Nat.ltb i n); [|discriminate]. destruct (at_ (futs s i)); inversion E; subst. split; [apply fetch_fulfilled|reflexivity].
      - destruct (Nat.ltb i n); [|discriminate]. destruct (at_ (futs s i)); inversion E; subst. split; [apply fetch_stored|reflexivity].
      - destruct (Nat.ltb i n); [|discriminate]. destruct (at_ (futs s i)); try discriminate.
        destruct (m_has_got (futs s i)); inversion E; subst; split; reflexivity.
      - destruct sp; [|discriminate]. destruct (at_ (futs s i)); inversion E; subst. split; reflexivity.
      - destruct (at_ (futs s i)); inversion E; subst. split; [|reflexivity]. cbn. rewrite fetch_stored. apply fetch_fulfilled.
      - destruct (Nat.ltb i n); [|discriminate]. destruct (at_ (futs s i)); try discriminate.
        destruct (m_ff (futs (fetch s i) i)); inversion E; subst.
        + split; [rewrite fetch_stored; apply fetch_fulfilled|]. intros. match goal with |- context[match ?x with _ => _ end] => destruct x end; reflexivity.
        + split; [apply fetch_fulfilled|]. intros. match goal with |- context[match ?x with _ => _ end] => destruct x end; reflexivity.
      - destruct (at_ (futs s i)); inversion E; subst. split; [|reflexivity]. unfold set_waiting, wake. destruct (ss_waiting s); [reflexivity|].
        destruct (ss_ff s); reflexivity.
      - destruct (at_ (futs s i)); inversion E; subst. split; [|reflexivity]. cbn. apply fetch_stored. }
    destruct Q as [(r & w & ->)|[Q1 Q2]].
    + unfold step in E. destruct (asserted s); [discriminate|]. destruct (fulfilled s) eqn:Ef; [discriminate|].
      match goal with H : (if ?c then _ else _) = _ |- _ => destruct c; [|discriminate] end. inversion E; subst s1; clear E.
      unfold set_value, wake. destruct (ss_waiting s); cbn; match goal with |- context[match at_ ?x with _ => _ end] => destruct (at_ x) end; reflexivity.
    + rewrite Q1, Q2. reflexivity.
Qed.

Lemma nonblk_exact sp l s :
  run (step 1 sp) init l = Some s ->
  snd (get_nonblk s 0) = answer (trace (step 1 sp) observe init l).
Proof.
  intros Hr. pose proof (stored_run _ _ _ _ _ Hr) as HS. pose proof (deliv_run _ _ _ _ _ _ Inv_init deliv_init Hr) as HD.
  cbn [init fulfilled orb] in HS, HD. unfold answer. rewrite <- HS.
  apply Inv1_run in Hr. destruct Hr as [_ _ JO JK].
  assert (Hb : taken (trace (step 1 sp) observe init l) = m_has_got (futs s 0)).
  { apply eq_true_iff_eq. unfold delivered in HD. rewrite HD. split; [|eauto]. intros [i Hi]. destruct i; [assumption|]. rewrite JO in Hi by discriminate. discriminate. }
  rewrite Hb. unfold get_nonblk, fetch. unfold K in JK.
  destruct JK as [(-> & X1 & X2 & X3 & _)|[(r0 & -> & X2 & X3 & X4 & _)|(r0 & -> & X2 & X3 & _)]].
  - rewrite X2. cbn. rewrite upd_same. cbn. rewrite X1. reflexivity.
  - rewrite X3. cbn. rewrite upd_same. cbn. rewrite X2, X4. destruct r0; reflexivity.
  - rewrite X3, X3. destruct (m_has_got (futs s 0)); [reflexivity|]. destruct r0; reflexivity.
Qed.

Lemma ready_exact sp l s s' :
  run (step 1 sp) init l = Some s -> step 1 sp s (EReady 0) = Some s' ->
  observe s (EReady 0) s' = [SaysReady 0 (match stored (trace (step 1 sp) observe init l) with Some _ => true | None => false end)].
Proof.
  intros Hr Hs. pose proof (stored_run _ _ _ _ _ Hr) as HS. cbn [init fulfilled] in HS. rewrite <- HS.
  apply Inv1_run in Hr. destruct Hr as [_ _ JO JK].
  unfold step in Hs. destruct (asserted s); [discriminate|]. cbn [Nat.ltb Nat.leb] in Hs.
  destruct (at_ (futs s 0)); inversion Hs; subst. cbn [observe]. unfold fetch, K in *.
  destruct JK as [(-> & X1 & X2 & X3 & _)|[(r0 & -> & X2 & X3 & X4 & _)|(r0 & -> & X2 & X3 & _)]].
  - rewrite X2. cbn. rewrite upd_same. cbn. rewrite X1. reflexivity.
  - rewrite X3. cbn. rewrite upd_same. cbn. rewrite X2. reflexivity.
  - rewrite X3, X3. reflexivity.
Qed.

(** ready() does not change the answer of a following get_nonblk() *)
Lemma ready_then_nonblk s i : snd (get_nonblk (fetch s i) i) = snd (get_nonblk s i).
Proof.
  unfold get_nonblk. destruct (m_ff (futs (fetch s i) i)) as [r|] eqn:E.
  - assert (Ef : fetch (fetch s i) i = fetch s i) by (unfold fetch at 1; now rewrite E). rewrite Ef, E.
    destruct (m_has_got (futs (fetch s i) i)); reflexivity.
  - assert (H : ss_ff (fetch s i) = None).
    { revert E. unfold fetch. destruct (m_ff (futs s i)) eqn:Ei; [congruence|]. reflexivity. }
    assert (Ef : m_ff (futs (fetch (fetch s i) i) i) = None).
    { unfold fetch at 1. rewrite E. cbn. rewrite upd_same. exact H. }
    rewrite Ef. reflexivity.
Qed.

(** blocking get(), no spurious wake-ups, nobody polls after fulfilment *)
Definition no_poll_after (s : state) (e : event) : Prop :=
  fulfilled s <> None -> match e with EReady _ | EGetNonblk _ | EAwait _ => False | _ => True end.

Definition L (s : state) : Prop :=
  (at_ (futs s 0) = Blocked -> fulfilled s = None) /\
  (at_ (futs s 0) = Notified -> fulfilled s <> None /\ m_has_got (futs s 0) = false) /\
  (fulfilled s <> None -> m_has_got (futs s 0) = false -> m_ff (futs s 0) = None).

Lemma L_step s e s' : Inv1 s -> L s -> no_poll_after s e -> step 1 false s e = Some s' -> L s'.
Proof.
  intros J HL HP Hs. pose proof (Inv1_step _ _ _ _ J Hs) as J'.
  destruct J as [_ JA JO JK]. destruct J' as [_ JA' JO' JK']. destruct HL as (L1 & L2 & L3).
  unfold step in Hs. rewrite JA in Hs. unfold no_poll_after in HP.
  destruct s as [ss w fs ful asr]; cbn [ss_ff ss_waiting futs fulfilled asserted] in *. subst asr.
  assert (Hz : forall i, at_ (fs i) <> Idle -> i = 0).
  { intros i Hi. destruct i; [reflexivity|]. rewrite (JO (S i)) in Hi by discriminate. now cbn in Hi. }
  destruct (fs 0) as [ff0 hg0 at0] eqn:E0; cbn [m_ff m_has_got at_] in *.
  unfold K in JK; cbn [m_ff m_has_got at_] in JK.
  assert (fin : forall s1, Some s1 = Some s' ->
     ((at_ (futs s1 0) = Blocked -> fulfilled s1 = None) /\
      (at_ (futs s1 0) = Notified -> fulfilled s1 <> None /\ m_has_got (futs s1 0) = false) /\
      (fulfilled s1 <> None -> m_has_got (futs s1 0) = false -> m_ff (futs s1 0) = None)) -> L s').
  { intros s1 H; inversion H; subst; auto. }
  destruct e as [r v|i|i|i|i|i|i|i|i].
  - destruct ful; [discriminate|].
    match goal with H : (if ?c then _ else _) = _ |- _ => destruct c eqn:Ec; [|discriminate] end.
    cbn in Ec. rewrite E0 in Ec. cbn in Ec.
    destruct JK as [(_ & -> & -> & -> & JK)|[(? & X & _)|(? & X & _)]]; [|discriminate..].
    unfold set_value, wake in Hs. cbn [ss_waiting futs asserted] in Hs.
    destruct JK as [[-> ->]|(-> & N1 & N2)].
    + set (s2 := goto _ 0 Woken) in Hs.
      assert (HH : match at_ (futs s2 v) with Blocked => goto s2 v Notified | _ => s2 end = s2).
      { subst s2. cbn. updc v 0; cbn; [reflexivity|]. now rewrite JO. }
      rewrite HH in Hs. eapply fin; [exact Hs|]. subst s2; cbn. rewrite upd_same, E0; cbn. repeat split; congruence.
    + destruct (Nat.eq_dec v 0) as [->|Hn].
      * cbn in Hs. rewrite E0 in Hs. destruct at0; cbn in Hs; try congruence;
        (eapply fin; [exact Hs|]); cbn; rewrite ?upd_same, ?E0; cbn; repeat split; intros; try congruence.
        all: try (destruct L2; auto; congruence).
      * cbn in Hs. rewrite (JO v Hn) in Hs, Ec. cbn in Hs, Ec. rewrite orb_false_r in Ec.
        destruct at0; try discriminate; (eapply fin; [exact Hs|]); cbn; rewrite ?E0; cbn; repeat split; intros; try congruence.
        all: try (destruct L2; auto; congruence).
  - destruct i; [|discriminate]. destruct ful as [rf|]; [exfalso; apply HP; discriminate|].
    cbn in Hs; rewrite E0 in Hs; cbn in Hs. destruct at0; try discriminate.
    unfold fetch in Hs; cbn in Hs; rewrite E0 in Hs; cbn in Hs.
    destruct ff0; (eapply fin; [exact Hs|]); cbn; rewrite ?upd_same, ?E0; cbn; repeat split; congruence.
  - destruct i; [|discriminate]. destruct ful as [rf|]; [exfalso; apply HP; discriminate|].
    cbn in Hs; rewrite E0 in Hs; cbn in Hs. destruct at0; try discriminate.
    destruct JK as [(_ & -> & -> & -> & JK)|[(? & X & _)|(? & X & _)]]; [|discriminate..].
    unfold get_nonblk, fetch in Hs; cbn in Hs; rewrite E0 in Hs; cbn in Hs. rewrite upd_same in Hs; cbn in Hs.
    (eapply fin; [exact Hs|]); cbn; rewrite ?upd_same, ?E0; cbn; repeat split; congruence.
  - destruct i; [|discriminate]. cbn in Hs; rewrite E0 in Hs; cbn in Hs. destruct at0; try discriminate.
    destruct hg0; cbn in Hs; [(eapply fin; [exact Hs|]); cbn; rewrite ?upd_same, ?E0; cbn; repeat split; congruence|].
    destruct JK as [(-> & -> & -> & _ & JK)|[(? & -> & -> & -> & _)|(? & X & Y & Z & _)]].
    + eapply fin; [exact Hs|]. cbn; rewrite ?upd_same, ?E0; cbn. repeat split; congruence.
    + eapply fin; [exact Hs|]. cbn; rewrite ?upd_same, ?E0; cbn. repeat split; congruence.
    + rewrite L3 in Z; congruence.
  - discriminate.
  - destruct (at_ (fs i)) eqn:Ei; try discriminate. assert (i = 0) by (apply Hz; congruence). subst i. rewrite E0 in Ei. cbn in Ei. subst at0.
    destruct (L2 eq_refl) as [X Y]. subst hg0. rewrite (L3 X eq_refl) in *.
    destruct JK as [(Z & _)|[(r & -> & -> & _)|(r & _ & _ & Z & _)]]; [congruence| |discriminate].
    unfold get_nonblk, fetch in Hs; cbn in Hs; rewrite E0 in Hs; cbn in Hs. rewrite ?upd_same in Hs; cbn in Hs. rewrite ?upd_same in Hs; cbn in Hs.
    eapply fin; [exact Hs|]. cbn; rewrite ?upd_same, ?E0; cbn; rewrite ?upd_same; cbn. repeat split; congruence.
  - destruct i; [|discriminate]. destruct ful as [rf|]; [exfalso; apply HP; discriminate|].
    cbn in Hs; rewrite E0 in Hs; cbn in Hs. destruct at0; try discriminate.
    destruct JK as [(_ & -> & -> & -> & JK)|[(? & X & _)|(? & X & _)]]; [|discriminate..].
    unfold get_nonblk, fetch in Hs; cbn in Hs; rewrite E0 in Hs; cbn in Hs. rewrite ?upd_same in Hs; cbn in Hs.
    (eapply fin; [exact Hs|]); cbn; rewrite ?upd_same, ?E0; cbn; repeat split; congruence.
  - destruct (at_ (fs i)) eqn:Ei; try discriminate. assert (i = 0) by (apply Hz; congruence). subst i. rewrite E0 in Ei. cbn in Ei. subst at0.
    destruct JK as [(-> & -> & -> & -> & JK)|[(r & -> & -> & -> & -> & -> & _)|(r & _ & _ & _ & _ & Z)]]; [| |intuition congruence].
    + destruct JK as [[_ X]|[-> _]]; [discriminate|]. cbn in Hs. eapply fin; [exact Hs|]. cbn; rewrite ?upd_same, ?E0; cbn; repeat split; congruence.
    + cbn in Hs. eapply fin; [exact Hs|]. cbn; rewrite ?upd_same, ?E0; cbn; repeat split; congruence.
  - destruct (at_ (fs i)) eqn:Ei; try discriminate. assert (i = 0) by (apply Hz; congruence). subst i. rewrite E0 in Ei. cbn in Ei. subst at0.
    destruct JK as [(-> & -> & -> & -> & [[_ ?]|(_ & _ & ?)])|[(r & -> & -> & -> & -> & -> & _)|(r & _ & _ & _ & _ & Z)]];
      [congruence|congruence| |intuition congruence].
    unfold get_nonblk, fetch in Hs; cbn in Hs; rewrite E0 in Hs; cbn in Hs. rewrite ?upd_same in Hs; cbn in Hs.
    eapply fin; [exact Hs|]. cbn; rewrite ?upd_same, ?E0; cbn; rewrite ?upd_same; cbn. repeat split; congruence.
Qed.

Lemma L_run l s : run_all (step 1 false) no_poll_after init l -> run (step 1 false) init l = Some s -> Inv1 s /\ L s.
Proof.
  intros HP Hr. refine (run_inv_cond (step 1 false) no_poll_after (fun s => Inv1 s /\ L s) _ l init s _ HP Hr).
  - intros s0 e s1 [J HL] HPe Hs. split; [eapply Inv1_step; eauto|eapply L_step; eauto].
  - split; [apply Inv1_init|]. repeat split; cbn; try discriminate.
Qed.

Lemma blocking_get l s r :
  run_all (step 1 false) no_poll_after init l -> run (step 1 false) init l = Some s ->
  at_ (futs s 0) = Blocked \/ at_ (futs s 0) = Notified -> fulfilled s = Some r ->
  exists s', run (step 1 false) s [EGetRest 0] = Some s' /\ trace (step 1 false) observe s [EGetRest 0] = [Got 0 (as_outcome r)].
Proof.
  intros HP Hr Ha Hf. destruct (L_run _ _ HP Hr) as [[_ JA _ JK] (L1 & L2 & L3)].
  destruct Ha as [Ha|Ha]; [rewrite (L1 Ha) in Hf; discriminate|].
  destruct (L2 Ha) as [X Y]. pose proof (L3 X Y) as Z.
  destruct s as [ss w fs ful asr]; cbn in *. subst.
  destruct (fs 0) as [ff0 hg0 at0] eqn:E0; cbn in *. subst.
  destruct JK as [(Q & _)|[(r0 & Q & -> & _)|(r0 & _ & _ & Q & _)]]; cbn in *; try discriminate. inversion Q; subst r0; clear Q.
  eexists. split; cbn; rewrite ?E0; cbn; [reflexivity|].
  unfold get_nonblk, fetch; repeat progress (cbn; rewrite ?upd_same, ?E0). destruct r; reflexivity.
Qed.

(** ready() first, then get(): the thread blocks for good *)
Lemma blocked_forever l : forall s s',
  asserted s = false -> fulfilled s <> None -> at_ (futs s 0) = Blocked -> (forall i, i <> 0 -> futs s i = fresh) ->
  run (step 1 false) s l = Some s' -> at_ (futs s' 0) = Blocked /\ trace (step 1 false) observe s l = [].
Proof.
  induction l as [|e l IH]; cbn [run trace]; intros s s' HA HF HB HO Hr.
  - inversion Hr; subst. auto.
  - destruct (step 1 false s e) as [s1|] eqn:E; [|discriminate]. exfalso.
    unfold step in E. rewrite HA in E.
    assert (Hz : forall i, match at_ (futs s i) with Idle | Blocked => True | _ => False end).
    { intros [|i]; [now rewrite HB|]. rewrite HO by discriminate. exact I. }
    destruct e as [r v|i|i|i|i|i|i|i|i].
    + destruct (fulfilled s); [discriminate|congruence].
    + destruct i; [|discriminate]. cbn in E. rewrite HB in E. discriminate.
    + destruct i; [|discriminate]. cbn in E. rewrite HB in E. discriminate.
    + destruct i; [|discriminate]. cbn in E. rewrite HB in E. discriminate.
    + discriminate.
    + specialize (Hz i). destruct (at_ (futs s i)); try discriminate; contradiction.
    + destruct i; [|discriminate]. cbn in E. rewrite HB in E. discriminate.
    + specialize (Hz i). destruct (at_ (futs s i)); try discriminate; contradiction.
    + specialize (Hz i). destruct (at_ (futs s i)); try discriminate; contradiction.
Qed.
