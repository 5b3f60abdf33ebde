(** Proofs for C139: the invariant of well-formed programs, and progress by the order. *)
From Coq Require Import List Arith Bool Lia.
From Verif.Common Require Import TS Sum.
From Verif.Structured Require Import Model Spec.
Import ListNotations.

Definition c (l : list res) (r : res) : nat := count_occ res_eq_dec l r.
Lemma c_in l r : In r l <-> 0 < c l r.
Proof. unfold c. rewrite (count_occ_In res_eq_dec). lia. Qed.
Lemma c_cons a l r : c (a :: l) r = (if res_eq_dec a r then 1 else 0) + c l r.
Proof. unfold c. cbn. destruct (res_eq_dec a r); lia. Qed.
Lemma c_less a l r : In a l -> c l r = (if res_eq_dec a r then 1 else 0) + c (less a l) r.
Proof.
  induction l as [|x l IH]; intros H; [contradiction|]. cbn [less]. destruct (res_eq_dec x a) as [->|N].
  - apply c_cons.
  - rewrite !c_cons, IH by (destruct H; [contradiction|assumption]). lia.
Qed.
Lemma c_app a b r : c (a ++ b) r = c a r + c b r.
Proof. unfold c. apply count_occ_app. Qed.
Lemma c_rep g k r : c (repeat (G g) k) r = if res_eq_dec (G g) r then k else 0.
Proof. induction k as [|k IH]; cbn [repeat]; [destruct (res_eq_dec (G g) r); reflexivity|]. rewrite c_cons, IH. destruct (res_eq_dec (G g) r); lia. Qed.
Lemma c_give : forall gs l l' r, give gs l = Some l' -> c l r = c (map G gs) r + c l' r.
Proof.
  induction gs as [|g gs IH]; cbn [give map]; intros l l' r H; [injection H as <-; reflexivity|].
  destruct (in_dec res_eq_dec (G g) l) as [Hi|]; [|discriminate]. rewrite c_cons, (c_less (G g) l r Hi), (IH _ _ r H). lia.
Qed.
Lemma c_given_M gs m : c (map G gs) (M m) = 0.
Proof. induction gs; cbn [map]; [reflexivity|]. rewrite c_cons. destruct (res_eq_dec (G a) (M m)); [discriminate|assumption]. Qed.
Lemma c_given_F gs t : c (map G gs) (F t) = 0.
Proof. induction gs; cbn [map]; [reflexivity|]. rewrite c_cons. destruct (res_eq_dec (G a) (F t)); [discriminate|assumption]. Qed.

Lemma updE {A} (f : nat -> A) i p j : upd f i p j = if j =? i then p else f j.
Proof. destruct (Nat.eqb_spec j i); [subst; apply upd_same|now apply upd_other]. Qed.
Ltac ue := rewrite ?updE in *; repeat match goal with
  | H : context[?a =? ?b] |- _ => destruct (Nat.eqb_spec a b); subst
  | |- context[?a =? ?b] => destruct (Nat.eqb_spec a b); subst end.
Lemma sum_one_lt n f g t : t < n -> (forall i, i <> t -> f i = g i) -> f t < g t -> sum_to n f < sum_to n g.
Proof. intros Ht H L. pose proof (sum_to_one n f g t Ht H). lia. Qed.
Lemma sum_upd n (h : nat -> list res) i x r : i < n -> sum_to n (fun j => c (upd h i x j) r) + c (h i) r = sum_to n (fun j => c (h j) r) + c x r.
Proof.
  intros Hi. pose proof (sum_to_one n (fun j => c (upd h i x j) r) (fun j => c (h j) r) i Hi) as H. cbn beta in H. rewrite upd_same in H. apply H. intros j Hj. now rewrite upd_other.
Qed.

Section Inv.
  Variables (n : nat) (roots : nat -> bool) (progs : nat -> list action) (rank : res -> nat) (given : nat -> list nat).
  (** [held i]: the mutexes that task [i] has and the done() calls that it owes; [futs i]: the futures it has. *)
  Record P (s : state) (held : nat -> list res) (futs : nat -> list nat) : Prop := {
    p_cur : forall t, cur s = Some t <-> stat s t = Running;
    p_out : forall i, n <= i -> stat s i = Dormant;
    p_idle : forall i, stat s i = Dormant \/ stat s i = Finished -> held i = [];
    p_f : forall i t, c (held i) (F t) = 0;
    p_own : forall m i, c (held i) (M m) = match own s m with Some j => if i =? j then 1 else 0 | None => 0 end;
    p_cnt : forall g, cnt s g = sum_to n (fun i => c (held i) (G g));
    p_q : forall m i, In i (queue s m) <-> stat s i = Waits (M m);
    p_nd : forall m, NoDup (queue s m);
    p_qo : forall m, queue s m <> [] -> own s m <> None;
    p_g : forall g i, In i (gqueue s g) <-> stat s i = Waits (G g);
    p_gnd : forall g, NoDup (gqueue s g);
    p_go : forall g, gqueue s g <> [] -> cnt s g <> 0;
    p_j : forall t j, joiner s t = Some j <-> stat s j = Waits (F t);
    p_jt : forall t, stat s t = Finished \/ stat s t = Dormant -> joiner s t = None;
    p_ord : forall i, i < n -> match stat s i with
                    | Finished => prog s i = []
                    | Dormant => ordered rank given i (map G (given i)) [] (prog s i)
                    | Waits (M m) => may_wait rank i (held i) (M m) /\ ordered rank given i (M m :: held i) (futs i) (prog s i)
                    | Waits r => may_wait rank i (held i) r /\ ordered rank given i (held i) (futs i) (prog s i)
                    | _ => ordered rank given i (held i) (futs i) (prog s i) end;
    p_fd : forall i, stat s i = Dormant -> futs i = [];
    p_fut : forall i t, In t (futs i) -> stat s t <> Dormant /\ joiner s t = None;
    p_fut1 : forall i j t, In t (futs i) -> In t (futs j) -> i = j;
    p_st : forall i t, i < n -> In t (starts (prog s i)) -> t < n /\ stat s t = Dormant;
    p_st1 : forall i, i < n -> NoDup (starts (prog s i));
    p_st2 : forall i j t, i < n -> j < n -> In t (starts (prog s i)) -> In t (starts (prog s j)) -> i = j;
    p_reach : forall i t, i < n -> In t (starts (progs i)) -> In t (starts (prog s i)) \/ stat s t <> Dormant;
    p_root : forall i, roots i = true -> stat s i <> Dormant }.
  Definition weight (s : state) (i : nat) : nat := 2 * length (prog s i) + match stat s i with Dormant | Ready | Woken _ | Waits _ => 2 | Running => 1 | Finished => 0 end.
  Definition weight_all (s : state) : nat := sum_to n (weight s).

  Ltac fields := cbn [prog stat cur own queue cnt gqueue joiner].
  Ltac ser := try match goal with SE : forall i, starts (upd _ _ _ i) = _ |- _ => try rewrite SE; repeat match goal with H : In _ (starts (upd _ _ _ _)) |- _ => rewrite SE in H end end.
  Ltac go := intros; fields; ser; try solve [ue; eauto; try congruence; try lia; try tauto; try (intuition (try congruence))].
  Ltac count := repeat match goal with
     | H : In ?a ?l |- context[c (less ?a ?l) ?r] => match goal with _ : c l r = _ + c (less a l) r |- _ => fail 1 | _ => pose proof (c_less a l r H) end
     | H : In ?a ?l, _ : context[c (less ?a ?l) ?r] |- _ => match goal with _ : c l r = _ + c (less a l) r |- _ => fail 1 | _ => pose proof (c_less a l r H) end end;
    rewrite ?c_cons, ?c_app, ?c_rep, ?c_given_M, ?c_given_F in *;
    repeat match goal with H : context[res_eq_dec ?a ?b] |- _ => destruct (res_eq_dec a b); try discriminate | |- context[res_eq_dec ?a ?b] => destruct (res_eq_dec a b); try discriminate end;
    try solve [lia | congruence].
  Ltac more :=
    match goal with
    | p_q0 : forall m i, In i (queue _ m) <-> _ |- In _ (queue _ _) <-> _ => rewrite p_q0; ue; [|tauto]; split; congruence
    | p_g0 : forall m i, In i (gqueue _ m) <-> _ |- In _ (gqueue _ _) <-> _ => rewrite p_g0; ue; [|tauto]; split; congruence
    | p_j0 : forall t j, joiner _ t = Some j <-> _ |- joiner _ _ = Some _ <-> _ => rewrite p_j0; ue; [|tauto]; split; congruence
    | p_fut0 : forall i t, In t (?f i) -> _, H : In ?t (?f ?i) |- _ /\ joiner _ ?t = None => destruct (p_fut0 i t H); split; auto; ue; congruence
    | p_st0 : forall i t, i < n -> In t (starts (prog _ i)) -> _, Hi : ?i < n, H : In ?t (starts (prog _ ?i)) |- ?t < n /\ _ => destruct (p_st0 i t Hi H); split; auto; ue; congruence
    | p_ord0 : forall i, i < n -> match stat _ i with _ => _ end, Hi : ?i < n |- match _ with Dormant => _ | _ => _ end => specialize (p_ord0 i Hi); ue; try match goal with Er : stat _ _ = Running |- _ => rewrite ?Er in * end; solve [auto | tauto | congruence]
    | One : forall i, stat _ i = Running -> i = _ |- None = Some _ <-> _ => split; [discriminate|]; intros X; ue; try discriminate; now apply One in X
    | One : forall i, stat _ i = Running -> i = _ |- Some _ = Some _ <-> _ => split; [let X := fresh in intros X; injection X as <-; ue; congruence|intros X; ue; try congruence; f_equal; symmetry; now apply One]
    | p_f0 : forall i t, c (_ i) (F t) = 0 |- c (_ ?i) (F ?t) = 0 => pose proof (p_f0 i t); ue; auto; count
    | p_cnt0 : forall g, cnt _ g = sum_to n _ |- cnt _ ?g = sum_to n (fun i => c (upd ?h ?t ?x i) _) => rewrite (p_cnt0 g); let X := fresh in pose proof (sum_upd n h t x (G g) ltac:(assumption)) as X; count
    | p_own0 : forall m i, c (_ i) (M m) = _ |- c (_ ?i) (M ?m) = match own _ _ with _ => _ end => pose proof (p_own0 m i); destruct (own _ m); ue; count
    | p_reach0 : forall i t, i < n -> In t (starts (progs i)) -> _, Hi : ?i < n, H : In ?t (starts (progs ?i)) |- _ => destruct (p_reach0 i t Hi H); [now left|right; ue; congruence]
    | _ => idtac end.
  Lemma pick_inv s held futs t s' : P s held futs -> step n s (Pick t) = Some s' -> P s' held futs /\ weight_all s' < weight_all s.
  Proof.
    intros HP Hs. unfold step in Hs. destruct (Nat.ltb_spec t n) as [Ht|]; [|discriminate]. destruct (cur s) eqn:Ec; [discriminate|].
    assert (Es' : s' = St (prog s) (upd (stat s) t Running) (Some t) (own s) (queue s) (cnt s) (gqueue s) (joiner s)) by (destruct (stat s t); congruence).
    assert (Ord : ordered rank given t (held t) (futs t) (prog s t)) by (pose proof (p_ord _ _ _ HP t Ht) as X; destruct (stat s t); try discriminate; exact X).
    assert (Nd : stat s t <> Dormant) by (intros X; rewrite X in Hs; discriminate). assert (Nf : stat s t <> Finished) by (intros X; rewrite X in Hs; discriminate).
    assert (Nw : forall r, stat s t <> Waits r) by (intros r X; rewrite X in Hs; discriminate).
    assert (W : weight s t = 2 * length (prog s t) + 2) by (unfold weight; destruct (stat s t); try discriminate; reflexivity).
    assert (NR : forall i, stat s i <> Running) by (intros i H; apply (p_cur _ _ _ HP) in H; congruence).
    subst s'. clear Hs. destruct HP. split.
    - split; fields; go; more.
    - apply (sum_one_lt n _ _ t Ht).
      + intros i Hi. unfold weight. fields. ue; [contradiction|reflexivity].
      + rewrite W. unfold weight. fields. ue; [lia|contradiction].
  Qed.
  Section GoCase.
    Variables (s : state) (held : nat -> list res) (futs : nat -> list nat) (t : nat).
    Hypothesis HP : P s held futs.
    Hypothesis Ec : cur s = Some t.
    Let Er : stat s t = Running. Proof. now apply (p_cur _ _ _ HP). Qed.
    Let Ht : t < n. Proof. destruct (Nat.lt_ge_cases t n) as [|H]; auto. apply (p_out _ _ _ HP) in H. congruence. Qed.
    Let One : forall i, stat s i = Running -> i = t. Proof. intros i H. apply (p_cur _ _ _ HP) in H. congruence. Qed.
    Let Ord : ordered rank given t (held t) (futs t) (prog s t). Proof. pose proof (p_ord _ _ _ HP t Ht) as X. rewrite Er in X. exact X. Qed.
    Let W : weight s t = 2 * length (prog s t) + 1. Proof. unfold weight. rewrite Er. reflexivity. Qed.
    Ltac lighter := apply (sum_one_lt n _ _ t Ht); [intros i Hi; unfold weight; fields; ue; [contradiction|reflexivity]|rewrite W; unfold weight; fields; ue; [try rewrite Er; cbn [length]; lia|contradiction]].
    Ltac prep := pose proof Er as Er0; pose proof Ht as Ht0; pose proof One as One0; pose proof Ord as Ord0; pose proof W as W0; clear Er Ht One Ord W; rename Er0 into Er; rename Ht0 into Ht; rename One0 into One; rename Ord0 into Ord; rename W0 into W.

    Ltac se p Ep := assert (SE : forall i, starts (upd (prog s) t p i) = starts (prog s i)) by (intros i; ue; [rewrite Ep; reflexivity|reflexivity]).
    Lemma pause_inv p s' : prog s t = Pause :: p -> step n s Go = Some s' -> P s' held futs /\ weight_all s' < weight_all s.
    Proof.
      intros Ep Hs. prep. se p Ep. unfold step in Hs. rewrite Ec, Ep in Hs. injection Hs as <-. rewrite Ep in *. cbn [ordered length] in *. split; [|lighter].
      destruct HP. split; fields; go; more.
    Qed.
    Lemma lock_inv m p s' : prog s t = Lock m :: p -> step n s Go = Some s' -> (exists held', P s' held' futs) /\ weight_all s' < weight_all s.
    Proof.
      intros Ep Hs. prep. se p Ep. unfold step in Hs. rewrite Ec, Ep in Hs. rewrite Ep in *. cbn [ordered length] in *. destruct Ord as [Hw Ord'].
      destruct (own s m) as [o|] eqn:Eo; injection Hs as <-; (split; [|lighter]).
      - exists held. destruct HP. split; fields; go; more.
        + ue; rewrite ?in_app_iff, ?p_q0; cbn; rewrite ?Er; split; try tauto; try congruence; try discriminate. intros [H|[H|[]]]; congruence.
        + ue; auto. apply NoDup_snoc; auto. rewrite p_q0, Er. discriminate.
      - exists (upd held t (M m :: held t)). destruct HP. split; fields; go; more.
        pose proof (p_own0 m0 i) as A. ue; try rewrite Eo in A; try destruct (own s _) eqn:?; ue; count.
    Qed.
    Lemma unlock_inv m p s' : prog s t = Unlock m :: p -> step n s Go = Some s' -> (exists held', P s' held' futs) /\ weight_all s' < weight_all s.
    Proof.
      intros Ep Hs. prep. se p Ep. unfold step in Hs. rewrite Ec, Ep in Hs. rewrite Ep in *. cbn [ordered length] in *. destruct Ord as [Hi0 Ord'].
      destruct (queue s m) as [|w r] eqn:Eq; injection Hs as <-; (split; [|try lighter]).
      - exists (upd held t (less (M m) (held t))). destruct HP. split; fields; go; more.
        pose proof (p_own0 m0 i) as A. pose proof (p_own0 m t) as B. pose proof (proj1 (c_in _ _) Hi0) as D. destruct (own s m) as [o|] eqn:Eo; [|lia]. destruct (Nat.eqb_spec t o); [subst o|lia]. ue; rewrite ?Eo in *; try destruct (own s _) eqn:?; ue; count.
      - exists (upd (upd held t (less (M m) (held t))) w (M m :: held w)). assert (Ew : stat s w = Waits (M m)) by (apply (p_q _ _ _ HP); rewrite Eq; now left). assert (Nwt : w <> t) by congruence. assert (Ntw : t <> w) by congruence.
        assert (Nw : ~ In w r) by (pose proof (p_nd _ _ _ HP m) as X; rewrite Eq in X; now inversion X). assert (Hw : w < n) by (destruct (Nat.lt_ge_cases w n) as [|X]; auto; apply (p_out _ _ _ HP) in X; congruence).
        pose proof (p_ord _ _ _ HP w Hw) as Ow. rewrite Ew in Ow. destruct HP. split; fields; go; more.
        + pose proof (p_own0 m0 i) as A. pose proof (p_own0 m t) as B. pose proof (proj1 (c_in _ _) Hi0) as D. destruct (own s m) as [o|] eqn:Eo; [|lia]. destruct (Nat.eqb_spec t o); [subst o|lia]. ue; rewrite ?Eo in *; try destruct (own s _) eqn:?; ue; count.
        + pose proof (sum_upd n held t (less (M m) (held t)) (G g) Ht) as A. pose proof (sum_upd n (upd held t (less (M m) (held t))) w (M m :: held w) (G g) Hw) as B. rewrite upd_other in B by auto. count.
        + pose proof (p_q0 m0 i) as X. ue; rewrite ?Eq in *; cbn in *; try tauto; try (split; [tauto|congruence]).
           * rewrite <- X. split; [tauto|]. intros [Y|Y]; (congruence || exact Y).
           * rewrite X, Ew. split; congruence.
        + pose proof (p_nd0 m0). ue; auto. rewrite Eq in *. now inversion H.
      - assert (Ew : stat s w = Waits (M m)) by (apply (p_q _ _ _ HP); rewrite Eq; now left). assert (Nwt : w <> t) by congruence. assert (Ntw : t <> w) by congruence.
        apply (sum_one_lt n _ _ t Ht).
        + intros i Hi. unfold weight. fields. ue; try contradiction; auto. rewrite Ew. reflexivity.
        + rewrite W. unfold weight. fields. ue; try contradiction. rewrite Er. lia.
    Qed.
    Lemma add_inv g k p s' : prog s t = Add g k :: p -> step n s Go = Some s' -> (exists held', P s' held' futs) /\ weight_all s' < weight_all s.
    Proof.
      intros Ep Hs. prep. se p Ep. unfold step in Hs. rewrite Ec, Ep in Hs. rewrite Ep in *. cbn [ordered length] in *. injection Hs as <-; (split; [|try lighter]).
      - exists (upd held t (repeat (G g) k ++ held t)). destruct HP. split; fields; go; more.
        + pose proof (sum_upd n held t (repeat (G g) k ++ held t) (G g0) Ht) as A. pose proof (p_cnt0 g0). ue; count.
        + pose proof (p_go0 g0 H). ue; lia.
    Qed.
    Lemma wait_inv g p s' : prog s t = Wait g :: p -> step n s Go = Some s' -> P s' held futs /\ weight_all s' < weight_all s.
    Proof.
      intros Ep Hs. prep. se p Ep. unfold step in Hs. rewrite Ec, Ep in Hs. rewrite Ep in *. cbn [ordered length] in *. destruct Ord as [Hw Ord'].
      destruct (cnt s g) eqn:Eg; injection Hs as <-; (split; [|try lighter]).
      - destruct HP. split; fields; go; more.
      - destruct HP. split; fields; go; more.
        + ue; rewrite ?in_app_iff, ?p_g0; cbn; rewrite ?Er; split; try tauto; try congruence; try discriminate. intros [H|[H|[]]]; congruence.
        + ue; auto. apply NoDup_snoc; auto. rewrite p_g0, Er. discriminate.
    Qed.
    Lemma wake_spec g : P s held futs -> forall i, (stat s i = Waits (G g) /\ wake_all (gqueue s g) (G g) (stat s) i = Woken (G g)) \/ (stat s i <> Waits (G g) /\ wake_all (gqueue s g) (G g) (stat s) i = stat s i).
    Proof.
      intros X i. unfold wake_all. destruct (existsb (Nat.eqb i) (gqueue s g)) eqn:E.
      - left. split; auto. apply existsb_exists in E as (j & Hj & Ej). apply Nat.eqb_eq in Ej. subst j. now apply (p_g _ _ _ X).
      - right. split; auto. intros Y. apply (p_g _ _ _ X) in Y. enough (existsb (Nat.eqb i) (gqueue s g) = true) by congruence. apply existsb_exists. exists i. split; auto. apply Nat.eqb_refl.
    Qed.
    Ltac wk WA := repeat match goal with H : context[?f ?i] |- _ => match type of WA with forall i, _ \/ (_ /\ f i = _) => destruct (WA i) as [[? X]|[? X]]; rewrite X in *; clear X end
       | |- context[?f ?i] => match type of WA with forall i, _ \/ (_ /\ f i = _) => let X := fresh in destruct (WA i) as [[? X]|[? X]]; rewrite X in *; clear X end end; try discriminate.
    Lemma done_inv g p s' : prog s t = Done g :: p -> step n s Go = Some s' -> (exists held', P s' held' futs) /\ weight_all s' < weight_all s.
    Proof.
      intros Ep Hs. prep. se p Ep. unfold step in Hs. rewrite Ec, Ep in Hs. rewrite Ep in *. cbn [ordered length] in *. destruct Ord as [Hi0 Ord'].
      destruct (cnt s g) as [|[|k]] eqn:Eg; [discriminate| |]; injection Hs as <-; (split; [exists (upd held t (less (G g) (held t)))|try lighter]).
      - pose proof (wake_spec g HP) as WA. revert WA. generalize (wake_all (gqueue s g) (G g) (stat s)) as st'. intros st' WA.
        destruct HP. split; fields; go; wk WA; go; more.
        + exfalso. apply p_out0 in H. congruence.
        + pose proof (sum_upd n held t (less (G g) (held t)) (G g0) Ht) as A. pose proof (p_cnt0 g0). ue; count.
        + rewrite p_q0. split; congruence.
        + ue; [split; [contradiction|discriminate]|]. rewrite p_g0. split; congruence.
        + ue; [split; [contradiction|congruence]|]. apply p_g0.
        + ue; auto. constructor.
        + rewrite p_j0. split; congruence.
        + specialize (p_ord0 i H). match goal with X : stat s i = _ |- _ => rewrite X in p_ord0 end. ue; [congruence|tauto].
      - pose proof (wake_spec g HP) as WA. revert WA. generalize (wake_all (gqueue s g) (G g) (stat s)) as st'. intros st' WA.
        apply (sum_one_lt n _ _ t Ht).
        + intros i Hi. unfold weight. fields. rewrite upd_other by auto. destruct (WA i) as [[X ->]|[X ->]]; auto. rewrite X. reflexivity.
        + rewrite W. unfold weight. fields. rewrite upd_same. destruct (WA t) as [[X ->]|[X ->]]; [congruence|]. rewrite Er. lia.
      - destruct HP. split; fields; go; more.
        pose proof (sum_upd n held t (less (G g) (held t)) (G g0) Ht) as A. pose proof (p_cnt0 g0). ue; count.
    Qed.
    Lemma spawn_inv x p s' : prog s t = Spawn x :: p -> step n s Go = Some s' -> (exists held' futs', P s' held' futs' /\ forall i y, In y (futs' i) -> In y (futs i) \/ y = x) /\ weight_all s' < weight_all s.
    Proof.
      intros Ep Hs. prep. unfold step in Hs. rewrite Ec, Ep in Hs. rewrite Ep in *. cbn [ordered length] in *. destruct Ord as (h' & Hg & Ord').
      assert (Cg : forall r, c (held t) r = c (map G (given x)) r + c h' r) by (intros r; now apply c_give).
      assert (Sx : In x (starts (prog s t))) by (rewrite Ep; now left). destruct (p_st _ _ _ HP t x Ht Sx) as [Hx _].
      assert (SE : forall i y, In y (starts (upd (prog s) t p i)) -> In y (starts (prog s i))) by (intros i y H; ue; auto; rewrite Ep; now right).
      assert (SX : forall i, i < n -> ~ In x (starts (upd (prog s) t p i))).
      { intros i Hi H. destruct (Nat.eq_dec i t) as [->|N]; [|apply N; rewrite upd_other in H by auto; exact (p_st2 _ _ _ HP _ _ _ Hi Ht H Sx)]. rewrite upd_same in H. pose proof (p_st1 _ _ _ HP t Ht) as X. rewrite Ep in X. cbn in X. inversion X. contradiction. }
      destruct (stat s x) eqn:Ex; try discriminate; injection Hs as <-; (split; [exists (upd (upd held t h') x (map G (given x))), (upd futs t (x :: futs t)); split; [|intros i y H; ue; auto; destruct H; auto]|try lighter]).
      - assert (Nxt : x <> t) by congruence. assert (Ntx : t <> x) by congruence. assert (H0x : held x = []) by (apply (p_idle _ _ _ HP); now left).
        assert (F0x : futs x = []) by (now apply (p_fd _ _ _ HP)). assert (J0x : joiner s x = None) by (apply (p_jt _ _ _ HP); now right).
        assert (Fx : forall i, ~ In x (futs i)) by (intros i H; apply (p_fut _ _ _ HP) in H; destruct H; congruence).
        pose proof (p_ord _ _ _ HP x Hx) as Ox. rewrite Ex in Ox. rewrite <- F0x in Ox.
        destruct HP. split; fields.
        + intros i. rewrite <- Ec, p_cur0. ue; [|tauto]. rewrite Ex. split; discriminate.
        + intros i H. ue; [lia|auto].
        + intros i H. ue; [destruct H; discriminate|destruct H; congruence|auto].
        + intros i y. pose proof (p_f0 i y). pose proof (Cg (F y)). ue; auto; count.
        + intros m i. pose proof (p_own0 m i). pose proof (Cg (M m)). pose proof (c_given_M (given x) m). ue; auto; try lia. rewrite H0x in H. cbn in H. rewrite c_given_M. exact H.
        + intros g. rewrite p_cnt0. pose proof (sum_upd n held t h' (G g) Ht) as A. pose proof (sum_upd n (upd held t h') x (map G (given x)) (G g) Hx) as B. rewrite upd_other in B by auto. rewrite H0x in B. pose proof (Cg (G g)). cbn [c count_occ] in B. lia.
        + intros m i. rewrite p_q0. ue; [|tauto]. rewrite Ex. split; discriminate.
        + auto.
        + auto.
        + intros m i. rewrite p_g0. ue; [|tauto]. rewrite Ex. split; discriminate.
        + auto.
        + auto.
        + intros m i. rewrite p_j0. ue; [|tauto]. rewrite Ex. split; discriminate.
        + intros i H. ue; auto.
        + intros i H. pose proof (p_ord0 i H). ue; try contradiction; auto. rewrite Er in *. exact Ord'.
        + intros i H. ue; solve [discriminate|congruence|auto].
        + intros i y H. destruct (Nat.eq_dec y x) as [->|N]; [rewrite upd_same; split; [discriminate|auto]|]. rewrite upd_other by auto. apply (p_fut0 i). ue; auto. destruct H; congruence.
        + intros i j y Hi Hj. destruct (Nat.eq_dec y x) as [->|N].
          * assert (K : forall k, In x (upd futs t (x :: futs t) k) -> k = t) by (intros k H; destruct (Nat.eq_dec k t); auto; rewrite upd_other in H by auto; now apply Fx in H). rewrite (K i Hi), (K j Hj). reflexivity.
          * assert (K : forall k, In y (upd futs t (x :: futs t) k) -> In y (futs k)) by (intros k H; destruct (Nat.eq_dec k t) as [->|]; [rewrite upd_same in H; destruct H; congruence|rewrite upd_other in H by auto; exact H]). eauto.
        + intros i y Hi H. pose proof (SE i y H) as H1. destruct (p_st0 i y Hi H1). split; auto. destruct (Nat.eq_dec y x) as [->|N]; [|now rewrite upd_other]. exfalso. exact (SX i Hi H).
        + intros i Hi. pose proof (p_st3 i Hi) as X. ue; auto. rewrite Ep in X. cbn in X. now inversion X.
        + intros i j y Hi Hj A B. apply (p_st4 i j y); auto.
        + intros i y Hi H. destruct (p_reach0 i y Hi H) as [A|A].
          * destruct (Nat.eq_dec y x) as [->|N]; [right; rewrite upd_same; discriminate|]. left. ue; auto. rewrite Ep in A. destruct A; [congruence|assumption].
          * right. ue; [discriminate|auto].
        + intros i H. specialize (p_root0 i H). ue; [discriminate|auto].
      - assert (Ntx : t <> x) by congruence. apply (sum_one_lt n _ _ t Ht).
        + intros i Hi. unfold weight. fields. ue; try contradiction; auto. rewrite Ex. reflexivity.
        + rewrite W. unfold weight. fields. ue; try contradiction. rewrite Er. lia.
    Qed.
    Lemma join_inv x p s' : prog s t = Join x :: p -> step n s Go = Some s' -> (exists futs', P s' held futs' /\ forall i y, In y (futs' i) -> In y (futs i) /\ y <> x) /\ weight_all s' < weight_all s.
    Proof.
      intros Ep Hs. prep. se p Ep. unfold step in Hs. rewrite Ec, Ep in Hs. rewrite Ep in *. cbn [ordered length] in *. destruct Ord as (Hi0 & Hw & Ord').
      destruct (p_fut _ _ _ HP t x Hi0) as [Nd Nj]. rewrite Nj in Hs.
      assert (RE : forall i y, In y (upd futs t (remove Nat.eq_dec x (futs t)) i) -> In y (futs i) /\ y <> x).
      { intros i y H. ue; [apply in_remove in H; exact H|]. split; auto. intros ->. apply n0. exact (p_fut1 _ _ _ HP _ _ _ H Hi0). }
      destruct (stat s x) eqn:Ex; try congruence; injection Hs as <-; (split; [exists (upd futs t (remove Nat.eq_dec x (futs t))); split; [|exact RE]|try lighter]).
      all: destruct HP; split; fields; go; more.
      all: try match goal with |- (?i = ?j) => apply (p_fut2 i j t0); [now apply RE|now apply RE] end.
      all: try (apply RE in H as [A B]; destruct (p_fut0 i t0 A); split; auto; ue; try congruence).
      all: pose proof (p_j0 x j) as JX; pose proof (p_j0 t0 j) as JT; pose proof (p_j0 t0 t) as JU; rewrite Nj in JX; rewrite Er in JU.
      all: destruct (Nat.eq_dec t0 x) as [->|N1]; [rewrite upd_same|rewrite (upd_other _ x) by auto]; (destruct (Nat.eq_dec j t) as [->|N2]; [rewrite upd_same|rewrite (upd_other _ t) by auto]); try tauto; split; intros Z; try congruence.
      all: try (apply JX in Z; congruence); apply JU in Z; congruence.
    Qed.
    Lemma end_inv s' : prog s t = [] -> step n s Go = Some s' -> P s' held futs /\ weight_all s' < weight_all s.
    Proof.
      intros Ep Hs. prep. unfold step in Hs. rewrite Ec, Ep in Hs. rewrite Ep in *. cbn [ordered length] in *.
      destruct (joiner s t) as [j|] eqn:Ej; injection Hs as <-; (split; [|try lighter]).
      - assert (Wj : stat s j = Waits (F t)) by (now apply (p_j _ _ _ HP)). assert (Njt : j <> t) by congruence. assert (Ntj : t <> j) by congruence.
        assert (Hj : j < n) by (destruct (Nat.lt_ge_cases j n) as [|X]; auto; apply (p_out _ _ _ HP) in X; congruence).
        pose proof (p_ord _ _ _ HP j Hj) as Oj. rewrite Wj in Oj.
        destruct HP. split; fields; go; more.
        + rewrite p_q0. ue; try tauto; rewrite ?Wj, ?Er; split; discriminate.
        + rewrite p_g0. ue; try tauto; rewrite ?Wj, ?Er; split; discriminate.
        + pose proof (p_j0 t0 j0). ue; try tauto; try congruence; split; intros X; try congruence.
          all: apply p_j0 in X; congruence.
        + destruct (p_fut0 i t0 H). split; ue; try congruence; auto.
      - assert (Wj : stat s j = Waits (F t)) by (now apply (p_j _ _ _ HP)). assert (Njt : j <> t) by congruence. assert (Ntj : t <> j) by congruence.
        apply (sum_one_lt n _ _ t Ht).
        + intros i Hi. unfold weight. fields. ue; try contradiction; auto. rewrite Wj. reflexivity.
        + rewrite W. unfold weight. fields. ue; try contradiction. rewrite Ep. cbn [length]. lia.
      - destruct HP. split; fields; go; more.
      - apply (sum_one_lt n _ _ t Ht).
        + intros i Hi. unfold weight. fields. ue; try contradiction; auto.
        + rewrite W. unfold weight. fields. ue; try contradiction. rewrite Ep. cbn [length]. lia.
    Qed.
  End GoCase.
  (** the futures after a step *)
  Definition fewer (s : state) (e : event) (futs futs' : nat -> list nat) : Prop := forall i y, In y (futs' i) ->
    (In y (futs i) \/ stat s y = Dormant) /\ forall t p, e = Go -> cur s = Some t -> prog s t = Join y :: p -> False.
  Lemma P_step_futs s held futs e s' : P s held futs -> step n s e = Some s' -> exists held' futs', P s' held' futs' /\ fewer s e futs futs' /\ weight_all s' < weight_all s.
  Proof.
    intros HP Hs. assert (Same : (forall t x p, e = Go -> cur s = Some t -> prog s t = Join x :: p -> False) -> fewer s e futs futs) by (intros X i y H; split; eauto).
    destruct e as [t|].
    - destruct (pick_inv _ _ _ _ _ HP Hs). exists held, futs. split; [assumption|]. split; [apply Same; discriminate|assumption].
    - destruct (cur s) as [t|] eqn:Ec; [|unfold step in Hs; rewrite Ec in Hs; discriminate].
      destruct (prog s t) as [|[m|m|g k|g|g|x|x|] p] eqn:Ep;
        try (assert (Sm : fewer s Go futs futs) by (apply Same; intros a b d _ [= <-] X; congruence)).
      + destruct (end_inv _ _ _ _ HP Ec _ Ep Hs). exists held, futs. auto.
      + destruct (lock_inv _ _ _ _ HP Ec _ _ _ Ep Hs) as [[h ?] ?]. exists h, futs. auto.
      + destruct (unlock_inv _ _ _ _ HP Ec _ _ _ Ep Hs) as [[h ?] ?]. exists h, futs. auto.
      + destruct (add_inv _ _ _ _ HP Ec _ _ _ _ Ep Hs) as [[h ?] ?]. exists h, futs. auto.
      + destruct (done_inv _ _ _ _ HP Ec _ _ _ Ep Hs) as [[h ?] ?]. exists h, futs. auto.
      + destruct (wait_inv _ _ _ _ HP Ec _ _ _ Ep Hs) as [? ?]. exists held, futs. auto.
      + assert (Ex : stat s x = Dormant) by (unfold step in Hs; rewrite Ec, Ep in Hs; destruct (stat s x); congruence).
        destruct (spawn_inv _ _ _ _ HP Ec _ _ _ Ep Hs) as [(h & f & A & B) ?]. exists h, f. split; auto. split; auto. intros i y H0. destruct (B i y H0) as [X| ->]; (split; [auto|intros a b _ Ea Eb; congruence]).
      + destruct (join_inv _ _ _ _ HP Ec _ _ _ Ep Hs) as [(f & A & B) ?]. exists held, f. split; auto. split; auto. intros i y H0. destruct (B i y H0) as [X1 X2]. split; [auto|intros a b _ Ea Eb; congruence].
      + destruct (pause_inv _ _ _ _ HP Ec _ _ Ep Hs) as [? ?]. exists held, futs. auto.
  Qed.
  Lemma P_step s held futs e s' : P s held futs -> step n s e = Some s' -> (exists held' futs', P s' held' futs') /\ weight_all s' < weight_all s.
  Proof. intros HP Hs. destruct (P_step_futs _ _ _ _ _ HP Hs) as (h & f & A & _ & B). split; eauto. Qed.
  Lemma P_run : forall l s held futs s', P s held futs -> run (step n) s l = Some s' -> (exists held' futs', P s' held' futs') /\ weight_all s' + length l <= weight_all s.
  Proof.
    induction l as [|e l IH]; intros s held futs s' HP Hr; cbn [run] in Hr.
    - injection Hr as <-. split; [eauto|cbn; lia].
    - destruct (step n s e) as [s1|] eqn:E; [|discriminate]. destruct (P_step _ _ _ _ _ HP E) as [(h1 & f1 & HP1) L1]. destruct (IH _ _ _ _ HP1 Hr) as [X L]. split; auto. cbn [length]. lia.
  Qed.
  Lemma P_init : well_formed n roots progs rank given -> P (init roots progs) (fun _ => []) (fun _ => []).
  Proof.
    intros [Wo Wr Ws W1 W2]. split; unfold init; fields.
    - intros t. split; [discriminate|]. destruct (roots t); discriminate.
    - intros i Hi. destruct (roots i) eqn:E; auto. apply Wr in E. lia.
    - auto.
    - auto.
    - auto.
    - intros g. rewrite (sum_to_ext n _ (fun _ => 0)) by reflexivity. clear. induction n; cbn; auto.
    - intros m i. split; [contradiction|]. destruct (roots i); discriminate.
    - constructor.
    - congruence.
    - intros m i. split; [contradiction|]. destruct (roots i); discriminate.
    - constructor.
    - congruence.
    - intros t j. split; [discriminate|]. destruct (roots j); discriminate.
    - auto.
    - intros i Hi. specialize (Wo i Hi). destruct (roots i); exact Wo.
    - auto.
    - contradiction.
    - contradiction.
    - intros i t Hi H. destruct (Ws i t Hi H) as [A ->]. auto.
    - auto.
    - eauto.
    - auto.
    - intros i ->. discriminate.
  Qed.

  (** nothing stays behind: with a waiting task there is one that waits for something later *)
  Lemma bounded_waits s : forall k, exists B, forall i r, i < k -> stat s i = Waits r -> rank r < B.
  Proof.
    induction k as [|k (B & IH)]; [exists 0; intros; lia|]. exists (B + match stat s k with Waits r => S (rank r) | _ => 0 end).
    intros i r Hi E. destruct (Nat.eq_dec i k) as [->|N]; [rewrite E; lia|]. specialize (IH i r ltac:(lia) E). lia.
  Qed.
  Lemma sum_pos k f : sum_to k f <> 0 -> exists i, i < k /\ 0 < f i.
  Proof. induction k as [|k IH]; cbn; [congruence|]. intros H. destruct (f k) eqn:E; [|exists k; split; [lia|rewrite E; lia]]. destruct (IH ltac:(lia)) as (i & A & B). exists i. split; auto. Qed.
  Lemma go_enabled s held futs t : P s held futs -> cur s = Some t -> step n s Go <> None.
  Proof.
    intros HP Ec Hs. assert (Er : stat s t = Running) by now apply (p_cur _ _ _ HP).
    assert (Ht : t < n). { destruct (Nat.lt_ge_cases t n) as [|H]; auto. apply (p_out _ _ _ HP) in H. congruence. }
    pose proof (p_ord _ _ _ HP t Ht) as Ord. rewrite Er in Ord. unfold step in Hs. rewrite Ec in Hs.
    destruct (prog s t) as [|[m|m|g k|g|g|x|x|] p] eqn:Ep; try discriminate; cbn [ordered] in Ord.
    - destruct (joiner s t); discriminate.
    - destruct (own s m); discriminate.
    - destruct (queue s m); discriminate.
    - destruct Ord as [Hi _]. apply c_in in Hi. pose proof (p_cnt _ _ _ HP g) as X. destruct (cnt s g) as [|[|?]]; try discriminate.
      clear -X Hi Ht. revert X Hi Ht. generalize n. induction n0 as [|k IH]; cbn; intros; [lia|]. destruct (Nat.eq_dec t k) as [->|]; [lia|]. apply IH; lia.
    - destruct (cnt s g); discriminate.
    - assert (Sx : In x (starts (prog s t))) by (rewrite Ep; now left). destruct (p_st _ _ _ HP t x Ht Sx) as [_ X]. rewrite X in Hs. discriminate.
    - destruct Ord as [Hi _]. destruct (p_fut _ _ _ HP t x Hi) as [Nd Nj]. rewrite Nj in Hs. destruct (stat s x); congruence.
  Qed.
  Lemma progress s held futs : P s held futs -> stuck n s -> forall i, stat s i = Finished \/ stat s i = Dormant.
  Proof.
    intros HP St.
    assert (C0 : cur s = None) by (destruct (cur s) as [t|] eqn:E; auto; exfalso; apply (go_enabled _ _ _ _ HP E), St).
    assert (WF : forall i, (stat s i = Finished \/ stat s i = Dormant) \/ exists r, stat s i = Waits r).
    { intros i. destruct (Nat.lt_ge_cases i n) as [Hi|Hi]; [|left; right; now apply (p_out _ _ _ HP)]. specialize (St (Pick i)). unfold step in St. apply Nat.ltb_lt in Hi. rewrite Hi, C0 in St. destruct (stat s i) eqn:E; try discriminate; eauto.
      apply (p_cur _ _ _ HP) in E. congruence. }
    assert (Lt : forall i r, stat s i = Waits r -> i < n) by (intros i r E; destruct (Nat.lt_ge_cases i n) as [|H]; auto; apply (p_out _ _ _ HP) in H; congruence).
    assert (MW : forall j r, stat s j = Waits r -> may_wait rank j (held j) r).
    { intros j r E. pose proof (p_ord _ _ _ HP j (Lt j r E)) as X. rewrite E in X. destruct r; tauto. }
    assert (HH : forall j r, In r (held j) -> exists r', stat s j = Waits r' /\ rank r < rank r').
    { intros j r H. destruct (WF j) as [X|(r' & X)]; [apply or_comm, (p_idle _ _ _ HP) in X; rewrite X in H; contradiction|]. exists r'. split; auto. now apply (MW j r' X). }
    assert (Up : forall i r, stat s i = Waits r -> exists j r', stat s j = Waits r' /\ rank r < rank r').
    { intros i r E. destruct r as [m|g|t].
      - assert (Q : own s m <> None). { apply (p_qo _ _ _ HP). intros X. apply (p_q _ _ _ HP) in E. rewrite X in E. contradiction. }
        destruct (own s m) as [j|] eqn:Ej; [|congruence]. exists j. apply HH, c_in. rewrite (p_own _ _ _ HP), Ej, Nat.eqb_refl. lia.
      - assert (Q : cnt s g <> 0). { apply (p_go _ _ _ HP). intros X. apply (p_g _ _ _ HP) in E. rewrite X in E. contradiction. }
        rewrite (p_cnt _ _ _ HP) in Q. apply sum_pos in Q as (j & _ & Q). exists j. apply HH, c_in. exact Q.
      - assert (Q : stat s t <> Finished /\ stat s t <> Dormant). { apply (p_j _ _ _ HP) in E. split; intros X; [assert (Y := p_jt _ _ _ HP t (or_introl X))|assert (Y := p_jt _ _ _ HP t (or_intror X))]; congruence. }
        destruct (WF t) as [X|(r' & X)]; [tauto|]. exists t, r'. split; auto. exact (proj1 (MW t r' X)). }
    destruct (bounded_waits s n) as (B & HB).
    assert (Far : forall k i r, stat s i = Waits r -> exists j r', stat s j = Waits r' /\ rank r + k <= rank r').
    { induction k as [|k IH]; intros i r E; [exists i, r; split; auto; lia|]. destruct (IH i r E) as (j & r1 & Ej & L). destruct (Up j r1 Ej) as (j2 & r2 & A2 & A3). exists j2, r2. split; auto. lia. }
    intros i. destruct (WF i) as [H|(r & H)]; auto. exfalso. destruct (Far B i r H) as (j & r' & A2 & A3). specialize (HB j r' (Lt _ _ A2) A2). lia.
  Qed.
  Lemma reached_done s held futs : well_formed n roots progs rank given -> P s held futs -> stuck n s -> forall i, reached roots progs i -> i < n /\ stat s i = Finished.
  Proof.
    intros WFm HP St. pose proof (progress _ _ _ HP St) as Pg. induction 1 as [i Hi|i t Hr [IH IHf] Ht].
    - split; [exact (wf_roots _ _ _ _ _ WFm i Hi)|]. destruct (Pg i) as [X|X]; auto. exfalso. exact (p_root _ _ _ HP i Hi X).
    - split; [exact (proj1 (wf_starts _ _ _ _ _ WFm i t IH Ht))|]. destruct (Pg t); auto. destruct (p_reach _ _ _ HP i t IH Ht) as [A|A]; [|contradiction].
      pose proof (p_ord _ _ _ HP i IH) as X. rewrite IHf in X. rewrite X in A. contradiction.
  Qed.
End Inv.
