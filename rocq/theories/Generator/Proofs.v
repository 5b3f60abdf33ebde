From Coq Require Import List Arith Bool Lia Permutation.
From Verif.Common Require Import TS.
From Verif.Generator Require Import Model Spec.
Import ListNotations.
#[local] Arguments upd : simpl never.

Section G.
  Context {V : Type}.
  Variable vals : list V.
  Variable throws : bool.
  Notation init := (@init V vals).
  Notation next := (@next V throws).

  (** n values were delivered *)
  Record Inv (s : @state V) : Prop := {
    g_bad : bad s = false;
    g_shape :
      exists p : list V, vals = p ++ rest s /\
      (alive s = false -> cons s = CIdle /\ finalized s = true) /\
      match cons s, gen s with
      | CIdle, GParked => finalized s = false /\ waiting s = false /\ received s = map Some p
      | CSusp, GParked => finalized s = false /\ waiting s = true /\ received s = map Some p
      | CWaiting, GQueued | CWaiting, GRunning => finalized s = false /\ waiting s = true /\ received s = map Some p
      | CWaiting, GSet | CWaiting, GParking =>
          finalized s = false /\ waiting s = true /\ exists p' v, p = p' ++ [v] /\ received s = map Some p' /\ slot s = Some v
      | CQueued, GParked =>
          finalized s = false /\ waiting s = false /\ exists p' v, p = p' ++ [v] /\ received s = map Some p' /\ slot s = Some v
      | CWaiting, GRet1 => finalized s = true /\ waiting s = true /\ rest s = [] /\ received s = map Some p /\ throws = false
      | CQueued, GRet2 | CQueued, GGone => finalized s = true /\ waiting s = false /\ rest s = [] /\ received s = map Some p /\ throws = false
      | CIdle, GRet2 | CIdle, GGone =>
          finalized s = true /\ waiting s = false /\
          ((exists n, received s = map Some p ++ repeat None n /\ (0 < n -> rest s = [])) /\ (alive s = true -> rest s = [] /\ throws = false))
      | CWaiting, GThrown => finalized s = false /\ waiting s = true /\ rest s = [] /\ received s = map Some p /\ throws = true
      | _, _ => False
      end
  }.
  Lemma inv_init : Inv init.
  Proof. split; [reflexivity|]. exists []. cbn. repeat split; auto; intros; discriminate. Qed.

  Lemma repeat_snoc {A} (x : A) n : repeat x n ++ [x] = repeat x (S n).
  Proof. induction n; cbn; [reflexivity|now rewrite IHn]. Qed.

  Lemma inv_next s e s' : Inv s -> next s e = Some s' -> Inv s'.
  Proof.
    intros [Hb (p & Hv & Ha & Hs)]. destruct s as [g c w sl fi re rc al bd]. cbn in *. subst bd.
    destruct e; destruct c; try discriminate; destruct g; try discriminate; try contradiction Hs.
    all: repeat match goal with H : _ /\ _ |- _ => destruct H | H : exists _, _ |- _ => destruct H end; subst.
    all: cbn.
    all: try (destruct al eqn:Eal; [|try discriminate; try (destruct (Ha eq_refl); discriminate)]).
    all: try (destruct re as [|v r]; [|]; try discriminate).
    all: try (destruct throws eqn:Et; try discriminate).
    all: cbn; intros E; inversion E; subst; clear E.
    all: (split; [reflexivity|]); cbn.
    all: try (eexists; split; [eassumption|]; split; [intros; try discriminate; auto|]; try solve [repeat split; eauto]).
    all: try match goal with H : true = true -> _ :: _ = [] /\ _ |- _ => destruct (H eq_refl); discriminate end.
    all: try solve [repeat split; auto; rewrite map_app; reflexivity].
    all: try match goal with H : true = true -> [] = [] /\ _ |- _ => destruct (H eq_refl) end.
    all: try solve [repeat split; auto; eexists (S _); rewrite <- app_assoc, repeat_snoc; split; [reflexivity|auto]].
    all: try solve [repeat split; auto; exists 1; split; [reflexivity|auto]].
    all: try solve [repeat split; try discriminate; eexists; split; [reflexivity|auto]].
    all: try solve [repeat split; try discriminate; exists 0; cbn; rewrite app_nil_r; split; [reflexivity|lia]].
    all: try discriminate.
    all: exists (p ++ [v]); rewrite <- app_assoc; repeat split; auto; try discriminate; exists p, v; auto.
  Qed.
  Lemma inv_run l s : run next init l = Some s -> Inv s.
  Proof. intros Hr. refine (run_inv next Inv _ l init s inv_init Hr). intros; eapply inv_next; eauto. Qed.

  Lemma nth_map_repeat (p : list V) n k : k < length p + n -> nth_error (map Some p ++ repeat None n) k = Some (nth_error p k).
  Proof.
    revert k; induction p as [|x p IH]; cbn; intros k Hk.
    - replace (nth_error (@nil V) k) with (@None V) by (destruct k; reflexivity).
      revert k Hk; induction n as [|n IHn]; intros k Hk; [lia|]. destruct k; cbn; [reflexivity|]. apply IHn. lia.
    - destruct k; cbn; [reflexivity|]. apply IH. lia.
  Qed.

  Lemma received_spec s : Inv s -> exists p n r, received s = map Some p ++ repeat None n /\ vals = p ++ r /\ (0 < n -> p = vals) /\
     length r <= S (length (rest s)) /\ (cons s = CIdle -> finalized s = false -> length r = length (rest s)).
  Proof.
    intros [_ (p & Hv & _ & Hs)].
    assert (K1 : received s = map Some p -> exists p0 n r, received s = map Some p0 ++ repeat None n /\ vals = p0 ++ r /\ (0 < n -> p0 = vals) /\
       length r <= S (length (rest s)) /\ (cons s = CIdle -> finalized s = false -> length r = length (rest s))).
    { intros E. exists p, 0, (rest s). cbn. rewrite app_nil_r. repeat split; auto; lia. }
    assert (K2 : (exists p' v, p = p' ++ [v] /\ received s = map Some p' /\ slot s = Some v) -> cons s <> CIdle ->
       exists p0 n r, received s = map Some p0 ++ repeat None n /\ vals = p0 ++ r /\ (0 < n -> p0 = vals) /\
       length r <= S (length (rest s)) /\ (cons s = CIdle -> finalized s = false -> length r = length (rest s))).
    { intros (p' & v & E1 & E2 & _) Hn. exists p', 0, (v :: rest s). cbn. rewrite app_nil_r. subst p. rewrite <- app_assoc in Hv. repeat split; auto; try lia. now intros E. }
    assert (K3 : (exists n, received s = map Some p ++ repeat None n /\ (0 < n -> rest s = [])) ->
       exists p0 n r, received s = map Some p0 ++ repeat None n /\ vals = p0 ++ r /\ (0 < n -> p0 = vals) /\
       length r <= S (length (rest s)) /\ (cons s = CIdle -> finalized s = false -> length r = length (rest s))).
    { intros (n & E1 & E2). exists p, n, (rest s). repeat split; auto. intros Hn. rewrite (E2 Hn), app_nil_r in Hv. auto. }
    destruct (cons s), (gen s); try contradiction; repeat match goal with H : _ /\ _ |- _ => destruct H end;
      first [apply K1; assumption | apply K2; [assumption|discriminate] | apply K3; assumption].
  Qed.
  Lemma answers l s k : run next init l = Some s -> k < length (received s) -> nth_error (received s) k = Some (answer vals k).
  Proof.
    intros Hr Hk. destruct (received_spec s (inv_run l s Hr)) as (p & n & r & E1 & E2 & E3 & _). rewrite E1 in *.
    rewrite app_length, map_length, repeat_length in Hk. rewrite nth_map_repeat by lia. f_equal. unfold answer.
    destruct n as [|n].
    - rewrite E2, nth_error_app1 by lia. reflexivity.
    - rewrite E3 by lia. reflexivity.
  Qed.

  Definition rank (s : @state V) : nat :=
    match cons s, gen s with
    | CSusp, _ => 6
    | CWaiting, GQueued => 5 | CWaiting, GRunning => 4 | CWaiting, GSet => 3 | CWaiting, GParking => 2 | CQueued, GParked => 1
    | CWaiting, GRet1 => 3 | CQueued, GRet2 => 2 | CQueued, GGone => 1 | CIdle, GRet2 => 1
    | _, _ => 0
    end.
  Definition internal (e : event) : bool := match e with CCall | ODestroy => false | _ => true end.
  Lemma rank_dec s e s' : Inv s -> internal e = true -> next s e = Some s' -> rank s' < rank s.
  Proof.
    intros [Hb (p & Hv & Ha & Hs)]. destruct s as [g c w sl fi re rc al bd]. cbn in *. subst bd.
    destruct e; destruct c; try discriminate; destruct g; try discriminate; try contradiction Hs.
    all: repeat match goal with H : _ /\ _ |- _ => destruct H | H : exists _, _ |- _ => destruct H end; subst; cbn.
    all: intros _; try (destruct re as [|v r]; try discriminate); try (destruct throws; try discriminate).
    all: intros E; inversion E; subst; unfold rank; cbn; lia.
  Qed.
  Lemma enabled s : Inv s -> throws = false -> cons s <> CIdle -> exists e s', internal e = true /\ next s e = Some s'.
  Proof.
    intros [Hb (p & Hv & Ha & Hs)] Ht Hc. destruct s as [g c w sl fi re rc al bd]. cbn in *. subst bd.
    destruct c; [congruence| | |]; destruct g; try contradiction Hs;
      repeat match goal with H : _ /\ _ |- _ => destruct H | H : exists _, _ |- _ => destruct H end; subst.
    - exists CWake. eexists. split; reflexivity.
    - exists GRun. eexists. split; reflexivity.
    - destruct re as [|v r]; [exists GReturn|exists GYield]; cbn; try rewrite Ht; eexists; split; reflexivity.
    - exists GPark. eexists. split; reflexivity.
    - exists GNotify. eexists. split; reflexivity.
    - exists GRetNotify. eexists. split; reflexivity.
    - congruence.
    - exists CResume. eexists. split; reflexivity.
    - exists CResume. eexists. split; reflexivity.
    - exists CResume. eexists. split; reflexivity.
  Qed.
  Lemma internal_bounded : forall l s s', Inv s -> forallb internal l = true -> run next s l = Some s' -> length l <= rank s.
  Proof.
    induction l as [|e l IH]; cbn; intros s s' H Hi Hr; [lia|]. apply andb_true_iff in Hi as [Hi1 Hi2].
    destruct (next s e) as [s1|] eqn:E; [|discriminate]. pose proof (rank_dec s e s1 H Hi1 E).
    specialize (IH s1 s' (inv_next _ _ _ H E) Hi2 Hr). lia.
  Qed.
  Lemma rank_le s : rank s <= 6.
  Proof. unfold rank. destruct (cons s), (gen s); lia. Qed.

  Lemma thrown_stuck : forall l s s', gen s = GThrown -> cons s = CWaiting -> bad s = false -> run next s l = Some s' -> s' = s /\ l = [].
  Proof.
    intros [|e l] s s' H1 H2 H3; cbn; [intros E; inversion E; auto|]. unfold Model.next. rewrite H3. destruct e; rewrite ?H1, ?H2; discriminate.
  Qed.
End G.

(** * unique *)
Section U.
  Context {V : Type}.
  Variable equal : V -> V -> bool.
  Lemma unique_loop_runs : forall src c,
    exists runs, c :: src = concat runs /\ is_runs equal runs /\ heads runs = unique_loop equal c src /\
      exists xs runs', runs = (c :: xs) :: runs'.
  Proof.
    induction src as [|y src IH]; intros c.
    - exists [[c]]. cbn. repeat split; eauto; try (intros y []).
    - cbn. destruct (equal c y) eqn:E.
      + (* the run of c continues with y: use the decomposition for c without y *)
        destruct (IH c) as (runs & H1 & H2 & H3 & xs & runs' & ->). cbn in H1. inversion H1; subst; clear H1.
        exists ((c :: y :: xs) :: runs'). cbn in *. destruct H2 as [[H2 H4] H5]. repeat split; auto.
        * intros z [<-|Hz]; auto.
        * eauto.
      + destruct (IH y) as (runs & H1 & H2 & H3 & xs & runs' & ->).
        exists ([c] :: (y :: xs) :: runs'). cbn in *. destruct H2 as [[Ha Hb] Hc]. repeat split; eauto; try (intros z []); congruence.
  Qed.
End U.

(** * merge *)
Section M.
  Context {V : Type}.
  Variable comp : V -> V -> bool.
  Lemma merge_nil_r l : merge comp l [] = l.
  Proof. induction l as [|x l IH]; cbn; [reflexivity|now rewrite IH]. Qed.
  Lemma merge_nil_l r : merge comp [] r = r.
  Proof. induction r as [|x r IH]; cbn in *; [reflexivity|now rewrite IH]. Qed.
  Lemma merge_cons x l y r : merge comp (x :: l) (y :: r) = if comp x y then x :: merge comp l (y :: r) else y :: merge comp (x :: l) r.
  Proof. reflexivity. Qed.
  Lemma std_cons x l y r : std_merge comp (x :: l) (y :: r) = if comp y x then y :: std_merge comp (x :: l) r else x :: std_merge comp l (y :: r).
  Proof. reflexivity. Qed.
  Lemma inter_nil_l (r : list V) : interleaving [] r r.
  Proof. induction r; constructor; auto. Qed.
  Lemma inter_nil_r (l : list V) : interleaving l [] l.
  Proof. induction l; constructor; auto. Qed.
  Lemma merge_interleaving : forall l r, interleaving l r (merge comp l r).
  Proof.
    induction l as [|x l IHl]; intros r; [rewrite merge_nil_l; apply inter_nil_l|].
    induction r as [|y r IHr]; [rewrite merge_nil_r; apply inter_nil_r|]. rewrite merge_cons. destruct (comp x y); constructor; auto.
  Qed.
  Lemma merge_std : forall l r, merge comp l r = std_merge comp r l.
  Proof.
    induction l as [|x l IHl]; intros r.
    - rewrite merge_nil_l. destruct r; reflexivity.
    - induction r as [|y r IHr]; [rewrite merge_nil_r; reflexivity|]. rewrite merge_cons, std_cons. destruct (comp x y); [now rewrite IHl|now rewrite IHr].
  Qed.
  Lemma inter_in a b m (z : V) : interleaving a b m -> In z m -> In z a \/ In z b.
  Proof. induction 1; cbn; intros Hz; [auto| |]; destruct Hz as [<-|Hz]; auto; destruct (IHinterleaving Hz); auto. Qed.
  Lemma inter_perm (a b m : list V) : interleaving a b m -> Permutation m (a ++ b).
  Proof. induction 1; cbn; [constructor|now constructor|]. transitivity (x :: a ++ b); [now constructor|]. apply Permutation_middle. Qed.
  Lemma merge_sorted : strict_weak comp -> forall l r, sorted comp l -> sorted comp r -> sorted comp (merge comp l r).
  Proof.
    intros (HI & HT & HE). 
    assert (NT : forall x y z, comp x y = false -> comp y z = false -> comp x z = false).
    { intros x y z H1 H2. destruct (comp x z) eqn:E; [|reflexivity]. exfalso.
      destruct (comp y x) eqn:E2.
      - assert (comp y z = true) by eauto. congruence.
      - destruct (comp z y) eqn:E3; [assert (comp x y = true) by eauto; congruence|].
        destruct (HE x y z); congruence. }
    induction l as [|x l IHl]; intros r Hl Hr; [rewrite merge_nil_l; auto|].
    induction r as [|y r IHr]; [rewrite merge_nil_r; auto|]. rewrite merge_cons.
    destruct Hl as [Hl1 Hl2]. destruct Hr as [Hr1 Hr2]. destruct (comp x y) eqn:E.
    - cbn [sorted]. split; [|apply IHl; cbn; auto]. intros z Hz.
      destruct (inter_in _ _ _ _ (merge_interleaving l (y :: r)) Hz) as [Hz'|[<-|Hz']]; auto.
      + destruct (comp y x) eqn:E2; [|reflexivity]. assert (comp x x = true) by eauto. rewrite HI in H. discriminate.
      + assert (Hyx : comp y x = false).
        { destruct (comp y x) eqn:E2; [|reflexivity]. assert (comp x x = true) by eauto. rewrite HI in H. discriminate. }
        apply (NT z y x); auto.
    - cbn [sorted]. split; [|apply IHr; auto]. intros z Hz.
      destruct (inter_in _ _ _ _ (merge_interleaving (x :: l) r) Hz) as [[<-|Hz']|Hz']; auto.
      apply (NT z x y); auto.
  Qed.
End M.

(** * ownership *)
Record OInv (s : ostate) : Prop := {
  o_uniq : forall i j f, gobj s i = Some (Some f) -> gobj s j = Some (Some f) -> i = j;
  o_made : forall i f, gobj s i = Some (Some f) -> fmade s f = true /\ falive s f = true;
  o_alive : forall f, falive s f = true -> exists i, gobj s i = Some (Some f)
}.
(** the target of an assignment holds nothing *)
Definition empty_target (s : ostate) (e : oevent) : Prop :=
  forall i j, e = OAssign i j -> i <> j -> gobj s i = Some None.
Lemma oinv_next s e s' : OInv s -> empty_target s e -> onext s e = Some s' -> OInv s'.
Proof.
  intros H HA. assert (MV : forall i j p, i <> j -> (gobj s i = None \/ gobj s i = Some None) -> gobj s j = Some p ->
     OInv (OSt (upd (upd (gobj s) j (Some None)) i (Some p)) (falive s) (fmade s))).
  { intros i j p Hij Hi Hj. destruct H.
    assert (L : forall k f, upd (upd (gobj s) j (Some None)) i (Some p) k = Some (Some f) -> (k = i /\ p = Some f) \/ (k <> i /\ k <> j /\ gobj s k = Some (Some f))).
    { intros k f. unfold upd. destruct (Nat.eqb_spec k i); [intros E; inversion E; auto|]. destruct (Nat.eqb_spec k j); [discriminate|auto]. }
    split; cbn.
    - intros a b f Ha Hb. destruct (L _ _ Ha) as [[-> E1]|(? & ? & E1)], (L _ _ Hb) as [[-> E2]|(? & ? & E2)]; auto.
      + subst p. assert (b = j) by eauto. congruence.
      + subst p. assert (a = j) by eauto. congruence.
      + eauto.
    - intros a f Ha. destruct (L _ _ Ha) as [[-> E1]|(? & ? & E1)]; [subst p|]; eauto.
    - intros f Hf. destruct (o_alive0 f Hf) as [k Hk]. destruct (Nat.eq_dec k j).
      + subst k. exists i. rewrite upd_same. congruence.
      + exists k. assert (k <> i) by (intros ->; destruct Hi; congruence). rewrite !upd_other by auto. exact Hk. }
  destruct e; cbn.
  - destruct (gobj s i) eqn:Ei; [discriminate|]. destruct (fmade s f) eqn:Ef; [discriminate|]. intros E; inversion E; subst; clear E. destruct H.
    assert (L : forall k g, upd (gobj s) i (Some (Some f)) k = Some (Some g) -> (k = i /\ g = f) \/ (k <> i /\ g <> f /\ gobj s k = Some (Some g))).
    { intros k g. unfold upd. destruct (Nat.eqb_spec k i); [intros E; inversion E; auto|]. intros E. right. repeat split; auto.
      intros ->. destruct (o_made0 _ _ E). congruence. }
    split; cbn.
    + intros a b g Ha Hb. destruct (L _ _ Ha) as [[-> E1]|(? & ? & E1)], (L _ _ Hb) as [[-> E2]|(? & ? & E2)]; subst; try congruence; eauto.
    + intros a g Ha. destruct (L _ _ Ha) as [[-> ->]|(? & ? & E1)]; [now rewrite !upd_same|]. rewrite !upd_other by auto. eauto.
    + intros g. destruct (Nat.eq_dec g f); [subst; exists i; now rewrite upd_same|]. rewrite upd_other by auto. intros Hg.
      destruct (o_alive0 g Hg) as [k Hk]. exists k. rewrite upd_other by congruence. exact Hk.
  - destruct (gobj s i) eqn:Ei; [discriminate|]. destruct (gobj s j) eqn:Ej; [|discriminate]. intros E; inversion E; subst. apply MV; auto; congruence.
  - destruct (gobj s i) eqn:Ei; [|discriminate]. destruct (gobj s j) eqn:Ej; [|discriminate]. destruct (Nat.eqb_spec i j); intros E; inversion E; subst; auto.
    apply MV; auto. rewrite Ei. right. rewrite <- Ei. eapply HA; eauto.
  - destruct (gobj s i) as [[f|]|] eqn:Ei; try discriminate; intros E; inversion E; subst; clear E; destruct H.
    + assert (L : forall k g, upd (gobj s) i None k = Some (Some g) -> k <> i /\ g <> f /\ gobj s k = Some (Some g)).
      { intros k g. unfold upd. destruct (Nat.eqb_spec k i); [discriminate|]. intros E. repeat split; auto. intros ->. apply n. eauto. }
      split; cbn.
      * intros a b g Ha Hb. destruct (L _ _ Ha) as (? & ? & ?), (L _ _ Hb) as (? & ? & ?). eauto.
      * intros a g Ha. destruct (L _ _ Ha) as (? & ? & ?). rewrite upd_other by auto. eauto.
      * intros g. destruct (Nat.eq_dec g f); [subst; rewrite upd_same; discriminate|]. rewrite upd_other by auto. intros Hg.
        destruct (o_alive0 g Hg) as [k Hk]. exists k. rewrite upd_other by congruence. exact Hk.
    + assert (L : forall k g, upd (gobj s) i None k = Some (Some g) -> k <> i /\ gobj s k = Some (Some g)).
      { intros k g. unfold upd. destruct (Nat.eqb_spec k i); [discriminate|auto]. }
      split; cbn.
      * intros a b g Ha Hb. destruct (L _ _ Ha), (L _ _ Hb). eauto.
      * intros a g Ha. destruct (L _ _ Ha). eauto.
      * intros g Hg. destruct (o_alive0 g Hg) as [k Hk]. exists k. rewrite upd_other by congruence. exact Hk.
Qed.
