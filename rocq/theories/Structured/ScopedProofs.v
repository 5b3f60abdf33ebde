(** Proofs for C145: a run of the machine of Scoped.v is a run of the machine of Model.v on the programs that the scopes and exceptions amount to. *)
From Coq Require Import List Arith Bool Lia Permutation.
From Verif.Common Require Import TS Sum.
From Verif.Structured Require Import Model Spec Proofs Scoped ScopedSpec.
Import ListNotations.

Lemma means_det bodies c o st : means bodies c o st -> forall o' st', means bodies c o' st' -> o = o' /\ st = st'.
Proof.
  induction 1; intros o' st' H'; inversion H'; subst; auto; repeat match goal with
    | IH : forall o' st', means _ ?c o' st' -> _, H : means _ ?c _ _ |- _ => apply IH in H; destruct H; subst; try discriminate end; auto;
    try (split; congruence).
Qed.

Lemma nodup_l {A} (a b : list A) : NoDup (a ++ b) -> NoDup a.
Proof. induction a as [|x a IH]; cbn; intros H; constructor; inversion H; subst; auto. intros X. apply H2, in_or_app. now left. Qed.

Section X.
  Variables (n : nat) (given : nat -> list nat) (roots : nat -> bool) (bodies : nat -> code) (rank : res -> nat).
  Hypothesis WS : well_scoped bodies roots rank given n.

  Section Lin.
    Variable out : nat -> option nat.
    Fixpoint lin (c : code) : list action * option nat :=
      match c with
      | Skip => ([], None)
      | Seq a b => match snd (lin a) with None => (fst (lin a) ++ fst (lin b), snd (lin b)) | Some x => (fst (lin a), Some x) end
      | Suspend => ([Pause], None)
      | Throw x => ([], Some x)
      | Locked m c => (Lock m :: fst (lin c) ++ [Unlock m], snd (lin c))
      | WaitFor g => ([Wait g], None)
      | Start t => (start_ops given t, None)
      | With t c => match snd (lin c) with None => (start_ops given t ++ fst (lin c) ++ [Join t], out t) | Some x => (start_ops given t ++ fst (lin c), Some x) end
      | Try c h => match snd (lin c) with None => (fst (lin c), None) | Some _ => (fst (lin c) ++ fst (lin h), snd (lin h)) end
      end.
    Fixpoint linc (k : list item) (e : option nat) : list action * option nat :=
      match k with
      | [] => ([], e)
      | Code c :: k => match e with None => (fst (lin c) ++ fst (linc k (snd (lin c))), snd (linc k (snd (lin c)))) | Some x => linc k (Some x) end
      | EndLock m :: k => (Unlock m :: fst (linc k e), snd (linc k e))
      | EndDone g :: k => (Done g :: fst (linc k e), snd (linc k e))
      | EndWith t :: k => match e with None => (Join t :: fst (linc k (out t)), snd (linc k (out t))) | Some x => linc k (Some x) end
      | Fetch t :: k => match e with None => linc k (out t) | Some x => linc k (Some x) end
      | EndTry h :: k => match e with None => linc k None | Some x => (fst (lin h) ++ fst (linc k (snd (lin h))), snd (linc k (snd (lin h)))) end
      end.
  End Lin.
  Fixpoint awaited (c : code) : list nat :=
    match c with
    | Skip | Suspend | Throw _ | WaitFor _ | Start _ => []
    | Seq a b | Try a b => awaited a ++ awaited b
    | Locked _ c => awaited c
    | With t c => t :: awaited c
    end.
  Lemma awaited_starts c t : In t (awaited c) -> In t (starts_of c).
  Proof. induction c; cbn; try tauto; rewrite ?in_app_iff; tauto. Qed.
  Lemma awaited_rank i c t : forall held, ok rank i held c -> In t (awaited c) -> rank (F i) < rank (F t).
  Proof.
    induction c; intros held; cbn; try tauto.
    - intros [A B] H. apply in_app_or in H as [H|H]; eauto.
    - intros [A B]. eauto.
    - intros [[A _] B] [<-|H]; eauto.
    - intros [A B] H. apply in_app_or in H as [H|H]; eauto.
  Qed.
  Lemma lin_ext out out' c : (forall t, In t (awaited c) -> out t = out' t) -> lin out c = lin out' c.
  Proof.
    induction c; cbn [lin awaited]; intros H; try reflexivity.
    - rewrite IHc1, IHc2 by (intros; apply H, in_or_app; auto). reflexivity.
    - rewrite IHc by auto. reflexivity.
    - rewrite IHc by (intros; apply H; now right). rewrite (H t) by now left. reflexivity.
    - rewrite IHc1, IHc2 by (intros; apply H, in_or_app; auto). reflexivity.
  Qed.
  (** the results *)
  Fixpoint outf (f : nat) (i : nat) : option nat := match f with O => None | S f => snd (lin (outf f) (bodies i)) end.
  Lemma ranks_bound : forall k, exists B, forall i, i < k -> rank (F i) < B.
  Proof. induction k as [|k [B H]]; [exists 0; lia|]. exists (S (B + rank (F k))). intros i Hi. destruct (Nat.eq_dec i k) as [->|]; [lia|]. specialize (H i). lia. Qed.
  Lemma outf_stable B : (forall i, i < n -> rank (F i) < B) -> forall k i, i < n -> B - rank (F i) <= k -> forall f, k <= f -> outf f i = outf k i.
  Proof.
    intros HB. induction k as [|k IH]; intros i Hi Hk f Hf; [specialize (HB i Hi); lia|]. destruct f as [|f]; [lia|]. cbn [outf]. f_equal. apply lin_ext. intros t Ht.
    pose proof (awaited_rank _ _ _ _ (ws_ok _ _ _ _ _ WS i Hi) Ht) as Lr. destruct (ws_starts _ _ _ _ _ WS i t Hi (awaited_starts _ _ Ht)) as [Tn _]. apply IH; auto; lia.
  Qed.
  Lemma has_out : exists out, forall i, i < n -> out i = snd (lin out (bodies i)).
  Proof. destruct (ranks_bound n) as [B HB]. exists (outf B). intros i Hi. change (snd (lin (outf B) (bodies i))) with (outf (S B) i). rewrite (outf_stable B HB B i Hi ltac:(lia) (S B)) by lia. reflexivity. Qed.

  Variable out : nat -> option nat.
  Hypothesis Hout : forall i, i < n -> out i = snd (lin out (bodies i)).
  Lemma starts_app a b : starts (a ++ b) = starts a ++ starts b.
  Proof. induction a as [|x a IH]; cbn; [reflexivity|]. destruct x; cbn; now rewrite ?IH. Qed.
  Lemma starts_ops t : starts (start_ops given t) = [t].
  Proof. unfold start_ops. rewrite starts_app. cbn. enough (starts (map (fun g => Add g 1) (given t)) = []) as -> by reflexivity. induction (given t); cbn; auto. Qed.
  Lemma means_lin c : (forall t, In t (awaited c) -> exists st, means bodies (bodies t) (out t) st) -> means bodies c (snd (lin out c)) (starts (fst (lin out c))).
  Proof.
    induction c; cbn [lin awaited]; intros H.
    - constructor.
    - assert (H1 : means bodies c1 (snd (lin out c1)) (starts (fst (lin out c1)))) by (apply IHc1; intros; apply H, in_or_app; auto). assert (H2 : means bodies c2 (snd (lin out c2)) (starts (fst (lin out c2)))) by (apply IHc2; intros; apply H, in_or_app; auto).
      destruct (snd (lin out c1)); cbn [fst snd]; [now constructor|]. rewrite starts_app. now constructor.
    - constructor.
    - constructor.
    - cbn [fst snd starts]. rewrite starts_app. cbn. rewrite app_nil_r. constructor. now apply IHc.
    - constructor.
    - cbn [fst snd]. rewrite starts_ops. constructor.
    - assert (H1 : means bodies c (snd (lin out c)) (starts (fst (lin out c)))) by (apply IHc; intros; apply H; now right). destruct (H t (or_introl eq_refl)) as (st & Ht).
      destruct (snd (lin out c)); cbn [fst snd]; rewrite !starts_app, starts_ops; cbn [app starts]; [now constructor|]. rewrite app_nil_r. econstructor; eauto.
    - assert (H1 : means bodies c1 (snd (lin out c1)) (starts (fst (lin out c1)))) by (apply IHc1; intros; apply H, in_or_app; auto). assert (H2 : means bodies c2 (snd (lin out c2)) (starts (fst (lin out c2)))) by (apply IHc2; intros; apply H, in_or_app; auto).
      destruct (snd (lin out c1)); cbn [fst snd]; [rewrite starts_app; econstructor; eauto|now constructor].
  Qed.
  Lemma means_body i : i < n -> means bodies (bodies i) (out i) (starts (fst (lin out (bodies i)))).
  Proof.
    destruct (ranks_bound n) as [B HB]. enough (G : forall k i, i < n -> B - rank (F i) <= k -> means bodies (bodies i) (out i) (starts (fst (lin out (bodies i))))) by (intros Hi; now apply (G B i Hi); lia).
    induction k as [|k IH]; intros j Hj Hk; [specialize (HB j Hj); lia|]. rewrite (Hout j Hj). apply means_lin. intros t Ht.
    pose proof (awaited_rank _ _ _ _ (ws_ok _ _ _ _ _ WS j Hj) Ht) as Lr. destruct (ws_starts _ _ _ _ _ WS j t Hj (awaited_starts _ _ Ht)) as [Tn _]. eexists. apply IH; auto. lia.
  Qed.

  (** ** the programs without scopes *)
  Definition progs (i : nat) : list action := fst (linc out (Code (bodies i) :: map EndDone (given i)) None).
  Lemma linc_dones gs e : linc out (map EndDone gs) e = (map Done gs, e).
  Proof. induction gs as [|g gs IH]; cbn [map linc]; [reflexivity|]. now rewrite IH. Qed.
  Lemma progs_eq i : progs i = fst (lin out (bodies i)) ++ map Done (given i).
  Proof. unfold progs. cbn [linc fst]. now rewrite linc_dones. Qed.
  Lemma less_app r a b : In r a -> less r (a ++ b) = less r a ++ b.
  Proof. induction a as [|x a IH]; cbn; [contradiction|]. intros H. destruct (res_eq_dec x r); [reflexivity|]. cbn. f_equal. apply IH. destruct H; [congruence|auto]. Qed.
  Lemma less_perm r a : In r a -> Permutation a (r :: less r a).
  Proof. induction a as [|x a IH]; cbn; [contradiction|]. intros H. destruct (res_eq_dec x r) as [->|N]; [reflexivity|]. rewrite perm_swap. constructor. apply IH. destruct H; [congruence|auto]. Qed.
  Lemma give_back : forall gs pre held, Permutation pre (map G gs) -> give gs (pre ++ held) = Some held.
  Proof.
    induction gs as [|g gs IH]; intros pre held Hp; cbn [map give] in *.
    - apply Permutation_sym, Permutation_nil in Hp. subst. reflexivity.
    - assert (Hi : In (G g) pre) by (eapply Permutation_in; [apply Permutation_sym, Hp|now left]). destruct (in_dec res_eq_dec (G g) (pre ++ held)) as [_|N]; [|destruct N; apply in_or_app; auto].
      rewrite less_app by auto. apply IH. apply (Permutation_cons_inv (a := G g)). rewrite <- (less_perm _ _ Hi). exact Hp.
  Qed.
  Lemma start_ordered self t held futs p : ordered rank given self held (t :: futs) p -> ordered rank given self held futs (start_ops given t ++ p).
  Proof.
    intros Hp. unfold start_ops. rewrite <- app_assoc. cbn [app].
    assert (G0 : forall gs pre, Permutation (map G gs ++ pre) (map G (given t)) -> ordered rank given self (pre ++ held) futs (map (fun g => Add g 1) gs ++ Spawn t :: p)).
    { induction gs as [|g gs IH]; intros pre Hq; cbn [map app] in *.
      - cbn [ordered]. exists held. split; [now apply give_back|exact Hp].
      - cbn [ordered repeat app]. apply (IH (G g :: pre)). rewrite <- Hq. apply Permutation_sym, Permutation_middle. }
    apply (G0 (given t) []). now rewrite app_nil_r.
  Qed.
  Lemma lin_ordered self c : forall held need futs p, ok rank self held c -> NoDup (need ++ starts_of c) -> incl need futs ->
    (forall futs', incl need futs' -> ordered rank given self held futs' p) -> ordered rank given self held futs (fst (lin out c) ++ p).
  Proof.
    induction c; intros held need futs p Ho Hd Hi Hp; cbn [lin ok starts_of] in *.
    - now apply Hp.
    - destruct Ho as [O1 O2]. assert (D1 : NoDup (need ++ starts_of c1)) by (rewrite app_assoc in Hd; eapply nodup_l; eauto).
      assert (D2 : NoDup (need ++ starts_of c2)). { eapply Permutation_NoDup in Hd; [|apply Permutation_app_head, Permutation_app_comm]. rewrite app_assoc in Hd. eapply nodup_l; eauto. }
      destruct (snd (lin out c1)); cbn [fst]; [now apply (IHc1 held need)|]. rewrite <- app_assoc. apply (IHc1 held need); auto. intros futs' Hf. now apply (IHc2 held need).
    - cbn. now apply Hp.
    - now apply Hp.
    - destruct Ho as [O1 O2]. cbn [fst app ordered]. split; [exact O1|]. rewrite <- app_assoc. apply (IHc (M m :: held) need); auto. intros futs' Hf. cbn [app ordered]. split; [now left|]. cbn [less]. destruct (res_eq_dec (M m) (M m)); [|contradiction]. now apply Hp.
    - cbn. split; [exact Ho|now apply Hp].
    - cbn [fst]. apply start_ordered. apply Hp. intros x Hx. right. now apply Hi.
    - destruct Ho as [O1 O2].
      assert (Nt : ~ In t need). { intros X. apply NoDup_remove_2 in Hd. apply Hd, in_or_app. now left. }
      assert (D1 : NoDup ((t :: need) ++ starts_of c)). { cbn. eapply Permutation_NoDup; [apply Permutation_sym, Permutation_middle|exact Hd]. }
      destruct (snd (lin out c)); cbn [fst]; rewrite <- app_assoc.
      + apply start_ordered. apply (IHc held (t :: need)); auto; [intros x [<-|Hx]; [now left|right; auto]|]. intros futs' Hf. apply Hp. intros x Hx. apply Hf. now right.
      + apply start_ordered. rewrite <- app_assoc. apply (IHc held (t :: need)); auto; [intros x [<-|Hx]; [now left|right; auto]|]. intros futs' Hf. cbn [app ordered]. split; [apply Hf; now left|]. split; [exact O1|].
        apply Hp. intros x Hx. apply in_in_remove; [intros ->; auto|]. apply Hf. now right.
    - destruct Ho as [O1 O2]. assert (D1 : NoDup (need ++ starts_of c1)) by (rewrite app_assoc in Hd; eapply nodup_l; eauto).
      assert (D2 : NoDup (need ++ starts_of c2)). { eapply Permutation_NoDup in Hd; [|apply Permutation_app_head, Permutation_app_comm]. rewrite app_assoc in Hd. eapply nodup_l; eauto. }
      destruct (snd (lin out c1)); cbn [fst]; [|now apply (IHc1 held need)]. rewrite <- app_assoc. apply (IHc1 held need); auto. intros futs' Hf. now apply (IHc2 held need).
  Qed.
  Lemma dones_ordered self gs futs : ordered rank given self (map G gs) futs (map Done gs).
  Proof. induction gs as [|g gs IH]; cbn [map ordered]; [reflexivity|]. split; [now left|]. cbn [less]. destruct (res_eq_dec (G g) (G g)); [exact IH|contradiction]. Qed.
  Lemma starts_count c t : count_occ Nat.eq_dec (starts (fst (lin out c))) t <= count_occ Nat.eq_dec (starts_of c) t.
  Proof.
    induction c; cbn [lin starts_of]; auto.
    - destruct (snd (lin out c1)); cbn [fst]; rewrite ?starts_app, !count_occ_app; lia.
    - cbn [fst starts]. rewrite starts_app. cbn. rewrite app_nil_r. exact IHc.
    - cbn [fst]. rewrite starts_ops. auto.
    - destruct (snd (lin out c)); cbn [fst]; rewrite !starts_app, starts_ops; cbn [starts app]; rewrite ?app_nil_r; cbn; destruct (Nat.eq_dec _ _); lia.
    - destruct (snd (lin out c1)); cbn [fst]; rewrite ?starts_app, !count_occ_app; lia.
  Qed.
  Lemma starts_dones gs : starts (map Done gs) = [].
  Proof. induction gs; cbn; auto. Qed.
  Lemma starts_progs i : starts (progs i) = starts (fst (lin out (bodies i))).
  Proof. rewrite progs_eq, starts_app, starts_dones. apply app_nil_r. Qed.
  Lemma starts_in i t : In t (starts (progs i)) -> In t (starts_of (bodies i)).
  Proof. rewrite starts_progs. rewrite !(count_occ_In Nat.eq_dec). pose proof (starts_count (bodies i) t). lia. Qed.
  Lemma scoped_well_formed : well_formed n roots progs rank given.
  Proof.
    split.
    - intros i Hi. assert (E : (if roots i then [] else map G (given i)) = map G (given i)) by (destruct (roots i) eqn:R; auto; now rewrite (proj2 (ws_roots _ _ _ _ _ WS i R))). rewrite E, progs_eq.
      apply (lin_ordered i (bodies i) (map G (given i)) []); [now apply (ws_ok _ _ _ _ _ WS)|now apply (ws_once _ _ _ _ _ WS)|intros x []|]. intros futs' _. apply dones_ordered.
    - intros i R. now apply (ws_roots _ _ _ _ _ WS).
    - intros i t Hi Ht. apply (ws_starts _ _ _ _ _ WS i t Hi). now apply starts_in.
    - intros i Hi. apply (NoDup_count_occ Nat.eq_dec). intros t. rewrite starts_progs. pose proof (starts_count (bodies i) t). pose proof (ws_once _ _ _ _ _ WS i Hi) as D. rewrite (NoDup_count_occ Nat.eq_dec) in D. specialize (D t). lia.
    - intros i j t Hi Hj A B. apply (ws_one _ _ _ _ _ WS i j t Hi Hj); now apply starts_in.
  Qed.

  (** ** the simulation *)
  Definition put (q : nat -> list action) (b : Model.state) : Model.state := St q (stat b) (cur b) (own b) (queue b) (cnt b) (gqueue b) (joiner b).
  Lemma act_put q b t a p : cur b = Some t -> q t = a :: p -> Model.step n (put q b) Go = match act n b t a with Some b' => Some (put (upd q t p) b') | None => None end.
  Proof.
    intros Hc Hq. unfold act, Model.step, set_prog, put. cbn [Model.prog Model.stat Model.cur Model.own Model.queue Model.cnt Model.gqueue Model.joiner]. rewrite Hc, Hq, upd_same.
    destruct a; try reflexivity.
    - destruct (own b m); reflexivity.
    - destruct (queue b m); reflexivity.
    - destruct (cnt b g) as [|[|c]]; reflexivity.
    - destruct (cnt b g) as [|c]; reflexivity.
    - destruct (stat b t0); reflexivity.
    - destruct (stat b t0), (joiner b t0); reflexivity.
  Qed.
  Lemma finish_put q b t : cur b = Some t -> q t = [] -> Model.step n (put q b) Go = match Model.step n (set_prog b t []) Go with Some b' => Some (put q b') | None => None end.
  Proof.
    intros Hc Hq. unfold Model.step, set_prog, put. cbn [Model.prog Model.stat Model.cur Model.own Model.queue Model.cnt Model.gqueue Model.joiner]. rewrite Hc, Hq, upd_same. destruct (joiner b t); reflexivity.
  Qed.
  Lemma pick_put q b t : Model.step n (put q b) (Pick t) = match Model.step n b (Pick t) with Some b' => Some (put q b') | None => None end.
  Proof. unfold Model.step, put. cbn [Model.prog Model.stat Model.cur Model.own Model.queue Model.cnt Model.gqueue Model.joiner]. destruct (t <? n); [|reflexivity]. destruct (cur b); [reflexivity|]. destruct (stat b t); reflexivity. Qed.

  Notation PP := (P n roots (progs) rank given).
  (** what one operation does to the tasks *)
  Definition simple (a : action) : bool := match a with Add _ _ | Spawn _ => true | _ => false end.
  Lemma act_tasks q b t a b' held futs : PP (put q b) held futs -> cur b = Some t -> act n b t a = Some b' -> forall j, j <> t ->
    (forall d, stat b j = Waits (F d) -> stat b' j = Waits (F d)) /\ (stat b' j = Finished <-> stat b j = Finished).
  Proof.
    intros HP Hc Ha j Hj. unfold act, Model.step, set_prog in Ha. cbn [Model.prog Model.stat Model.cur Model.own Model.queue Model.cnt Model.gqueue Model.joiner] in Ha. rewrite Hc, upd_same in Ha.
    assert (U : forall t x, j <> t -> upd (stat b) t x j = stat b j) by (intros; now rewrite upd_other).
    destruct a.
    - destruct (own b m); injection Ha as <-; cbn [Model.stat]; rewrite ?U by auto; tauto.
    - destruct (queue b m) as [|w r] eqn:Eq; injection Ha as <-; cbn [Model.stat]; [tauto|]. destruct (Nat.eq_dec j w) as [->|N]; [|rewrite U by auto; tauto]. rewrite upd_same.
      assert (E : stat b w = Waits (M m)) by (apply (p_q _ _ _ _ _ _ _ _ HP m w); cbn [put Model.queue]; rewrite Eq; now left). rewrite E. split; [intros d; discriminate|split; discriminate].
    - injection Ha as <-. tauto.
    - destruct (cnt b g) as [|[|k]]; [discriminate| |injection Ha as <-; tauto]. injection Ha as <-. cbn [Model.stat]. unfold wake_all. destruct (existsb (Nat.eqb j) (gqueue b g)) eqn:Ex; [|tauto].
      apply existsb_exists in Ex as (i & Hi & Ei). apply Nat.eqb_eq in Ei. subst i. assert (E : stat b j = Waits (G g)) by (apply (p_g _ _ _ _ _ _ _ _ HP g j); exact Hi). rewrite E. split; [intros d; discriminate|split; discriminate].
    - destruct (cnt b g); injection Ha as <-; cbn [Model.stat]; rewrite ?U by auto; tauto.
    - destruct (stat b t0) eqn:E; try discriminate. injection Ha as <-. cbn [Model.stat]. destruct (Nat.eq_dec j t0) as [->|N]; [|rewrite U by auto; tauto]. rewrite upd_same, E. split; [intros d; discriminate|split; discriminate].
    - destruct (stat b t0); try discriminate; try (destruct (joiner b t0); try discriminate); injection Ha as <-; cbn [Model.stat]; rewrite ?U by auto; tauto.
    - injection Ha as <-. cbn [Model.stat]. rewrite U by auto. tauto.
  Qed.
  Lemma act_self b t a b' : cur b = Some t -> stat b t = Running -> act n b t a = Some b' -> stat b' t <> Finished /\ (simple a = true -> cur b' = Some t /\ stat b' t = Running) /\
    (forall d, a = Join d -> (stat b d = Finished /\ stat b' t = Running) \/ stat b' t = Waits (F d)) /\ (cur b' = Some t \/ cur b' = None).
  Proof.
    intros Hc Hr Ha. unfold act, Model.step, set_prog in Ha. cbn [Model.prog Model.stat Model.cur Model.own Model.queue Model.cnt Model.gqueue Model.joiner] in Ha. rewrite Hc, upd_same in Ha.
    assert (UR : forall x, stat b t = Running -> upd (stat b) t x t = x) by (intros; apply upd_same).
    destruct a; cbn [simple].
    - destruct (own b m); injection Ha as <-; cbn [Model.stat Model.cur]; rewrite ?upd_same, ?Hr; repeat split; try discriminate; auto.
    - destruct (queue b m) as [|w r] eqn:Eq; injection Ha as <-; cbn [Model.stat Model.cur]; [rewrite Hr; repeat split; try discriminate; auto|].
      destruct (Nat.eq_dec t w) as [<-|N]; [rewrite upd_same|rewrite upd_other by auto; rewrite Hr]; repeat split; try discriminate; auto.
    - injection Ha as <-. cbn [Model.stat Model.cur]. rewrite Hr. repeat split; try discriminate; auto.
    - destruct (cnt b g) as [|[|k]]; [discriminate| |]; injection Ha as <-; cbn [Model.stat Model.cur]; unfold wake_all; [destruct (existsb (Nat.eqb t) (gqueue b g))|]; rewrite ?Hr; repeat split; try discriminate; auto.
    - destruct (cnt b g); injection Ha as <-; cbn [Model.stat Model.cur]; rewrite ?upd_same, ?Hr; repeat split; try discriminate; auto.
    - destruct (stat b t0) eqn:E; try discriminate. injection Ha as <-. cbn [Model.stat Model.cur]. destruct (Nat.eq_dec t t0) as [<-|N]; [congruence|]. rewrite upd_other by auto. rewrite Hr. repeat split; try discriminate; auto.
    - destruct (stat b t0) eqn:E; try discriminate; try (destruct (joiner b t0); try discriminate); injection Ha as <-; cbn [Model.stat Model.cur]; rewrite ?upd_same, ?Hr; repeat split; try discriminate; auto; intros d0 Ed; injection Ed as <-; auto.
    - injection Ha as <-. cbn [Model.stat Model.cur]. rewrite upd_same. repeat split; try discriminate; auto.
  Qed.
  (** several that do not suspend *)
  Lemma acts_sim : forall l q b t p held futs, forallb simple l = true -> PP (put q b) held futs -> cur b = Some t -> stat b t = Running -> q t = l ++ p ->
    exists b' q' held' futs', acts n b t l = Some b' /\ run (Model.step n) (put q b) (repeat Go (length l)) = Some (put q' b') /\ (forall i, q' i = if i =? t then p else q i) /\ PP (put q' b') held' futs' /\
      cur b' = Some t /\ stat b' t = Running /\ forall j, j <> t -> (forall d, stat b j = Waits (F d) -> stat b' j = Waits (F d)) /\ (stat b' j = Finished <-> stat b j = Finished).
  Proof.
    induction l as [|a l IH]; intros q b t p held futs Hl HP Hc Hr Hq; cbn [app] in Hq.
    - exists b, q, held, futs. split; [reflexivity|]. split; [reflexivity|]. split; [intros i; destruct (Nat.eqb_spec i t); congruence|]. split; [exact HP|]. split; [exact Hc|]. split; [exact Hr|]. intros j Hj. tauto.
    - cbn in Hl. apply andb_prop in Hl as [Ha Hl]. pose proof (go_enabled _ _ _ _ _ _ _ _ t HP Hc) as En. rewrite (act_put q b t a (l ++ p) Hc Hq) in En. destruct (act n b t a) as [b1|] eqn:E; [|congruence].
      pose proof (act_put q b t a (l ++ p) Hc Hq) as St. rewrite E in St. destruct (P_step _ _ _ _ _ _ _ _ _ _ HP St) as [(held1 & futs1 & HP1) _].
      destruct (act_self b t a b1 Hc Hr E) as (_ & Hs & _). destruct (Hs Ha) as [Hc1 Hr1].
      destruct (IH (upd q t (l ++ p)) b1 t p held1 futs1 Hl HP1 Hc1 Hr1 (upd_same _ _ _)) as (b' & q' & held' & futs' & A & B & C & D & E1 & E2 & E3).
      exists b', q', held', futs'. split; [cbn [acts]; now rewrite E|]. split; [cbn [length repeat run]; now rewrite St|]. split; [|split; [exact D|split; [exact E1|split; [exact E2|]]]].
      + intros i. rewrite C. destruct (Nat.eqb_spec i t); [reflexivity|]. now apply upd_other.
      + intros j Hj. destruct (act_tasks q b t a b1 held futs HP Hc E j Hj) as [X Y]. destruct (E3 j Hj) as [X' Y']. split; [auto|tauto].
  Qed.
  Lemma ops_simple t : forallb simple (start_ops given t) = true.
  Proof. unfold start_ops. rewrite forallb_app. cbn. rewrite andb_true_r. induction (given t); cbn; auto. Qed.

  Definition reached_by (q : nat -> list action) (b : Model.state) : Prop := exists l, run (Model.step n) (Model.init roots progs) l = Some (put q b).
  Record Sim (s : Scoped.state) (q : nat -> list action) : Prop := {
    s_run : reached_by q (base s);
    s_prog : forall i, q i = fst (linc out (ctl s i) (exc s i));
    s_out : forall i, i < n -> stat (base s) i <> Finished -> snd (linc out (ctl s i) (exc s i)) = out i;
    s_tl : forall i d, ~ In (Fetch d) (tl (ctl s i));
    s_fetch : forall i d k, ctl s i = Fetch d :: k -> exc s i = None /\ (stat (base s) i = Waits (F d) \/ result s d = Some (out d));
    s_res : forall t o, result s t = Some o -> o = out t /\ stat (base s) t = Finished;
    s_fin : forall t, stat (base s) t = Finished -> result s t = Some (out t) }.
  Lemma reached_P q b : reached_by q b -> exists held futs, PP (put q b) held futs.
  Proof. intros (l & Hr). exact (proj1 (P_run n roots progs rank given l _ _ _ _ (P_init _ _ _ _ _ scoped_well_formed) Hr)). Qed.
  Lemma reached_run q b l q' b' : reached_by q b -> run (Model.step n) (put q b) l = Some (put q' b') -> reached_by q' b'.
  Proof. intros (l0 & Hr) H. exists (l0 ++ l). rewrite (run_app _ _ _ _ _ Hr). exact H. Qed.
  Lemma reached_step q b e q' b' : reached_by q b -> Model.step n (put q b) e = Some (put q' b') -> reached_by q' b'.
  Proof. intros R H. apply (reached_run q b [e] q' b' R). cbn [run]. now rewrite H. Qed.
  Lemma Sim_init : exists q, Sim (Scoped.init given roots bodies) q.
  Proof.
    exists progs. split; cbn [Scoped.init base ctl exc result].
    - exists []. reflexivity.
    - intros i. reflexivity.
    - intros i Hi _. cbn [linc snd]. rewrite linc_dones. cbn. now rewrite Hout.
    - intros i d. cbn. intros H. apply in_map_iff in H as (x & E & _). discriminate.
    - intros i d k E. discriminate.
    - discriminate.
    - intros t. cbn. destruct (roots t); discriminate.
  Qed.
  Lemma cur_running q b held futs t : PP (put q b) held futs -> cur b = Some t -> stat b t = Running /\ t < n.
  Proof.
    intros HP Hc. assert (R : stat b t = Running) by (apply (p_cur _ _ _ _ _ _ _ _ HP t); exact Hc). split; [exact R|]. destruct (Nat.lt_ge_cases t n) as [|H]; [auto|]. pose proof (p_out _ _ _ _ _ _ _ _ HP t H) as X. cbn in X. congruence.
  Qed.
  (** a step of the control alone *)
  Lemma control_sim s q t k x s' : Sim s q -> cur (base s) = Some t -> linc out k x = linc out (ctl s t) (exc s t) -> (forall d, ~ In (Fetch d) k) -> control s t k x = Some s' -> Sim s' q.
  Proof.
    intros HS Hc El Hf E. injection E as <-. split; cbn [base ctl exc result].
    - apply (s_run _ _ HS).
    - intros i. rewrite (s_prog _ _ HS i), !updE. destruct (Nat.eqb_spec i t) as [->|]; [now rewrite El|reflexivity].
    - intros i Hi Hn. rewrite !updE. destruct (Nat.eqb_spec i t) as [->|]; [rewrite El|]; now apply (s_out _ _ HS).
    - intros i d. rewrite updE. destruct (Nat.eqb_spec i t) as [->|]; [|apply (s_tl _ _ HS)]. intros H. apply (Hf d). destruct k; [contradiction|now right].
    - intros i d k'. rewrite !updE. destruct (Nat.eqb_spec i t) as [->|]; [|apply (s_fetch _ _ HS)]. intros ->. exfalso. apply (Hf d). now left.
    - apply (s_res _ _ HS).
    - apply (s_fin _ _ HS).
  Qed.
  (** operations *)
  Lemma ops_sim s q t l k s' : Sim s q -> cur (base s) = Some t -> exc s t = None \/ (forall d, ~ In (Fetch d) k) ->
    (l <> [] /\ (forallb simple l = true \/ length l = 1)) ->
    fst (linc out (ctl s t) (exc s t)) = l ++ fst (linc out k (exc s t)) -> snd (linc out (ctl s t) (exc s t)) = snd (linc out k (exc s t)) ->
    (forall d, ~ In (Fetch d) (tl k)) -> (forall d k', k = Fetch d :: k' -> l = [Join d]) ->
    with_base s (acts n (base s) t l) t k = Some s' -> exists q', Sim s' q'.
  Proof.
    intros HS Hc He Hl Ef Es Ht Hj E. destruct (reached_P _ _ (s_run _ _ HS)) as (held & futs & HP). destruct (cur_running _ _ _ _ _ HP Hc) as [Hr Htn].
    pose proof (s_prog _ _ HS t) as Hq. rewrite Ef in Hq.
    (* the step of the other machine *)
    assert (Z : exists b' q', acts n (base s) t l = Some b' /\ reached_by q' b' /\ (forall i, q' i = if i =? t then fst (linc out k (exc s t)) else q i) /\ stat b' t <> Finished /\
      (forall d, l = [Join d] -> (stat (base s) d = Finished /\ stat b' t = Running) \/ stat b' t = Waits (F d)) /\
      forall j, j <> t -> (forall d, stat (base s) j = Waits (F d) -> stat b' j = Waits (F d)) /\ (stat b' j = Finished <-> stat (base s) j = Finished)).
    { destruct Hl as [Nl [Hl|Hl]].
      - destruct (acts_sim l q (base s) t _ held futs Hl HP Hc Hr Hq) as (b' & q' & held' & futs' & A & B & C & D & E1 & E2 & E3). exists b', q'. split; [exact A|]. split; [eapply reached_run; [apply (s_run _ _ HS)|exact B]|]. split; [exact C|]. split; [congruence|]. split; [|exact E3].
        intros d ->. discriminate.
      - destruct l as [|a [|a' l]]; try discriminate. cbn [app] in Hq. pose proof (act_put q (base s) t a _ Hc Hq) as St. cbn [acts] in E. destruct (act n (base s) t a) as [b1|] eqn:Ea; [|cbn in E; discriminate].
        destruct (act_self _ _ _ _ Hc Hr Ea) as (F1 & _ & F2 & _). exists b1. eexists. split; [cbn [acts]; now rewrite Ea|]. split; [eapply reached_step; [apply (s_run _ _ HS)|exact St]|]. split; [intros i; apply updE|]. split; [exact F1|]. split; [|exact (act_tasks q (base s) t a b1 held futs HP Hc Ea)].
        intros d Ed. injection Ed as ->. now apply F2. }
    destruct Z as (b' & q' & A & R' & Q' & Nf & J & O). rewrite A in E. cbn [with_base] in E. injection E as <-. exists q'. split; cbn [base ctl exc result].
    - exact R'.
    - intros i. rewrite Q', updE. destruct (Nat.eqb_spec i t) as [->|]; [reflexivity|apply (s_prog _ _ HS)].
    - intros i Hi Hn. rewrite updE. destruct (Nat.eqb_spec i t) as [->|N]; [rewrite <- Es; apply (s_out _ _ HS); auto; congruence|]. apply (s_out _ _ HS); auto. intros X. apply Hn. now apply (O i N).
    - intros i d. rewrite updE. destruct (Nat.eqb_spec i t) as [->|]; [apply Ht|apply (s_tl _ _ HS)].
    - intros i d k'. rewrite updE. destruct (Nat.eqb_spec i t) as [->|N].
      + intros ->. destruct He as [He|He]; [|exfalso; apply (He d); now left]. split; [exact He|]. destruct (J d (Hj d k' eq_refl)) as [[X _]|X]; [right; now apply (s_fin _ _ HS)|now left].
      + intros Ek. destruct (s_fetch _ _ HS i d k' Ek) as [X [Y|Y]]; split; auto. left. now apply (O i N).
    - intros u o Ho. destruct (s_res _ _ HS u o Ho) as [X Y]. split; [exact X|]. destruct (Nat.eq_dec u t) as [->|N]; [congruence|]. now apply (O u N).
    - intros u Hu. destruct (Nat.eq_dec u t) as [->|N]; [congruence|]. apply (s_fin _ _ HS). now apply (O u N).
  Qed.
  (** the end of a task *)
  Lemma finish_sim s q t b' : Sim s q -> cur (base s) = Some t -> ctl s t = [] -> Model.step n (set_prog (base s) t []) Go = Some b' ->
    exists q', Sim (SSt b' (ctl s) (exc s) (upd (result s) t (Some (exc s t)))) q'.
  Proof.
    intros HS Hc Ek E. destruct (reached_P _ _ (s_run _ _ HS)) as (held & futs & HP). destruct (cur_running _ _ _ _ _ HP Hc) as [Hr Htn].
    assert (Hq : q t = []) by (rewrite (s_prog _ _ HS t), Ek; reflexivity). pose proof (finish_put q (base s) t Hc Hq) as St. rewrite E in St.
    assert (Eo : exc s t = out t) by (rewrite <- (s_out _ _ HS t Htn) by congruence; now rewrite Ek).
    assert (Rt : result s t = None) by (destruct (result s t) as [o|] eqn:X; [destruct (s_res _ _ HS t o X); congruence|reflexivity]).
    assert (O : forall j, j <> t -> (forall d, d <> t -> stat (base s) j = Waits (F d) -> stat b' j = Waits (F d)) /\ (stat b' j = Finished <-> stat (base s) j = Finished)).
    { intros j Hj. unfold Model.step, set_prog in E. cbn [Model.prog Model.stat Model.cur Model.own Model.queue Model.cnt Model.gqueue Model.joiner] in E. rewrite Hc, upd_same in E.
      destruct (joiner (base s) t) as [w|] eqn:Ej; injection E as <-; cbn [Model.stat]; [|rewrite upd_other by auto; tauto].
      assert (Ew : stat (base s) w = Waits (F t)) by (apply (p_j _ _ _ _ _ _ _ _ HP t w); exact Ej). destruct (Nat.eq_dec j w) as [->|N]; [|rewrite !upd_other by auto; tauto]. rewrite upd_same, Ew. split; [congruence|split; discriminate]. }
    assert (Ft : stat b' t = Finished).
    { unfold Model.step, set_prog in E. cbn [Model.prog Model.stat Model.cur Model.own Model.queue Model.cnt Model.gqueue Model.joiner] in E. rewrite Hc, upd_same in E.
      destruct (joiner (base s) t) as [w|] eqn:Ej; injection E as <-; cbn [Model.stat]; [|apply upd_same]. assert (Ew : stat (base s) w = Waits (F t)) by (apply (p_j _ _ _ _ _ _ _ _ HP t w); exact Ej). rewrite upd_other by congruence. apply upd_same. }
    exists q. split; cbn [base ctl exc result].
    - eapply reached_step; [apply (s_run _ _ HS)|exact St].
    - apply (s_prog _ _ HS).
    - intros i Hi Hn. apply (s_out _ _ HS); auto. destruct (Nat.eq_dec i t) as [->|N]; [congruence|]. intros X. apply Hn. now apply (O i N).
    - apply (s_tl _ _ HS).
    - intros i d k Ei. destruct (s_fetch _ _ HS i d k Ei) as [X Y]. split; [exact X|]. rewrite updE. destruct (Nat.eqb_spec d t) as [->|N]; [right; now rewrite Eo|]. destruct Y as [Y|Y]; [|now right]. left. destruct (Nat.eq_dec i t) as [->|N']; [congruence|]. now apply (O i N').
    - intros u o. rewrite updE. destruct (Nat.eqb_spec u t) as [->|N]; [intros X; injection X as <-; auto|]. intros X. destruct (s_res _ _ HS u o X) as [Y Z]. split; [exact Y|]. now apply (O u N).
    - intros u Hu. rewrite updE. destruct (Nat.eqb_spec u t) as [->|N]; [now rewrite Eo|]. apply (s_fin _ _ HS). now apply (O u N).
  Qed.
  Lemma pick_sim s q t b' : Sim s q -> Model.step n (base s) (Pick t) = Some b' -> Sim (SSt b' (ctl s) (exc s) (result s)) q.
  Proof.
    intros HS E. pose proof (pick_put q (base s) t) as St. rewrite E in St.
    assert (O : forall j, (forall d, stat (base s) j = Waits (F d) -> stat b' j = Waits (F d)) /\ (stat b' j = Finished <-> stat (base s) j = Finished)).
    { intros j. unfold Model.step in E. destruct (t <? n); [|discriminate]. destruct (cur (base s)); [discriminate|]. destruct (Nat.eq_dec j t) as [->|N].
      - destruct (stat (base s) t) eqn:Et; try discriminate; injection E as <-; cbn [Model.stat]; rewrite upd_same; (split; [intros d; discriminate|split; discriminate]).
      - destruct (stat (base s) t); try discriminate; injection E as <-; cbn [Model.stat]; rewrite upd_other by auto; tauto. }
    split; cbn [base ctl exc result].
    - eapply reached_step; [apply (s_run _ _ HS)|exact St].
    - apply (s_prog _ _ HS).
    - intros i Hi Hn. apply (s_out _ _ HS); auto. intros X. apply Hn. now apply O.
    - apply (s_tl _ _ HS).
    - intros i d k Ei. destruct (s_fetch _ _ HS i d k Ei) as [X [Y|Y]]; split; auto. left. now apply O.
    - intros u o Ho. destruct (s_res _ _ HS u o Ho) as [X Y]. split; [exact X|]. now apply O.
    - intros u Hu. apply (s_fin _ _ HS). now apply O.
  Qed.

  Lemma acts_one b t a : acts n b t [a] = act n b t a.
  Proof. cbn [acts]. destruct (act n b t a); reflexivity. Qed.
  Lemma no_fetch s q t x k : Sim s q -> ctl s t = x :: k -> forall d, ~ In (Fetch d) k.
  Proof. intros HS E d. pose proof (s_tl _ _ HS t d) as X. now rewrite E in X. Qed.
  Ltac nf HS Ek := let d := fresh "d" in let H := fresh "H" in intros d H; cbn [In tl] in H; repeat (destruct H as [H|H]; [discriminate H|]); try contradiction; exact (no_fetch _ _ _ _ _ HS Ek d H).
  Lemma step_sim s q e s' : Sim s q -> Scoped.step n given s e = Some s' -> exists q', Sim s' q'.
  Proof.
    intros HS Hs. destruct e as [t|].
    - unfold Scoped.step in Hs. destruct (Model.step n (base s) (Pick t)) as [b'|] eqn:E; [|discriminate]. injection Hs as <-. exists q. now apply (pick_sim s q t).
    - unfold Scoped.step in Hs. destruct (cur (base s)) as [t|] eqn:Hc; [|discriminate].
      destruct (ctl s t) as [|[c|m|g|d|d|h] k] eqn:Ek.
      + destruct (Model.step n (set_prog (base s) t []) Go) as [b'|] eqn:E; [|discriminate]. injection Hs as <-. now apply (finish_sim s q t b').
      + destruct (exc s t) as [x|] eqn:Ex.
        * exists q. apply (control_sim s q t k (Some x)); auto; [now rewrite Ek, Ex|nf HS Ek].
        * destruct c.
          -- exists q. apply (control_sim s q t k None); auto; [rewrite Ek, Ex; cbn [linc lin fst snd app]; now destruct (linc out k None)|nf HS Ek].
          -- exists q. apply (control_sim s q t (Code c1 :: Code c2 :: k) None); auto; [|nf HS Ek]. rewrite Ek, Ex. cbn [linc lin]. destruct (snd (lin out c1)) as [x|]; cbn [fst snd linc]; [reflexivity|]. now rewrite app_assoc.
          -- rewrite <- acts_one in Hs. apply (ops_sim s q t [Pause] k s'); auto; try (rewrite Ek, Ex; reflexivity); [split; [discriminate|auto]|intros d H; apply (no_fetch _ _ _ _ _ HS Ek d); destruct k; [contradiction|now right]|intros d k' E; exfalso; apply (no_fetch _ _ _ _ _ HS Ek d); rewrite E; now left].
          -- exists q. apply (control_sim s q t k (Some x)); auto; [rewrite Ek, Ex; cbn [linc lin fst snd app]; now destruct (linc out k (Some x))|nf HS Ek].
          -- rewrite <- acts_one in Hs. apply (ops_sim s q t [Lock m] (Code c :: EndLock m :: k) s'); auto; [split; [discriminate|auto]| | |nf HS Ek|discriminate]; rewrite Ek, Ex; cbn [linc lin fst snd app]; [now rewrite <- app_assoc|reflexivity].
          -- rewrite <- acts_one in Hs. apply (ops_sim s q t [Wait g] k s'); auto; try (rewrite Ek, Ex; reflexivity); [split; [discriminate|auto]|intros d H; apply (no_fetch _ _ _ _ _ HS Ek d); destruct k; [contradiction|now right]|intros d k' E; exfalso; apply (no_fetch _ _ _ _ _ HS Ek d); rewrite E; now left].
          -- apply (ops_sim s q t (start_ops given t0) k s'); auto; try (rewrite Ek, Ex; reflexivity); [split; [unfold start_ops; now destruct (map _ _)|left; apply ops_simple]|intros d H; apply (no_fetch _ _ _ _ _ HS Ek d); destruct k; [contradiction|now right]|intros d k' E; exfalso; apply (no_fetch _ _ _ _ _ HS Ek d); rewrite E; now left].
          -- apply (ops_sim s q t (start_ops given t0) (Code c :: EndWith t0 :: k) s'); auto; [split; [unfold start_ops; now destruct (map _ _)|left; apply ops_simple]| | |nf HS Ek|discriminate]; rewrite Ek, Ex; cbn [linc lin fst snd app]; destruct (snd (lin out c)); cbn [fst snd linc]; rewrite <- ?app_assoc; reflexivity.
          -- exists q. apply (control_sim s q t (Code c1 :: EndTry c2 :: k) None); auto; [|nf HS Ek]. rewrite Ek, Ex. cbn [linc lin]. destruct (snd (lin out c1)) as [x|]; cbn [fst snd linc]; [now rewrite app_assoc|reflexivity].
      + rewrite <- acts_one in Hs. assert (X : with_base s (acts n (base s) t [Unlock m]) t k = Some s') by (destruct (exc s t); exact Hs).
        apply (ops_sim s q t [Unlock m] k s'); auto; try (rewrite Ek; reflexivity); [right; exact (no_fetch _ _ _ _ _ HS Ek)|split; [discriminate|auto]|intros d H; apply (no_fetch _ _ _ _ _ HS Ek d); destruct k; [contradiction|now right]|intros d k' E; exfalso; apply (no_fetch _ _ _ _ _ HS Ek d); rewrite E; now left].
      + rewrite <- acts_one in Hs. assert (X : with_base s (acts n (base s) t [Done g]) t k = Some s') by (destruct (exc s t); exact Hs).
        apply (ops_sim s q t [Done g] k s'); auto; try (rewrite Ek; reflexivity); [right; exact (no_fetch _ _ _ _ _ HS Ek)|split; [discriminate|auto]|intros d H; apply (no_fetch _ _ _ _ _ HS Ek d); destruct k; [contradiction|now right]|intros d k' E; exfalso; apply (no_fetch _ _ _ _ _ HS Ek d); rewrite E; now left].
      + destruct (exc s t) as [x|] eqn:Ex.
        * exists q. apply (control_sim s q t k (Some x)); auto; [now rewrite Ek, Ex|nf HS Ek].
        * rewrite <- acts_one in Hs. apply (ops_sim s q t [Join d] (Fetch d :: k) s'); auto; try (rewrite Ek, Ex; reflexivity); [split; [discriminate|auto]|nf HS Ek|intros d0 k' E; now injection E as <- _].
      + destruct (s_fetch _ _ HS t d k Ek) as [Ex Y]. rewrite Ex in Hs. destruct (reached_P _ _ (s_run _ _ HS)) as (held & futs & HP). destruct (cur_running _ _ _ _ _ HP Hc) as [Hr _].
        destruct Y as [Y|Y]; [congruence|]. rewrite Y in Hs. exists q. apply (control_sim s q t k (out d)); auto; [now rewrite Ek, Ex|nf HS Ek].
      + destruct (exc s t) as [x|] eqn:Ex; exists q.
        * apply (control_sim s q t (Code h :: k) None); auto; [now rewrite Ek, Ex|nf HS Ek].
        * apply (control_sim s q t k None); auto; [now rewrite Ek, Ex|nf HS Ek].
  Qed.
  Lemma run_sim : forall l s q s', Sim s q -> run (Scoped.step n given) s l = Some s' -> exists q', Sim s' q'.
  Proof.
    induction l as [|e l IH]; intros s q s' HS Hr; cbn [run] in Hr; [injection Hr as <-; eauto|]. destruct (Scoped.step n given s e) as [s1|] eqn:E; [|discriminate].
    destruct (step_sim _ _ _ _ HS E) as (q1 & HS1). eauto.
  Qed.
  (** ** the running task can go on *)
  Lemma ops_enabled s q t l : Sim s q -> cur (base s) = Some t -> (forallb simple l = true \/ length l = 1) -> (exists p, fst (linc out (ctl s t) (exc s t)) = l ++ p) -> forall k, with_base s (acts n (base s) t l) t k <> None.
  Proof.
    intros HS Hc Hl [p Ef] k. destruct (reached_P _ _ (s_run _ _ HS)) as (held & futs & HP). destruct (cur_running _ _ _ _ _ HP Hc) as [Hr _]. pose proof (s_prog _ _ HS t) as Hq. rewrite Ef in Hq.
    destruct Hl as [Hl|Hl].
    - destruct (acts_sim l q (base s) t _ held futs Hl HP Hc Hr Hq) as (b' & q' & held' & futs' & A & _). rewrite A. discriminate.
    - destruct l as [|a [|a' l]]; try discriminate. rewrite acts_one. pose proof (go_enabled _ _ _ _ _ _ _ _ t HP Hc) as En. rewrite (act_put q (base s) t a _ Hc Hq) in En. destruct (act n (base s) t a); [discriminate|congruence].
  Qed.
  Lemma scoped_go s q t : Sim s q -> cur (base s) = Some t -> Scoped.step n given s Go <> None.
  Proof.
    intros HS Hc. unfold Scoped.step. rewrite Hc. destruct (reached_P _ _ (s_run _ _ HS)) as (held & futs & HP). destruct (cur_running _ _ _ _ _ HP Hc) as [Hr _].
    destruct (ctl s t) as [|[c|m|g|d|d|h] k] eqn:Ek.
    - assert (Hq : q t = []) by (rewrite (s_prog _ _ HS t), Ek; reflexivity). pose proof (go_enabled _ _ _ _ _ _ _ _ t HP Hc) as En. rewrite (finish_put q (base s) t Hc Hq) in En. destruct (Model.step n (set_prog (base s) t []) Go); [discriminate|congruence].
    - destruct (exc s t) as [x|] eqn:Ex; [discriminate|]. destruct c; try discriminate; rewrite <- ?acts_one; (eapply ops_enabled; [exact HS|exact Hc|first [now right|left; apply ops_simple]|]); rewrite Ek, Ex; cbn [linc lin fst]; try (eexists; reflexivity).
      destruct (snd (lin out c)); cbn [fst]; rewrite <- ?app_assoc; eexists; reflexivity.
    - enough (X : with_base s (act n (base s) t (Unlock m)) t k <> None) by (destruct (exc s t); exact X). rewrite <- acts_one. eapply ops_enabled; [exact HS|exact Hc|now right|]. rewrite Ek. eexists; reflexivity.
    - enough (X : with_base s (act n (base s) t (Done g)) t k <> None) by (destruct (exc s t); exact X). rewrite <- acts_one. eapply ops_enabled; [exact HS|exact Hc|now right|]. rewrite Ek. eexists; reflexivity.
    - destruct (exc s t) as [x|] eqn:Ex; [discriminate|]. rewrite <- acts_one. eapply ops_enabled; [exact HS|exact Hc|now right|]. rewrite Ek, Ex. eexists; reflexivity.
    - destruct (s_fetch _ _ HS t d k Ek) as [Ex [Y|Y]]; [congruence|]. rewrite Ex, Y. discriminate.
    - destruct (exc s t); discriminate.
  Qed.
  Lemma scoped_stuck s q : Sim s q -> ScopedSpec.stuck n given s -> Spec.stuck n (put q (base s)).
  Proof.
    intros HS St e. assert (C0 : cur (base s) = None) by (destruct (cur (base s)) as [t|] eqn:E; auto; exfalso; apply (scoped_go _ _ _ HS E), St). destruct e as [t|].
    - rewrite pick_put. pose proof (St (Pick t)) as X. unfold Scoped.step in X. destruct (Model.step n (base s) (Pick t)); [discriminate|reflexivity].
    - unfold Model.step, put. cbn [Model.cur]. now rewrite C0.
  Qed.
  Lemma begun_reached i : begun bodies roots i -> reached roots progs i /\ i < n.
  Proof.
    induction 1 as [i R|i o st t Hi [IH In_] Hm Ht].
    - split; [now constructor|now apply (ws_roots _ _ _ _ _ WS i)].
    - destruct (means_det _ _ _ _ Hm _ _ (means_body i In_)) as [-> ->]. rewrite <- starts_progs in Ht. split; [eapply r_start; eauto|]. now apply (ws_starts _ _ _ _ _ WS i t In_), starts_in.
  Qed.

  (** ** every step counts *)
  Definition isize (x : item) : nat := match x with Code c => size c | EndLock _ => 1 | EndDone _ => 1 | EndWith _ => 2 | Fetch _ => 1 | EndTry h => 1 + size h end.
  Fixpoint ksize (k : list item) : nat := match k with [] => 0 | x :: k => isize x + ksize k end.
  Definition left_of (s : Scoped.state) (i : nat) : nat := 2 * ksize (ctl s i) + match result s i with None => 2 | Some _ => 0 end.
  Definition measure (s : Scoped.state) : nat := sum_to n (left_of s) + match cur (base s) with None => 1 | Some _ => 0 end.
  Lemma size_pos c : 0 < size c.
  Proof. destruct c; cbn; lia. Qed.
  Lemma measure_down s q e s' : Sim s q -> Scoped.step n given s e = Some s' -> measure s' < measure s.
  Proof.
    intros HS Hs. destruct e as [t|].
    - unfold Scoped.step in Hs. destruct (Model.step n (base s) (Pick t)) as [b'|] eqn:E; [|discriminate]. injection Hs as <-. unfold measure. cbn [base]. rewrite (sum_to_ext n (left_of (SSt b' (ctl s) (exc s) (result s))) (left_of s)) by reflexivity.
      unfold Model.step in E. destruct (t <? n); [|discriminate]. destruct (cur (base s)); [discriminate|]. destruct (stat (base s) t); try discriminate; injection E as <-; cbn [Model.cur]; lia.
    - destruct (cur (base s)) as [t|] eqn:Hc; [|unfold Scoped.step in Hs; rewrite Hc in Hs; discriminate].
      destruct (reached_P _ _ (s_run _ _ HS)) as (held & futs & HP). destruct (cur_running _ _ _ _ _ HP Hc) as [Hr Ht].
      enough (X : (forall i, i <> t -> left_of s' i = left_of s i) /\ left_of s' t + 2 <= left_of s t).
      { destruct X as [X1 X2]. pose proof (sum_to_one n (left_of s') (left_of s) t Ht X1) as Y. unfold measure. destruct (cur (base s')); lia. }
      assert (Zc : forall k x, control s t k x = Some s' -> ksize k < ksize (ctl s t) -> (forall i, i <> t -> left_of s' i = left_of s i) /\ left_of s' t + 2 <= left_of s t).
      { intros k x E L. injection E as <-. unfold left_of. cbn [ctl result]. split; [intros i Hi; now rewrite upd_other|]. rewrite upd_same. lia. }
      assert (Zb : forall b k, with_base s b t k = Some s' -> ksize k < ksize (ctl s t) -> (forall i, i <> t -> left_of s' i = left_of s i) /\ left_of s' t + 2 <= left_of s t).
      { intros [b|] k E L; [|discriminate]. injection E as <-. unfold left_of. cbn [ctl result]. split; [intros i Hi; now rewrite upd_other|]. rewrite upd_same. lia. }
      unfold Scoped.step in Hs. rewrite Hc in Hs. destruct (ctl s t) as [|[c|m|g|d|d|h] k] eqn:Ek.
      + destruct (Model.step n (set_prog (base s) t []) Go) as [b'|] eqn:E; [|discriminate]. injection Hs as <-. unfold left_of. cbn [ctl result]. split; [intros i Hi; now rewrite upd_other|]. rewrite upd_same.
        destruct (result s t) as [o|] eqn:Ro; [destruct (s_res _ _ HS t o Ro); congruence|lia].
      + destruct (exc s t) as [x|] eqn:Ex; [apply (Zc _ _ Hs); cbn [ksize isize]; pose proof (size_pos c); lia|]. destruct c; (apply (Zc _ _ Hs) || apply (Zb _ _ Hs)); cbn [ksize isize size]; lia.
      + destruct (exc s t); apply (Zb _ _ Hs); cbn [ksize isize]; lia.
      + destruct (exc s t); apply (Zb _ _ Hs); cbn [ksize isize]; lia.
      + destruct (exc s t); (apply (Zc _ _ Hs) || apply (Zb _ _ Hs)); cbn [ksize isize]; lia.
      + destruct (exc s t); [discriminate|]. destruct (result s d); [|discriminate]. apply (Zc _ _ Hs); cbn [ksize isize]; lia.
      + destruct (exc s t); apply (Zc _ _ Hs); cbn [ksize isize]; lia.
  Qed.
  Lemma run_measure : forall l s q s', Sim s q -> run (Scoped.step n given) s l = Some s' -> measure s' + length l <= measure s.
  Proof.
    induction l as [|e l IH]; intros s q s' HS Hr; cbn [run] in Hr; [injection Hr as <-; cbn; lia|]. destruct (Scoped.step n given s e) as [s1|] eqn:E; [|discriminate].
    destruct (step_sim _ _ _ _ HS E) as (q1 & HS1). pose proof (measure_down _ _ _ _ HS E). specialize (IH _ _ _ HS1 Hr). cbn [length]. lia.
  Qed.
  Lemma measure_init : measure (Scoped.init given roots bodies) = sum_to n (fun i => 2 * (size (bodies i) + length (given i)) + 2) + 1.
  Proof.
    unfold measure. cbn [Scoped.init base Model.init Model.cur]. f_equal. apply sum_to_ext. intros i _. unfold left_of. cbn [Scoped.init ctl result ksize isize].
    assert (E : forall gs, ksize (map EndDone gs) = length gs) by (induction gs as [|g gs IH]; cbn [map ksize isize length]; [reflexivity|now rewrite IH]). now rewrite E.
  Qed.
End X.
