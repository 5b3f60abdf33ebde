(** Proofs for C147. *)
From Coq Require Import List Arith Bool Lia.
From Verif.Common Require Import TS.
From Verif.Fair Require Import Model.
Import ListNotations.

Lemma updE {A} (f : nat -> A) i x j : upd f i x j = if j =? i then x else f j.
Proof. destruct (Nat.eqb_spec j i) as [->|]; [apply upd_same|now apply upd_other]. Qed.
Inductive loc := LQ (p : nat) | LD (w : nat) | LB (w : nat).
Definition holds (s : state) (x : nat) (a : loc) : Prop := match a with LQ p => In x (q s p) | LD w => In x (due s w) | LB w => ph s w = Busy x end.
(** every task is in one place *)
Record Inv (s : state) : Prop := {
  i_q : forall p, NoDup (q s p);
  i_d : forall w, NoDup (due s w);
  i_one : forall x a b, holds s x a -> holds s x b -> a = b;
  i_off : forall x a, holds s x a -> off s x = false }.
Lemma nodup_l {A} (a b : list A) : NoDup (a ++ b) -> NoDup a.
Proof. induction a as [|x a IH]; cbn; intros H; [constructor|]. inversion H; subst. constructor; [|auto]. intros X. apply H2. apply in_app_iff. auto. Qed.
Section P.
  Variable n : nat.
  Notation step := (step n). Notation turns := (turns n).
  Lemma Inv_init : Inv init.
  Proof. split; cbn; intros; try constructor; destruct a; try contradiction; discriminate. Qed.
  Lemma nodup_mid {A} (x : A) i l : NoDup l -> ~ In x l -> NoDup (firstn i l ++ x :: skipn i l).
  Proof. intros H N. apply NoDup_Add with (a := x) (l := l); [|now split]. rewrite <- (firstn_skipn i l) at 1. apply Add_app. Qed.
  Lemma in_mid {A} (x y : A) i l : In y (firstn i l ++ x :: skipn i l) <-> y = x \/ In y l.
  Proof. rewrite in_app_iff. cbn. rewrite <- (firstn_skipn i l) at 3. rewrite in_app_iff. intuition. Qed.
  (** the places after a step, in terms of those before *)
  Lemma Inv_step s e s' : Inv s -> step s e = Some s' -> Inv s'.
  Proof.
    intros [A B C D] E.
    assert (No : forall x a, off s x = true -> holds s x a -> False) by (intros x a X Y; rewrite (D x a Y) in X; discriminate).
    destruct e as [w i x|w|w p|w|w y|w|w|p y]; cbn [Model.step] in E.
    - destruct ((w <? n) && off s x) eqn:G; [|discriminate]. injection E as <-. apply andb_prop in G as [_ G].
      assert (H : forall y a, holds (St (q s) (upd (due s) w (firstn i (due s w) ++ x :: skipn i (due s w))) (ph s) (upd (off s) x false)) y a -> holds s y a \/ (y = x /\ a = LD w)).
      { intros y [p|v|v]; cbn; auto. rewrite updE. destruct (Nat.eqb_spec v w) as [->|]; auto. rewrite in_mid. intuition. }
      split; cbn [q due ph off].
      + exact A.
      + intros v. rewrite updE. destruct (v =? w); auto. apply nodup_mid; auto. intros X. exact (No x (LD w) G X).
      + intros y a b Ha Hb. destruct (H y a Ha) as [X|[Z1 Z2]], (H y b Hb) as [Y|[Y1 Y2]]; subst; auto; [exact (C y a b X Y)|destruct (No x a G X)|destruct (No x b G Y)].
      + intros y a Ha. rewrite updE. destruct (Nat.eqb_spec y x) as [->|N]; auto. destruct (H y a Ha) as [X|[-> _]]; [exact (D y a X)|congruence].
    - destruct (ph s w) eqn:P; try discriminate. destruct (w <? n); [|discriminate]. injection E as <-.
      assert (H : forall y a, holds (St (upd (q s) w (q s w ++ due s w)) (upd (due s) w []) (upd (ph s) w Polled) (off s)) y a -> (holds s y a /\ a <> LD w) \/ (holds s y (LD w) /\ a = LQ w)).
      { intros y [p|v|v]; cbn; rewrite updE.
        - destruct (Nat.eqb_spec p w) as [->|]; [rewrite in_app_iff; intuition discriminate|intuition discriminate].
        - destruct (Nat.eqb_spec v w); [contradiction|]. intros X. left. split; [exact X|congruence].
        - destruct (Nat.eqb_spec v w); [discriminate|]. intros X. left. split; [exact X|discriminate]. }
      split; cbn [q due ph off].
      + intros p. rewrite updE. destruct (Nat.eqb_spec p w) as [->|]; auto. generalize (A w) (B w) (fun x (X : In x (q s w)) (Y : In x (due s w)) => C x (LQ w) (LD w) X Y). clear. induction (q s w) as [|x l IH]; cbn; intros H1 H2 H3; auto. inversion H1; subst. constructor; [|apply IH; auto; intros y Hy; apply H3; now right]. rewrite in_app_iff. intros [X|X]; [auto|]. discriminate (H3 x (or_introl eq_refl) X).
      + intros v. rewrite updE. destruct (v =? w); [constructor|auto].
      + intros y a b Ha Hb. destruct (H y a Ha) as [[X X']|[X ->]], (H y b Hb) as [[Y Y']|[Y ->]]; auto; [exact (C y a b X Y)|destruct (X' (C y a (LD w) X Y))|destruct (Y' (C y b (LD w) Y X))].
      + intros y a Ha. destruct (H y a Ha) as [[X _]|[X _]]; eapply D; exact X.
    - destruct (ph s w) eqn:P; try discriminate. destruct (q s p) as [|x r] eqn:Q; [discriminate|]. injection E as <-. pose proof (A p) as Np. rewrite Q in Np. inversion Np as [|? ? Nx Nr]; subst.
      assert (Hx : holds s x (LQ p)) by (cbn; rewrite Q; now left).
      assert (H : forall y a, holds (St (upd (q s) p r) (due s) (upd (ph s) w (Busy x)) (off s)) y a -> (holds s y a /\ (y = x -> a <> LQ p)) \/ (y = x /\ a = LB w)).
      { intros y [p'|v|v]; cbn; rewrite ?updE; auto.
        - destruct (Nat.eqb_spec p' p) as [->|N]; [rewrite Q; cbn; intros X; left; split; [auto|intros ->; contradiction]|intros X; left; split; [exact X|intros _ Y; congruence]].
        - intros X. left. split; [exact X|discriminate].
        - destruct (Nat.eqb_spec v w) as [->|N]; [intros X; injection X as ->; auto|intros X; left; split; [exact X|discriminate]]. }
      split; cbn [q due ph off].
      + intros v. rewrite updE. destruct (v =? p); auto.
      + exact B.
      + intros y a b Ha Hb. destruct (H y a Ha) as [[X X']|[Z1 Z2]], (H y b Hb) as [[Y Y']|[Y1 ->]]; subst; auto; [exact (C y a b X Y)|destruct (X' eq_refl (C x a (LQ p) X Hx))|destruct (Y' eq_refl (C x b (LQ p) Y Hx))].
      + intros y a Ha. destruct (H y a Ha) as [[X _]|[-> _]]; eapply D; [exact X|exact Hx].
    - destruct (ph s w) eqn:P; try discriminate. injection E as <-.
      assert (H : forall y a, holds (St (q s) (due s) (upd (ph s) w Loop) (off s)) y a -> holds s y a). { intros y [p|v|v]; cbn; auto. rewrite updE. destruct (v =? w); [discriminate|auto]. }
      split; auto; [intros y a b Ha Hb; eapply C; eauto|intros y a Ha; eapply D; eauto].
    - destruct (ph s w) eqn:P; try discriminate. destruct (off s y) eqn:G; [|discriminate]. injection E as <-.
      assert (H : forall z a, holds (St (upd (q s) w (q s w ++ [y])) (due s) (ph s) (upd (off s) y false)) z a -> holds s z a \/ (z = y /\ a = LQ w)).
      { intros z [p|v|v]; cbn; auto. rewrite updE. destruct (Nat.eqb_spec p w) as [->|]; auto. rewrite in_app_iff. cbn. intuition. }
      split; cbn [q due ph off].
      + intros v. rewrite updE. destruct (v =? w); auto. apply NoDup_snoc; auto. intros X. exact (No y (LQ w) G X).
      + exact B.
      + intros z a b Ha Hb. destruct (H z a Ha) as [X|[Z1 Z2]], (H z b Hb) as [Y|[Y1 Y2]]; subst; auto; [exact (C z a b X Y)|destruct (No y a G X)|destruct (No y b G Y)].
      + intros z a Ha. rewrite updE. destruct (Nat.eqb_spec z y) as [->|N]; auto. destruct (H z a Ha) as [X|[-> _]]; [exact (D z a X)|congruence].
    - destruct (ph s w) as [| |x] eqn:P; try discriminate. injection E as <-.
      assert (H : forall z a, holds (St (upd (q s) w (q s w ++ [x])) (due s) (upd (ph s) w Loop) (off s)) z a -> (holds s z a /\ a <> LB w) \/ (z = x /\ a = LQ w)).
      { intros z [p|v|v]; cbn; rewrite ?updE.
        - destruct (Nat.eqb_spec p w) as [->|]; [rewrite in_app_iff; cbn; intros [X|[X|[]]]; [left; split; [exact X|discriminate]|right; auto]|intros X; left; split; [exact X|discriminate]].
        - intros X. left. split; [exact X|discriminate].
        - destruct (Nat.eqb_spec v w); [discriminate|]. intros X. left. split; [exact X|congruence]. }
      split; cbn [q due ph off].
      + intros v. rewrite updE. destruct (v =? w); auto. apply NoDup_snoc; auto. intros X. discriminate (C x (LQ w) (LB w) X P).
      + exact B.
      + intros z a b Ha Hb. destruct (H z a Ha) as [[X X']|[Z1 Z2]], (H z b Hb) as [[Y Y']|[Y1 ->]]; subst; auto; [exact (C z a b X Y)|destruct (X' (C x a (LB w) X P))|destruct (Y' (C x b (LB w) Y P))].
      + intros z a Ha. destruct (H z a Ha) as [[X _]|[-> _]]; [eapply D; exact X|exact (D x (LB w) P)].
    - destruct (ph s w) as [| |x] eqn:P; try discriminate. injection E as <-.
      assert (H : forall z a, holds (St (q s) (due s) (upd (ph s) w Loop) (upd (off s) x true)) z a -> holds s z a /\ a <> LB w).
      { intros z [p|v|v]; cbn; try (split; [auto|discriminate]). rewrite updE. destruct (Nat.eqb_spec v w); [discriminate|split; [auto|congruence]]. }
      split; cbn [q due ph off]; auto; [intros z a b Ha Hb; destruct (H z a Ha), (H z b Hb); eapply C; eauto|]. intros z a Ha. destruct (H z a Ha) as [X Y]. rewrite updE. destruct (Nat.eqb_spec z x) as [->|]; [destruct (Y (C x a (LB w) X P))|exact (D z a X)].
    - destruct ((n <=? p) && off s y) eqn:G; [|discriminate]. injection E as <-. apply andb_prop in G as [_ G].
      assert (H : forall z a, holds (St (upd (q s) p (q s p ++ [y])) (due s) (ph s) (upd (off s) y false)) z a -> holds s z a \/ (z = y /\ a = LQ p)).
      { intros z [p'|v|v]; cbn; auto. rewrite updE. destruct (Nat.eqb_spec p' p) as [->|]; auto. rewrite in_app_iff. cbn. intuition. }
      split; cbn [q due ph off].
      + intros v. rewrite updE. destruct (v =? p); auto. apply NoDup_snoc; auto. intros X. exact (No y (LQ p) G X).
      + exact B.
      + intros z a b Ha Hb. destruct (H z a Ha) as [X|[Z1 Z2]], (H z b Hb) as [Y|[Y1 Y2]]; subst; auto; [exact (C z a b X Y)|destruct (No y a G X)|destruct (No y b G Y)].
      + intros z a Ha. rewrite updE. destruct (Nat.eqb_spec z y) as [->|N]; auto. destruct (H z a Ha) as [X|[-> _]]; [exact (D z a X)|congruence].
  Qed.
  Lemma Inv_run : forall l s s', Inv s -> run step s l = Some s' -> Inv s'.
  Proof. induction l as [|e l IH]; cbn; intros s s' H R; [now injection R as <-|]. destruct (step s e) as [s1|] eqn:E; [|discriminate]. eapply IH; [|exact R]. eapply Inv_step; eauto. Qed.

  (** only workers run tasks *)
  Lemma workers_step s e s' : (forall w, n <= w -> ph s w = Loop) -> step s e = Some s' -> forall w, n <= w -> ph s' w = Loop.
  Proof.
    intros H E v Hv. specialize (H v Hv). destruct e as [w i x|w|w p|w|w y|w|w|p y]; cbn [Model.step] in E.
    - destruct (_ && _); [|discriminate]. now injection E as <-.
    - destruct (ph s w) eqn:P; try discriminate. destruct (Nat.ltb_spec w n); [|discriminate]. injection E as <-. cbn. now rewrite upd_other by lia.
    - destruct (ph s w) eqn:P; try discriminate. destruct (q s p); [discriminate|]. injection E as <-. cbn. rewrite upd_other by congruence. exact H.
    - destruct (ph s w) eqn:P; try discriminate. injection E as <-. cbn. rewrite upd_other by congruence. exact H.
    - destruct (ph s w) eqn:P; try discriminate. destruct (off s y); [|discriminate]. now injection E as <-.
    - destruct (ph s w) eqn:P; try discriminate. injection E as <-. cbn. rewrite upd_other by congruence. exact H.
    - destruct (ph s w) eqn:P; try discriminate. injection E as <-. cbn. rewrite upd_other by congruence. exact H.
    - destruct (_ && _); [|discriminate]. now injection E as <-.
  Qed.
  Lemma workers_run : forall l s s', (forall w, n <= w -> ph s w = Loop) -> run step s l = Some s' -> forall w, n <= w -> ph s' w = Loop.
  Proof. induction l as [|e l IH]; cbn; intros s s' H R; [now injection R as <-|]. destruct (step s e) as [s1|] eqn:E; [|discriminate]. apply (IH s1); [|exact R]. eapply workers_step; eauto. Qed.
  (** a queue only loses its head and grows at the end *)
  Lemma queue_step s e s' p : step s e = Some s' -> (exists more, q s' p = q s p ++ more /\ (turn s e s' <> [] -> forall w, e <> Take w p)) \/ (exists w x, e = Take w p /\ q s p = x :: q s' p /\ turn s e s' = [x]).
  Proof.
    assert (K : forall (l : list nat), exists more, l = l ++ more /\ (@nil nat <> [] -> forall w, e <> Take w p)) by (intros l; exists []; rewrite app_nil_r; split; [reflexivity|congruence]).
    intros E. destruct e as [w i x|w|w p'|w|w y|w|w|p' y]; cbn [Model.step turn] in *.
    - destruct (_ && _); [|discriminate]. injection E as <-. left. apply K.
    - destruct (ph s w); try discriminate. destruct (w <? n); [|discriminate]. injection E as <-. left. cbn. rewrite updE. destruct (Nat.eqb_spec p w) as [->|]; [|apply K]. exists (due s w). split; [reflexivity|congruence].
    - destruct (ph s w); try discriminate. destruct (q s p') as [|x r] eqn:Q; [discriminate|]. injection E as <-. cbn. rewrite updE. destruct (Nat.eqb_spec p p') as [->|N]; [right; exists w, x; auto|]. left. exists []. rewrite app_nil_r. split; [reflexivity|]. intros _ v X. congruence.
    - destruct (ph s w); try discriminate. injection E as <-. left. apply K.
    - destruct (ph s w); try discriminate. destruct (off s y); [|discriminate]. injection E as <-. left. cbn. rewrite updE. destruct (Nat.eqb_spec p w) as [->|]; [|apply K]. exists [y]. split; [reflexivity|congruence].
    - destruct (ph s w) as [| |x]; try discriminate. injection E as <-. left. cbn. rewrite updE. destruct (Nat.eqb_spec p w) as [->|]; [|apply K]. exists [x]. split; [reflexivity|congruence].
    - destruct (ph s w) as [| |x]; try discriminate. injection E as <-. left. apply K.
    - destruct (_ && _); [|discriminate]. injection E as <-. left. cbn. rewrite updE. destruct (Nat.eqb_spec p p') as [->|]; [|apply K]. exists [y]. split; [reflexivity|congruence].
  Qed.
  Lemma turns_cons s e l s1 : step s e = Some s1 -> turns s (e :: l) = turn s e s1 ++ turns s1 l.
  Proof. intros E. unfold Model.turns. cbn [trace]. now rewrite E. Qed.
  (** while [x] has no turn it stays where it is, and what is behind it stays behind *)
  Lemma stays p x : forall l s s' l1 l2, q s p = l1 ++ x :: l2 -> run step s l = Some s' -> ~ In x (turns s l) -> exists k more, q s' p = skipn k l1 ++ x :: l2 ++ more.
  Proof.
    induction l as [|e l IH]; intros s s' l1 l2 Q R N; cbn [run] in R.
    - injection R as <-. exists 0, []. cbn. now rewrite app_nil_r.
    - destruct (step s e) as [s1|] eqn:E; [|discriminate]. rewrite (turns_cons s e l s1 E), in_app_iff in N.
      destruct (queue_step s e s1 p E) as [(more & H & _)|(w & y & -> & H & T)].
      + rewrite Q in H. rewrite <- app_assoc in H. cbn [app] in H. destruct (IH s1 s' l1 (l2 ++ more) H R ltac:(tauto)) as (k & m & X). exists k, (more ++ m). rewrite X. now rewrite <- app_assoc.
      + rewrite Q in H. destruct l1 as [|z l1]; cbn [app] in H; injection H as -> H; [rewrite T in N; cbn in N; tauto|]. destruct (IH s1 s' l1 l2 (eq_sym H) R ltac:(tauto)) as (k & m & X). exists (S k), m. exact X.
  Qed.
End P.

Definition outside (e : event) : bool := match e with Post _ _ => true | _ => false end.
(** what is known of one worker while nobody else enqueues *)
Record One (s : state) : Prop := { o_inv : Inv s; o_loop : forall w, 1 <= w -> ph s w = Loop; o_q : forall p, p <> 0 -> q s p = [] }.
Lemma One_step s e s' : One s -> outside e = false -> step 1 s e = Some s' -> One s'.
Proof.
  intros [A B C] O E. split; [exact (Inv_step 1 s e s' A E)|exact (workers_step 1 s e s' B E)|]. intros p Hp. specialize (C p Hp).
  assert (W : forall w, ph s w <> Loop -> w = 0) by (intros [|w] H; [reflexivity|destruct H; apply B; lia]).
  destruct e as [w i y|w|w p'|w|w y|w|w|p' y]; cbn [step] in E; try discriminate.
  - destruct (_ && _); [|discriminate]. now injection E as <-.
  - destruct (ph s w); try discriminate. destruct (Nat.ltb_spec w 1); [|discriminate]. injection E as <-. cbn. now rewrite upd_other by lia.
  - destruct (ph s w); try discriminate. destruct (q s p') as [|z r] eqn:Q'; [discriminate|]. injection E as <-. cbn. rewrite upd_other; [exact C|]. intros ->. congruence.
  - destruct (ph s w); try discriminate. now injection E as <-.
  - destruct (ph s w) eqn:P; try discriminate. destruct (off s y); [|discriminate]. injection E as <-. cbn. rewrite upd_other; [exact C|]. rewrite (W w); [exact Hp|congruence].
  - destruct (ph s w) eqn:P; try discriminate. injection E as <-. cbn. rewrite upd_other; [exact C|]. rewrite (W w); [exact Hp|congruence].
  - destruct (ph s w); try discriminate. now injection E as <-.
Qed.
Lemma in_queue x : forall l s s' l1 l2, One s -> q s 0 = l1 ++ x :: l2 -> run (step 1) s l = Some s' -> (forall e, In e l -> outside e = false) -> ~ In x (turns 1 s l) -> exists c, l1 = turns 1 s l ++ c.
Proof.
  induction l as [|e l IH]; intros s s' l1 l2 HO Q R No N; [exists l1; reflexivity|]. cbn [run] in R. destruct (step 1 s e) as [s1|] eqn:E; [|discriminate]. rewrite (turns_cons 1 s e l s1 E) in *. rewrite in_app_iff in N.
  pose proof (One_step s e s1 HO (No e (or_introl eq_refl)) E) as HO1. destruct (queue_step 1 s e s1 0 E) as [(more & H & T)|(w & z & Ee & H & T)].
  - assert (turn s e s1 = []) as Z. { destruct e as [| |w p| | | | |]; try reflexivity. cbn [turn] in *. destruct (q s p) as [|z r] eqn:Q'; [reflexivity|]. destruct (Nat.eq_dec p 0) as [->|Np]; [destruct (T ltac:(discriminate) w eq_refl)|]. rewrite (o_q _ HO p Np) in Q'. discriminate. }
    rewrite Z in *. rewrite Q, <- app_assoc in H. cbn [app] in H. apply (IH s1 s' l1 (l2 ++ more) HO1 H R); [intros e' He; apply No; now right|tauto].
  - rewrite T in *. rewrite Q in H. destruct l1 as [|z' l1]; cbn [app] in H; injection H as -> H; [destruct N; left; now left|]. destruct (IH s1 s' l1 l2 HO1 (eq_sym H) R) as [c Hc]; [intros e' He; apply No; now right|tauto|]. exists c. cbn. now rewrite <- Hc.
Qed.
Definition count (y : nat) (l : list nat) : nat := count_occ Nat.eq_dec l y.
Lemma count_cons y z l : count y (z :: l) <= 1 + count y l.
Proof. unfold count. cbn. destruct (Nat.eq_dec z y); lia. Qed.
Lemma queued_count x l s s' l1 l2 y : One s -> q s 0 = l1 ++ x :: l2 -> run (step 1) s l = Some s' -> (forall e, In e l -> outside e = false) -> ~ In x (turns 1 s l) -> count y (turns 1 s l) <= 1.
Proof.
  intros HO Q R No N. destruct (in_queue x l s s' l1 l2 HO Q R No N) as [c Hc]. pose proof (i_q _ (o_inv _ HO) 0) as Nd. rewrite Q in Nd. apply nodup_l in Nd. rewrite Hc in Nd. apply nodup_l in Nd. now apply (NoDup_count_occ Nat.eq_dec).
Qed.
Lemma due_count x y : forall l s s', One s -> In x (due s 0) -> run (step 1) s l = Some s' -> (forall e, In e l -> outside e = false) -> ~ In x (turns 1 s l) -> count y (turns 1 s l) <= match ph s 0 with Polled => 2 | _ => 1 end.
Proof.
  induction l as [|e l IH]; intros s s' HO D R No N; [cbn; destruct (ph s 0); lia|]. cbn [run] in R. destruct (step 1 s e) as [s1|] eqn:E; [|discriminate]. rewrite (turns_cons 1 s e l s1 E) in *. rewrite in_app_iff in N.
  pose proof (One_step s e s1 HO (No e (or_introl eq_refl)) E) as HO1. assert (No1 : forall e', In e' l -> outside e' = false) by (intros e' He; apply No; now right). specialize (IH s1 s' HO1).
  assert (W : forall w, ph s w <> Loop -> w = 0) by (intros [|w] H; [reflexivity|destruct H; apply (o_loop _ HO); lia]).
  destruct e as [w i z|w|w p|w|w z|w|w|p z]; cbn [step turn] in *.
  - destruct ((w <? 1) && off s z) eqn:G; [|discriminate]. injection E as <-. cbn [due ph app] in *. apply IH; auto. rewrite updE. destruct (Nat.eqb_spec 0 w) as [<-|]; [|exact D]. apply in_mid. auto.
  - destruct (ph s w) eqn:P; try discriminate. destruct (Nat.ltb_spec w 1) as [L|]; [|discriminate]. assert (w = 0) as -> by lia. injection E as E. rewrite P. cbn [app].
    assert (X : In x (q s1 0)) by (subst s1; cbn [q]; rewrite upd_same; apply in_app_iff; auto). apply in_split in X as (l1 & l2 & X). apply (queued_count x l s1 s' l1 l2); auto.
  - destruct (ph s w) eqn:P; try discriminate. assert (w = 0) as -> by (apply W; congruence). destruct (q s p) as [|z r] eqn:Q; [discriminate|]. injection E as E. rewrite P. cbn [firstn app] in *. assert (P1 : ph s1 0 = Busy z) by (subst s1; cbn [ph]; apply upd_same). rewrite P1 in IH.
    assert (count y (turns 1 s1 l) <= 1) by (apply IH; auto; subst s1; exact D). pose proof (count_cons y z (turns 1 s1 l)). lia.
  - destruct (ph s w) eqn:P; try discriminate. assert (w = 0) as -> by (apply W; congruence). injection E as E. rewrite P. cbn [app] in *. assert (P1 : ph s1 0 = Loop) by (subst s1; cbn [ph]; apply upd_same). rewrite P1 in IH. assert (count y (turns 1 s1 l) <= 1) by (apply IH; auto; subst s1; exact D). lia.
  - destruct (ph s w) eqn:P; try discriminate. destruct (off s z); [|discriminate]. injection E as <-. cbn [due ph app] in *. apply IH; auto.
  - destruct (ph s w) eqn:P; try discriminate. assert (w = 0) as -> by (apply W; congruence). injection E as E. rewrite P. cbn [app] in *. assert (P1 : ph s1 0 = Loop) by (subst s1; cbn [ph]; apply upd_same). rewrite P1 in IH. apply IH; auto. subst s1; exact D.
  - destruct (ph s w) eqn:P; try discriminate. assert (w = 0) as -> by (apply W; congruence). injection E as E. rewrite P. cbn [app] in *. assert (P1 : ph s1 0 = Loop) by (subst s1; cbn [ph]; apply upd_same). rewrite P1 in IH. apply IH; auto. subst s1; exact D.
  - specialize (No (Post p z) (or_introl eq_refl)). discriminate.
Qed.
