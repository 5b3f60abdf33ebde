From Coq Require Import List Arith Bool Lia.
From Verif.Common Require Import TS.
From Verif.Functional Require Import Model Spec.
Import ListNotations.

Lemma memb_In i l : memb i l = true <-> In i l.
Proof.
  unfold memb. rewrite existsb_exists. split.
  - intros (x & Hx & E). apply Nat.eqb_eq in E. now subst.
  - intros H. exists i. split; [exact H|apply Nat.eqb_refl].
Qed.
Lemma memb_nIn i l : memb i l = false <-> ~ In i l.
Proof. rewrite <- memb_In. now destruct (memb i l). Qed.

Section F.
  Context {V X : Type}.
  Variable n : nat.
  Variable out : nat -> result V X.
  Variable lazy : bool.
  Notation init := (@init V X n lazy).
  Notation next := (@next V X n out lazy).

  Record Inv (s : @state V X) : Prop := {
    v_pos : pos s <= n;
    v_acc : map out (seq 0 (pos s)) = map Val (acc s);
    v_comp : forall i, i < pos s -> In i (completed s);
    v_sub : forall i, In i (completed s) -> In i (launched s);
    v_nd : NoDup (completed s);
    v_launch : if lazy then exists k, launched s = rev (seq 0 k) /\ k <= n /\ (k = pos s \/ k = S (pos s))
               else launched s = rev (seq 0 n);
    v_fin : match fin s with
            | None => True
            | Some (Val vs) => pos s = n /\ vs = acc s
            | Some (Exc x) => pos s < n /\ out (pos s) = Exc x /\ In (pos s) (completed s)
            end
  }.
  Lemma inv_init : Inv init.
  Proof.
    split; cbn; try lia; auto.
    - constructor.
    - destruct lazy; [|reflexivity]. exists 0. repeat split; auto; lia.
  Qed.
  Lemma inv_next s e s' : Inv s -> next s e = Some s' -> Inv s'.
  Proof.
    intros H. destruct e; cbn [Model.next].
    - destruct (fin s) eqn:Ef; [discriminate|].
      destruct ((pos s <? n) && lazy && negb (memb (pos s) (launched s))) eqn:E; [|discriminate].
      intros E2; inversion E2; subst; clear E2. apply andb_true_iff in E as [E E1]. apply andb_true_iff in E as [E0 El].
      apply Nat.ltb_lt in E0. apply negb_true_iff, memb_nIn in E1. destruct H. rewrite El in *.
      destruct v_launch0 as (k & Hk & Hkn & Hk2).
      assert (k = pos s). { destruct Hk2; [auto|]. destruct E1. rewrite Hk. apply -> in_rev. apply in_seq. lia. }
      subst k. split; cbn [pos acc launched completed fin]; auto; try lia.
      + intros i Hi. right. auto.
      + rewrite El. exists (S (pos s)). rewrite Hk, seq_S, rev_app_distr. cbn. repeat split; lia.
    - destruct (memb i (launched s) && negb (memb i (completed s))) eqn:E; [|discriminate].
      intros E2; inversion E2; subst; clear E2. apply andb_true_iff in E as [E E1].
      apply memb_In in E. apply negb_true_iff, memb_nIn in E1. destruct H.
      split; cbn [pos acc launched completed fin]; auto.
      + intros j Hj. right. auto.
      + intros j [<-|Hj]; auto.
      + now constructor.
      + destruct (fin s) as [[vs|x]|]; auto. destruct v_fin0 as (H1 & H2 & H3). repeat split; auto. now right.
    - destruct (fin s) eqn:Ef; [discriminate|].
      destruct ((pos s <? n) && memb (pos s) (completed s)) eqn:E; [|discriminate].
      apply andb_true_iff in E as [E E1]. apply Nat.ltb_lt in E. apply memb_In in E1.
      destruct (out (pos s)) as [v|x] eqn:Eo; intros E2; inversion E2; subst; clear E2; destruct H;
        split; cbn [pos acc launched completed fin]; auto.
      + rewrite seq_S, !map_app, v_acc0. cbn. now rewrite Eo.
      + intros i Hi. destruct (Nat.eq_dec i (pos s)); [now subst|]. apply v_comp0. lia.
      + destruct lazy; [|exact v_launch0]. destruct v_launch0 as (k & Hk & Hkn & Hk2). exists k. repeat split; auto.
        left. destruct Hk2; [|auto]. subst k. apply v_sub0 in E1. rewrite Hk in E1. apply in_rev, in_seq in E1. lia.
    - destruct (fin s) eqn:Ef; [discriminate|]. destruct (Nat.eqb_spec (pos s) n); [|discriminate].
      intros E2; inversion E2; subst s'; clear E2. destruct H. split; cbn [pos acc launched completed fin]; auto.
  Qed.
  Lemma inv_run l s : run next init l = Some s -> Inv s.
  Proof. intros Hr. refine (run_inv next Inv _ l init s inv_init Hr). intros; eapply inv_next; eauto. Qed.

  Lemma await_vals (vs : list V) (l : list (result V X)) :
    await_in_order (map Val vs ++ l) = match await_in_order l with Val ws => Val (vs ++ ws) | Exc x => Exc x end.
  Proof.
    induction vs as [|v vs IH]; cbn; [now destruct (await_in_order l)|]. rewrite IH. now destruct (await_in_order l).
  Qed.

  Lemma fin_result l s r : run next init l = Some s -> fin s = Some r -> r = await_in_order (map out (seq 0 n)).
  Proof.
    intros Hr Hf. destruct (inv_run l s Hr). rewrite Hf in v_fin0.
    assert (Es : seq 0 n = seq 0 (pos s) ++ seq (pos s) (n - pos s)).
    { rewrite <- seq_app. f_equal. lia. }
    rewrite Es, map_app, v_acc0, await_vals.
    destruct r as [vs|x].
    - destruct v_fin0 as [H1 ->]. replace (n - pos s) with 0 by lia. cbn. now rewrite app_nil_r.
    - destruct v_fin0 as (H1 & H2 & _). destruct (n - pos s) as [|m] eqn:Em; [lia|]. cbn. now rewrite H2.
  Qed.

  (** the schedule can always be continued to the end *)
  Definition left_ (s : @state V X) : nat := (n - length (launched s)) + (n - length (completed s)) + (n - pos s) + match fin s with None => 1 | Some _ => 0 end.
  Lemma lengths s : Inv s -> length (launched s) <= n /\ length (completed s) <= n.
  Proof.
    intros H. assert (L : length (launched s) <= n). { pose proof (v_launch _ H) as Y. destruct lazy; [destruct Y as (k & -> & Hk & _)|rewrite Y]; rewrite rev_length, seq_length; auto. }
    split; [exact L|]. pose proof (NoDup_incl_length (v_nd _ H) (v_sub _ H)). lia.
  Qed.
  Lemma left_decreases s e s' : Inv s -> next s e = Some s' -> left_ s' < left_ s.
  Proof.
    intros H E. pose proof (inv_next _ _ _ H E) as H'. destruct (lengths s H) as [L1 L2]. destruct (lengths s' H') as [L1' L2']. pose proof (v_pos _ H'). destruct e as [|i| |]; cbn [Model.next] in E.
    - destruct (fin s) eqn:F; [discriminate|]. destruct (_ && _ && _); [|discriminate]. injection E as <-. unfold left_ in *. cbn in *. rewrite F. lia.
    - destruct (_ && _); [|discriminate]. injection E as <-. unfold left_ in *. cbn in *. lia.
    - destruct (fin s) eqn:F; [discriminate|]. destruct (_ && _); [|discriminate]. destruct (out (pos s)); injection E as <-; unfold left_ in *; cbn in *; rewrite F; lia.
    - destruct (fin s) eqn:F; [discriminate|]. destruct (_ =? _); [|discriminate]. injection E as <-. unfold left_ in *. cbn in *. rewrite F. lia.
  Qed.
  Lemma run_bound : forall l s s', Inv s -> run next s l = Some s' -> length l + left_ s' <= left_ s.
  Proof.
    induction l as [|e l IH]; cbn [run]; intros s s' H R; [injection R as <-; cbn; lia|]. destruct (next s e) as [s1|] eqn:E; [|discriminate].
    pose proof (left_decreases _ _ _ H E). specialize (IH s1 s' (inv_next _ _ _ H E) R). cbn [length]. lia.
  Qed.
  Lemma stuck_ended s : Inv s -> (forall e, next s e = None) -> fin s <> None /\ forall i, In i (launched s) -> In i (completed s).
  Proof.
    intros H St. assert (C : forall i, In i (launched s) -> In i (completed s)).
    { intros i Hi. specialize (St (EComplete i)). cbn [Model.next] in St. apply memb_In in Hi. rewrite Hi in St. destruct (memb i (completed s)) eqn:Y; [now apply memb_In|discriminate]. }
    split; [|exact C]. intros F. pose proof (v_pos _ H) as P. destruct (Nat.eq_dec (pos s) n) as [Q|Q].
    - specialize (St EEnd). cbn [Model.next] in St. rewrite F, Q, Nat.eqb_refl in St. discriminate.
    - assert (Hp : pos s <? n = true) by (apply Nat.ltb_lt; lia). destruct (memb (pos s) (launched s)) eqn:M.
      + apply memb_In, C, memb_In in M. specialize (St EResume). cbn [Model.next] in St. rewrite F, Hp, M in St. destruct (out (pos s)); discriminate.
      + destruct lazy eqn:El; [specialize (St EDeref); cbn [Model.next] in St; rewrite F, Hp, M in St; discriminate|].
        apply memb_nIn in M. apply M. pose proof (v_launch _ H) as Y. rewrite El in Y. rewrite Y. apply -> in_rev. apply in_seq. lia.
  Qed.
  Lemma can_finish : forall m s, Inv s -> n - pos s = m ->
    exists l' s', run next s l' = Some s' /\ fin s' <> None.
  Proof.
    induction m as [|m IH]; intros s H Hm.
    - destruct (fin s) eqn:Ef; [exists [], s; split; [reflexivity|congruence]|].
      assert (Ep : pos s =? n = true) by (apply Nat.eqb_eq; pose proof (v_pos _ H); lia).
      exists [EEnd]. cbn [run Model.next]. rewrite Ef, Ep. eexists. split; [reflexivity|]. discriminate.
    - destruct (fin s) eqn:Ef; [exists [], s; split; [reflexivity|congruence]|].
      assert (Hp : pos s < n) by lia. apply Nat.ltb_lt in Hp.
      (* make sure the item is launched *)
      assert (K1 : exists l1 s1, run next s l1 = Some s1 /\ Inv s1 /\ fin s1 = None /\ pos s1 = pos s /\ In (pos s) (launched s1)).
      { destruct (memb (pos s) (launched s)) eqn:E1.
        - exists [], s. apply memb_In in E1. auto.
        - assert (El : lazy = true).
          { destruct lazy eqn:El; [reflexivity|]. apply memb_nIn in E1. destruct E1. pose proof (v_launch _ H) as HL. rewrite El in HL.
            rewrite HL. apply -> in_rev. apply in_seq. apply Nat.ltb_lt in Hp. lia. }
          assert (E0 : next s EDeref = Some (St (pos s) (acc s) (pos s :: launched s) (completed s) None)).
          { cbn [Model.next]. rewrite Ef, Hp, El, E1. reflexivity. }
          exists [EDeref]. eexists. cbn [run]. rewrite E0. split; [reflexivity|]. split; [eapply inv_next; eauto|].
          cbn. auto. }
      destruct K1 as (l1 & s1 & R1 & I1 & F1 & P1 & L1).
      assert (K2 : exists l2 s2, run next s1 l2 = Some s2 /\ Inv s2 /\ fin s2 = None /\ pos s2 = pos s /\ In (pos s) (completed s2)).
      { destruct (memb (pos s) (completed s1)) eqn:E1.
        - exists [], s1. apply memb_In in E1. auto.
        - assert (E0 : next s1 (EComplete (pos s)) = Some (St (pos s1) (acc s1) (launched s1) (pos s :: completed s1) (fin s1))).
          { cbn [Model.next]. apply memb_In in L1. rewrite L1, E1. reflexivity. }
          exists [EComplete (pos s)]. eexists. cbn [run]. rewrite E0. split; [reflexivity|]. split; [eapply inv_next; eauto|].
          cbn. rewrite F1. auto. }
      destruct K2 as (l2 & s2 & R2 & I2 & F2 & P2 & L2).
      assert (E3 : exists s3, next s2 EResume = Some s3 /\ (fin s3 <> None \/ n - pos s3 = m)).
      { cbn [Model.next]. rewrite F2, P2, Hp. apply memb_In in L2. rewrite L2. cbn. destruct (out (pos s)); eexists; (split; [reflexivity|]); cbn.
        - right. lia.
        - left. discriminate. }
      destruct E3 as (s3 & E3 & D). pose proof (inv_next _ _ _ I2 E3) as I3.
      destruct D as [D|D].
      + exists (l1 ++ l2 ++ [EResume]), s3. rewrite (run_app next _ _ _ _ R1), (run_app next _ _ _ _ R2). cbn [run]. rewrite E3. auto.
      + destruct (IH s3 I3 D) as (l4 & s4 & R4 & D4). exists (l1 ++ l2 ++ [EResume] ++ l4), s4.
        rewrite (run_app next _ _ _ _ R1), (run_app next _ _ _ _ R2). cbn [run app]. rewrite E3. auto.
  Qed.
End F.

(** * dispatcher *)
Definition div_up (a b : nat) : nat := (a + (b - 1)) / b.

(** number of x in [0,k) with x mod t = i *)
Fixpoint hits (t i k : nat) : nat := match k with 0 => 0 | S k' => hits t i k' + (if k' mod t =? i then 1 else 0) end.

Lemma hits_closed t i k : 0 < t -> i < t -> hits t i k = k / t + (if i <? k mod t then 1 else 0).
Proof.
  intros Ht Hi. induction k as [|k IH]; cbn [hits].
  - rewrite Nat.div_0_l, Nat.mod_0_l by lia. destruct (Nat.ltb_spec i 0); lia.
  - rewrite IH. pose proof (Nat.div_mod k t ltac:(lia)) as E. pose proof (Nat.mod_upper_bound k t ltac:(lia)) as B.
    destruct (Nat.eq_dec (S (k mod t)) t) as [E1|E1].
    + assert (D : S k / t = S (k / t)).
      { symmetry. apply Nat.div_unique with 0; [lia|]. rewrite Nat.mul_succ_r. lia. }
      assert (M : S k mod t = 0).
      { symmetry. apply Nat.mod_unique with (S (k / t)); [lia|]. rewrite Nat.mul_succ_r. lia. }
      rewrite D, M. destruct (Nat.ltb_spec i (k mod t)), (Nat.ltb_spec i 0), (Nat.eqb_spec (k mod t) i); lia.
    + assert (D : S k / t = k / t).
      { symmetry. apply Nat.div_unique with (S (k mod t)); lia. }
      assert (M : S k mod t = S (k mod t)).
      { symmetry. apply Nat.mod_unique with (k / t); lia. }
      rewrite D, M. destruct (Nat.ltb_spec i (k mod t)), (Nat.ltb_spec i (S (k mod t))), (Nat.eqb_spec (k mod t) i); lia.
Qed.

Section D.
  Variables (W t : nat).
  Notation dnext := (dnext W t).
  Definition DInv (c k : nat) (s : dstate) : Prop :=
    (c + k < W -> counter s = c + k) /\ (c + k <= W -> forall i, load i (log s) + hits t i c = hits t i (c + k)) /\ length (log s) = k.
  Lemma dinv_run : forall l c k s s', 0 < W -> DInv c k s -> run dnext s l = Some s' -> DInv c (k + length l) s'.
  Proof.
    induction l as [|e l IH]; cbn; intros c k s s' HW H Hr.
    - inversion Hr; subst. now rewrite Nat.add_0_r.
    - replace (k + S (length l)) with (S k + length l) by lia. refine (IH c (S k) _ s' HW _ Hr).
      destruct H as (H1 & H2 & H3). repeat split; cbn.
      + intros Hlt. rewrite H1 by lia. rewrite Nat.mod_small by lia. lia.
      + intros Hle i. rewrite Nat.add_succ_r. cbn [hits]. rewrite <- (H2 ltac:(lia) i), (H1 ltac:(lia)).
        unfold load. cbn. destruct ((c + k) mod t =? i); cbn; lia.
      + lia.
  Qed.
  Lemma dinv_init c : c < W -> DInv c 0 (dinit c).
  Proof. intros H. unfold DInv. rewrite Nat.add_0_r. cbn. repeat split; auto. Qed.

End D.

Lemma sum_ones t a : a < t -> list_sum (map (fun i => if a =? i then 1 else 0) (seq 0 t)) = 1.
Proof.
  intros H. assert (K : forall m b, b <= a < b + m -> list_sum (map (fun i => if a =? i then 1 else 0) (seq b m)) = 1).
  { induction m as [|m IH]; intros b Hb; [lia|]. cbn [seq map list_sum fold_right].
    assert (Z : forall m b, a < b -> list_sum (map (fun i => if a =? i then 1 else 0) (seq b m)) = 0).
    { clear. induction m as [|m IH]; intros b Hb; [reflexivity|]. cbn [seq map]. change (list_sum (?x :: ?y)) with (x + list_sum y).
      rewrite IH by lia. destruct (Nat.eqb_spec a b); lia. }
    change (fold_right Nat.add 0) with list_sum. destruct (Nat.eqb_spec a b).
    - rewrite Z by lia. lia.
    - rewrite IH by lia. lia. }
  apply K. lia.
Qed.
Lemma list_sum_add {A} (f g : A -> nat) l : list_sum (map (fun i => f i + g i) l) = list_sum (map f l) + list_sum (map g l).
Proof. induction l as [|a l IH]; [reflexivity|]. cbn in *. unfold list_sum in *. lia. Qed.
Lemma list_sum_ext {A} (f g : A -> nat) l : (forall a, f a = g a) -> list_sum (map f l) = list_sum (map g l).
Proof. intros H. f_equal. now apply map_ext. Qed.

Lemma total_load t l : (forall p, In p l -> snd p < t) -> list_sum (map (fun i => load i l) (seq 0 t)) = length l.
Proof.
  induction l as [|p l IH]; intros H.
  - clear H. induction (seq 0 t) as [|a l IH]; [reflexivity|]. cbn in *. exact IH.
  - rewrite (list_sum_ext _ (fun i => (if snd p =? i then 1 else 0) + load i l)).
    + rewrite list_sum_add, sum_ones, IH; [reflexivity| |]; intros; apply H; cbn; auto.
    + intros i. unfold load. cbn. destruct (snd p =? i); reflexivity.
Qed.
