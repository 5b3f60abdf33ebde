(** Proofs for C148: one step. *)
From Coq Require Import List Arith Bool Lia Permutation.
From Verif.Common Require Import TS Sum.
From Verif.Fork Require Import Spec Model Proofs.
Import ListNotations.

Section S.
  Variable n : nat.
  Notation Inv := (Inv n). Notation Thr := (Thr n).
  Ltac fields := cbn [st env res waiter next thr ret out] in *.
  Lemma map_agree (spec spec' : nat -> result) m e : (forall j, j < m -> spec' j = spec j) -> (forall j, In j e -> j < m) -> map spec' e = map spec e.
  Proof. intros H He. apply map_ext_in. auto. Qed.
  Lemma measure_agree {A} (F : code -> list result -> A) d d' spec spec' m x e : (forall j, j < m -> spec' j = spec j) -> (forall j, In j e -> j < m) -> (forall k j, x = Suspending k j \/ x = Waiting k j \/ x = Woken k j -> j < m) -> (x = Done -> d' = d) ->
    measure F d' spec' x e = measure F d spec x e.
  Proof. intros H He Hj Hd. unfold measure. rewrite (map_agree spec spec' m e H He). destruct x; auto; rewrite H; eauto. Qed.
  Lemma target s spec owner pos x : good s spec owner pos x -> forall k j, st s x = Suspending k j \/ st s x = Waiting k j \/ st s x = Woken k j -> awaits s owner pos x k j.
  Proof. intros (_ & _ & H & _) k j [E|[E|E]]; rewrite E in H; tauto. Qed.
  Lemma good_other s s' spec spec' owner owner' pos pos' x : good s spec owner pos x -> x < next s -> st s' x = st s x -> env s' x = env s x ->
    (forall j, j < next s -> spec' j = spec j) -> (forall j, j < next s -> owner j = x -> owner' j = x) -> (forall a b, a < next s -> b < next s -> pos a < pos b -> pos' a < pos' b) -> next s <= next s' ->
    res s' x = res s x -> (forall j, res s j <> None -> res s' j <> None) -> (forall k j, st s x = Waiting k j -> res s' j = res s j /\ waiter s' j = waiter s j) -> good s' spec' owner' pos' x.
  Proof.
    intros HG Hx Es Ee Hsp Ho Hp Hn Hr Hr' Hw. pose proof (target s spec owner pos x HG) as Tg. destruct HG as (A & B & C & D & E).
    assert (Aw : forall k j, awaits s owner pos x k j -> awaits s' owner' pos' x k j). { unfold awaits. intros k j (W & J & O & P & I). rewrite Ee. split; [exact W|]. split; [lia|]. split; [auto|]. split; [auto|exact I]. }
    unfold good. rewrite Es, Ee, Hr, (Hsp x Hx). split; [|split; [exact B|split; [|split; [exact D|]]]].
    - rewrite (measure_agree meaning (spec x) (spec x) spec spec' (next s)); auto; [intros j Hj; now apply E|intros k j X; now apply (Tg k j X)].
    - destruct (st s x) eqn:X; auto.
      + destruct C as (C1 & C2 & C3). destruct (Hw k j eq_refl) as [-> ->]. auto.
      + destruct C as (C1 & C2). auto.
    - intros j Hj. destruct (E j Hj) as (F & G & I). split; [lia|]. split; auto.
  Qed.
  (** only task [i] changes *)
  Record local (s s' : state) (i : nat) : Prop := {
    l_st : forall j, j <> i -> st s' j = st s j; l_env : forall j, j <> i -> env s' j = env s j; l_res : forall j, res s' j = res s j;
    l_next : next s' = next s; l_ret : ret s' = ret s }.
  Lemma local_good s s' i spec owner pos : Inv s spec owner pos -> i < next s -> local s s' i -> (forall j x, x <> i -> waiter s j = Some x -> waiter s' j = Some x) -> forall x, x < next s -> x <> i -> good s' spec owner pos x.
  Proof.
    intros HI Hi [A B C D E] Hw x Hx Nx. apply (good_other s s' spec spec owner owner pos pos x); auto; [now apply (i_good _ _ _ _ _ HI)|lia|intros j; now rewrite C|].
    intros k j X. split; [apply C|]. destruct (i_good _ _ _ _ _ HI x Hx) as (_ & _ & G & _). rewrite X in G. destruct G as (_ & _ & G). rewrite G. auto.
  Qed.
  Lemma local_inv s s' i spec owner pos : Inv s spec owner pos -> i < next s -> local s s' i -> (forall j, waiter s' j = waiter s j) -> (forall k j, st s i <> Waiting k j) -> good s' spec owner pos i -> Thr (fun j => onthr (st s' j)) (next s) (thr s') -> (ret s <> None -> thr s' n = []) -> Inv s' spec owner pos.
  Proof.
    intros HI Hi L Hw Nw HG HT Hret. pose proof L as [A B C D E]. split.
    - now rewrite D.
    - intros x Hx. rewrite D in Hx. destruct (Nat.eq_dec x i) as [->|N]; [exact HG|]. apply (local_good s s' i spec owner pos HI Hi L); auto. intros j y _ X. now rewrite Hw.
    - intros j x. rewrite Hw, D. intros X. destruct (i_wait _ _ _ _ _ HI j x X) as (Y & k & Z). split; [exact Y|]. exists k. rewrite A; [exact Z|]. intros ->. exact (Nw k j Z).
    - intros j Hj. rewrite C, Hw. apply (i_new _ _ _ _ _ HI). lia.
    - rewrite D. apply HI.
    - intros r. rewrite E, C. intros R. split; [now apply (i_ret _ _ _ _ _ HI)|]. apply Hret. congruence.
  Qed.
  (** the sums, when only task [i] changes *)
  Lemma local_sums s s' i spec d : i < next s -> local s s' i -> out s' = out s ++ d ->
    Permutation (measure effects [] spec (st s i) (env s i)) (d ++ measure effects [] spec (st s' i) (env s' i)) ->
    measure tasks 1 spec (st s' i) (env s' i) = measure tasks 1 spec (st s i) (env s i) ->
    wst (st s' i) + measure cost 0 spec (st s' i) (env s' i) < wst (st s i) + measure cost 0 spec (st s i) (env s i) ->
    Permutation (effs s' spec) (effs s spec) /\ count s' spec = count s spec /\ weight s' spec < weight s spec.
  Proof.
    intros Hi [A B C D E] O P T W. split; [|split].
    - unfold effs. rewrite O, D, <- app_assoc. apply Permutation_app_head. symmetry. apply (total_one _ _ i d); auto. intros x Hx Nx. now rewrite A, B.
    - unfold count. rewrite D. pose proof (sum_to_one (next s) (fun i => measure tasks 1 spec (st s' i) (env s' i)) (fun i => measure tasks 1 spec (st s i) (env s i)) i Hi) as X. cbn beta in X. specialize (X ltac:(intros x Hx; now rewrite A, B)). lia.
    - unfold weight. rewrite D, E. pose proof (sum_to_one (next s) (fun i => wst (st s' i) + measure cost 0 spec (st s' i) (env s' i)) (fun i => wst (st s i) + measure cost 0 spec (st s i) (env s i)) i Hi) as X. cbn beta in X. specialize (X ltac:(intros x Hx; now rewrite A, B)). lia.
  Qed.
  Definition next_ok (s s' : state) (spec : nat -> result) (owner pos : nat -> nat) : Prop :=
    exists spec' owner' pos', Inv s' spec' owner' pos' /\ spec' 0 = spec 0 /\ Permutation (effs s' spec') (effs s spec) /\ count s' spec' = count s spec /\ weight s' spec' < weight s spec.
  Lemma on_top s spec owner pos t i l : Inv s spec owner pos -> thr s t = i :: l -> i < next s /\ t <= n /\ onthr (st s i) = true.
  Proof. intros HI E. assert (In i (thr s t)) as X by (rewrite E; now left). destruct (t_on _ _ _ _ (i_thr _ _ _ _ _ HI) t i X). split; [auto|]. split; [|auto]. exact (t_here _ _ _ _ _ _ _ (i_thr _ _ _ _ _ HI) E). Qed.
  Lemma ret_keeps s spec owner pos t i l th' : Inv s spec owner pos -> thr s t = i :: l -> (forall u, u <> t -> th' u = thr s u) -> ret s <> None -> th' n = [].
  Proof. intros HI E H R. destruct (ret s) as [r|] eqn:Er; [|congruence]. destruct (i_ret _ _ _ _ _ HI r Er) as [_ X]. rewrite H; [exact X|]. intros ->. congruence. Qed.

  Lemma emit_step s spec owner pos t i l o c s' : Inv s spec owner pos -> thr s t = i :: l -> st s i = Active (Emit o c) ->
    s' = St (upd (st s) i (Active c)) (env s) (res s) (waiter s) (next s) (thr s) (ret s) (out s ++ [o]) -> next_ok s s' spec owner pos.
  Proof.
    intros HI E A Es. destruct (on_top _ _ _ _ _ _ _ HI E) as (Hi & Ht & _). assert (L : local s s' i) by (subst s'; split; fields; auto; intros j Hj; now apply upd_other). exists spec, owner, pos.
    assert (X : st s' i = Active c) by (subst s'; apply upd_same). assert (Y : env s' i = env s i) by now subst s'. split; [|split; [reflexivity|]].
    - apply (local_inv s s' i spec owner pos HI Hi L); [now subst s'|intros; rewrite A; discriminate| | |].
      + pose proof (i_good _ _ _ _ _ HI i Hi) as (B & C & D & G & H). unfold good. rewrite X, Y. rewrite A in B, C, D. cbn [measure meaning wf] in *. split; [exact B|]. split; [intros _; rewrite (l_res _ _ _ L); apply C; discriminate|]. split; [exact D|]. split; [exact G|]. intros j Hj. rewrite (l_next _ _ _ L). now apply H.
      + replace (thr s') with (thr s) by now subst s'. apply (Thr_ext n _ _ _ _ (i_thr _ _ _ _ _ HI)). intros j Hj. subst s'. fields. rewrite updE. destruct (Nat.eqb_spec j i) as [->|]; [now rewrite A|reflexivity].
      + intros R. replace (thr s') with (thr s) by now subst s'. eapply ret_keeps; eauto.
    - apply (local_sums s s' i spec [o]); auto; [now subst s'| | |]; rewrite X, Y, A; cbn [measure effects tasks cost wst]; auto; lia.
  Qed.
  Lemma sleep_step s spec owner pos t i l c s' : Inv s spec owner pos -> thr s t = i :: l -> st s i = Active (Suspend c) ->
    s' = St (upd (st s) i (Asleep c)) (env s) (res s) (waiter s) (next s) (upd (thr s) t l) (ret s) (out s) -> next_ok s s' spec owner pos.
  Proof.
    intros HI E A Es. destruct (on_top _ _ _ _ _ _ _ HI E) as (Hi & Ht & _). assert (L : local s s' i) by (subst s'; split; fields; auto; intros j Hj; now apply upd_other). exists spec, owner, pos.
    assert (X : st s' i = Asleep c) by (subst s'; apply upd_same). assert (Y : env s' i = env s i) by now subst s'. split; [|split; [reflexivity|]].
    - apply (local_inv s s' i spec owner pos HI Hi L); [now subst s'|intros; rewrite A; discriminate| | |].
      + pose proof (i_good _ _ _ _ _ HI i Hi) as (B & C & D & G & H). unfold good. rewrite X, Y. rewrite A in B, C, D. cbn [measure meaning wf] in *. split; [exact B|]. split; [intros _; rewrite (l_res _ _ _ L); apply C; discriminate|]. split; [exact D|]. split; [exact G|]. intros j Hj. rewrite (l_next _ _ _ L). now apply H.
      + apply (Thr_pop n _ _ _ _ _ t i l (i_thr _ _ _ _ _ HI) E); [intros j Hj Nj; now rewrite (l_st _ _ _ L)|now rewrite X|intros u; subst s'; apply updE].
      + intros R. eapply ret_keeps; eauto. intros u Hu. subst s'. now apply upd_other.
    - apply (local_sums s s' i spec []); auto; [subst s'; now rewrite app_nil_r| | |]; rewrite X, Y, A; cbn [measure effects tasks cost wst app]; auto; lia.
  Qed.
  Lemma wake_step s spec owner pos i c s' : Inv s spec owner pos -> i < next s -> st s i = Asleep c ->
    s' = St (upd (st s) i (Queued c)) (env s) (res s) (waiter s) (next s) (thr s) (ret s) (out s) -> next_ok s s' spec owner pos.
  Proof.
    intros HI Hi A Es. assert (L : local s s' i) by (subst s'; split; fields; auto; intros j Hj; now apply upd_other). exists spec, owner, pos.
    assert (X : st s' i = Queued c) by (subst s'; apply upd_same). assert (Y : env s' i = env s i) by now subst s'. split; [|split; [reflexivity|]].
    - apply (local_inv s s' i spec owner pos HI Hi L); [now subst s'|intros; rewrite A; discriminate| | |].
      + pose proof (i_good _ _ _ _ _ HI i Hi) as (B & C & D & G & H). unfold good. rewrite X, Y. rewrite A in B, C, D. cbn [measure] in *. split; [exact B|]. split; [intros _; rewrite (l_res _ _ _ L); apply C; discriminate|]. split; [exact D|]. split; [exact G|]. intros j Hj. rewrite (l_next _ _ _ L). now apply H.
      + replace (thr s') with (thr s) by now subst s'. apply (Thr_ext n _ _ _ _ (i_thr _ _ _ _ _ HI)). intros j Hj. subst s'. fields. rewrite updE. destruct (Nat.eqb_spec j i) as [->|]; [now rewrite A|reflexivity].
      + intros R. replace (thr s') with (thr s) by now subst s'. destruct (ret s) as [r|] eqn:Er; [|congruence]. now apply (i_ret _ _ _ _ _ HI r).
    - apply (local_sums s s' i spec []); auto; [subst s'; now rewrite app_nil_r| | |]; rewrite X, Y, A; cbn [measure effects tasks cost wst app]; auto; lia.
  Qed.
  (** a task is taken from the queue *)
  Lemma take_step s spec owner pos t i c s' : Inv s spec owner pos -> t < n -> i < next s -> thr s t = [] -> (st s i = Queued c \/ exists k j r, st s i = Woken k j /\ res s j = Some r /\ c = k r) ->
    s' = St (upd (st s) i (Active c)) (env s) (res s) (waiter s) (next s) (upd (thr s) t [i]) (ret s) (out s) -> next_ok s s' spec owner pos.
  Proof.
    intros HI Ht Hi E A Es. assert (L : local s s' i) by (subst s'; split; fields; auto; intros j Hj; now apply upd_other). exists spec, owner, pos.
    assert (X : st s' i = Active c) by (subst s'; apply upd_same). assert (Y : env s' i = env s i) by now subst s'.
    pose proof (i_good _ _ _ _ _ HI i Hi) as (B & C & D & G & H).
    assert (M : (forall (T : Type) F (d : T), measure F d spec (st s i) (env s i) = F c (map spec (env s i))) /\ wst (st s i) = 1 /\ onthr (st s i) = false /\ wf (length (env s i)) c /\ res s i = None /\ forall k j, st s i <> Waiting k j).
    { destruct A as [A|(k & j & r & A & R & ->)]; rewrite A in *; cbn [measure wst onthr] in *.
      - repeat split; auto; [apply C; discriminate|discriminate].
      - destruct D as [(W & J & _) _]. assert (Sj : r = spec j). { pose proof (i_good _ _ _ _ _ HI j J) as (_ & Q & Q' & _). destruct (st s j) eqn:Z; try (rewrite Q in R by discriminate; discriminate). rewrite Q' in R. congruence. }
        subst r. repeat split; auto; [apply C; discriminate|discriminate]. }
    destruct M as (M1 & M2 & M3 & M4 & M5 & M6). split; [|split; [reflexivity|]].
    - apply (local_inv s s' i spec owner pos HI Hi L); [now subst s'|exact M6| | |].
      + unfold good. rewrite X, Y. cbn [measure]. rewrite M1 in B. split; [exact B|]. split; [intros _; rewrite (l_res _ _ _ L); exact M5|]. split; [exact M4|]. split; [exact G|]. intros j Hj. rewrite (l_next _ _ _ L). now apply H.
      + apply (Thr_take n _ _ _ _ _ t i (i_thr _ _ _ _ _ HI)); auto; [lia|intros j Hj Nj; now rewrite (l_st _ _ _ L)|now rewrite X|intros u; subst s'; apply updE].
      + intros R. destruct (ret s) as [r|] eqn:Er; [|congruence]. subst s'. fields. rewrite upd_other by lia. now apply (i_ret _ _ _ _ _ HI r).
    - apply (local_sums s s' i spec []); auto; [subst s'; now rewrite app_nil_r| | |]; rewrite X, Y, ?M1; cbn [measure effects tasks cost wst app]; auto; lia.
  Qed.
  Lemma get_step s spec owner pos r s' : Inv s spec owner pos -> thr s n = [] -> res s 0 = Some r -> ret s = None -> s' = St (st s) (env s) (res s) (waiter s) (next s) (thr s) (Some r) (out s) -> next_ok s s' spec owner pos.
  Proof.
    intros HI E R Rn ->. exists spec, owner, pos. split; [|split; [reflexivity|]].
    - split; fields; try apply HI. intros r' X. injection X as <-. auto.
    - split; [reflexivity|]. split; [reflexivity|]. unfold weight. fields. rewrite Rn. lia.
  Qed.
  (** await_ready() *)
  Lemma await_step s spec owner pos t i l a k j s' : Inv s spec owner pos -> thr s t = i :: l -> st s i = Active (Await a k) -> nth_error (env s i) a = Some j ->
    s' = St (upd (st s) i (match res s j with Some r => Active (k r) | None => Suspending k j end)) (upd (env s) i (without a (env s i))) (res s) (waiter s) (next s) (thr s) (ret s) (out s) -> next_ok s s' spec owner pos.
  Proof.
    intros HI E A Na Es. destruct (on_top _ _ _ _ _ _ _ HI E) as (Hi & Ht & _). assert (L : local s s' i) by (subst s'; split; fields; auto; intros x Hx; now apply upd_other). exists spec, owner, pos.
    pose proof (i_good _ _ _ _ _ HI i Hi) as (B & C & D & G & H). rewrite A in B, C, D. cbn [measure wf] in *. destruct D as [Da Dk]. specialize (C ltac:(discriminate)).
    destruct (without_spec j a (env s i) Na) as (b & c & Ee & Ew & Eb). assert (Hj : In j (env s i)) by (rewrite Ee; apply in_app_iff; right; now left). destruct (H j Hj) as (J1 & J2 & J3).
    assert (Nj : nth a (map spec (env s i)) (Val 0) = spec j). { rewrite Ee, map_app. cbn [map]. rewrite <- Eb. rewrite app_nth2; rewrite map_length; [|lia]. now rewrite Nat.sub_diag. }
    assert (M : forall (T : Type) F (d : T), measure F d spec (st s' i) (env s' i) = F (k (spec j)) (map spec (without a (env s i)))).
    { intros T F d. subst s'. fields. rewrite !upd_same. destruct (res s j) as [r|] eqn:R; cbn [measure]; [|reflexivity]. assert (r = spec j) as ->; [|reflexivity].
      pose proof (i_good _ _ _ _ _ HI j J1) as (_ & Q & Q' & _). destruct (st s j) eqn:Z; try (rewrite Q in R by discriminate; discriminate). rewrite Q' in R. congruence. }
    assert (Len : length (without a (env s i)) = length (env s i) - 1) by (rewrite Ew, Ee, !app_length; cbn; lia).
    assert (Nd : NoDup (without a (env s i)) /\ ~ In j (without a (env s i))). { rewrite Ew. rewrite Ee in G. split; [eapply NoDup_remove_1; exact G|eapply NoDup_remove_2; exact G]. }
    assert (Ev : env s' i = without a (env s i)) by (subst s'; apply upd_same).
    assert (X : onthr (st s' i) = true) by (subst s'; fields; rewrite upd_same; destruct (res s j); reflexivity).
    split; [|split; [reflexivity|]].
    - apply (local_inv s s' i spec owner pos HI Hi L); [now subst s'|intros; rewrite A; discriminate| | |].
      + unfold good. rewrite M, Ev, (l_next _ _ _ L). split; [|split; [|split; [|split; [apply Nd|]]]].
        * cbn [meaning] in B. rewrite Nj, without_map in B. exact B.
        * intros _. now rewrite (l_res _ _ _ L).
        * assert (W : forall r, wf (length (without a (env s i))) (k r)) by (rewrite Len; auto). replace (st s' i) with (match res s j with Some r => Active (k r) | None => Suspending k j end) by (subst s'; fields; now rewrite upd_same).
          destruct (res s j); [apply W|]. unfold awaits. rewrite Ev, (l_next _ _ _ L). split; [exact W|]. split; [exact J1|]. split; [exact J2|]. split; [exact J3|apply Nd].
        * intros x Hx. apply without_in in Hx. now apply H.
      + replace (thr s') with (thr s) by now subst s'. apply (Thr_ext n _ _ _ _ (i_thr _ _ _ _ _ HI)). intros x Hx. destruct (Nat.eq_dec x i) as [->|Nx]; [now rewrite X, A|now rewrite (l_st _ _ _ L)].
      + intros R. replace (thr s') with (thr s) by now subst s'. eapply ret_keeps; eauto.
    - apply (local_sums s s' i spec []); auto; [subst s'; now rewrite app_nil_r| | |]; rewrite M, A; cbn [measure effects tasks cost wst app]; rewrite Nj, without_map; auto.
      assert (wst (st s' i) <= 2) by (destruct (st s' i); cbn; lia). lia.
  Qed.
  (** await_suspend() *)
  Lemma suspend_step s spec owner pos t i l k j s' : Inv s spec owner pos -> thr s t = i :: l -> st s i = Suspending k j ->
    s' = match res s j with
         | Some _ => St (upd (st s) i (Woken k j)) (env s) (res s) (waiter s) (next s) (upd (thr s) t l) (ret s) (out s)
         | None => St (upd (st s) i (Waiting k j)) (env s) (res s) (upd (waiter s) j (Some i)) (next s) (upd (thr s) t l) (ret s) (out s)
         end -> next_ok s s' spec owner pos.
  Proof.
    intros HI E A Es. destruct (on_top _ _ _ _ _ _ _ HI E) as (Hi & Ht & _). pose proof (i_good _ _ _ _ _ HI i Hi) as (B & C & D & G & H). rewrite A in B, C, D. cbn [measure] in *. specialize (C ltac:(discriminate)). destruct D as (W & J & O & P & Nin).
    assert (L : local s s' i) by (subst s'; destruct (res s j); split; fields; auto; intros x Hx; now apply upd_other). exists spec, owner, pos.
    assert (Wn : waiter s j = None). { destruct (waiter s j) as [y|] eqn:Z; auto. destruct (i_wait _ _ _ _ _ HI j y Z) as (Hy & k' & Y). pose proof (i_good _ _ _ _ _ HI y Hy) as (_ & _ & Q & _). rewrite Y in Q. destruct Q as ((_ & _ & Q & _) & _). rewrite O in Q. subst y. congruence. }
    assert (Ev : env s' i = env s i) by (subst s'; destruct (res s j); reflexivity). assert (Tt : thr s' = upd (thr s) t l) by (subst s'; destruct (res s j); reflexivity).
    assert (Sx : st s' i = match res s j with Some _ => Woken k j | None => Waiting k j end) by (subst s'; destruct (res s j); apply upd_same).
    assert (M : forall (T : Type) F (d : T), measure F d spec (st s' i) (env s' i) = F (k (spec j)) (map spec (env s i))) by (intros T F d; rewrite Sx, Ev; destruct (res s j); reflexivity).
    assert (HG : good s' spec owner pos i).
    { unfold good. rewrite M, Ev, (l_next _ _ _ L). split; [exact B|]. split; [intros _; now rewrite (l_res _ _ _ L)|]. split; [|split; [exact G|exact H]].
      assert (Aw : awaits s' owner pos i k j) by (unfold awaits; rewrite Ev, (l_next _ _ _ L); auto 10). rewrite Sx. destruct (res s j) as [r|] eqn:R; split; auto; [rewrite (l_res _ _ _ L), R; discriminate|]. split; [now rewrite (l_res _ _ _ L)|]. subst s'. apply upd_same. }
    assert (HT : Thr (fun x => onthr (st s' x)) (next s) (thr s')). { apply (Thr_pop n _ _ _ _ _ t i l (i_thr _ _ _ _ _ HI) E); [intros x Hx Nx; now rewrite (l_st _ _ _ L)|rewrite Sx; destruct (res s j); reflexivity|intros u; rewrite Tt; apply updE]. }
    assert (HR : ret s <> None -> thr s' n = []). { intros R. eapply ret_keeps; eauto. intros u Hu. rewrite Tt. now apply upd_other. }
    split; [|split; [reflexivity|]].
    - destruct (res s j) as [r|] eqn:R; [apply (local_inv s s' i spec owner pos HI Hi L); auto; [now subst s'|intros; rewrite A; discriminate]|].
      assert (Ws : forall x, waiter s' x = if x =? j then Some i else waiter s x) by (intros x; subst s'; apply updE).
      split.
      + now rewrite (l_next _ _ _ L).
      + intros x Hx. rewrite (l_next _ _ _ L) in Hx. destruct (Nat.eq_dec x i) as [->|N]; [exact HG|]. apply (local_good s s' i spec owner pos HI Hi L); auto. intros y z Nz X. rewrite Ws. destruct (Nat.eqb_spec y j) as [->|]; [congruence|exact X].
      + intros x y. rewrite Ws, (l_next _ _ _ L). destruct (Nat.eqb_spec x j) as [->|N]; intros X; [injection X as <-; split; [exact Hi|]; exists k; exact Sx|].
        destruct (i_wait _ _ _ _ _ HI x y X) as (Y & k' & Z). split; [exact Y|]. exists k'. rewrite (l_st _ _ _ L); [exact Z|]. intros ->. congruence.
      + intros x Hx. rewrite (l_next _ _ _ L) in Hx. rewrite (l_res _ _ _ L), Ws. destruct (i_new _ _ _ _ _ HI x Hx) as [Q1 Q2]. split; [exact Q1|]. destruct (Nat.eqb_spec x j) as [->|]; [lia|exact Q2].
      + rewrite (l_next _ _ _ L). apply HI.
      + intros r. rewrite (l_ret _ _ _ L), (l_res _ _ _ L). intros X. split; [now apply (i_ret _ _ _ _ _ HI)|]. apply HR. congruence.
    - apply (local_sums s s' i spec []); auto; [subst s'; destruct (res s j); now rewrite app_nil_r| | |]; rewrite M, A; cbn [measure wst app]; auto. assert (wst (st s' i) <= 1) by (rewrite Sx; destruct (res s j); cbn; lia). lia.
  Qed.
End S.
