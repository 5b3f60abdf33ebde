(** Proofs for C148: every step keeps the invariant, something can happen until everything is done. *)
From Coq Require Import List Arith Bool Lia Permutation.
From Verif.Common Require Import TS Sum.
From Verif.Fork Require Import Spec Model Proofs Steps Steps2.
Import ListNotations.

Section R.
  Variable n : nat.
  Notation Inv := (Inv n).
  Ltac fields := cbn [st env res waiter next thr ret out] in *.
  Lemma step_ok s e s' spec owner pos : Inv s spec owner pos -> step n s e = Some s' -> next_ok n s s' spec owner pos.
  Proof.
    intros HI. destruct e as [t|t i|i|]; cbn [step].
    - destruct (thr s t) as [|i l] eqn:E; [discriminate|]. destruct (st s i) as [c|c|c|k j|k j|k j|] eqn:A; try discriminate.
      + destruct c as [v|x|o c|c|eg m c k|a k].
        * intros X. injection X as <-. eapply (finish_step n s spec owner pos t i l _ (Val v)); eauto.
        * intros X. injection X as <-. eapply (finish_step n s spec owner pos t i l _ (Exn x)); eauto.
        * intros X. injection X as <-. eapply emit_step; eauto.
        * intros X. injection X as <-. eapply sleep_step; eauto.
        * intros X. injection X as <-. eapply fork_step; eauto.
        * destruct (nth_error (env s i) a) as [j|] eqn:N; [|discriminate]. intros X. injection X as <-. eapply await_step; eauto.
      + intros X. eapply (suspend_step n s spec owner pos t i l k j); eauto. destruct (res s j); congruence.
    - destruct (Nat.ltb_spec t n) as [Ht|]; [|discriminate]. destruct (Nat.ltb_spec i (next s)) as [Hi|]; [|discriminate]. cbn [andb]. destruct (thr s t) as [|] eqn:E; [|discriminate].
      destruct (st s i) as [c|c|c|k j|k j|k j|] eqn:A; try discriminate.
      + intros X. injection X as <-. eapply take_step; eauto.
      + destruct (res s j) as [r|] eqn:Rj; [|discriminate]. intros X. injection X as <-. eapply take_step; eauto. right. exists k, j, r. auto.
    - destruct (Nat.ltb_spec i (next s)) as [Hi|]; [|discriminate]. destruct (st s i) as [c|c|c|k j|k j|k j|] eqn:A; try discriminate. intros X. injection X as <-. eapply wake_step; eauto.
    - destruct (thr s n) as [|] eqn:E; [|discriminate]. destruct (res s 0) as [r|] eqn:R0; [|discriminate]. destruct (ret s) eqn:Re; [discriminate|]. intros X. injection X as <-. eapply get_step; eauto.
  Qed.
  Lemma run_ok : forall l s s' spec owner pos, Inv s spec owner pos -> run (step n) s l = Some s' ->
    exists spec' owner' pos', Inv s' spec' owner' pos' /\ spec' 0 = spec 0 /\ Permutation (effs s' spec') (effs s spec) /\ count s' spec' = count s spec /\ length l + weight s' spec' <= weight s spec.
  Proof.
    induction l as [|e l IH]; cbn [run]; intros s s' spec owner pos HI R; [injection R as <-; exists spec, owner, pos; split; [exact HI|]; split; [reflexivity|]; split; [reflexivity|]; split; [reflexivity|cbn; lia]|].
    destruct (step n s e) as [s1|] eqn:E; [|discriminate]. destruct (step_ok s e s1 spec owner pos HI E) as (sp & ow & po & A1 & A2 & A3 & A4 & A5).
    destruct (IH s1 s' sp ow po A1 R) as (sp' & ow' & po' & B1 & B2 & B3 & B4 & B5). exists sp', ow', po'. split; [exact B1|]. split; [congruence|]. split; [now rewrite B3|]. split; [congruence|cbn [length]; lia].
  Qed.
  Lemma Inv_init eager c : wf 0 c -> Inv (init n eager c) (fun _ => meaning c []) (fun _ => 0) (fun _ => 0).
  Proof.
    intros W. unfold init. split; fields.
    - assert (Z : (fun _ : nat => onthr (if eager then Active c else Queued c)) = fun _ => eager) by (destruct eager; reflexivity). rewrite Z. destruct eager; cbn [andb]; split; cbn.
      + intros t j. destruct (t =? n); [|intros []]. intros [<-|[]]. auto.
      + intros j Hj _. exists n. split; [lia|]. rewrite Nat.eqb_refl. left. lia.
      + intros t t' j. destruct (Nat.eqb_spec t n), (Nat.eqb_spec t' n); intros; try contradiction; congruence.
      + intros t. destruct (t =? n); [repeat constructor; intros []|constructor].
      + intros t Ht. destruct (Nat.eqb_spec t n); [lia|reflexivity].
      + intros t j [].
      + discriminate.
      + intros t t' j [].
      + constructor.
      + reflexivity.
    - intros i Hi. unfold good. fields. split; [destruct eager; reflexivity|]. split; [auto|]. split; [destruct eager; exact W|]. split; [constructor|intros j []].
    - discriminate.
    - auto.
    - lia.
    - discriminate.
  Qed.
  Lemma init_sums eager c : effs (init n eager c) (fun _ => meaning c []) = effects c [] /\ count (init n eager c) (fun _ => meaning c []) = tasks c [] /\ weight (init n eager c) (fun _ => meaning c []) <= cost c [] + 2.
  Proof. unfold effs, count, weight, init. fields. unfold total. destruct eager; cbn; rewrite ?app_nil_r; split; auto; split; lia. Qed.

  Lemma pos_bound (pos : nat -> nat) m i : i < m -> pos i <= sum_to m pos.
  Proof. induction m as [|m IH]; intros H; [lia|]. cbn. destruct (Nat.eq_dec i m) as [->|]; [lia|]. specialize (IH ltac:(lia)). lia. Qed.
  (** If nothing can happen, everything is done. *)
  Lemma stuck_done s spec owner pos : 0 < n -> Inv s spec owner pos -> (forall e, step n s e = None) -> (forall t, thr s t = []) /\ (forall i, i < next s -> st s i = Done) /\ ret s = Some (spec 0).
  Proof.
    intros Hn HI St.
    assert (Th : forall t, thr s t = []).
    { intros t. destruct (thr s t) as [|i l] eqn:E; [reflexivity|]. exfalso. destruct (on_top _ _ _ _ _ _ _ _ HI E) as (Hi & Ht & On). specialize (St (Go t)). cbn [step] in St. rewrite E in St.
      pose proof (i_good _ _ _ _ _ HI i Hi) as (_ & _ & G & _). destruct (st s i) as [c|c|c|k j|k j|k j|] eqn:A; try discriminate On.
      - destruct c as [v|x|o c|c|eg m c k|a k]; try discriminate St. destruct (nth_error (env s i) a) as [j|] eqn:N; [discriminate St|]. apply nth_error_None in N. cbn [wf] in G. lia.
      - destruct (res s j); discriminate St. }
    assert (Cases : forall i, i < next s -> st s i = Done \/ exists k j, st s i = Waiting k j).
    { intros i Hi. pose proof (i_good _ _ _ _ _ HI i Hi) as (_ & _ & G & _). destruct (st s i) as [c|c|c|k j|k j|k j|] eqn:A; eauto; exfalso.
      - destruct (t_is _ _ _ _ (i_thr _ _ _ _ _ HI) i Hi) as (t & _ & X); [now rewrite A|]. rewrite Th in X. contradiction.
      - specialize (St (Take 0 i)). cbn [step] in St. rewrite Th, A in St. apply Nat.ltb_lt in Hn, Hi. rewrite Hn, Hi in St. discriminate.
      - specialize (St (Wake i)). cbn [step] in St. rewrite A in St. apply Nat.ltb_lt in Hi. rewrite Hi in St. discriminate.
      - destruct (t_is _ _ _ _ (i_thr _ _ _ _ _ HI) i Hi) as (t & _ & X); [now rewrite A|]. rewrite Th in X. contradiction.
      - destruct G as [_ G]. specialize (St (Take 0 i)). cbn [step] in St. rewrite Th, A in St. apply Nat.ltb_lt in Hn, Hi. rewrite Hn, Hi in St. destruct (res s j); [discriminate|congruence]. }
    assert (Dn : forall m i, i < next s -> sum_to (next s) pos - pos i < m -> st s i = Done).
    { induction m as [|m IH]; intros i Hi Hm; [lia|]. destruct (Cases i Hi) as [X|(k & j & X)]; [exact X|]. exfalso. pose proof (i_good _ _ _ _ _ HI i Hi) as (_ & _ & G & _). rewrite X in G. destruct G as ((_ & Hj & _ & P & _) & Rj & _).
      pose proof (pos_bound pos (next s) j Hj). pose proof (i_good _ _ _ _ _ HI j Hj) as (_ & _ & G & _). rewrite (IH j Hj ltac:(lia)) in G. congruence. }
    split; [exact Th|]. split; [intros i Hi; exact (Dn _ i Hi (Nat.lt_succ_diag_r _))|].
    pose proof (i_zero _ _ _ _ _ HI) as Hz. pose proof (i_good _ _ _ _ _ HI 0 Hz) as (_ & _ & G & _). rewrite (Dn _ 0 Hz (Nat.lt_succ_diag_r _)) in G. destruct (ret s) as [r|] eqn:Er.
    - destruct (i_ret _ _ _ _ _ HI r Er) as [X _]. congruence.
    - specialize (St Get). cbn [step] in St. rewrite Th, G, Er in St. discriminate.
  Qed.
  Lemma done_sums s spec : (forall i, i < next s -> st s i = Done) -> effs s spec = out s /\ count s spec = next s.
  Proof.
    intros H. unfold effs, count. assert (X : forall m, m <= next s -> total (fun i => measure effects [] spec (st s i) (env s i)) m = [] /\ sum_to m (fun i => measure tasks 1 spec (st s i) (env s i)) = m).
    { induction m as [|m IH]; intros Hm; [auto|]. destruct (IH ltac:(lia)) as [A B]. rewrite total_S, A. cbn [sum_to]. rewrite B, (H m) by lia. auto. }
    destruct (X (next s) ltac:(lia)) as [-> ->]. now rewrite app_nil_r.
  Qed.
End R.
