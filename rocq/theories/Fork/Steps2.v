(** Proofs for C148: a task ends, a task starts another, and every step. *)
From Coq Require Import List Arith Bool Lia Permutation.
From Verif.Common Require Import TS Sum.
From Verif.Fork Require Import Spec Model Proofs Steps.
Import ListNotations.

Section S.
  Variable n : nat.
  Notation Inv := (Inv n). Notation Thr := (Thr n). Notation next_ok := (next_ok n).
  Ltac fields := cbn [st env res waiter next thr ret out] in *.
  Lemma sum_to_in m f g i : i < m -> (forall x, x < m -> x <> i -> f x = g x) -> sum_to m f + g i = sum_to m g + f i.
  Proof.
    intros Hi H. rewrite (sum_to_ext m g (fun x => if x =? i then g i else f x)) by (intros x Hx; destruct (Nat.eqb_spec x i) as [->|]; auto; symmetry; auto).
    pose proof (sum_to_one m f (fun x => if x =? i then g i else f x) i Hi) as X. cbn beta in X. rewrite Nat.eqb_refl in X. apply X. intros x Hx. destruct (Nat.eqb_spec x i); [contradiction|reflexivity].
  Qed.
  Lemma finish_step s spec owner pos t i l c r s' : Inv s spec owner pos -> thr s t = i :: l -> st s i = Active c -> (c = Ret match r with Val v => v | _ => 0 end /\ (exists v, r = Val v) \/ (exists x, c = Throw x /\ r = Exn x)) ->
    s' = finish s t i l r -> next_ok s s' spec owner pos.
  Proof.
    intros HI E A Hc Es. destruct (on_top _ _ _ _ _ _ _ _ HI E) as (Hi & Ht & _).
    assert (F : (forall e, meaning c e = r) /\ (forall e, effects c e = []) /\ (forall e, tasks c e = 1) /\ (forall e, cost c e = 1)) by (destruct Hc as [[-> [v ->]]|(x & -> & ->)]; cbn; auto).
    destruct F as (F1 & F2 & F3 & F4). clear Hc.
    pose proof (i_good _ _ _ _ _ HI i Hi) as (B & C & D & G & H). rewrite A in B, C, D. cbn [measure] in *. specialize (C ltac:(discriminate)). rewrite F1 in B.
    assert (Hw : forall w, waiter s i = Some w -> w < next s /\ w <> i /\ exists k, st s w = Waiting k i).
    { intros w X. destruct (i_wait _ _ _ _ _ HI i w X) as (Y & k & Z). split; [exact Y|]. split; [intros ->; congruence|]. eauto. }
    assert (Si : st s' i = Done). { subst s'. unfold finish. fields. destruct (waiter s i) as [w|] eqn:W; [|apply upd_same]. destruct (Hw w eq_refl) as (_ & N & k & Z). rewrite (@upd_other status (st s) i w Done) by auto. rewrite Z. rewrite upd_other by auto. apply upd_same. }
    assert (Sw : forall w, waiter s i = Some w -> exists k, st s w = Waiting k i /\ st s' w = Woken k i).
    { intros w X. destruct (Hw w X) as (_ & N & k & Z). exists k. split; [exact Z|]. subst s'. unfold finish. fields. rewrite X. rewrite (@upd_other status (st s) i w Done) by auto. rewrite Z. apply upd_same. }
    assert (So : forall x, x <> i -> waiter s i <> Some x -> st s' x = st s x).
    { intros x Nx Wx. subst s'. unfold finish. fields. destruct (waiter s i) as [w|] eqn:W; [|now apply upd_other]. destruct (Hw w eq_refl) as (_ & N & k & Z). rewrite (@upd_other status (st s) i w Done) by auto. rewrite Z. rewrite upd_other by congruence. now apply upd_other. }
    assert (Ee : env s' = env s) by now subst s'. assert (En : next s' = next s) by now subst s'. assert (Er : forall x, res s' x = if x =? i then Some r else res s x) by (intros x; subst s'; apply updE).
    assert (Ew : forall x, waiter s' x = if x =? i then None else waiter s x) by (intros x; subst s'; apply updE).
    assert (Dec : forall x, {waiter s i = Some x} + {waiter s i <> Some x}) by (intros x; decide equality; apply Nat.eq_dec).
    assert (Same : forall x, x <> i -> (forall (T : Type) P (d : T), measure P d spec (st s' x) (env s' x) = measure P d spec (st s x) (env s x)) /\ wst (st s' x) = wst (st s x) /\ onthr (st s' x) = onthr (st s x)).
    { intros x Nx. rewrite Ee. destruct (Dec x) as [X|X]; [|rewrite So by auto; auto]. destruct (Sw x X) as (k & -> & ->). auto. }
    exists spec, owner, pos. split; [|split; [reflexivity|split; [|split]]].
    - split.
      + rewrite En. apply (Thr_pop n _ _ _ _ _ t i l (i_thr _ _ _ _ _ HI) E); [intros j _ Nj; now apply Same|now rewrite Si|intros u; subst s'; apply updE].
      + intros x Hx. rewrite En in Hx. destruct (Nat.eq_dec x i) as [->|Nx].
        * unfold good. rewrite Si, Ee, En, Er, Nat.eqb_refl. split; [reflexivity|]. split; [congruence|]. split; [now rewrite B|]. auto.
        * destruct (Dec x) as [X|X].
          -- destruct (Sw x X) as (k & S1 & S2). pose proof (i_good _ _ _ _ _ HI x Hx) as (B' & C' & D' & G' & H'). rewrite S1 in B', C', D'. unfold good. rewrite S2, Ee, En, Er. destruct (Nat.eqb_spec x i); [contradiction|]. split; [exact B'|]. split; [intros _; apply C'; discriminate|]. split; [|auto].
             split; [|rewrite Er, Nat.eqb_refl; discriminate]. destruct D' as (D' & _). unfold awaits in *. now rewrite Ee, En.
          -- apply (good_other n s s' spec spec owner owner pos pos x); auto; [now apply (i_good _ _ _ _ _ HI)|now rewrite Ee|lia| | |].
             ++ rewrite Er. destruct (Nat.eqb_spec x i); congruence.
             ++ intros j Hj. rewrite Er. destruct (j =? i); [discriminate|exact Hj].
             ++ intros k j Z. pose proof (i_good _ _ _ _ _ HI x Hx) as (_ & _ & D' & _). rewrite Z in D'. destruct D' as (_ & _ & D'). rewrite Er, Ew. destruct (Nat.eqb_spec j i) as [->|]; [contradiction|auto].
      + intros j x. rewrite Ew, En. destruct (Nat.eqb_spec j i) as [|Nj]; [discriminate|]. intros X. destruct (i_wait _ _ _ _ _ HI j x X) as (Y & k & Z). split; [exact Y|]. exists k. rewrite So; [exact Z|intros ->; congruence|]. intros Q. destruct (Sw x Q) as (k' & Z' & _). congruence.
      + intros j Hj. rewrite En in Hj. rewrite Er, Ew. destruct (Nat.eqb_spec j i); [lia|]. now apply (i_new _ _ _ _ _ HI).
      + rewrite En. apply HI.
      + intros q R. replace (ret s') with (ret s) in R by now subst s'. destruct (i_ret _ _ _ _ _ HI q R) as [R1 R2]. split.
        * rewrite Er. destruct (Nat.eqb_spec 0 i) as [<-|]; congruence.
        * eapply (ret_keeps n s spec owner pos t i l); eauto; [|congruence]. intros u Hu. subst s'. now apply upd_other.
    - unfold effs. rewrite En. replace (out s') with (out s) by now subst s'. erewrite total_ext; [reflexivity|]. intros x Hx. cbn beta. destruct (Nat.eq_dec x i) as [->|Nx]; [|now apply Same]. rewrite Si, A. cbn [measure]. now rewrite F2.
    - unfold count. rewrite En. apply sum_to_ext. intros x Hx. destruct (Nat.eq_dec x i) as [->|Nx]; [|now apply Same]. rewrite Si, A. cbn [measure]. now rewrite F3.
    - unfold weight. rewrite En. replace (ret s') with (ret s) by now subst s'.
      pose proof (sum_to_one (next s) (fun i => wst (st s' i) + measure cost 0 spec (st s' i) (env s' i)) (fun i => wst (st s i) + measure cost 0 spec (st s i) (env s i)) i Hi) as X. cbn beta in X. specialize (X ltac:(intros x Hx; destruct (Same x Hx) as (-> & -> & _); reflexivity)). rewrite Si, A in X. cbn [wst measure] in X. rewrite F4 in X. lia.
  Qed.

  Lemma fork_step s spec owner pos t i l e mask c k s' : Inv s spec owner pos -> thr s t = i :: l -> st s i = Active (Fork e mask c k) ->
    s' = St (upd (upd (st s) i (Active k)) (next s) (if e then Active c else Queued c))
                     (upd (upd (env s) i (kept mask (env s i) ++ [next s])) (next s) (moved mask (env s i)))
                     (res s) (waiter s) (S (next s)) (upd (thr s) t (if e then next s :: i :: l else i :: l)) (ret s) (out s) -> next_ok s s' spec owner pos.
  Proof.
    intros HI E A Es. destruct (on_top _ _ _ _ _ _ _ _ HI E) as (Hi & Ht & _).
    pose proof (i_good _ _ _ _ _ HI i Hi) as (B & C & D & G & H). rewrite A in B, C, D. cbn [measure meaning wf] in *. specialize (C ltac:(discriminate)). destruct D as [D1 D2]. rewrite moved_len in D1. rewrite kept_len in D2. rewrite moved_map, kept_map in B.
    destruct (moved_nodup mask (env s i) G) as (N1 & N2 & N3).
    set (nx := next s) in *. set (mv := moved mask (env s i)) in *. set (kp := kept mask (env s i)) in *.
    assert (Mi : forall j, In j mv -> In j (env s i)) by (intros j; apply moved_in). assert (Ki : forall j, In j kp -> In j (env s i)) by (intros j; apply kept_in).
    set (v := meaning c (map spec mv)) in *.
    set (spec' := upd spec nx v). set (owner' := fun j => if j =? nx then i else if in_dec Nat.eq_dec j mv then nx else owner j). set (pos' := fun x => if x =? nx then S (pos i) else if pos x <=? pos i then pos x else S (pos x)).
    assert (Sp : forall j, j < nx -> spec' j = spec j) by (intros j Hj; apply upd_other; lia). assert (Spn : spec' nx = v) by apply upd_same.
    assert (Pm : forall a b, a < nx -> b < nx -> pos a < pos b -> pos' a < pos' b). { intros a b Ha Hb P. unfold pos'. destruct (Nat.eqb_spec a nx), (Nat.eqb_spec b nx); try lia. destruct (Nat.leb_spec (pos a) (pos i)), (Nat.leb_spec (pos b) (pos i)); lia. }
    assert (Pi : pos' i = pos i) by (unfold pos'; destruct (Nat.eqb_spec i nx); [lia|]; now rewrite Nat.leb_refl).
    assert (Pn : pos' nx = S (pos i)) by (unfold pos'; now rewrite Nat.eqb_refl).
    assert (Pj : forall j, j < nx -> pos i < pos j -> S (pos i) < pos' j). { intros j Hj P. unfold pos'. destruct (Nat.eqb_spec j nx); [lia|]. destruct (Nat.leb_spec (pos j) (pos i)); lia. }
    assert (Sn : st s' nx = if e then Active c else Queued c) by (subst s'; apply upd_same).
    assert (Si : st s' i = Active k) by (subst s'; fields; rewrite upd_other by lia; apply upd_same).
    assert (So : forall x, x < nx -> x <> i -> st s' x = st s x) by (intros x Hx Nx; subst s'; fields; rewrite upd_other by lia; now apply upd_other).
    assert (Vn : env s' nx = mv) by (subst s'; apply upd_same).
    assert (Vi : env s' i = kp ++ [nx]) by (subst s'; fields; rewrite upd_other by lia; apply upd_same).
    assert (Vo : forall x, x < nx -> x <> i -> env s' x = env s x) by (intros x Hx Nx; subst s'; fields; rewrite upd_other by lia; now apply upd_other).
    assert (En : next s' = S nx) by now subst s'. assert (Er : res s' = res s) by now subst s'. assert (Ew : waiter s' = waiter s) by now subst s'. assert (Eret : ret s' = ret s) by now subst s'.
    assert (Mm : map spec' mv = map spec mv) by (apply (map_agree _ _ nx); auto; intros j Hj; now apply H, Mi). assert (Mk : map spec' (kp ++ [nx]) = map spec kp ++ [v]) by (rewrite map_app, (map_agree spec spec' nx kp) by (auto; intros j Hj; now apply H, Ki); cbn; now rewrite Spn).
    destruct (i_new _ _ _ _ _ HI nx ltac:(lia)) as [Rn Wn].
    assert (Same : forall x, x < nx -> x <> i -> forall (T : Type) P (d : T), measure P d spec' (st s' x) (env s' x) = measure P d spec (st s x) (env s x)).
    { intros x Hx Nx T P d. rewrite So, Vo by auto. pose proof (i_good _ _ _ _ _ HI x Hx) as Gx. apply (measure_agree P d d spec spec' nx); auto; [intros j Hj; now apply Gx|intros k' j Z; now apply (target n _ _ _ _ _ Gx k' j Z)]. }
    exists spec', owner', pos'. split; [|split; [apply Sp; apply HI|split; [|split]]].
    - split.
      + rewrite En. assert (Tu : forall u, thr s' u = if u =? t then (if e then nx :: i :: l else i :: l) else thr s u) by (intros u; subst s'; apply updE).
        assert (On : forall j, j < nx -> onthr (st s' j) = onthr (st s j)) by (intros j Hj; destruct (Nat.eq_dec j i) as [->|Nj]; [now rewrite Si, A|now rewrite So]).
        destruct e; [apply (Thr_push n (fun i => onthr (st s i)) _ nx (thr s) _ t i l (i_thr _ _ _ _ _ HI) E); auto; cbn beta; now rewrite Sn|].
        assert (X : Thr (fun j => onthr (st s' j)) (S nx) (thr s)) by (apply (Thr_new n (fun i => onthr (st s i)) _ nx _ (i_thr _ _ _ _ _ HI)); auto; cbn beta; now rewrite Sn).
        assert (Q : forall u, thr s' u = thr s u) by (intros u; rewrite Tu; destruct (Nat.eqb_spec u t) as [->|]; congruence).
        destruct X as [X1 X2 X3 X4 X5]. split.
        * intros u j. rewrite Q. apply X1.
        * intros j Hj Ho. destruct (X2 j Hj Ho) as (u & Hu & Z). exists u. now rewrite Q.
        * intros u u' j. rewrite !Q. apply X3.
        * intros u. rewrite Q. apply X4.
        * intros u. rewrite Q. apply X5.
      + intros x Hx. rewrite En in Hx. destruct (Nat.eq_dec x nx) as [->|Nn].
        * unfold good. rewrite Vn, Er, En. split; [|split; [auto|split; [|split; [exact N1|]]]].
          -- rewrite Spn, Sn. destruct e; cbn [measure]; now rewrite Mm.
          -- rewrite Sn. destruct e; exact D1.
          -- intros j Hj. destruct (H j (Mi j Hj)) as (H1 & H2 & H3). split; [unfold nx in *; lia|]. split; [|rewrite Pn; now apply Pj]. unfold owner'. destruct (Nat.eqb_spec j nx); [unfold nx in *; lia|]. destruct (in_dec Nat.eq_dec j mv); [reflexivity|contradiction].
        * destruct (Nat.eq_dec x i) as [->|Nx].
          -- unfold good. rewrite Si, Vi, Er, En. cbn [measure]. split; [|split; [auto|split; [|split]]].
             ++ rewrite Mk, Sp by exact Hi. exact B.
             ++ rewrite app_length. cbn [length]. now rewrite Nat.add_1_r.
             ++ apply NoDup_snoc; [exact N2|]. intros X. apply Ki, H in X. unfold nx in *. lia.
             ++ intros j Hj. apply in_app_iff in Hj. destruct Hj as [Hj|[<-|[]]].
                ** destruct (H j (Ki j Hj)) as (H1 & H2 & H3). split; [unfold nx in *; lia|]. split; [|rewrite Pi; specialize (Pj j H1 H3); lia]. unfold owner'. destruct (Nat.eqb_spec j nx); [unfold nx in *; lia|]. destruct (in_dec Nat.eq_dec j mv) as [Z|]; [destruct (N3 j Z Hj)|exact H2].
                ** split; [lia|]. split; [unfold owner'; now rewrite Nat.eqb_refl|rewrite Pi, Pn; lia].
          -- assert (Hx' : x < nx) by lia. apply (good_other n s s' spec spec' owner owner' pos pos' x); auto; [now apply (i_good _ _ _ _ _ HI)| |lia| | |].
             ++ intros j Hj Oj. unfold owner'. destruct (Nat.eqb_spec j nx); [unfold nx in *; lia|]. destruct (in_dec Nat.eq_dec j mv) as [Z|]; [|exact Oj]. destruct (H j (Mi j Z)) as (_ & H2 & _). congruence.
             ++ now rewrite Er.
             ++ intros j. now rewrite Er.
             ++ intros; now rewrite Er, Ew.
      + intros j x. rewrite Ew. intros X. destruct (i_wait _ _ _ _ _ HI j x X) as (Y & k' & Z). split; [rewrite En; unfold nx; lia|]. exists k'. rewrite So; [exact Z|exact Y|]. intros ->. congruence.
      + intros j Hj. rewrite En in Hj. rewrite Er, Ew. apply (i_new _ _ _ _ _ HI). unfold nx in *. lia.
      + rewrite En. lia.
      + intros q R. rewrite Eret in R. destruct (i_ret _ _ _ _ _ HI q R) as [R1 R2]. split; [now rewrite Er|]. eapply (ret_keeps n s spec owner pos t i l); eauto; [|congruence]. intros u Hu. subst s'. now apply upd_other.
    - unfold effs. replace (out s') with (out s) by now subst s'. apply Permutation_app_head. rewrite En, total_S. fold nx.
      pose proof (total_one (fun i => measure effects [] spec (st s i) (env s i)) (fun i => measure effects [] spec' (st s' i) (env s' i)) i (effects c (map spec mv)) nx) as X. cbn beta in X. rewrite X.
      + rewrite Permutation_app_comm. apply Permutation_app_tail. rewrite Sn, Vn. destruct e; cbn [measure]; now rewrite Mm.
      + intros x Hx Nx. now apply Same.
      + exact Hi.
      + rewrite A, Si, Vi. cbn [measure effects]. rewrite Mk, moved_map, kept_map. reflexivity.
    - unfold count. rewrite En. pose proof (sum_to_in nx (fun i => measure tasks 1 spec' (st s' i) (env s' i)) (fun i => measure tasks 1 spec (st s i) (env s i)) i Hi) as X. cbn beta in X. specialize (X ltac:(intros x Hx Nx; now apply Same)).
      cbn [sum_to]. rewrite A, Si, Vi in X. cbn [measure tasks] in X. rewrite Mk, moved_map, kept_map in X. fold mv kp v in X. rewrite Sn, Vn. fold nx. assert (measure tasks 1 spec' (if e then Active c else Queued c) mv = tasks c (map spec mv)) as -> by (destruct e; cbn [measure]; now rewrite Mm). lia.
    - unfold weight. rewrite En, Eret. pose proof (sum_to_in nx (fun i => wst (st s' i) + measure cost 0 spec' (st s' i) (env s' i)) (fun i => wst (st s i) + measure cost 0 spec (st s i) (env s i)) i Hi) as X. cbn beta in X. specialize (X ltac:(intros x Hx Nx; rewrite Same, So by auto; reflexivity)).
      cbn [sum_to]. rewrite A, Si, Vi in X. cbn [measure cost wst] in X. rewrite Mk, moved_map, kept_map in X. fold mv kp v in X. rewrite Sn, Vn. fold nx. assert (measure cost 0 spec' (if e then Active c else Queued c) mv = cost c (map spec mv)) as -> by (destruct e; cbn [measure]; now rewrite Mm). assert (wst (if e then Active c else Queued c) <= 1) by (destruct e; cbn; lia). lia.
  Qed.
End S.
