(** Proofs about the prep functions: the invariant of a batch under construction. *)
From Coq Require Import List ZArith Bool Lia.
From Verif.Prep Require Import Spec Model.
Import ListNotations.
Open Scope Z_scope.

Lemma u32_id z : uint_ z -> u32 z = z. Proof. unfold uint_, u32. intros. apply Z.mod_small. lia. Qed.
Lemma u64_id z : u64_ z -> u64 z = z. Proof. unfold u64_, u64. intros. apply Z.mod_small. lia. Qed.
Lemma s32_u32 z : int_ z -> s32 (u32 z) = z.
Proof.
  unfold int_, s32, u32. intros. rewrite Z.mod_mod by lia.
  destruct (Z.ltb_spec (z mod 2 ^ 32) (2 ^ 31)) as [Hl|Hl].
  - destruct (Z_lt_ge_dec z 0) as [Hn|Hp].
    + rewrite <- (Z_mod_plus_full z 1 (2 ^ 32)) in Hl. rewrite Z.mod_small in Hl; lia.
    + apply Z.mod_small; lia.
  - destruct (Z_lt_ge_dec z 0) as [Hn|Hp].
    + rewrite <- (Z_mod_plus_full z 1 (2 ^ 32)). rewrite Z.mod_small; lia.
    + rewrite Z.mod_small in Hl; lia.
Qed.
Lemma s32_id z : int_ z -> s32 z = z.
Proof. intros. rewrite <- (s32_u32 z) at 2 by auto. unfold s32, u32. rewrite Z.mod_mod by lia. reflexivity. Qed.
Lemma s32_64 z : int_ z -> s32 (u64 z) = z.
Proof.
  intros. rewrite <- (s32_id z) at 2 by auto. unfold s32, u64.
  replace ((z mod 2 ^ 64) mod 2 ^ 32) with (z mod 2 ^ 32); [reflexivity|].
  change (2 ^ 64) with (2 ^ 32 * 2 ^ 32). rewrite Z.rem_mul_r by lia.
  rewrite Z.add_comm, Z.mul_comm, Z.add_comm. rewrite Z_mod_plus_full. rewrite Z.mod_mod by lia. reflexivity.
Qed.
Lemma u32_u32 z : u32 (u32 z) = u32 z. Proof. apply Z.mod_mod. lia. Qed.
Lemma c_string_name p : name_ p -> c_string p = p.
Proof.
  induction p as [|c p IH]; intros H; [reflexivity|]. inversion H; subst. cbn.
  destruct (Z.eqb_spec c 0); [lia|]. rewrite IH; auto.
Qed.

(** ** Pointers into the batch's memory stay valid when more is added *)
Definition ptr_ok (m : list object) (p : ptr) : Prop :=
  match p with User _ => True | Copy i | Copy2 i => (i < length m)%nat end.
Definition sqe_ok (m : list object) (q : sqe) : Prop :=
  ptr_ok m (addr q) /\ match off q with inl _ => True | inr p => ptr_ok m p end.
Lemma nth_app (m m' : list object) i : (i < length m)%nat -> nth_error (m ++ m') i = nth_error m i.
Proof. apply nth_error_app1. Qed.
Lemma read_path_app m m' p : ptr_ok m p -> read_path (m ++ m') p = read_path m p.
Proof. destruct p; cbn; intros; rewrite ?nth_app by auto; reflexivity. Qed.
Lemma perform_app m m' q : sqe_ok m q -> perform (m ++ m') q = perform m q.
Proof.
  destruct q as [o f a l of fl lk]. unfold sqe_ok; cbn. intros [Ha Ho].
  destruct o; cbn; rewrite ?read_path_app by auto; try reflexivity.
  - destruct a; cbn in *; rewrite ?nth_app by auto; reflexivity.
  - destruct a; cbn in *; rewrite ?nth_app by auto; reflexivity.
  - destruct of; rewrite ?read_path_app by auto; reflexivity.
Qed.
Lemma sqe_ok_app m m' q : sqe_ok m q -> sqe_ok (m ++ m') q.
Proof.
  unfold sqe_ok. intros [Ha Ho]. split.
  - destruct (addr q); cbn in *; rewrite ?app_length; lia.
  - destruct (off q) as [|p]; [exact I|]. destruct p; cbn in *; rewrite ?app_length; lia.
Qed.

(** ** The invariant *)
Definition ok (b : batch) (rs : list request) (d : option Z) : Prop :=
  exists ops tail,
    sqes b = ops ++ tail /\
    map (perform (objs b)) ops = rs /\
    Forall (fun q => link q = true) ops /\
    Forall (sqe_ok (objs b)) (sqes b) /\
    match d with
    | None => tail = [] /\ timeout_set b = false
    | Some t => timeout_set b = true /\ exists q, tail = [q] /\ perform (objs b) q = RTimeout t /\ link q = false
    end.

Lemma ok_empty : ok empty [] None.
Proof. exists [], []. cbn. repeat split; auto. Qed.

Lemma map_perform_app m m' qs : Forall (sqe_ok m) qs -> map (perform (m ++ m')) qs = map (perform m) qs.
Proof. intros H. apply map_ext_in. intros q Hq. apply perform_app. rewrite Forall_forall in H. auto. Qed.

(** more memory *)
Lemma ok_add b rs d o b1 i : ok b rs d -> add b o = (b1, i) -> ok b1 rs d /\ nth_error (objs b1) i = Some o.
Proof.
  intros (ops & tail & E & Ho & Hl & Hp & Ht) H. unfold add in H. injection H as <- <-. cbn. split.
  - exists ops, tail. cbn. rewrite E in Hp. apply Forall_app in Hp as [Hp1 Hp2].
    split; [exact E|]. split; [rewrite map_perform_app; auto|]. split; [exact Hl|]. split.
    + rewrite E. apply Forall_app. split; (eapply Forall_impl; [intros q Hq; apply sqe_ok_app; exact Hq|assumption]).
    + destruct d as [t|]; [|exact Ht]. destruct Ht as (Hs & q & -> & Hq & Hk). split; [exact Hs|].
      exists q. split; [reflexivity|]. split; [|exact Hk]. rewrite perform_app; [exact Hq|]. inversion Hp2; auto.
  - rewrite nth_error_app2 by lia. rewrite Nat.sub_diag. reflexivity.
Qed.

(** one more operation *)
Lemma ok_get b rs d q r : ok b rs d -> sqe_ok (objs b) q -> perform (objs b) q = r -> link q = true ->
  exists b', get_sqe b q = Some b' /\ ok b' (rs ++ [r]) d.
Proof.
  intros (ops & tail & E & Ho & Hl & Hp & Ht) Hok Hr Hk. unfold get_sqe.
  destruct d as [t|].
  - destruct Ht as (Hs & q0 & -> & Hq & Hk0). rewrite Hs. rewrite E in *. rewrite rev_app_distr. cbn.
    eexists. split; [reflexivity|]. exists (ops ++ [q]), [q0]. cbn. rewrite rev_involutive.
    split; [rewrite <- app_assoc; reflexivity|]. split; [rewrite map_app; cbn; congruence|].
    apply Forall_app in Hp as [Hp1 Hp2]. inversion Hp2; subst.
    split; [apply Forall_app; auto|]. split; [apply Forall_app; auto|]. split; [auto|]. exists q0; auto.
  - destruct Ht as (-> & Hs). rewrite Hs. eexists. split; [reflexivity|]. exists (ops ++ [q]), []. cbn.
    rewrite app_nil_r in E. rewrite E in *. rewrite app_nil_r.
    split; [reflexivity|]. split; [rewrite map_app; cbn; congruence|].
    split; [apply Forall_app; auto|]. split; [apply Forall_app; auto|]. split; auto.
Qed.

Definition after (d : option Z) (c : call) : option Z := match c with Timeout (Some t) => Some t | _ => d end.
Definition op_of (c : call) : list request := match means c with Some r => [r] | None => [] end.

Ltac num := repeat (first [rewrite u32_u32 | rewrite s32_u32 by auto | rewrite s32_id by auto | rewrite u32_id by auto | rewrite u64_id by auto | rewrite s32_64 by auto]).

Lemma at_fdcwd_s32 : s32 AT_FDCWD = AT_FDCWD /\ s32 (u32 AT_FDCWD) = AT_FDCWD. Proof. split; reflexivity. Qed.

Lemma prep_ok b rs d c : ok b rs d -> valid c -> exists b', prep b c = Some b' /\ ok b' (rs ++ op_of c) (after d c).
Proof.
  intros Hok Hv.
  destruct c; cbn [prep op_of means after]; cbn in Hv; repeat match goal with H : _ /\ _ |- _ => destruct H end;
    try (apply ok_get; [exact Hok|split; exact I|cbn; num; reflexivity|reflexivity]);
    try (match goal with |- context [add b ?o] => destruct (add b o) as [b1 i] eqn:Ea; destruct (ok_add _ _ _ _ _ _ Hok Ea) as [Hok1 Hn] end;
         assert (Hi : (i < length (objs b1))%nat) by (apply nth_error_Some; congruence);
         apply ok_get; [exact Hok1|split; cbn; auto|cbn; unfold read_path; rewrite ?Hn; num; rewrite ?c_string_name by auto;
           rewrite ?(proj1 at_fdcwd_s32), ?(proj2 at_fdcwd_s32); reflexivity|reflexivity]).
  - apply ok_get; [exact Hok|split; exact I| |reflexivity].
    cbn. rewrite u32_u32. rewrite !u64_id by (unfold u64_ in *; lia). destruct (Z.eqb_spec off 18446744073709551615); [lia|].
    num. reflexivity.
  - apply ok_get; [exact Hok|split; exact I| |reflexivity].
    cbn. rewrite u32_u32. rewrite !u64_id by (unfold u64_ in *; lia). destruct (Z.eqb_spec off 18446744073709551615); [lia|].
    num. reflexivity.
  - destruct (add b (OSock (fst a))) as [b1 i] eqn:Ea. destruct (ok_add _ _ _ _ _ _ Hok Ea) as [Hok1 Hn].
    assert (Hi : (i < length (objs b1))%nat) by (apply nth_error_Some; congruence).
    apply ok_get; [exact Hok1|split; cbn; auto| |reflexivity].
    cbn. rewrite Hn. rewrite u64_id by (unfold u64_, uint_ in *; lia). num. destruct a; reflexivity.
  - rewrite app_nil_r. destruct tp as [t|]; [|exists b; auto].
    destruct (add b (OTime t)) as [b1 i] eqn:Ea. destruct (ok_add _ _ _ _ _ _ Hok Ea) as [Hok1 Hn].
    assert (Hi : (i < length (objs b1))%nat) by (apply nth_error_Some; congruence).
    destruct Hok1 as (ops & tail & E & Ho & Hl & Hp & Ht).
    set (q := io_uring_prep_link_timeout (Copy i) (TIMEOUT_REALTIME + TIMEOUT_ABS)).
    assert (Hq : perform (objs b1) q = RTimeout t) by (cbn; rewrite Hn; reflexivity).
    assert (Hqo : sqe_ok (objs b1) q) by (split; cbn; auto).
    destruct d as [t0|].
    + destruct Ht as (Hs & q0 & -> & _). rewrite Hs, E, rev_app_distr. cbn [rev app].
      eexists. split; [reflexivity|]. exists ops, [q]. cbn [sqes objs timeout_set]. rewrite rev_involutive.
      rewrite E in Hp. apply Forall_app in Hp as [Hp1 _].
      split; [reflexivity|]. split; [exact Ho|]. split; [exact Hl|]. split; [apply Forall_app; auto|].
      split; [reflexivity|]. exists q. auto.
    + destruct Ht as (-> & Hs). rewrite Hs. rewrite app_nil_r in E.
      eexists. split; [reflexivity|]. exists ops, [q]. cbn [sqes objs timeout_set]. rewrite E in *.
      split; [reflexivity|]. split; [exact Ho|]. split; [exact Hl|]. split; [apply Forall_app; auto|].
      split; [reflexivity|]. exists q. auto.
Qed.

Lemma prep_all_ok cs : forall b rs d, ok b rs d -> Forall valid cs ->
  exists b', prep_all b cs = Some b' /\ ok b' (rs ++ flat_map op_of cs) (fold_left after cs d).
Proof.
  induction cs as [|c cs IH]; intros b rs d Hok Hv.
  - exists b. cbn. rewrite app_nil_r. auto.
  - inversion Hv; subst. destruct (prep_ok b rs d c Hok) as (b1 & E & Hok1); [assumption|].
    cbn. rewrite E. rewrite app_assoc. apply IH; auto.
Qed.

Lemma submitted_ok cs : Forall valid cs ->
  submitted cs = match asked cs with
                 | [] => None
                 | rs => Some (rs, repeat true (length rs - 1) ++ [false])
                 end.
Proof.
  intros Hv. destruct (prep_all_ok cs empty [] None ok_empty Hv) as (b & E & ops & tail & Es & Ho & Hl & Hp & Ht).
  unfold submitted. rewrite E. unfold execute. rewrite Es.
  assert (Ha : asked cs = map (perform (objs b)) (ops ++ tail)).
  { unfold asked. rewrite map_app, Ho. unfold operations, deadline. unfold after in Ht.
    f_equal. destruct (fold_left _ cs None) as [t|]; [destruct Ht as (_ & q & -> & Hq & _)|destruct Ht as (-> & _)]; cbn; congruence. }
  assert (Hk : forall pre lst, ops ++ tail = pre ++ [lst] -> map link pre = repeat true (length pre)).
  { intros pre lst Hpl. assert (Hf : Forall (fun q => link q = true) pre).
    { destruct (fold_left after cs None) as [t|].
      - destruct Ht as (_ & q & -> & _). apply app_inj_tail in Hpl as [-> _]. exact Hl.
      - destruct Ht as (-> & _). rewrite app_nil_r in Hpl. rewrite Hpl in Hl. apply Forall_app in Hl. tauto. }
    clear Hpl. induction pre as [|q pre IH]; [reflexivity|]. inversion Hf; subst. cbn. rewrite IH by auto. congruence. }
  rewrite Ha. clear Ha. destruct (ops ++ tail) as [|x l] eqn:El using rev_ind; [reflexivity|]. clear IHl.
  rewrite rev_app_distr. cbn [rev app]. rewrite rev_involutive.
  destruct (map (perform (objs b)) (l ++ [x])) as [|r rs] eqn:Em; [rewrite map_app in Em; apply app_eq_nil in Em as [_ Em]; discriminate|].
  rewrite <- Em. f_equal. f_equal.
  - rewrite !map_app; f_equal; destruct x; reflexivity.
  - rewrite map_app, map_length, app_length. cbn. replace (length l + 1 - 1)%nat with (length l) by lia.
    f_equal. eapply Hk. reflexivity.
Qed.
