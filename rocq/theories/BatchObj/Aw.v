(** Model of the single-operation awaitables (read_write_aw, connect_aw, ...) as objects: include/koios/iouring_single_op_aw.h 16-39
    (op_aw_base: the batch; implicit move constructor), iouring_op_batch_execute_aw.h 16-30 (base class: m_rep, a pointer to the rep of
    the batch inside the very object that was constructed; iouring_single_op_aw.cc 10-18), iouring_op_batch_execute_aw.cc 14-25 (await_suspend: set_user_data on
    the pointed-to rep, back() of its vector, add_event), iouring.cc 57-79 (the rep pointed to is submitted), iouring_single_op_aw.h
    30-33 (await_resume reads the return slots of the object's own batch).
    Simplifications: one operation per object, given at construction by the function (uring::read and so on). *)
From Coq Require Import List Arith Bool.
From Verif.Common Require Import TS.
Import ListNotations.

(* an awaitable: its batch and the pointer m_rep of its base class, iouring_single_op_aw.h 16-39, iouring_op_batch_execute_aw.h 16-30 *)
Record aw := Aw { rep : list nat (* m_batch.m_rep.m_sqes *); m_rep : nat (* the object whose rep is pointed to *) }.
(* what the state keeps of iouring_single_op_aw.h 16-39, iouring_op_batch_execute_aw.h 16-30, iouring_op_batch_execute_aw.cc 14-25 *)
Record state := St { objs : nat -> option aw; submitted : list nat; ub : bool }.
(* before anything has happened; iouring_single_op_aw.h 16-39, iouring_op_batch_execute_aw.h 16-30, iouring_op_batch_execute_aw.cc 14-25 *)
Definition init : state := St (fun _ => None) [] false.
(* the steps of iouring_single_op_aw.h 16-39, iouring_op_batch_execute_aw.h 16-30, iouring_op_batch_execute_aw.cc 14-25 *)
Inductive event :=
| ANew (i op : nat)      (* the result of uring::read(...) and so on *)
| AMove (i j : nat)      (* move construction of i from j: the batch moves, m_rep is copied *)
| AKill (i : nat)
| AAwait (i : nat).      (* co_await i *)
(* what each step does: iouring_single_op_aw.h 16-39, iouring_op_batch_execute_aw.h 16-30, iouring_op_batch_execute_aw.cc 14-25 *)
Definition step (s : state) (e : event) : option state :=
  if ub s then None else
  match e with
  | ANew i op => match objs s i with None => Some (St (upd (objs s) i (Some (Aw [op] i))) (submitted s) false) | _ => None end
  | AMove i j => match objs s i, objs s j with
                 | None, Some a => Some (St (upd (upd (objs s) j (Some (Aw [] (m_rep a)))) i (Some a)) (submitted s) false)
                 | _, _ => None
                 end
  | AKill i => match objs s i with Some _ => Some (St (upd (objs s) i None) (submitted s) false) | None => None end
  | AAwait i => match objs s i with
                | Some a =>
                    match objs s (m_rep a) with
                    | Some t => match rep t with
                                | [] => Some (St (objs s) (submitted s) true)          (* back() of an empty vector *)
                                | l => Some (St (objs s) (submitted s ++ l) (negb (Nat.eqb (m_rep a) i)))
                                         (* answers arrive in the pointed-to batch: front() of the own, empty, return slots *)
                                end
                    | None => Some (St (objs s) (submitted s) true)                    (* dangling *)
                    end
                | None => None
                end
  end.

(** C101 (an awaitable returned by uring::read, connect, ... can be moved before it is awaited) is false: in every reachable state,
    awaiting any object made by moving is undefined behaviour, whether its source still exists or not - even if object identities (addresses)
    are used again for later awaitables. *)
Theorem C101_moved_then_awaited_refuted : forall s i a,
  ub s = false -> objs s i = Some a -> m_rep a <> i -> exists s', step s (AAwait i) = Some s' /\ ub s' = true.
Proof.
  intros s i a Hu Hi Hm. unfold step. rewrite Hu, Hi. destruct (objs s (m_rep a)) as [t|]; [|eexists; split; reflexivity].
  destruct (rep t); eexists; split; try reflexivity. cbn. destruct (Nat.eqb_spec (m_rep a) i); [congruence|reflexivity].
Qed.
Print Assumptions C101_moved_then_awaited_refuted.
Lemma mrep_moved : forall l s i j s', run step init l = Some s -> step s (AMove i j) = Some s' ->
  exists a, objs s' i = Some a /\ (m_rep a <> i \/ exists k, In (AMove k i) l).
Proof.
  assert (HI : forall l s, run step init l = Some s -> forall j a i, objs s j = Some a -> m_rep a = i -> j <> i -> (forall k, ~ In (AMove k i) l) -> False).
  { intros l. induction l as [|e l IH] using rev_ind; intros s Hr j a i Hj Hm Hne Hk.
    - inversion Hr; subst. discriminate.
    - apply run_app_inv in Hr. destruct Hr as (s1 & H1 & H2). cbn in H2. destruct (step s1 e) as [s2|] eqn:E; [|discriminate]. inversion H2; subst s2. clear H2.
      assert (Hk1 : forall k, ~ In (AMove k i) l) by (intros k Hi; apply (Hk k); apply in_app_iff; now left).
      pose proof (IH s1 H1) as IH1. clear IH. unfold step in E. destruct (ub s1); [discriminate|]. destruct e as [i0 op|i0 j0|i0|i0].
      + destruct (objs s1 i0) eqn:E0; [discriminate|]. inversion E; subst; clear E. cbn in Hj. unfold upd in Hj.
        destruct (Nat.eqb_spec j i0); [inversion Hj; subst; cbn in Hne; congruence|]. eapply IH1; eauto.
      + destruct (objs s1 i0) eqn:E0; [discriminate|]. destruct (objs s1 j0) as [b|] eqn:E1; [|discriminate]. inversion E; subst; clear E.
        cbn in Hj. unfold upd in Hj. destruct (Nat.eqb_spec j i0).
        * inversion Hj; subst. assert (j0 <> m_rep a).
          { intros ->. apply (Hk i0). apply in_app_iff. right. now left. }
          eapply (IH1 j0); eauto.
        * destruct (Nat.eqb_spec j j0); [inversion Hj; subst; cbn in *; eapply (IH1 j0); eauto|eapply IH1; eauto].
      + destruct (objs s1 i0) eqn:E0; [|discriminate]. inversion E; subst; clear E. cbn in Hj. unfold upd in Hj.
        destruct (Nat.eqb_spec j i0); [discriminate|]. eapply IH1; eauto.
      + destruct (objs s1 i0) as [b|] eqn:E0; [|discriminate]. destruct (objs s1 (m_rep b)) as [t|]; [destruct (rep t)|]; inversion E; subst; cbn in Hj; eapply IH1; eauto. }
  intros l s i j s' Hr Hs. unfold step in Hs. destruct (ub s); [discriminate|]. destruct (objs s i) eqn:Ei; [discriminate|].
  destruct (objs s j) as [a|] eqn:Ej; [|discriminate]. inversion Hs; subst; clear Hs. exists a. cbn. rewrite upd_same. split; [reflexivity|].
  destruct (Nat.eq_dec (m_rep a) i); [|now left]. right.
  destruct (in_dec (fun x y : bool => Bool.bool_dec x y) true (map (fun e => match e with AMove _ x => Nat.eqb x i | _ => false end) l)) as [Hin|Hn].
  - apply in_map_iff in Hin. destruct Hin as ([| k x| |] & Hx & Hin); try discriminate. apply Nat.eqb_eq in Hx. subst. eauto.
  - exfalso. apply (HI l s Hr j a i); auto; [intros ->; congruence|]. intros k Hi. apply Hn. apply in_map_iff. exists (AMove k i). rewrite Nat.eqb_refl. auto.
Qed.
(** Every move of a fresh awaitable into a fresh variable makes such an object. *)
Theorem C101_every_move_breaks_refuted : forall l i j s s',
  run step init l = Some s -> (forall k, ~ In (AMove k i) l) -> step s (AMove i j) = Some s' ->
  exists s'', step s' (AAwait i) = Some s'' /\ ub s'' = true.
Proof.
  intros l i j s s' Hr Hk Hs. destruct (mrep_moved l s i j s' Hr Hs) as (a & Ha & [Hm|(k & Hi)]); [|now elim (Hk k)].
  eapply C101_moved_then_awaited_refuted; eauto. unfold step in Hs. destruct (ub s); [discriminate|].
  destruct (objs s i); [discriminate|]. destruct (objs s j); [|discriminate]. now inversion Hs.
Qed.
Print Assumptions C101_every_move_breaks_refuted.
Example C101_case : exists s, run step init [ANew 0 7; AMove 1 0; AKill 0; AAwait 1] = Some s /\ ub s = true.
Proof. eexists. split; reflexivity. Qed.

(** The object moved from cannot be awaited any more either: its batch is empty. *)
Theorem C101_source_is_spent_refuted : forall s i j a s', objs s j = Some a -> m_rep a = j -> step s (AMove i j) = Some s' ->
  exists s'', step s' (AAwait j) = Some s'' /\ ub s'' = true.
Proof.
  intros s i j a s' Hj Hm Hs. unfold step in Hs. destruct (ub s) eqn:Eu; [discriminate|]. destruct (objs s i) eqn:Ei; [discriminate|]. rewrite Hj in Hs.
  assert (Nij : j <> i) by congruence. injection Hs as <-. unfold step. cbn [ub objs]. rewrite upd_other by exact Nij. rewrite upd_same. cbn [m_rep]. rewrite Hm, upd_other by exact Nij. rewrite upd_same. cbn [rep]. eexists. split; reflexivity.
Qed.
Print Assumptions C101_source_is_spent_refuted.

(** What remains: awaited in place (as a temporary of the co_await expression, or the variable initialised by the call), the
    operation given is the one submitted. *)
Theorem C101_in_place_partial : forall l s i op s1 s2,
  run step init l = Some s -> step s (ANew i op) = Some s1 -> step s1 (AAwait i) = Some s2 ->
  ub s2 = false /\ submitted s2 = submitted s ++ [op].
Proof.
  intros l s i op s1 s2 _ H1 H2. unfold step in *. destruct (ub s) eqn:Eu; [discriminate|]. destruct (objs s i); [discriminate|].
  inversion H1; subst; clear H1. cbn in H2. rewrite upd_same in H2. cbn in H2. rewrite upd_same in H2. cbn in H2.
  inversion H2; subst. cbn. now rewrite Nat.eqb_refl.
Qed.
Print Assumptions C101_in_place_partial.
Example C101_in_place_case : exists s, run step init [ANew 0 7; AAwait 0; AKill 0; ANew 1 8; AAwait 1] = Some s /\ submitted s = [7; 8] /\ ub s = false.
Proof. eexists. split; [reflexivity|]. split; reflexivity. Qed.

(** What remains, for whole histories: as long as nothing is moved nothing goes wrong, and the operations submitted are those of the awaitables awaited, in that order.
    [given l i]: the operation of the last awaitable made as [i]. *)
Fixpoint given (l : list event) (i : nat) (op : option nat) : option nat :=
  match l with
  | [] => op
  | ANew j o :: r => given r i (if Nat.eqb j i then Some o else op)
  | _ :: r => given r i op
  end.
(* the operations that the co_awaits of [l] ask for, after the history [done] *)
Fixpoint wanted (done l : list event) : list nat :=
  match l with
  | [] => []
  | e :: r => match e with AAwait i => match given done i None with Some op => [op] | None => [] end | _ => [] end ++ wanted (done ++ [e]) r
  end.
Lemma given_snoc : forall l i e op, given (l ++ [e]) i op = match e with ANew j o => if Nat.eqb j i then Some o else given l i op | _ => given l i op end.
Proof. induction l as [|x l IH]; intros i e op; cbn; [destruct e; reflexivity|]. destruct x; apply IH. Qed.
Lemma wanted_snoc : forall l done e, wanted done (l ++ [e]) = wanted done l ++ match e with AAwait i => match given (done ++ l) i None with Some op => [op] | None => [] end | _ => [] end.
Proof.
  induction l as [|x l IH]; intros done e; cbn [wanted app].
  - now rewrite !app_nil_r.
  - rewrite IH, <- !app_assoc. reflexivity.
Qed.
Theorem C101_never_moved_partial : forall l s, (forall i j, ~ In (AMove i j) l) -> run step init l = Some s -> ub s = false /\ submitted s = wanted [] l.
Proof.
  intros l s Hm Hr. assert (H : (ub s = false /\ submitted s = wanted [] l) /\ forall i a, objs s i = Some a -> exists op, a = Aw [op] i /\ given l i None = Some op); [|apply H].
  revert s Hr. induction l as [|e l IH] using rev_ind; intros s Hr.
  - injection Hr as <-. cbn. repeat split. discriminate.
  - apply run_app_inv in Hr. destruct Hr as (s1 & R1 & R2). cbn in R2. destruct (step s1 e) as [s2|] eqn:E; [|discriminate]. injection R2 as <-.
    destruct (IH (fun i j G => Hm i j (proj2 (in_app_iff _ _ _) (or_introl G))) s1 R1) as ((U & S) & O). clear IH. rewrite wanted_snoc. cbn [app]. unfold step in E. rewrite U in E. destruct e as [i op|i j|i|i].
    + destruct (objs s1 i) eqn:Ei; [discriminate|]. injection E as <-. cbn. rewrite app_nil_r. repeat split; auto. intros k b. unfold upd. rewrite given_snoc. destruct (Nat.eqb_spec k i) as [->|N].
      * intros G. injection G as <-. rewrite Nat.eqb_refl. eauto.
      * destruct (Nat.eqb_spec i k); [congruence|]. apply O.
    + exfalso. apply (Hm i j). apply in_app_iff. right. now left.
    + destruct (objs s1 i); [|discriminate]. injection E as <-. cbn. rewrite app_nil_r. repeat split; auto. intros k b. unfold upd. rewrite given_snoc. destruct (Nat.eqb_spec k i); [discriminate|]. apply O.
    + destruct (objs s1 i) as [a|] eqn:Ei; [|discriminate]. destruct (O i a Ei) as (op & -> & G). cbn [m_rep] in E. rewrite Ei in E. cbn in E. rewrite Nat.eqb_refl in E. injection E as <-. cbn. rewrite G, S. repeat split; auto.
      intros k b. rewrite given_snoc. apply O.
Qed.
Print Assumptions C101_never_moved_partial.
Example C101_never_moved_case : exists s, run step init [ANew 0 7; ANew 1 8; AAwait 1; AAwait 0; AKill 0; ANew 0 9; AAwait 0] = Some s /\ submitted s = [8; 7; 9].
Proof. eexists. split; reflexivity. Qed.
