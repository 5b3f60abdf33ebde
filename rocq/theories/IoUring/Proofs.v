From Coq Require Import List Arith ZArith Bool Permutation Lia.
From Verif.Common Require Import TS.
From Verif.IoUring Require Import Model Spec.
Import ListNotations.
#[local] Arguments upd : simpl never.

(** * Batches *)
Definition tmo_entry (o : option Z) : list sqe := match o with Some d => [Sqe (LinkTimeout d) false 0] | None => [] end.
Definition is_some {A} (o : option A) : bool := match o with Some _ => true | None => false end.

Lemma do_calls_app r l1 l2 : do_calls r (l1 ++ l2) = match do_calls r l1 with Some r1 => do_calls r1 l2 | None => None end.
Proof. revert r; induction l1 as [|c l1 IH]; intros r; cbn [app do_calls]; [easy|]. destruct (do_call r c); [apply IH|easy]. Qed.
Lemma operations_app l1 l2 : operations (l1 ++ l2) = operations l1 ++ operations l2.
Proof. induction l1 as [|[] l1 IH]; cbn [operations app]; rewrite ?IH; easy. Qed.
Lemma deadline_app l1 l2 a : deadline (l1 ++ l2) a = deadline l2 (deadline l1 a).
Proof. revert a; induction l1 as [|[n|[d|]|] l1 IH]; intros a; cbn [deadline app]; rewrite ?IH; easy. Qed.

Lemma calls_shape l : no_clear l -> exists r, do_calls rep0 l = Some r /\
  m_sqes r = map (fun n => Sqe (Oper n) true 0) (operations l) ++ tmo_entry (deadline l None) /\
  m_was_timeout_set r = is_some (deadline l None) /\ m_rets r = [].
Proof.
  induction l as [|c l IH] using rev_ind; intros Hc.
  - exists rep0. now repeat split.
  - destruct IH as (r & Hr & Hs & Ht & Hre). { intros HI. apply Hc. apply in_app_iff. now left. }
    rewrite do_calls_app, Hr, operations_app, deadline_app. cbn [do_calls do_call].
    destruct r as [qs rs t]; cbn [m_sqes m_rets m_was_timeout_set] in *. subst rs.
    destruct c as [n|[d|]|]; cbn [operations deadline do_call].
    + unfold prep, put_sqe. cbn [m_sqes m_rets m_was_timeout_set].
      destruct (deadline l None) as [d|]; cbn [is_some tmo_entry] in *; subst t; subst qs.
      * rewrite rev_app_distr. cbn [rev app]. rewrite rev_involutive.
        eexists. split; [reflexivity|]. cbn [m_sqes m_was_timeout_set m_rets]. rewrite map_app, <- app_assoc. now repeat split.
      * eexists. split; [reflexivity|]. cbn [m_sqes m_was_timeout_set m_rets]. rewrite app_nil_r, map_app, app_nil_r. now repeat split.
    + unfold timeout. cbn [m_sqes m_rets m_was_timeout_set].
      destruct (deadline l None) as [d'|]; cbn [is_some tmo_entry] in *; subst t; subst qs.
      * rewrite rev_app_distr. cbn [rev app]. rewrite rev_involutive.
        eexists. split; [reflexivity|]. cbn [m_sqes m_was_timeout_set m_rets q_link q_ud tmo_entry]. rewrite app_nil_r. now repeat split.
      * eexists. split; [reflexivity|]. cbn [m_sqes m_was_timeout_set m_rets tmo_entry]. rewrite !app_nil_r. now repeat split.
    + cbn [timeout]. rewrite app_nil_r. eexists. split; [reflexivity|]. cbn [m_sqes m_was_timeout_set m_rets]. now repeat split.
    + exfalso. apply Hc. apply in_app_iff. right. now left.
Qed.

Lemma arm_spec r a r' : arm r a = Some r' ->
  map q_op (m_sqes r') = map q_op (m_sqes r) /\ m_rets r' = m_rets r /\ m_was_timeout_set r' = m_was_timeout_set r /\
  (forall q, In q (m_sqes r') -> q_ud q = a) /\ m_sqes r' <> [] /\
  (forall i q, nth_error (m_sqes r') i = Some q ->
     exists q0, nth_error (m_sqes r) i = Some q0 /\ q_link q = if S i =? length (m_sqes r) then false else q_link q0).
Proof.
  unfold arm. destruct r as [qs rs t]. cbn [m_sqes m_rets m_was_timeout_set].
  destruct (rev (map _ qs)) as [|lst pre] eqn:E; [discriminate|]. intros H; inversion H; subst r'; clear H. cbn [m_sqes m_rets m_was_timeout_set].
  assert (Hm : map (fun q => Sqe (q_op q) (q_link q) a) qs = rev pre ++ [lst]).
  { rewrite <- (rev_involutive (map _ qs)), E. reflexivity. }
  assert (Hlen : length qs = S (length (rev pre))).
  { rewrite <- (map_length (fun q => Sqe (q_op q) (q_link q) a)), Hm, app_length. cbn [length]. lia. }
  assert (Hud : forall q, In q (rev pre ++ [lst]) -> q_ud q = a).
  { intros q Hq. rewrite <- Hm in Hq. apply in_map_iff in Hq. destruct Hq as (q0 & <- & _). reflexivity. }
  repeat split.
  - assert (map q_op (map (fun q => Sqe (q_op q) (q_link q) a) qs) = map q_op qs) as <- by (rewrite map_map; apply map_ext; reflexivity).
    rewrite Hm, !map_app. reflexivity.
  - intros q Hq. apply in_app_iff in Hq. destruct Hq as [Hq|[<-|[]]]; [apply Hud; apply in_app_iff; now left|].
    cbn [q_ud]. apply Hud. apply in_app_iff. right. now left.
  - destruct (rev pre); discriminate.
  - intros i q Hi.
    assert (Hlt : i < length qs). { rewrite Hlen. assert (i < length (rev pre ++ [Sqe (q_op lst) false (q_ud lst)])) by (apply nth_error_Some; congruence).
      rewrite app_length in H. cbn [length] in H. lia. }
    destruct (nth_error qs i) as [q0|] eqn:E0; [|apply nth_error_None in E0; lia].
    exists q0. split; [easy|].
    assert (E1 : nth_error (rev pre ++ [lst]) i = Some (Sqe (q_op q0) (q_link q0) a)) by (rewrite <- Hm, nth_error_map, E0; reflexivity).
    destruct (Nat.eqb_spec (S i) (length qs)) as [Heq|Hne].
    + assert (i = length (rev pre)) by lia. subst i. rewrite nth_error_app2 in Hi by lia. rewrite Nat.sub_diag in Hi. cbn [nth_error] in Hi. now inversion Hi.
    + rewrite nth_error_app1 in Hi, E1 by lia. rewrite E1 in Hi. now inversion Hi.
Qed.

Lemma arm_Some r a : m_sqes r <> [] -> exists r', arm r a = Some r'.
Proof.
  unfold arm. destruct (rev (map _ (m_sqes r))) as [|x p] eqn:E; [|eauto].
  intros H. exfalso. apply H. apply (f_equal (@length _)) in E. rewrite rev_length, map_length in E. now destruct (m_sqes r).
Qed.

Theorem batch_submission l a r : no_clear l -> do_calls rep0 l = Some r -> wanted l <> [] ->
  exists r', arm r a = Some r' /\ map q_op (m_sqes r') = wanted l /\ linked_all_but_last (m_sqes r') /\
             (forall q, In q (m_sqes r') -> q_ud q = a) /\ m_rets r' = [].
Proof.
  intros Hc Hr Hw. destruct (calls_shape l Hc) as (r1 & Hr1 & Hs & Ht & Hre). rewrite Hr in Hr1. inversion Hr1; subst r1; clear Hr1.
  assert (Hops : map q_op (m_sqes r) = wanted l).
  { rewrite Hs. unfold wanted. rewrite map_app, map_map. cbn [q_op]. f_equal. destruct (deadline l None); reflexivity. }
  destruct (arm_Some r a) as (r' & Hr'). { intros E. rewrite E in Hops. cbn in Hops. congruence. }
  exists r'. split; [easy|]. destruct (arm_spec _ _ _ Hr') as (H1 & H2 & H3 & H4 & H5 & H6).
  split; [congruence|]. split; [|split; [easy|congruence]].
  intros i q Hi. destruct (H6 i q Hi) as (q0 & Hq0 & ->).
  assert (Hlen : length (m_sqes r') = length (m_sqes r)) by (rewrite <- (map_length q_op), H1, map_length; reflexivity).
  rewrite Hlen. destruct (Nat.eqb_spec (S i) (length (m_sqes r))) as [He|Hne]; [reflexivity|].
  rewrite Hs in Hq0, Hne. assert (Hi2 : i < length (map (fun n => Sqe (Oper n) true 0) (operations l) ++ tmo_entry (deadline l None))) by (apply nth_error_Some; congruence).
  rewrite app_length in Hne, Hi2. rewrite nth_error_app1 in Hq0.
  2:{ destruct (deadline l None); cbn [tmo_entry length] in *; lia. }
  rewrite nth_error_map in Hq0. destruct (nth_error (operations l) i); inversion Hq0. reflexivity.
Qed.

(** * The event loop *)
Lemma perm_filter {A} (f : A -> bool) l l' : Permutation l l' -> Permutation (filter f l) (filter f l').
Proof.
  induction 1; cbn; auto.
  - destruct (f x); auto.
  - destruct (f x), (f y); auto using perm_swap.
  - eauto using Permutation_trans.
Qed.

Lemma shuffle {T} (A B C N F K : list T) : F ++ K = A ++ N -> Permutation (K ++ (B ++ F) ++ C) ((A ++ B ++ C) ++ N).
Proof.
  intros H. transitivity (B ++ C ++ (F ++ K)).
  - rewrite (Permutation_app_comm K), <- !app_assoc. apply Permutation_app_head. rewrite !app_assoc. apply Permutation_app_tail, Permutation_app_comm.
  - rewrite H. rewrite (app_assoc B C), !app_assoc. apply Permutation_app_tail. rewrite <- !app_assoc. rewrite (app_assoc B C). rewrite Permutation_app_comm. reflexivity.
Qed.

Definition tag : Type := nat * nat * opk.
Definition t_ud (t : tag) := fst (fst t).
Definition t_x (t : tag) := snd (fst t).
Definition t_op (t : tag) := snd t.
Definition itag (i : item) : tag := (q_ud (i_q i), i_x i, q_op (i_q i)).
Definition ctag (c : cqe) : tag := (c_ud c, c_x c, c_op c).
Definition out (r : ring) : list tag := map itag (sq r) ++ map itag (inflight r) ++ map ctag (cq r).
Definition of_x (x : nat) (l : list tag) := filter (fun t => t_x t =? x) l.
Definition cq_of (x : nat) (l : list cqe) : list ret := map (fun c => Ret (c_val c) (c_op c)) (filter (fun c => c_x c =? x) l).

Definition reg (s : state) (w : nat) (e : entry) : Prop := exists r, m_impl s w = Some r /\ In e (m_opreps r).

Definition entry_ok (s : state) (w : nat) (r : ring) (e : entry) : Prop :=
  susp s (e_key e) = true /\ ~ In (e_key e) (runq s) /\ e_x e < next_x s /\
  Permutation (map q_op (m_sqes (reps s (e_b e)))) (map r_op (m_rets (reps s (e_b e))) ++ map t_op (of_x (e_x e) (out r))) /\
  length (m_rets (reps s (e_b e))) < length (m_sqes (reps s (e_b e))) /\
  completions s (e_x e) = m_rets (reps s (e_b e)) ++ cq_of (e_x e) (cq r) /\
  In (e_x e, (w, e_key e, map q_op (m_sqes (reps s (e_b e))))) (submitted s) /\
  ~ In (e_x e) (map fst (resumed s)).

Record ring_ok (s : state) (w : nat) (r : ring) : Prop := {
  ro_keys : NoDup (map e_key (m_opreps r));
  ro_out : forall t, In t (out r) -> exists e, In e (m_opreps r) /\ e_key e = t_ud t /\ e_x e = t_x t;
  ro_ent : forall e, In e (m_opreps r) -> entry_ok s w r e;
  ro_poll : polling r <= length (cq r)
}.

Record inv (s : state) : Prop := {
  iv_ring : forall w r, m_impl s w = Some r -> ring_ok s w r;
  iv_uniq : forall w e w' e', reg s w e -> reg s w' e' -> e_key e = e_key e' \/ e_x e = e_x e' \/ e_b e = e_b e' -> w = w' /\ e = e';
  iv_runq : NoDup (runq s) /\ (forall a, In a (runq s) -> susp s a = true);
  iv_sub : NoDup (map fst (submitted s)) /\ (forall p, In p (submitted s) -> fst p < next_x s);
  iv_sub2 : forall x w a ops, In (x, (w, a, ops)) (submitted s) -> In x (map fst (resumed s)) \/
     exists e, reg s w e /\ e_x e = x /\ e_key e = a /\ ops = map q_op (m_sqes (reps s (e_b e)));
  iv_res : NoDup (map fst (resumed s));
  iv_res2 : forall x a rs, In (x, (a, rs)) (resumed s) -> completions s x = rs /\
     exists w ops, In (x, (w, a, ops)) (submitted s) /\ Permutation ops (map r_op rs);
  iv_klog : forall p, In p (klog s) -> fst p < next_x s;
  iv_fault : fault s = false
}.

Lemma inv_init : inv init.
Proof.
  split; cbn; try easy.
  - intros w e w' e' (r & H & _). cbn in H. discriminate.
  - split; [constructor|easy].
  - split; [constructor|easy].
  - constructor.
Qed.

Lemma find_key_In k l e : find_key k l = Some e -> In e l /\ e_key e = k.
Proof. induction l as [|x l IH]; cbn; [easy|]. destruct (Nat.eqb_spec (e_key x) k); [intros H; inversion H; subst; auto|intros H; destruct (IH H); auto]. Qed.
Lemma find_key_None k l : find_key k l = None -> forall e, In e l -> e_key e <> k.
Proof. induction l as [|x l IH]; cbn; [easy|]. destruct (Nat.eqb_spec (e_key x) k); [discriminate|]. intros H e [<-|He]; auto. Qed.
Lemma key_inj l e e' : NoDup (map e_key l) -> In e l -> In e' l -> e_key e = e_key e' -> e = e'.
Proof.
  induction l as [|x l IH]; cbn; [easy|]. intros Hn He He' Hk. inversion Hn; subst.
  destruct He as [->|He], He' as [->|He']; auto.
  - exfalso. apply H1. rewrite Hk. now apply in_map.
  - exfalso. apply H1. rewrite <- Hk. now apply in_map.
Qed.
Lemma perm_ofx x l l' : Permutation l l' -> Permutation (of_x x l) (of_x x l').
Proof. apply perm_filter. Qed.
Lemma of_x_app x l1 l2 : of_x x (l1 ++ l2) = of_x x l1 ++ of_x x l2.
Proof. apply filter_app. Qed.
Lemma of_x_nil x l : (forall t, In t l -> t_x t <> x) -> of_x x l = [].
Proof.
  intros H. unfold of_x. induction l as [|t l IH]; cbn; [easy|]. destruct (Nat.eqb_spec (t_x t) x) as [E|E].
  - exfalso. apply (H t); [now left|easy].
  - apply IH. intros t' Ht'. apply H. now right.
Qed.
Lemma of_x_all x l : (forall t, In t l -> t_x t = x) -> of_x x l = l.
Proof.
  intros H. unfold of_x. induction l as [|t l IH]; cbn; [easy|]. destruct (Nat.eqb_spec (t_x t) x) as [E|E].
  - f_equal. apply IH. intros t' Ht'. apply H. now right.
  - exfalso. apply E, H. now left.
Qed.
Lemma completions_nil s x : (forall p, In p (klog s) -> fst p <> x) -> completions s x = [].
Proof.
  unfold completions. intros H. induction (klog s) as [|p l IH]; cbn; [easy|]. destruct (Nat.eqb_spec (fst p) x) as [E|E].
  - exfalso. apply (H p); [now left|easy].
  - apply IH. intros q Hq. apply H. now right.
Qed.
Lemma cq_of_app x l1 l2 : cq_of x (l1 ++ l2) = cq_of x l1 ++ cq_of x l2.
Proof. unfold cq_of. now rewrite filter_app, map_app. Qed.
Lemma cq_of_nil x l : (forall c, In c l -> c_x c <> x) -> cq_of x l = [].
Proof.
  intros H. unfold cq_of. induction l as [|c l IH]; cbn; [easy|]. destruct (Nat.eqb_spec (c_x c) x) as [E|E].
  - exfalso. apply (H c); [now left|easy].
  - apply IH. intros t' Ht'. apply H. now right.
Qed.
Lemma in_fst {A B} (p : A * B) l : In p l -> In (fst p) (map fst l).
Proof. apply in_map. Qed.

(** Nothing but rings' bookkeeping changes. *)
Lemma inv_ring_upd s w r r' : inv s -> m_impl s w = Some r ->
  m_opreps r' = m_opreps r -> sq r' = sq r -> inflight r' = inflight r -> cq r' = cq r -> polling r' <= length (cq r') ->
  inv (set_ring s w r').
Proof.
  intros HI Hr Ho Hq Hf Hc Hp. destruct HI as [I1 I2 I3 I4 I5 I6 I7 I8 I9].
  assert (Hreg : forall v e, reg (set_ring s w r') v e <-> reg s v e).
  { intros v e. unfold reg, set_ring. cbn [m_impl]. destruct (Nat.eq_dec v w) as [->|Hv].
    - rewrite upd_same, Hr. split; intros (q & Hq1 & Hq2); inversion Hq1; subst q; eexists; split; try reflexivity; congruence.
    - rewrite upd_other by easy. easy. }
  split; cbn [set_ring runq susp submitted next_x resumed klog fault reps]; auto.
  - intros v q. unfold set_ring. cbn [m_impl]. destruct (Nat.eq_dec v w) as [->|Hv].
    + rewrite upd_same. intros H; inversion H; subst q. destruct (I1 w r Hr) as [K1 K2 K3 K4].
      split; auto.
      * now rewrite Ho.
      * unfold out. rewrite Ho, Hq, Hf, Hc. exact K2.
      * rewrite Ho. intros e He. specialize (K3 e He). unfold entry_ok in *. cbn [set_ring runq susp submitted next_x resumed reps].
        unfold out, completions in *. rewrite Hq, Hf, Hc. cbn [klog set_ring]. exact K3.
    + rewrite upd_other by easy. intros H. destruct (I1 v q H) as [K1 K2 K3 K4]. split; auto.
  - intros v e v' e' H1 H2. apply Hreg in H1, H2. eauto.
  - intros x v a ops H. destruct (I5 x v a ops H) as [?|(e & He & ?)]; [now left|right]. exists e. split; [now apply Hreg|easy].
Qed.

Lemma inv_rep_upd s b r : inv s -> ~ registered_batch s b -> inv (set_rep s b r).
Proof.
  intros HI Hb. destruct HI as [I1 I2 I3 I4 I5 I6 I7 I8 I9].
  assert (Hne : forall w q e, m_impl s w = Some q -> In e (m_opreps q) -> e_b e <> b).
  { intros w q e H1 H2 E. apply Hb. now exists w, q, e. }
  split; cbn [set_rep runq susp submitted next_x resumed klog fault m_impl]; auto.
  - intros w q H. destruct (I1 w q H) as [K1 K2 K3 K4]. split; auto.
    intros e He. specialize (K3 e He). unfold entry_ok in *. cbn [set_rep reps runq susp submitted next_x resumed].
    rewrite upd_other by eauto. exact K3.
  - intros x v a ops H. destruct (I5 x v a ops H) as [?|(e & He & Hx & Ha & Hops)]; [now left|right].
    exists e. split; [easy|]. split; [easy|]. split; [easy|]. cbn [set_rep reps]. destruct He as (q & Hq & Hin).
    rewrite upd_other by eauto. easy.
Qed.

Lemma inv_exec s w a b k r bt s' : inv s -> susp s a = false -> m_impl s w = Some r -> ~ registered_batch s b ->
  m_rets bt = [] -> m_sqes bt <> [] -> (forall q, In q (m_sqes bt) -> q_ud q = a) ->
  length (sq r) + length (m_sqes bt) <= sq_entries ->
  add_event s w a b k r bt = Some s' -> inv s'.
Proof.
  intros HI Ha Hr Hb Hre Hne Hud Hfit Hs. unfold add_event in Hs.
  destruct (m_stoped r) eqn:Est.
  { inversion Hs; subst s'; clear Hs.
    pose proof (inv_rep_upd s b bt HI Hb) as [I1 I2 I3 I4 I5 I6 I7 I8 I9]. split; auto.
    intros v p Hp. destruct (I1 v p Hp). split; auto. }
  destruct HI as [I1 I2 I3 I4 I5 I6 I7 I8 I9]. pose proof (I1 w r Hr) as [K1 K2 K3 K4].
  assert (Hnk : forall v e, reg s v e -> e_key e <> a).
  { intros v e (q & Hq & He) E. destruct (I1 v q Hq) as [_ _ L3 _]. destruct (L3 e He) as (L & _). congruence. }
  assert (Hnb : forall v e, reg s v e -> e_b e <> b).
  { intros v e (q & Hq & He) E. apply Hb. now exists v, q, e. }
  assert (Hnx : forall v e, reg s v e -> e_x e < next_x s).
  { intros v e (q & Hq & He). destruct (I1 v q Hq) as [_ _ L3 _]. destruct (L3 e He) as (_ & _ & L & _). exact L. }
  destruct (find_key a (m_opreps r)) as [e0|] eqn:Efk.
  { exfalso. apply find_key_In in Efk. destruct Efk as [Hin Hk]. apply (Hnk w e0); [now exists r|exact Hk]. }
  destruct (Nat.ltb_spec sq_entries (length (sq r) + length (m_sqes bt))) as [Hlt|_]; [lia|].
  set (q := sq r ++ map (fun e => Item e (next_x s)) (m_sqes bt)) in *.
  destruct (Nat.leb_spec k (length q)) as [Hk|]; [|discriminate].
  inversion Hs; subst s'; clear Hs.
  set (r' := Ring false (m_opreps r ++ [Entry a b (next_x s)]) 1 (skipn k q) (inflight r ++ firstn k q) (cq r) (polling r)).
  set (s' := St _ _ _ _ _ _ _ _ _ _ _).
  set (new := map (fun e => (q_ud e, next_x s, q_op e) : tag) (m_sqes bt)).
  assert (Hout : Permutation (out r') (out r ++ new)).
  { unfold out, r'. cbn [sq inflight cq]. rewrite map_app.
    assert (Hq : map itag q = map itag (sq r) ++ new).
    { unfold q. rewrite map_app, map_map. reflexivity. }
    assert (Hsp : map itag (firstn k q) ++ map itag (skipn k q) = map itag (sq r) ++ new) by (rewrite <- map_app, firstn_skipn; exact Hq).
    apply shuffle. exact Hsp. }
  assert (Hnewx : forall t, In t new -> t_x t = next_x s /\ t_ud t = a).
  { intros t Ht. apply in_map_iff in Ht. destruct Ht as (e & <- & He). cbn [t_x t_ud fst snd]. auto. }
  assert (Holdx : forall t, In t (out r) -> t_x t < next_x s).
  { intros t Ht. destruct (K2 t Ht) as (e & He & _ & Hx). rewrite <- Hx. apply (Hnx w). now exists r. }
  assert (Hcqx : forall c, In c (cq r) -> c_x c <> next_x s).
  { intros c Hc. assert (Hlt : t_x (ctag c) < next_x s). { apply Holdx. unfold out. apply in_app_iff. right. apply in_app_iff. right. now apply in_map. }
    cbn [t_x ctag fst snd] in Hlt. lia. }
  assert (Hreg : forall v e, reg s' v e <-> reg s v e \/ (v = w /\ e = Entry a b (next_x s))).
  { intros v e. unfold reg, s'. cbn [m_impl]. destruct (Nat.eq_dec v w) as [->|Hv].
    - rewrite upd_same, Hr. split.
      + intros (p & Hp & Hin). inversion Hp; subst p. cbn [m_opreps] in Hin. apply in_app_iff in Hin. destruct Hin as [Hin|[<-|[]]]; [left|right]; eauto.
      + intros [(p & Hp & Hin)|[_ ->]].
        * inversion Hp; subst p. eexists. split; [reflexivity|]. cbn [m_opreps]. apply in_app_iff. now left.
        * eexists. split; [reflexivity|]. cbn [m_opreps]. apply in_app_iff. right. now left.
    - rewrite upd_other by easy. split; [intros H; now left|]. intros [H|[? _]]; [easy|congruence]. }
  assert (Hcompl : forall x, completions s' x = completions s x) by reflexivity.
  assert (Hold : forall v p e, m_impl s v = Some p -> In e (m_opreps p) -> (forall x, x < next_x s -> Permutation (map t_op (of_x x (out p))) (map t_op (of_x x (out (if Nat.eq_dec v w then r' else p)))) /\ cq_of x (cq (if Nat.eq_dec v w then r' else p)) = cq_of x (cq p)) ->
     entry_ok s v p e -> entry_ok s' v (if Nat.eq_dec v w then r' else p) e).
  { intros v p e Hv He HP (L1 & L2 & L3 & L4 & L5 & L6 & L7 & L8). destruct (HP (e_x e) L3) as [HP1 HP2].
    assert (Hke : e_key e <> a) by (apply (Hnk v); now exists p).
    assert (Hbe : e_b e <> b) by (apply (Hnb v); now exists p).
    unfold entry_ok, s'. cbn [susp runq next_x reps submitted resumed]. rewrite !(upd_other _ b) by easy. rewrite (upd_other _ a) by easy.
    repeat split; auto.
    - rewrite <- HP1. exact L4.
    - rewrite Hcompl, HP2. exact L6.
    - apply in_app_iff. now left. }
  split.
  - intros v p Hp. unfold s' in Hp. cbn [m_impl] in Hp. destruct (Nat.eq_dec v w) as [->|Hv].
    + rewrite upd_same in Hp. inversion Hp; subst p. fold r'. split.
      * cbn [r' m_opreps]. rewrite map_app. cbn [map e_key]. apply NoDup_snoc; [easy|].
        intros Hin. apply in_map_iff in Hin. destruct Hin as (e & He1 & He2). apply (Hnk w e); [now exists r|exact He1].
      * intros t Ht. apply (Permutation_in _ Hout) in Ht. apply in_app_iff in Ht. destruct Ht as [Ht|Ht].
        -- destruct (K2 t Ht) as (e & He & H1 & H2). exists e. split; [|easy]. cbn [r' m_opreps]. apply in_app_iff. now left.
        -- exists (Entry a b (next_x s)). destruct (Hnewx t Ht) as [-> ->]. split; [|easy]. cbn [r' m_opreps]. apply in_app_iff. right. now left.
      * intros e He. cbn [r' m_opreps] in He. apply in_app_iff in He. destruct He as [He|[<-|[]]].
        -- specialize (Hold w r e Hr He). destruct (Nat.eq_dec w w) as [_|]; [|easy]. apply Hold; [|auto].
           intros x Hx. split; [|reflexivity]. apply Permutation_map. rewrite (perm_ofx x _ _ Hout), of_x_app. rewrite (of_x_nil x new), app_nil_r; [easy|].
           intros t Ht. destruct (Hnewx t Ht). lia.
        -- unfold entry_ok, s'. cbn [e_key e_b e_x susp runq next_x reps submitted resumed]. rewrite !upd_same.
           split; [easy|]. split. { intros Hin. apply (proj2 I3) in Hin. congruence. }
           split; [lia|]. rewrite Hre. cbn [map app length].
           split. { rewrite (perm_ofx (next_x s) _ _ Hout), of_x_app. rewrite (of_x_nil _ (out r)), (of_x_all _ new).
             - cbn [app]. unfold new. rewrite map_map. cbn [t_op snd]. reflexivity.
             - intros t Ht. now destruct (Hnewx t Ht).
             - intros t Ht. specialize (Holdx t Ht). lia. }
           split. { destruct (m_sqes bt); [easy|cbn [length]; lia]. }
           split. { rewrite Hcompl. rewrite completions_nil by (intros p0 Hp0; specialize (I8 p0 Hp0); lia).
             rewrite cq_of_nil; [easy|]. exact Hcqx. }
           split. { apply in_app_iff. right. now left. }
           intros Hin. apply in_map_iff in Hin. destruct Hin as ([x (a' & rs)] & Hx & Hin). cbn [fst] in Hx. subst x.
           destruct (I7 _ _ _ Hin) as (_ & w0 & ops & Hsub & _). apply (proj2 I4) in Hsub. cbn [fst] in Hsub. lia.
      * exact K4.
    + rewrite upd_other in Hp by easy. destruct (I1 v p Hp) as [L1 L2 L3 L4]. split; auto.
      intros e He. specialize (Hold v p e Hp He). destruct (Nat.eq_dec v w) as [|_]; [easy|]. apply Hold; [|auto]. intros; split; reflexivity.
  - intros v e v' e' H1 H2 Heq. apply Hreg in H1, H2.
    destruct H1 as [H1|[-> ->]], H2 as [H2|[-> ->]]; cbn [e_key e_x e_b] in Heq; eauto.
    + exfalso. pose proof (Hnk _ _ H1). pose proof (Hnb _ _ H1). pose proof (Hnx _ _ H1). destruct Heq as [?|[?|?]]; [congruence|lia|congruence].
    + exfalso. pose proof (Hnk _ _ H2). pose proof (Hnb _ _ H2). pose proof (Hnx _ _ H2). destruct Heq as [?|[?|?]]; [congruence|lia|congruence].
  - cbn [s' runq susp]. split; [apply I3|]. intros a' Ha'. destruct (Nat.eq_dec a' a) as [->|Hna]; [apply upd_same|].
    rewrite upd_other by easy. now apply I3.
  - cbn [s' submitted next_x]. split.
    + rewrite map_app. cbn [map fst]. apply NoDup_snoc; [apply I4|]. intros Hin. apply in_map_iff in Hin. destruct Hin as (p & Hp & Hin).
      apply (proj2 I4) in Hin. lia.
    + intros p Hp. apply in_app_iff in Hp. destruct Hp as [Hp|[<-|[]]]; [apply (proj2 I4) in Hp; lia|cbn [fst]; lia].
  - cbn [s' submitted resumed reps]. intros x v a' ops Hin. apply in_app_iff in Hin. destruct Hin as [Hin|[Hin|[]]].
    + destruct (I5 _ _ _ _ Hin) as [?|(e & He & H1 & H2 & H3)]; [now left|right]. exists e. split; [apply Hreg; now left|].
      split; [easy|]. split; [easy|]. rewrite upd_other by (apply (Hnb v); exact He). exact H3.
    + inversion Hin; subst. right. exists (Entry a' b (next_x s)). split; [apply Hreg; now right|]. cbn [e_x e_key e_b]. rewrite upd_same. auto.
  - exact I6.
  - cbn [s' resumed submitted]. intros x a' rs Hin. destruct (I7 _ _ _ Hin) as (H1 & v & ops & H2 & H3). split; [exact H1|].
    exists v, ops. split; [apply in_app_iff; now left|easy].
  - cbn [s' klog next_x]. intros p Hp. specialize (I8 p Hp). lia.
  - exact I9.
Qed.

Lemma inv_complete s w i v s' : inv s -> next s (EComplete w i v) = Some s' -> inv s'.
Proof.
  intros HI Hs. unfold next in Hs. destruct HI as [I1 I2 I3 I4 I5 I6 I7 I8 I9]. rewrite I9 in Hs.
  destruct (m_impl s w) as [r|] eqn:Hr; [|discriminate].
  destruct (take_nth i (inflight r)) as [[it rest]|] eqn:Et; [|discriminate]. inversion Hs; subst s'; clear Hs.
  apply take_nth_spec in Et. destruct Et as (l1 & l2 & Hin & Hrest & _).
  set (c := Cqe (q_ud (i_q it)) v (q_op (i_q it)) (i_x it)).
  set (r' := Ring (m_stoped r) (m_opreps r) (m_num_mis_shot r) (sq r) rest (cq r ++ [c]) (polling r)).
  set (s' := St _ _ _ _ _ _ _ _ _ _ _).
  assert (Himpl : m_impl s' = upd (m_impl s) w (Some r')) by reflexivity.
  assert (Hout : Permutation (out r') (out r)).
  { unfold out, r'. cbn [sq inflight cq]. rewrite Hin, Hrest, !map_app. cbn [map]. apply Permutation_app_head.
    change (ctag c) with (itag it). rewrite <- !app_assoc. apply Permutation_app_head. rewrite app_assoc. rewrite Permutation_app_comm. reflexivity. }
  assert (Hti : In (itag it) (out r)).
  { unfold out. rewrite Hin. apply in_app_iff. right. apply in_app_iff. left. apply in_map. apply in_app_iff. right. now left. }
  pose proof (I1 w r Hr) as [K1 K2 K3 K4]. destruct (K2 _ Hti) as (e0 & He0 & Hk0 & Hx0). cbn [itag t_x t_ud fst snd] in Hk0, Hx0.
  assert (Hcompl : forall x, completions s' x = completions s x ++ (if i_x it =? x then [Ret v (q_op (i_q it))] else [])).
  { intros x. unfold completions, s'. cbn [klog set_ring]. rewrite filter_app, map_app. cbn [filter fst]. destruct (i_x it =? x); reflexivity. }
  assert (Hreg : forall u e, reg s' u e <-> reg s u e).
  { intros u e. unfold reg. rewrite Himpl. destruct (Nat.eq_dec u w) as [->|Hu].
    - rewrite upd_same, Hr. split; intros (p & Hp & Hi); inversion Hp; subst p; eexists; (split; [reflexivity|exact Hi]).
    - rewrite upd_other by easy. easy. }
  split.
  - intros u p. rewrite Himpl. destruct (Nat.eq_dec u w) as [->|Hu].
    + rewrite upd_same. intros H; inversion H; subst p. split; auto.
      * intros t Ht. apply (Permutation_in _ Hout) in Ht. now apply K2.
      * intros e He. destruct (K3 e He) as (L1 & L2 & L3 & L4 & L5 & L6 & L7 & L8). unfold entry_ok. cbn [s' set_ring susp runq next_x reps submitted resumed].
        repeat split; auto.
        -- rewrite (perm_ofx _ _ _ Hout). exact L4.
        -- rewrite Hcompl. unfold r'. cbn [cq]. rewrite cq_of_app, app_assoc, <- L6. f_equal. unfold cq_of. cbn [filter c c_x]. destruct (i_x it =? e_x e); reflexivity.
      * unfold r'. cbn [polling cq]. rewrite app_length. cbn [length]. lia.
    + rewrite upd_other by easy. intros Hp. destruct (I1 u p Hp) as [L1 L2 L3 L4]. split; auto.
      intros e He. destruct (L3 e He) as (M1 & M2 & M3 & M4 & M5 & M6 & M7 & M8). unfold entry_ok. cbn [s' set_ring susp runq next_x reps submitted resumed].
      repeat split; auto. rewrite Hcompl. destruct (Nat.eqb_spec (i_x it) (e_x e)) as [E|_]; [|now rewrite app_nil_r].
      exfalso. destruct (I2 w e0 u e) as [E1 _]; [now exists r|now exists p|right; left; congruence|congruence].
  - intros u e u' e' H1 H2. apply Hreg in H1, H2. eauto.
  - exact I3.
  - exact I4.
  - cbn [s' set_ring submitted resumed reps]. intros x u a ops H. destruct (I5 _ _ _ _ H) as [?|(e & He & ?)]; [now left|right; exists e; split; [now apply Hreg|easy]].
  - exact I6.
  - cbn [s' set_ring submitted resumed]. intros x a rs Hin2. destruct (I7 _ _ _ Hin2) as (H1 & H2). split; [|exact H2].
    rewrite Hcompl. destruct (Nat.eqb_spec (i_x it) x) as [E|_]; [|now rewrite app_nil_r].
    exfalso. destruct (K3 e0 He0) as (_ & _ & _ & _ & _ & _ & _ & L8). apply L8. rewrite Hx0, E. apply in_fst in Hin2. exact Hin2.
  - cbn [s' set_ring klog next_x]. intros p Hp. apply in_app_iff in Hp. destruct Hp as [Hp|[<-|[]]]; [auto|]. cbn [fst]. rewrite <- Hx0.
    destruct (K3 e0 He0) as (_ & _ & L & _). exact L.
  - exact I9.
Qed.

Lemma erase_In k l e : In e (erase_key k l) <-> In e l /\ e_key e <> k.
Proof. unfold erase_key. rewrite filter_In. destruct (Nat.eqb_spec (e_key e) k); cbn [negb]; intuition; discriminate. Qed.
Lemma erase_NoDup k l : NoDup (map e_key l) -> NoDup (map e_key (erase_key k l)).
Proof.
  induction l as [|x l IH]; cbn [erase_key filter map]; intros H; [constructor|]. inversion H; subst.
  destruct (negb (e_key x =? k)); [|auto]. cbn [map]. constructor; [|auto].
  intros Hin. apply H2. apply in_map_iff in Hin. destruct Hin as (y & Hy & Hi). apply filter_In in Hi. rewrite <- Hy. apply in_map. easy.
Qed.

Lemma inv_poll_step s w s' : inv s -> next s (EPollStep w) = Some s' -> inv s'.
Proof.
  intros HI Hs. pose proof HI as HI0. unfold next in Hs. destruct HI as [I1 I2 I3 I4 I5 I6 I7 I8 I9]. rewrite I9 in Hs.
  destruct (m_impl s w) as [r|] eqn:Hr; [|discriminate].
  destruct (polling r) as [|n] eqn:Ep; [discriminate|].
  pose proof (I1 w r Hr) as [K1 K2 K3 K4].
  destruct (cq r) as [|c rest] eqn:Ecq; [cbn [length] in K4; lia|].
  inversion Hs; subst s'; clear Hs.
  set (r1 := Ring (m_stoped r) (m_opreps r) (m_num_mis_shot r) (sq r) (inflight r) rest n).
  assert (Hout : Permutation (out r) (ctag c :: out r1)).
  { unfold out, r1. cbn [sq inflight cq]. rewrite Ecq. cbn [map]. rewrite !app_assoc. symmetry. apply Permutation_middle. }
  assert (Hct : In (ctag c) (out r)) by (apply (Permutation_in _ (Permutation_sym Hout)); now left).
  destruct (K2 _ Hct) as (e & He & Hk & Hx). cbn [ctag t_x t_ud fst snd] in Hk, Hx.
  unfold dealwith_cqe. destruct (find_key (c_ud c) (m_opreps r1)) as [e1|] eqn:Ef.
  2:{ exfalso. eapply find_key_None; [exact Ef|exact He|exact Hk]. }
  apply find_key_In in Ef. destruct Ef as [He1 Hk1]. assert (e1 = e) as -> by (eapply key_inj; [exact K1|easy|easy|congruence]). clear He1 Hk1.
  set (bt := add_ret (reps s (e_b e)) (Ret (c_val c) (c_op c))).
  destruct (K3 e He) as (E1 & E2 & E3 & E4 & E5 & E6 & E7 & E8).
  assert (Hsq : m_sqes bt = m_sqes (reps s (e_b e))) by reflexivity.
  assert (Hrets : m_rets bt = m_rets (reps s (e_b e)) ++ [Ret (c_val c) (c_op c)]) by reflexivity.
  assert (E4' : Permutation (map q_op (m_sqes bt)) (map r_op (m_rets bt) ++ map t_op (of_x (e_x e) (out r1)))).
  { rewrite Hsq, E4, (perm_ofx _ _ _ Hout), Hrets, map_app, <- app_assoc. apply Permutation_app_head. unfold of_x. cbn [filter ctag t_x fst snd]. rewrite <- Hx, Nat.eqb_refl. cbn [map t_op snd app r_op]. reflexivity. }
  assert (Hle : length (m_rets bt) <= length (m_sqes bt)).
  { apply Permutation_length in E4'. rewrite app_length, !map_length in E4'. lia. }
  assert (E6' : completions s (e_x e) = m_rets bt ++ cq_of (e_x e) rest).
  { rewrite E6, Ecq, Hrets, <- app_assoc. f_equal. unfold cq_of. cbn [filter]. rewrite <- Hx, Nat.eqb_refl. reflexivity. }
  assert (Hoth : forall u p e', m_impl s u = Some p -> In e' (m_opreps p) -> e' <> e -> e_b e' <> e_b e /\ e_x e' <> e_x e /\ e_key e' <> e_key e).
  { intros u p e' Hp Hi Hne. repeat split; intros E; apply Hne; destruct (I2 u e' w e); try (now exists p); try (now exists r); auto. }
  assert (Hxo : forall x, x <> e_x e -> of_x x (out r1) = of_x x (ctag c :: out r1)).
  { intros x Hxe. unfold of_x. cbn [filter ctag t_x fst snd]. destruct (Nat.eqb_spec (c_x c) x); [congruence|reflexivity]. }
  assert (Hxc : forall x, x <> e_x e -> cq_of x rest = cq_of x (cq r)).
  { intros x Hxe. rewrite Ecq. unfold cq_of. cbn [filter]. destruct (Nat.eqb_spec (c_x c) x); [congruence|reflexivity]. }
  unfold has_enough_ret. destruct (Nat.eqb_spec (length (m_rets bt)) (length (m_sqes bt))) as [Hen|Hnen].
  - (* last completion *)
    assert (Hnone : of_x (e_x e) (out r1) = []).
    { apply Permutation_length in E4'. rewrite app_length, !map_length in E4'. destruct (of_x (e_x e) (out r1)); [easy|cbn [length] in E4'; lia]. }
    assert (Hcqn : cq_of (e_x e) rest = []).
    { apply cq_of_nil. intros c' Hc' E. assert (In (ctag c') (of_x (e_x e) (out r1))).
      { apply filter_In. split; [|cbn [ctag t_x fst snd]; now apply Nat.eqb_eq]. unfold out, r1. cbn [sq inflight cq].
        apply in_app_iff. right. apply in_app_iff. right. now apply in_map. }
      rewrite Hnone in H. easy. }
    set (r' := Ring (m_stoped r1) (erase_key (c_ud c) (m_opreps r1)) (m_num_mis_shot r1) (sq r1) (inflight r1) (cq r1) (polling r1)).
    set (s' := St _ _ _ _ _ _ _ _ _ _ _).
    assert (Himpl : m_impl s' = upd (m_impl s) w (Some r')) by reflexivity.
    assert (Hreg : forall u e', reg s' u e' <-> reg s u e' /\ e' <> e).
    { intros u e'. unfold reg. rewrite Himpl. destruct (Nat.eq_dec u w) as [->|Hu].
      - rewrite upd_same, Hr. split.
        + intros (p & Hp & Hi). inversion Hp; subst p. cbn [r' m_opreps r1] in Hi. apply erase_In in Hi. split; [exists r; easy|]. intros ->. apply (proj2 Hi). exact Hk.
        + intros [(p & Hp & Hi) Hne]. inversion Hp; subst p. eexists. split; [reflexivity|]. cbn [r' m_opreps r1]. apply erase_In. split; [easy|]. rewrite <- Hk. apply (Hoth w r e' Hr Hi Hne).
      - rewrite upd_other by easy. split; [|easy]. intros (p & Hp & Hi). split; [now exists p|]. intros ->.
        destruct (I2 u e w e); [now exists p|now exists r|now left|congruence]. }
    split.
    + intros u p. rewrite Himpl. destruct (Nat.eq_dec u w) as [->|Hu].
      * rewrite upd_same. intros H; inversion H; subst p. split.
        -- cbn [r' m_opreps r1]. now apply erase_NoDup.
        -- intros t Ht. change (out r') with (out r1) in Ht. destruct (K2 t) as (e' & H1 & H2 & H3).
           { apply (Permutation_in _ (Permutation_sym Hout)). now right. }
           exists e'. split; [|easy]. cbn [r' m_opreps r1]. apply erase_In. split; [easy|].
           assert (Hne : e' <> e). { intros ->. assert (In t (of_x (e_x e) (out r1))) by (apply filter_In; split; [easy|apply Nat.eqb_eq; congruence]). rewrite Hnone in H0. easy. }
           rewrite <- Hk. apply (Hoth w r e' Hr H1 Hne).
        -- intros e' Hi. cbn [r' m_opreps r1] in Hi. apply erase_In in Hi. destruct Hi as [Hi Hki].
           assert (Hne : e' <> e) by congruence. destruct (Hoth w r e' Hr Hi Hne) as (Hb' & Hx' & Hk').
           destruct (K3 e' Hi) as (M1 & M2 & M3 & M4 & M5 & M6 & M7 & M8). unfold entry_ok. cbn [s' susp runq next_x reps submitted resumed].
           rewrite (upd_other _ (e_b e)) by easy. repeat split; auto.
           ++ intros Hin. apply in_app_iff in Hin. destruct Hin as [?|[?|[]]]; [easy|congruence].
           ++ change (out r') with (out r1). rewrite (Hxo _ Hx'), <- (perm_ofx _ _ _ Hout). exact M4.
           ++ change (cq r') with rest. rewrite (Hxc _ Hx'). exact M6.
           ++ rewrite map_app. intros Hin. apply in_app_iff in Hin. destruct Hin as [?|[Hin|[]]]; [easy|]. cbn [fst] in Hin. congruence.
        -- cbn [r' r1 polling cq]. cbn [length] in K4. lia.
      * rewrite upd_other by easy. intros Hp. destruct (I1 u p Hp) as [L1 L2 L3 L4]. split; auto.
        intros e' Hi. assert (Hne : e' <> e) by (intros ->; destruct (I2 u e w e); [now exists p|now exists r|now left|congruence]).
        destruct (Hoth u p e' Hp Hi Hne) as (Hb' & Hx' & Hk').
        destruct (L3 e' Hi) as (M1 & M2 & M3 & M4 & M5 & M6 & M7 & M8). unfold entry_ok. cbn [s' susp runq next_x reps submitted resumed].
        rewrite (upd_other _ (e_b e)) by easy. repeat split; auto.
        ++ intros Hin. apply in_app_iff in Hin. destruct Hin as [?|[?|[]]]; [easy|congruence].
        ++ rewrite map_app. intros Hin. apply in_app_iff in Hin. destruct Hin as [?|[Hin|[]]]; [easy|]. cbn [fst] in Hin. congruence.
    + intros u e1 u' e1' H1 H2. apply Hreg in H1, H2. apply I2; easy.
    + cbn [s' runq susp]. split; [apply NoDup_snoc; [apply I3|exact E2]|]. intros a' Ha'. apply in_app_iff in Ha'. destruct Ha' as [?|[<-|[]]]; [now apply I3|exact E1].
    + exact I4.
    + cbn [s' submitted resumed reps]. intros x u a ops H. destruct (I5 _ _ _ _ H) as [Hin|(e' & He' & H1 & H2 & H3)].
      * left. rewrite map_app. apply in_app_iff. now left.
      * destruct (Nat.eq_dec (e_x e') (e_x e)) as [Hee|Hee].
        -- left. rewrite map_app. apply in_app_iff. right. left. cbn [fst]. congruence.
        -- right. exists e'. assert (Hne : e' <> e) by congruence. split; [apply Hreg; easy|]. split; [easy|]. split; [easy|].
           destruct He' as (p & Hp & Hi). destruct (Hoth u p e' Hp Hi Hne) as (Hb' & _ & _). rewrite upd_other by easy. exact H3.
    + cbn [s' resumed]. rewrite map_app. cbn [map fst]. apply NoDup_snoc; [exact I6|exact E8].
    + cbn [s' resumed submitted]. intros x a rs Hin. apply in_app_iff in Hin. destruct Hin as [Hin|[Hin|[]]]; [now apply I7|].
      inversion Hin; subst x a rs; clear Hin. split.
      * change (completions s' (e_x e)) with (completions s (e_x e)). rewrite E6', Hcqn, app_nil_r. reflexivity.
      * exists w, (map q_op (m_sqes (reps s (e_b e)))). split; [exact E7|]. rewrite <- Hsq, E4', Hnone. cbn [map]. now rewrite app_nil_r.
    + exact I8.
    + exact I9.
  - (* more to come *)
    set (s' := set_rep (set_ring s w r1) (e_b e) bt).
    assert (Himpl : m_impl s' = upd (m_impl s) w (Some r1)) by reflexivity.
    assert (Hreg : forall u e', reg s' u e' <-> reg s u e').
    { intros u e'. unfold reg. rewrite Himpl. destruct (Nat.eq_dec u w) as [->|Hu].
      - rewrite upd_same, Hr. split; intros (p & Hp & Hi); inversion Hp; subst p; eexists; (split; [reflexivity|exact Hi]).
      - rewrite upd_other by easy. easy. }
    assert (Hsub : forall u p e', m_impl s u = Some p -> In e' (m_opreps p) -> m_sqes (reps s' (e_b e')) = m_sqes (reps s (e_b e'))).
    { intros u p e' Hp Hi. cbn [s' set_rep reps set_ring]. destruct (Nat.eq_dec (e_b e') (e_b e)) as [Hb'|Hb'].
      - rewrite Hb', upd_same. reflexivity.
      - rewrite upd_other by easy. reflexivity. }
    split.
    + intros u p. rewrite Himpl. destruct (Nat.eq_dec u w) as [->|Hu].
      * rewrite upd_same. intros H; inversion H; subst p. split; auto.
        -- intros t Ht. apply K2. apply (Permutation_in _ (Permutation_sym Hout)). now right.
        -- intros e' Hi. cbn [r1 m_opreps] in Hi. destruct (K3 e' Hi) as (M1 & M2 & M3 & M4 & M5 & M6 & M7 & M8).
           unfold entry_ok. rewrite (Hsub w r e' Hr Hi).
           destruct (Nat.eq_dec (e_x e') (e_x e)) as [Hxe|Hxe].
           ++ assert (e' = e) as -> by (destruct (I2 w e' w e); [now exists r|now exists r|auto|easy]).
              cbn [s' set_rep set_ring susp runq next_x reps submitted resumed]. rewrite !upd_same. rewrite Hsq in E4'. repeat split; auto.
              rewrite Hsq in Hle, Hnen. lia.
           ++ assert (Hne : e' <> e) by congruence. destruct (Hoth w r e' Hr Hi Hne) as (Hb' & Hx' & Hk').
              cbn [s' set_rep set_ring susp runq next_x reps submitted resumed]. rewrite !(upd_other _ (e_b e)) by easy. repeat split; auto.
              ** rewrite (Hxo _ Hx'), <- (perm_ofx _ _ _ Hout). exact M4.
              ** change (cq r1) with rest. rewrite (Hxc _ Hx'). exact M6.
        -- cbn [r1 polling cq]. cbn [length] in K4. lia.
      * rewrite upd_other by easy. intros Hp. destruct (I1 u p Hp) as [L1 L2 L3 L4]. split; auto.
        intros e' Hi. assert (Hne : e' <> e) by (intros ->; destruct (I2 u e w e); [now exists p|now exists r|now left|congruence]).
        destruct (Hoth u p e' Hp Hi Hne) as (Hb' & Hx' & Hk').
        specialize (L3 e' Hi). unfold entry_ok in *. cbn [s' set_rep set_ring susp runq next_x reps submitted resumed].
        rewrite !(upd_other _ (e_b e)) by easy. exact L3.
    + intros u e1 u' e1' H1 H2. apply Hreg in H1, H2. apply I2; easy.
    + exact I3.
    + exact I4.
    + intros x u a ops H. destruct (I5 _ _ _ _ H) as [Hin|(e' & He' & H1 & H2 & H3)]; [now left|right].
      exists e'. split; [now apply Hreg|]. split; [easy|]. split; [easy|]. destruct He' as (p & Hp & Hi). rewrite (Hsub u p e' Hp Hi). exact H3.
    + exact I6.
    + exact I7.
    + exact I8.
    + exact I9.
Qed.

Lemma inv_step s ev s' : inv s -> proper s ev -> next s ev = Some s' -> inv s'.
Proof.
  intros HI HP Hs. pose proof HI as HI0. destruct HI0 as [I1 I2 I3 I4 I5 I6 I7 I8 I9].
  destruct ev as [w|b c|b|w a b k|w i v|w|w| |t g].
  - unfold next in Hs. rewrite I9 in Hs. destruct (m_impl s w) eqn:E; [discriminate|]. inversion Hs; subst s'; clear Hs.
    assert (Hreg : forall u e, reg (set_ring s w ring0) u e <-> reg s u e).
    { intros u e. unfold reg, set_ring. cbn [m_impl]. destruct (Nat.eq_dec u w) as [->|Hu].
      - rewrite upd_same, E. split; intros (p & Hp & Hi); [inversion Hp; subst p; easy|discriminate].
      - rewrite upd_other by easy. easy. }
    split; auto.
    + intros u p. unfold set_ring. cbn [m_impl]. destruct (Nat.eq_dec u w) as [->|Hu].
      * rewrite upd_same. intros H; inversion H; subst p. split; cbn; try easy. constructor.
      * rewrite upd_other by easy. intros Hp. destruct (I1 u p Hp); split; auto.
    + intros u e u' e' H1 H2. apply Hreg in H1, H2. apply I2; easy.
    + intros x u a ops H. destruct (I5 _ _ _ _ H) as [?|(e & He & ?)]; [now left|right; exists e; split; [now apply Hreg|easy]].
  - unfold next in Hs. rewrite I9 in Hs. destruct HP as [HP1 HP2]. destruct (do_call (reps s b) c); [|easy]. inversion Hs; subst s'. now apply inv_rep_upd.
  - unfold next in Hs. rewrite I9 in Hs. inversion Hs; subst s'. now apply inv_rep_upd.
  - unfold next in Hs. rewrite I9 in Hs. destruct HP as (P1 & P2 & P3 & P4 & P5).
    destruct (susp s a) eqn:Ea; [discriminate|]. destruct (m_impl s w) as [r|] eqn:Er; [|easy].
    destruct (polling r =? 0); [|discriminate]. destruct (arm (reps s b) a) as [bt|] eqn:Ea2.
    2:{ exfalso. destruct (arm_Some (reps s b) a P4). congruence. }
    destruct (arm_spec _ _ _ Ea2) as (A1 & A2 & A3 & A4 & A5 & A6).
    apply (inv_exec s w a b k r bt s'); try assumption; [now rewrite A2|].
    assert (length (m_sqes bt) = length (m_sqes (reps s b))) as -> by (rewrite <- (map_length q_op), A1, map_length; reflexivity).
    now apply P5.
  - eapply inv_complete; eassumption.
  - unfold next in Hs. rewrite I9 in Hs. destruct (m_impl s w) as [r|] eqn:Er; [|easy]. destruct (Nat.eqb_spec (polling r) 0) as [Ep|]; [|discriminate].
    destruct (m_stoped r) eqn:Est; [inversion Hs; subst s'; exact HI|].
    destruct (cq r) eqn:Ecq; inversion Hs; subst s'; clear Hs; eapply inv_ring_upd; try eassumption; cbn [m_opreps sq inflight cq polling length]; auto; lia.
  - eapply inv_poll_step; eassumption.
  - unfold next in Hs. rewrite I9 in Hs. destruct (runq s) as [|a q] eqn:Erq; [discriminate|]. inversion Hs; subst s'; clear Hs.
    destruct I3 as [N1 N2]. inversion N1; subst.
    split; auto.
    + intros w r Hr. destruct (I1 w r Hr) as [K1 K2 K3 K4]. split; auto.
      intros e He. destruct (K3 e He) as (M1 & M2 & M3). unfold entry_ok. cbn [susp runq next_x reps submitted resumed].
      rewrite Erq in M2. split; [|split; [|exact M3]].
      * rewrite upd_other; [easy|]. intros E. apply M2. now left.
      * intros Hin. apply M2. now right.
    + cbn [runq susp]. split; [easy|]. intros a' Ha'. rewrite upd_other; [apply N2; now right|]. intros ->. easy.
  - unfold next in Hs. rewrite I9 in Hs. destruct (m_impl s t) as [r|] eqn:Er.
    + destruct (Nat.eqb_spec (polling r) 0) as [Ep|]; [|discriminate]. inversion Hs; subst s'; clear Hs.
      assert (HH : inv (set_ring s t (Ring true (m_opreps r) (m_num_mis_shot r) (sq r) (inflight r) (cq r) (polling r)))).
      { eapply inv_ring_upd; try eassumption; cbn [m_opreps sq inflight cq polling]; auto. lia. }
      destruct HH as [J1 J2 J3 J4 J5 J6 J7 J8 J9]. split; auto. intros v p Hp. destruct (J1 v p Hp). split; auto.
    + inversion Hs; subst s'; clear Hs. split; auto. intros v p Hp. destruct (I1 v p Hp). split; auto.
Qed.

Lemma inv_run l s : run_all next proper init l -> run next init l = Some s -> inv s.
Proof. intros HP HR. eapply run_inv_cond; [|apply inv_init|exact HP|exact HR]. intros; eapply inv_step; eassumption. Qed.
