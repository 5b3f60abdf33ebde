(** Proofs for C146: what is left to do at any time, and that every step takes its first effect from it. *)
From Coq Require Import List Arith Bool Lia Permutation.
From Verif.Common Require Import TS Sum.
From Verif.Calls Require Import Spec Model.
Import ListNotations.

Definition cont (f : frame) : result -> code := match st f with Inside k | Ready k | Suspending k | Waiting k | Woken k => k | _ => fun _ => Ret 0 end.
Definition wst (x : status) : nat := match x with Active _ => 0 | Queued _ => 1 | Asleep _ => 2 | Inside _ => 4 | Ready _ => 3 | Suspending _ => 2 | Waiting _ => 1 | Woken _ => 1 end.
(** what follows when frame [l - 1] gets the result it awaits *)
Fixpoint after (fs : nat -> frame) (l : nat) (r : result) : list obs * result :=
  match l with
  | O => ([], r)
  | S d => let c := cont (fs d) r in (fst (meaning c) ++ map Dtor (locals (fs d)) ++ fst (after fs d (snd (meaning c))), snd (after fs d (snd (meaning c))))
  end.
Definition body (fs : nat -> frame) (d : nat) (c : code) : list obs * result :=
  (fst (meaning c) ++ map Dtor (locals (fs d)) ++ fst (after fs d (snd (meaning c))), snd (after fs d (snd (meaning c)))).
Definition code_of (f : frame) : code := match st f with Active c | Queued c | Asleep c => c | _ => match slot f with Some r => cont f r | None => Ret 0 end end.
Definition rest (s : state) : list obs * result := match depth s with O => ([], match got s with Some r => r | None => Val 0 end) | S d => body (frames s) d (code_of (frames s d)) end.
Fixpoint after_cost (fs : nat -> frame) (l : nat) (r : result) : nat :=
  match l with O => 0 | S d => let c := cont (fs d) r in cost c + length (locals (fs d)) + 2 + after_cost fs d (snd (meaning c)) end.
Definition body_cost (fs : nat -> frame) (d : nat) (c : code) : nat := cost c + length (locals (fs d)) + 2 + after_cost fs d (snd (meaning c)).
Definition rest_cost (s : state) : nat := match depth s with O => 0 | S d => body_cost (frames s) d (code_of (frames s d)) end.
Lemma after_S fs d r : after fs (S d) r = body fs d (cont (fs d) r).
Proof. reflexivity. Qed.
Lemma cost_pos c : 0 < cost c.
Proof. destruct c; cbn; lia. Qed.

Definition alike (f g : frame) : Prop := locals g = locals f /\ cont g = cont f.
Lemma alike_refl f : alike f f.
Proof. now split. Qed.
Lemma after_like fs gs : forall l, (forall j, j < l -> alike (fs j) (gs j)) -> forall r, after gs l r = after fs l r /\ after_cost gs l r = after_cost fs l r.
Proof.
  induction l as [|d IH]; intros H r; cbn [after after_cost]; [now split|]. destruct (H d ltac:(lia)) as (A & B). rewrite A, B.
  destruct (IH ltac:(auto) (snd (meaning (cont (fs d) r)))) as [D E]. now rewrite D, E.
Qed.
Lemma body_like fs gs d c : locals (gs d) = locals (fs d) -> (forall j, j < d -> alike (fs j) (gs j)) -> body gs d c = body fs d c /\ body_cost gs d c = body_cost fs d c.
Proof. intros A H. unfold body, body_cost. rewrite A. destruct (after_like fs gs d H (snd (meaning c))) as [B C]. now rewrite B, C. Qed.
Lemma sum_le f g : forall m, (forall i, i < m -> f i <= g i) -> sum_to m f <= sum_to m g.
Proof. induction m as [|m IH]; intros H; cbn; [lia|]. pose proof (H m ltac:(lia)). specialize (IH ltac:(auto)). lia. Qed.
Lemma sum_lt f g : forall m i, (forall i, i < m -> f i <= g i) -> i < m -> f i < g i -> sum_to m f < sum_to m g.
Proof. induction m as [|m IH]; intros i H Hi L; cbn; [lia|]. destruct (Nat.eq_dec i m) as [->|N]; [pose proof (sum_le f g m ltac:(auto)); lia|]. pose proof (H m ltac:(lia)). specialize (IH i ltac:(auto) ltac:(lia) L). lia. Qed.

Definition onthread (x : status) : bool := match x with Active _ | Inside _ | Ready _ | Suspending _ => true | _ => false end.
Definition running (x : status) : Prop := match x with Active _ | Ready _ | Suspending _ => True | _ => False end.
Definition inside (fs : nat -> frame) (b : act) : Prop := exists j k, b = Run j /\ st (fs j) = Inside k.
Definition shape (fs : nat -> frame) (l : list act) : Prop :=
  match l with [] => True | a :: l' => match a with Run j => running (st (fs j)) | Dying _ => True end /\ Forall (inside fs) l' end.
Definition waitlike (x : status) : Prop := match x with Inside _ | Ready _ | Suspending _ | Waiting _ => True | _ => False end.
Definition topstate (f : frame) : Prop :=
  match st f with Active _ | Queued _ | Asleep _ => slot f = None | Inside _ | Ready _ | Suspending _ | Woken _ => slot f <> None | Waiting _ => False end.

Section I.
  Variable n : nat.
  Record Thr (fs : nat -> frame) (d : nat) (th : nat -> list act) : Prop := {
    t_on : forall t j, In (Run j) (th t) -> j < d /\ onthread (st (fs j)) = true;
    t_is : forall j, j < d -> onthread (st (fs j)) = true -> exists t, t <= n /\ In (Run j) (th t);
    t_shape : forall t, shape fs (th t);
    t_one : forall t t' j, In (Run j) (th t) -> In (Run j) (th t') -> t = t';
    t_nd : forall t, NoDup (th t);
    t_out : forall t, n < t -> th t = [] }.
  Lemma shape_ext fs gs l : (forall j, In (Run j) l -> st (gs j) = st (fs j)) -> shape fs l -> shape gs l.
  Proof.
    destruct l as [|a l]; cbn; [auto|]. intros H [A B]. split; [destruct a; auto; rewrite H by auto; auto|]. rewrite Forall_forall in *. intros b Hb. destruct (B b Hb) as (j & k & -> & E). exists j, k. split; [reflexivity|]. rewrite H by auto. exact E.
  Qed.
  Lemma Thr_upd fs d th gs d' t L th' : Thr fs d th -> t <= n -> (forall u, th' u = if u =? t then L else th u) ->
    (forall j, j < d -> onthread (st (fs j)) = true -> ~ In (Run j) (th t) -> j < d' /\ st (gs j) = st (fs j)) ->
    shape gs L -> NoDup L ->
    (forall j, In (Run j) L -> j < d' /\ onthread (st (gs j)) = true /\ (In (Run j) (th t) \/ ~ (j < d /\ onthread (st (fs j)) = true))) ->
    (forall j, j < d' -> onthread (st (gs j)) = true -> In (Run j) L \/ (j < d /\ onthread (st (fs j)) = true /\ ~ In (Run j) (th t))) ->
    Thr gs d' th'.
  Proof.
    intros [A B C D E F] Ht HE H1 H2 H3 H4 H5.
    assert (X : forall u j, u <> t -> In (Run j) (th u) -> j < d' /\ st (gs j) = st (fs j)). { intros u j Hu Hj. destruct (A u j Hj) as [P Q]. apply H1; auto. intros Z. apply Hu. eapply D; eauto. }
    split.
    - intros u j. rewrite HE. destruct (Nat.eqb_spec u t) as [->|N]; intros Hj; [now destruct (H4 j Hj) as (P & Q & _)|]. destruct (X u j N Hj) as [P Q]. split; [exact P|]. rewrite Q. now apply (A u j Hj).
    - intros j Hj Ho. destruct (H5 j Hj Ho) as [P|(P & Q & R)]; [exists t; rewrite HE, Nat.eqb_refl; auto|]. destruct (B j P Q) as (u & Hu & Hi). exists u. split; [exact Hu|]. rewrite HE. destruct (Nat.eqb_spec u t) as [->|]; [contradiction|exact Hi].
    - intros u. rewrite HE. destruct (Nat.eqb_spec u t) as [->|N]; [exact H2|]. apply (shape_ext fs); [|apply C]. intros j Hj. now apply (X u j N).
    - intros u u' j. rewrite !HE. destruct (Nat.eqb_spec u t) as [->|N], (Nat.eqb_spec u' t) as [->|N']; auto; intros P Q.
      + destruct (H4 j P) as (_ & _ & [Z|Z]); [eapply D; eauto|]. destruct Z. now apply (A u' j Q).
      + destruct (H4 j Q) as (_ & _ & [Z|Z]); [eapply D; eauto|]. destruct Z. now apply (A u j P).
      + eapply D; eauto.
    - intros u. rewrite HE. destruct (u =? t); auto.
    - intros u Hu. rewrite HE. destruct (Nat.eqb_spec u t); [lia|auto].
  Qed.
  Record Inv (s : state) : Prop := {
    i_thr : Thr (frames s) (depth s) (thr s);
    i_low : forall j, S j < depth s -> waitlike (st (frames s j)) /\ slot (frames s j) = None;
    i_top : forall d, depth s = S d -> topstate (frames s d);
    i_got : depth s = 0 <-> got s <> None;
    i_ret : forall r, ret s = Some r -> got s = Some r /\ thr s n = [];
    i_exit : exited s = true -> ret s <> None /\ forall t, thr s t = [] }.
  Fixpoint pd (l : list act) : list nat := match l with [] => [] | Run _ :: l => pd l | Dying ds :: l => ds ++ pd l end.
  Fixpoint pw (l : list act) : nat := match l with [] => 0 | Run _ :: l => pw l | Dying ds :: l => 1 + length ds + pw l end.
  Definition levels (s : state) : nat := sum_to (depth s) (fun j => wst (st (frames s j))).
  Definition weight (s : state) : nat := sum_to (S n) (fun t => pw (thr s t)) + levels s + rest_cost s + match ret s with None => 1 | _ => 0 end + (if exited s then 0 else 1).
  Inductive moved (s s' : state) : Prop :=
  | mv_emit x t i l : out s' = out s ++ [x] -> thr s t = Run i :: l -> rest s = (x :: fst (rest s'), snd (rest s')) -> (forall t, thr s' t = thr s t) -> moved s s'
  | mv_dtor t d : out s' = out s ++ [Dtor d] -> rest s' = rest s -> t <= n -> pd (thr s t) = d :: pd (thr s' t) -> (forall u, u <> t -> thr s' u = thr s u) -> moved s s'
  | mv_quiet t ds : out s' = out s -> (ds = [] \/ exists i l, thr s t = Run i :: l) -> rest s = (map Dtor ds ++ fst (rest s'), snd (rest s')) -> t <= n -> pd (thr s' t) = ds ++ pd (thr s t) -> (forall u, u <> t -> thr s' u = thr s u) -> moved s s'.
  Lemma quiet s s' t : t <= n -> out s' = out s -> rest s' = rest s -> pd (thr s' t) = pd (thr s t) -> (forall u, u <> t -> thr s' u = thr s u) -> moved s s'.
  Proof. intros A B C D E. apply (mv_quiet s s' t []); auto. rewrite C. cbn. now destruct (rest s). Qed.
  Lemma updE {A} (f : nat -> A) i x j : upd f i x j = if j =? i then x else f j.
  Proof. destruct (Nat.eqb_spec j i) as [->|]; [apply upd_same|now apply upd_other]. Qed.
  Lemma inside_pd fs l : Forall (inside fs) l -> pd l = [] /\ pw l = 0.
  Proof. induction 1 as [|b l (j & k & -> & _) _ [IH1 IH2]]; cbn; auto. Qed.

  Definition act_eq_dec : forall a b : act, {a = b} + {a <> b}.
  Proof. decide equality; [apply Nat.eq_dec|apply list_eq_dec, Nat.eq_dec]. Defined.
  Definition top_act (l : list act) (j : nat) : bool := match l with Run i :: _ => i =? j | _ => false end.
  Lemma back_spec fs l j : (top_act l j = false /\ back fs l j = fs j) \/ (top_act l j = true /\ exists l', l = Run j :: l' /\
    ((exists k, st (fs j) = Inside k /\ back fs l j = Fr (Ready k) (locals (fs j)) (slot (fs j))) \/ ((forall k, st (fs j) <> Inside k) /\ back fs l j = fs j))).
  Proof.
    destruct l as [|[i|ds] l]; cbn; auto. destruct (Nat.eqb_spec i j) as [->|N].
    - right. split; [reflexivity|]. exists l. split; [reflexivity|]. destruct (st (fs j)) eqn:E; try (right; split; [discriminate|reflexivity]). left. exists k. split; [reflexivity|apply upd_same].
    - left. split; [reflexivity|]. destruct (st (fs i)); auto. rewrite upd_other by auto. reflexivity.
  Qed.
  Lemma back_like fs l j : alike (fs j) (back fs l j) /\ slot (back fs l j) = slot (fs j) /\ code_of (back fs l j) = code_of (fs j) /\ wst (st (back fs l j)) <= wst (st (fs j)) /\ onthread (st (back fs l j)) = onthread (st (fs j)).
  Proof.
    destruct (back_spec fs l j) as [[_ ->]|[_ (l' & _ & [(k & E & ->)|[_ ->]])]]; try (split; [apply alike_refl|auto]). unfold alike, cont, code_of. cbn. rewrite E. cbn. unfold cont. cbn. rewrite E. repeat split; auto.
  Qed.
  Lemma back_wait fs l j : (waitlike (st (fs j)) -> waitlike (st (back fs l j))) /\ (topstate (fs j) -> topstate (back fs l j)).
  Proof. destruct (back_spec fs l j) as [[_ ->]|[_ (l' & _ & [(k & E & ->)|[_ ->]])]]; auto. unfold topstate. cbn. rewrite E. cbn. auto. Qed.

  (** ** threads *)
  Lemma shape_nodying fs a l ds : shape fs (a :: l) -> ~ In (Dying ds) l.
  Proof. intros [_ H] Hi. rewrite Forall_forall in H. destruct (H _ Hi) as (j & k & E & _). discriminate. Qed.
  Lemma Thr_pop fs d th gs th' t a l : Thr fs d th -> th t = a :: l -> (forall j, (a = Run j -> onthread (st (gs j)) = false) /\ (a <> Run j -> st (gs j) = st (fs j))) ->
    (forall u, th' u = if u =? t then l else th u) -> Thr (back gs l) d th'.
  Proof.
    intros HT Ea Hg HE. assert (Ht : t <= n) by (destruct (Nat.le_gt_cases t n) as [|X]; auto; rewrite (t_out _ _ _ HT t X) in Ea; discriminate).
    pose proof (t_shape _ _ _ HT t) as Sh. rewrite Ea in Sh. destruct Sh as [_ Sh]. rewrite Forall_forall in Sh. pose proof (t_nd _ _ _ HT t) as Nd. rewrite Ea in Nd. inversion Nd as [|? ? Na Nl]; subst.
    assert (Hl : forall j, In (Run j) l -> exists k, st (fs j) = Inside k /\ st (gs j) = Inside k). { intros j Hj. destruct (Sh _ Hj) as (j' & k & E & E'). injection E as <-. exists k. split; [exact E'|]. rewrite (proj2 (Hg j)); auto. intros ->. contradiction. }
    assert (Bk : forall j, top_act l j = false -> back gs l j = gs j). { intros j Hj. destruct (back_spec gs l j) as [[_ X]|[X _]]; [exact X|congruence]. }
    apply (Thr_upd fs d th (back gs l) d t l th' HT Ht HE).
    - intros j Hj Ho Hn. rewrite Ea in Hn. split; [exact Hj|]. destruct (back_spec gs l j) as [[_ ->]|[_ (l' & -> & _)]]; [|exfalso; apply Hn; right; now left]. apply (Hg j). intros ->. apply Hn. now left.
    - destruct l as [|b l]; [exact I|]. cbn [shape]. destruct (Sh b (or_introl eq_refl)) as (j & k & -> & E). destruct (Hl j (or_introl eq_refl)) as (k' & _ & E'). inversion Nl as [|? ? Nb Nl']; subst. split.
      + destruct (back_spec gs (Run j :: l) j) as [[X _]|[_ (l' & _ & [(k'' & _ & ->)|[X _]])]]; [cbn in X; now rewrite Nat.eqb_refl in X|exact I|exfalso; exact (X _ E')].
      + rewrite Forall_forall. intros b Hb. destruct (Sh b (or_intror Hb)) as (j' & k1 & -> & E1). destruct (Hl j' (or_intror Hb)) as (k2 & _ & E2). exists j', k2. split; [reflexivity|]. rewrite Bk; [exact E2|]. cbn. destruct (Nat.eqb_spec j j') as [->|]; [contradiction|reflexivity].
    - exact Nl.
    - intros j Hj. assert (Hi : In (Run j) (th t)) by (rewrite Ea; now right). split; [now apply (t_on _ _ _ HT t j)|]. split; [|now left]. destruct (Hl j Hj) as (k & _ & E). destruct (back_like gs l j) as (_ & _ & _ & _ & ->). now rewrite E.
    - intros j Hj. destruct (back_like gs l j) as (_ & _ & _ & _ & ->). intros Ho. destruct (act_eq_dec a (Run j)) as [->|N]; [rewrite (proj1 (Hg j)) in Ho by reflexivity; discriminate|]. rewrite (proj2 (Hg j) N) in Ho.
      destruct (in_dec act_eq_dec (Run j) (th t)) as [Hi|Hi]; [left; rewrite Ea in Hi; destruct Hi; [contradiction|auto]|right; auto].
  Qed.
  (** a running frame goes on where it is *)
  Lemma Thr_same fs d th f t i l : Thr fs d th -> th t = Run i :: l -> running (st f) -> Thr (upd fs i f) d th.
  Proof.
    intros HT Ea Hr. assert (Ht : t <= n) by (destruct (Nat.le_gt_cases t n) as [|X]; auto; rewrite (t_out _ _ _ HT t X) in Ea; discriminate).
    pose proof (t_shape _ _ _ HT t) as Sh. rewrite Ea in Sh. destruct Sh as [_ Sh]. pose proof (t_nd _ _ _ HT t) as Nd. rewrite Ea in Nd. inversion Nd as [|? ? Na Nl]; subst.
    assert (Ho : onthread (st f) = true) by (destruct (st f); try contradiction; reflexivity).
    apply (Thr_upd fs d th _ d t (th t) th HT Ht).
    - intros u. destruct (Nat.eqb_spec u t); congruence.
    - intros j Hj Hn Hi. split; [exact Hj|]. rewrite upd_other; [reflexivity|]. intros ->. apply Hi. rewrite Ea. now left.
    - rewrite Ea. cbn [shape]. rewrite upd_same. split; [exact Hr|]. rewrite Forall_forall in *. intros b Hb. destruct (Sh b Hb) as (j & k & -> & E). exists j, k. split; [reflexivity|]. rewrite upd_other; [exact E|]. intros ->. contradiction.
    - apply (t_nd _ _ _ HT).
    - intros j Hj. destruct (t_on _ _ _ HT t j Hj) as [A B]. split; [exact A|]. split; [|now left]. rewrite updE. destruct (j =? i); auto.
    - intros j Hj. rewrite updE. destruct (Nat.eqb_spec j i) as [->|N]; [intros _; left; rewrite Ea; now left|]. intros X. destruct (in_dec act_eq_dec (Run j) (th t)); auto.
  Qed.
  (** the running frame calls *)
  Lemma Thr_eager fs th th' t i l f g : Thr fs (S i) th -> th t = Run i :: l -> (exists k, st f = Inside k) -> running (st g) -> (forall u, th' u = if u =? t then Run (S i) :: Run i :: l else th u) -> Thr (upd (upd fs i f) (S i) g) (S (S i)) th'.
  Proof.
    intros HT Ea [k Hf] Hg HE. assert (Ht : t <= n) by (destruct (Nat.le_gt_cases t n) as [|X]; auto; rewrite (t_out _ _ _ HT t X) in Ea; discriminate).
    pose proof (t_shape _ _ _ HT t) as Sh. rewrite Ea in Sh. destruct Sh as [_ Sh]. pose proof (t_nd _ _ _ HT t) as Nd. rewrite Ea in Nd.
    assert (Ho : onthread (st g) = true) by (destruct (st g); try contradiction; reflexivity). assert (Hl : forall j, In (Run j) (Run i :: l) -> j <= i) by (intros j Hj; rewrite <- Ea in Hj; destruct (t_on _ _ _ HT t j Hj); lia).
    apply (Thr_upd fs (S i) th _ (S (S i)) t _ th' HT Ht HE).
    - intros j Hj Hn Hi. split; [lia|]. rewrite !updE. destruct (Nat.eqb_spec j (S i)); [lia|]. destruct (Nat.eqb_spec j i) as [->|]; [|reflexivity]. exfalso. apply Hi. rewrite Ea. now left.
    - cbn [shape]. rewrite upd_same. split; [exact Hg|]. inversion Nd as [|? ? Na Nl]; subst. constructor; [exists i, k; split; [reflexivity|]; rewrite upd_other by lia; rewrite upd_same; exact Hf|].
      rewrite Forall_forall in *. intros b Hb. destruct (Sh b Hb) as (j & k' & -> & E). exists j, k'. split; [reflexivity|]. pose proof (Hl j (or_intror Hb)). rewrite upd_other by lia. rewrite upd_other; [exact E|]. intros ->. contradiction.
    - constructor; [|exact Nd]. intros X. specialize (Hl _ X). lia.
    - intros j [E|Hj]; [injection E as <-; rewrite upd_same; split; [lia|]; split; [exact Ho|right; lia]|]. pose proof (Hl j Hj). split; [lia|]. rewrite upd_other by lia. rewrite <- Ea in Hj. destruct (t_on _ _ _ HT t j Hj) as [A B]. split; [|now left]. rewrite updE. destruct (j =? i); [now rewrite Hf|exact B].
    - intros j Hj. rewrite !updE. destruct (Nat.eqb_spec j (S i)) as [->|N]; [intros _; left; now left|]. destruct (Nat.eqb_spec j i) as [->|N']; [intros _; left; right; now left|]. intros X. destruct (in_dec act_eq_dec (Run j) (th t)) as [Y|Y]; [left; right; now rewrite <- Ea|right; split; [lia|auto]].
  Qed.
  Lemma Thr_lazy fs th t i l f g : Thr fs (S i) th -> th t = Run i :: l -> running (st f) -> onthread (st g) = false -> Thr (upd (upd fs i f) (S i) g) (S (S i)) th.
  Proof.
    intros HT Ea Hf Hg. pose proof (Thr_same fs (S i) th f t i l HT Ea Hf) as HT1.
    apply (Thr_upd (upd fs i f) (S i) th _ (S (S i)) n (th n) th HT1 ltac:(lia)).
    - intros u. destruct (Nat.eqb_spec u n); congruence.
    - intros j Hj Hn Hi. split; [lia|]. now rewrite (upd_other _ (S i)) by lia.
    - apply (shape_ext (upd fs i f)); [|apply (t_shape _ _ _ HT1)]. intros j Hj. destruct (t_on _ _ _ HT1 n j Hj). now rewrite (upd_other _ (S i)) by lia.
    - apply (t_nd _ _ _ HT1).
    - intros j Hj. destruct (t_on _ _ _ HT1 n j Hj) as [A B]. split; [lia|]. split; [|now left]. now rewrite (upd_other _ (S i)) by lia.
    - intros j Hj. rewrite (updE _ (S i)). destruct (Nat.eqb_spec j (S i)) as [->|N]; [congruence|]. intros X. destruct (in_dec act_eq_dec (Run j) (th n)); [now left|right; split; [lia|auto]].
  Qed.
  (** it ends *)
  Lemma Thr_finish fs th th' t i l ds gs : Thr fs (S i) th -> th t = Run i :: l -> (forall j, j < i -> onthread (st (gs j)) = onthread (st (fs j)) /\ (onthread (st (fs j)) = true -> st (gs j) = st (fs j))) ->
    (forall u, th' u = if u =? t then Dying ds :: l else th u) -> Thr gs i th'.
  Proof.
    intros HT Ea Hg HE. assert (Ht : t <= n) by (destruct (Nat.le_gt_cases t n) as [|X]; auto; rewrite (t_out _ _ _ HT t X) in Ea; discriminate).
    pose proof (t_shape _ _ _ HT t) as Sh. rewrite Ea in Sh. pose proof (shape_nodying _ _ _ ds Sh) as Nds. destruct Sh as [_ Sh]. pose proof (t_nd _ _ _ HT t) as Nd. rewrite Ea in Nd. inversion Nd as [|? ? Na Nl]; subst.
    assert (Hl : forall j, In (Run j) l -> j < i /\ onthread (st (fs j)) = true). { intros j Hj. assert (Hi : In (Run j) (th t)) by (rewrite Ea; now right). destruct (t_on _ _ _ HT t j Hi) as [A B]. split; [|exact B]. destruct (Nat.eq_dec j i) as [->|]; [contradiction|lia]. }
    apply (Thr_upd fs (S i) th gs i t _ th' HT Ht HE).
    - intros j Hj Hn Hi. assert (j < i) by (destruct (Nat.eq_dec j i) as [->|]; [exfalso; apply Hi; rewrite Ea; now left|lia]). split; [auto|]. now apply Hg.
    - cbn [shape]. split; [exact I|]. rewrite Forall_forall in *. intros b Hb. destruct (Sh b Hb) as (j & k & -> & E). exists j, k. split; [reflexivity|]. destruct (Hl j Hb) as [A B]. now rewrite (proj2 (Hg j A) B).
    - constructor; [exact Nds|exact Nl].
    - intros j [E|Hj]; [discriminate|]. destruct (Hl j Hj) as [A B]. split; [exact A|]. rewrite (proj1 (Hg j A)). split; [exact B|]. left. rewrite Ea. now right.
    - intros j Hj. rewrite (proj1 (Hg j Hj)). intros X. destruct (in_dec act_eq_dec (Run j) (th t)) as [Y|Y]; [left; rewrite Ea in Y; destruct Y as [E|Y]; [injection E as <-; lia|now right]|right; split; [lia|auto]].
  Qed.
  Lemma Thr_take fs d th th' t i f : Thr fs d th -> t <= n -> th t = [] -> i < d -> onthread (st (fs i)) = false -> running (st f) -> (forall u, th' u = if u =? t then [Run i] else th u) -> Thr (upd fs i f) d th'.
  Proof.
    intros HT Ht Ea Hi Hn Hf HE. assert (Ho : onthread (st f) = true) by (destruct (st f); try contradiction; reflexivity). apply (Thr_upd fs d th _ d t _ th' HT Ht HE).
    - intros j Hj Hj' _. split; [exact Hj|]. rewrite upd_other; [reflexivity|]. intros ->. congruence.
    - cbn [shape]. rewrite upd_same. auto.
    - repeat constructor. intros [].
    - intros j [E|[]]. injection E as <-. rewrite upd_same. split; [exact Hi|]. split; [exact Ho|]. right. intros [_ X]. congruence.
    - intros j Hj. rewrite updE. destruct (Nat.eqb_spec j i) as [->|]; [intros _; left; now left|]. intros X. right. rewrite Ea. auto.
  Qed.
  Lemma Thr_off fs d th i f : Thr fs d th -> onthread (st (fs i)) = false -> onthread (st f) = false -> Thr (upd fs i f) d th.
  Proof.
    intros HT Hn Hf. apply (Thr_upd fs d th _ d n (th n) th HT ltac:(lia)).
    - intros u. destruct (Nat.eqb_spec u n); congruence.
    - intros j Hj Hj' _. split; [exact Hj|]. rewrite upd_other; [reflexivity|]. intros ->. congruence.
    - apply (shape_ext fs); [|apply (t_shape _ _ _ HT)]. intros j Hj. destruct (t_on _ _ _ HT n j Hj). rewrite upd_other; [reflexivity|]. intros ->. congruence.
    - apply (t_nd _ _ _ HT).
    - intros j Hj. destruct (t_on _ _ _ HT n j Hj) as [A B]. split; [exact A|]. split; [|now left]. rewrite upd_other; [exact B|]. intros ->. congruence.
    - intros j Hj. rewrite updE. destruct (Nat.eqb_spec j i) as [->|N]; [congruence|]. intros X. destruct (in_dec act_eq_dec (Run j) (th n)); auto.
  Qed.
End I.
