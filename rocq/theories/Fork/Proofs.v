(** Proofs for C148: threads, lists of futures, the invariant. *)
From Coq Require Import List Arith Bool Lia Permutation.
From Verif.Common Require Import TS Sum.
From Verif.Fork Require Import Spec Model.
Import ListNotations.

Lemma updE {A} (f : nat -> A) i x j : upd f i x j = if j =? i then x else f j.
Proof. destruct (Nat.eqb_spec j i) as [->|]; [apply upd_same|now apply upd_other]. Qed.
(** ** lists of futures *)
Lemma moved_map {A B} (f : A -> B) : forall m l, moved m (map f l) = map f (moved m l).
Proof. induction m as [|[] m IH]; intros [|x l]; cbn; auto. now rewrite IH. Qed.
Lemma kept_map {A B} (f : A -> B) : forall m l, kept m (map f l) = map f (kept m l).
Proof. induction m as [|[] m IH]; intros [|x l]; cbn; auto. now rewrite IH. Qed.
Lemma without_map {A B} (f : A -> B) a l : without a (map f l) = map f (without a l).
Proof. unfold without. now rewrite map_app, firstn_map, skipn_map. Qed.
Lemma units {A} (l : list A) : repeat tt (length l) = map (fun _ => tt) l.
Proof. induction l; cbn; congruence. Qed.
Lemma moved_len {A} m (l : list A) : length (moved m (repeat tt (length l))) = length (moved m l).
Proof. now rewrite units, moved_map, map_length. Qed.
Lemma kept_len {A} m (l : list A) : length (kept m (repeat tt (length l))) = length (kept m l).
Proof. now rewrite units, kept_map, map_length. Qed.
Lemma moved_in {A} (x : A) : forall m l, In x (moved m l) -> In x l.
Proof. induction m as [|[] m IH]; intros [|y l]; cbn; auto; intuition. Qed.
Lemma kept_in {A} (x : A) : forall m l, In x (kept m l) -> In x l.
Proof. induction m as [|[] m IH]; intros [|y l]; cbn; auto; intuition. Qed.
Lemma moved_nodup {A} : forall m (l : list A), NoDup l -> NoDup (moved m l) /\ NoDup (kept m l) /\ forall x, In x (moved m l) -> In x (kept m l) -> False.
Proof.
  induction m as [|[] m IH]; intros [|y l] H; cbn; try (split; [constructor|split; [auto|intros; contradiction]]); inversion H; subst; destruct (IH l H3) as (A1 & A2 & A3).
  - split; [constructor; [intros X; apply H2; now apply moved_in in X|exact A1]|]. split; [exact A2|]. intros x [<-|X] Y; [apply kept_in in Y; auto|eauto].
  - split; [exact A1|]. split; [constructor; [intros X; apply H2; now apply kept_in in X|exact A2]|]. intros x X [<-|Y]; [apply moved_in in X; auto|eauto].
Qed.
Lemma without_in {A} (x : A) a l : In x (without a l) -> In x l.
Proof. unfold without. rewrite in_app_iff. intros H. rewrite <- (firstn_skipn a l). apply in_app_iff. destruct H as [H|H]; auto. right. destruct (skipn a l) eqn:E. - assert (skipn (S a) l = []) as Z. { apply skipn_all2. assert (length (skipn a l) = 0) by now rewrite E. rewrite skipn_length in H0. lia. } rewrite Z in H. contradiction. - replace (skipn (S a) l) with l0 in H; [now right|]. clear H. revert l E. induction a as [|a IH]; intros [|z l] E; cbn in *; try discriminate; [congruence|]. now apply IH. Qed.
Lemma without_spec {A} (x : A) : forall a l, nth_error l a = Some x -> exists b c, l = b ++ x :: c /\ without a l = b ++ c /\ length b = a.
Proof. unfold without. induction a as [|a IH]; intros [|y l] H; cbn in *; try discriminate; [injection H as ->; exists [], l; auto|]. destruct (IH l H) as (b & c & -> & E & L). exists (y :: b), c. cbn. split; [reflexivity|]. split; [|now rewrite L]. destruct (b ++ x :: c) eqn:Z; [now destruct b|]. cbn in *. now rewrite E. Qed.

(** ** threads *)
Section T.
  Variable n : nat.
  Record Thr (on : nat -> bool) (nx : nat) (th : nat -> list nat) : Prop := {
    t_on : forall t j, In j (th t) -> j < nx /\ on j = true;
    t_is : forall j, j < nx -> on j = true -> exists t, t <= n /\ In j (th t);
    t_one : forall t t' j, In j (th t) -> In j (th t') -> t = t';
    t_nd : forall t, NoDup (th t);
    t_out : forall t, n < t -> th t = [] }.
  Lemma t_here on nx th t i l : Thr on nx th -> th t = i :: l -> t <= n.
  Proof. intros H E. destruct (Nat.le_gt_cases t n) as [|X]; auto. rewrite (t_out _ _ _ H t X) in E. discriminate. Qed.
  Lemma Thr_ext on on' nx th : Thr on nx th -> (forall j, j < nx -> on' j = on j) -> Thr on' nx th.
  Proof. intros [A B C D E] H. split; auto; [intros t j Hj; destruct (A t j Hj) as [X Y]; rewrite H by auto; auto|intros j Hj; rewrite H by auto; auto]. Qed.
  Lemma Thr_pop on on' nx th th' t i l : Thr on nx th -> th t = i :: l -> (forall j, j < nx -> j <> i -> on' j = on j) -> on' i = false -> (forall u, th' u = if u =? t then l else th u) -> Thr on' nx th'.
  Proof.
    intros [A B C D E] Et H Hi HE. pose proof (D t) as Nd. rewrite Et in Nd. inversion Nd as [|? ? Ni Nl]; subst. assert (Hin : In i (th t)) by (rewrite Et; now left).
    assert (Sub : forall u j, In j (th' u) -> In j (th u) /\ j <> i). { intros u j. rewrite HE. destruct (Nat.eqb_spec u t) as [->|N]; [rewrite Et; intros X; split; [now right|intros ->; contradiction]|]. intros X. split; [exact X|]. intros ->. apply N. exact (C u t i X Hin). }
    split.
    - intros u j Hj. destruct (Sub u j Hj) as [X N]. destruct (A u j X) as [Y Z]. rewrite H by auto. auto.
    - intros j Hj Ho. destruct (Nat.eq_dec j i) as [->|N]; [congruence|]. rewrite H in Ho by auto. destruct (B j Hj Ho) as (u & Hu & X). exists u. split; [exact Hu|]. rewrite HE. destruct (Nat.eqb_spec u t) as [->|]; [|exact X]. rewrite Et in X. destruct X; [congruence|assumption].
    - intros u u' j Hj Hj'. destruct (Sub u j Hj) as [X _]. destruct (Sub u' j Hj') as [X' _]. exact (C u u' j X X').
    - intros u. rewrite HE. destruct (u =? t); auto.
    - intros u Hu. rewrite HE. destruct (Nat.eqb_spec u t) as [->|]; [|auto]. rewrite E in Et by auto. discriminate.
  Qed.
  Lemma Thr_push on on' nx th th' t i l : Thr on nx th -> th t = i :: l -> (forall j, j < nx -> on' j = on j) -> on' nx = true -> (forall u, th' u = if u =? t then nx :: i :: l else th u) -> Thr on' (S nx) th'.
  Proof.
    intros HT Et H Hi HE. pose proof (t_here _ _ _ _ _ _ HT Et) as Ht. destruct HT as [A B C D E].
    assert (Sub : forall u j, In j (th' u) -> In j (th u) \/ (j = nx /\ u = t)). { intros u j. rewrite HE. destruct (Nat.eqb_spec u t) as [->|N]; [rewrite Et; intros [<-|X]; auto|auto]. }
    assert (Fresh : forall u, ~ In nx (th u)) by (intros u X; destruct (A u nx X); lia).
    split.
    - intros u j Hj. destruct (Sub u j Hj) as [X|[-> _]]; [|split; [lia|exact Hi]]. destruct (A u j X) as [Y Z]. split; [lia|]. rewrite H by auto. exact Z.
    - intros j Hj Ho. destruct (Nat.eq_dec j nx) as [->|N]; [exists t; split; [exact Ht|]; rewrite HE, Nat.eqb_refl; now left|]. rewrite H in Ho by lia. destruct (B j ltac:(lia) Ho) as (u & Hu & X). exists u. split; [exact Hu|]. rewrite HE. destruct (Nat.eqb_spec u t) as [->|]; [|exact X]. right. now rewrite <- Et.
    - intros u u' j Hj Hj'. destruct (Sub u j Hj) as [X|[Z1 Z2]], (Sub u' j Hj') as [X'|[X1 ->]]; subst; eauto; [destruct (Fresh u X)|destruct (Fresh u' X')].
    - intros u. rewrite HE. destruct (Nat.eqb_spec u t) as [->|]; [|auto]. rewrite <- Et. constructor; auto.
    - intros u Hu. rewrite HE. destruct (Nat.eqb_spec u t); [lia|auto].
  Qed.
  Lemma Thr_new on on' nx th : Thr on nx th -> (forall j, j < nx -> on' j = on j) -> on' nx = false -> Thr on' (S nx) th.
  Proof.
    intros [A B C D E] H Hn. split; auto; [intros t j Hj; destruct (A t j Hj) as [X Y]; split; [lia|]; rewrite H by auto; auto|].
    intros j Hj Ho. destruct (Nat.eq_dec j nx) as [->|N]; [congruence|]. rewrite H in Ho by lia. apply B; [lia|exact Ho].
  Qed.
  Lemma Thr_take on on' nx th th' t i : Thr on nx th -> t <= n -> th t = [] -> i < nx -> on i = false -> (forall j, j < nx -> j <> i -> on' j = on j) -> on' i = true -> (forall u, th' u = if u =? t then [i] else th u) -> Thr on' nx th'.
  Proof.
    intros [A B C D E] Ht Et Hi Off H Hon HE. assert (Fresh : forall u, ~ In i (th u)) by (intros u X; destruct (A u i X); congruence).
    assert (Sub : forall u j, In j (th' u) -> (In j (th u) /\ j <> i) \/ (j = i /\ u = t)). { intros u j. rewrite HE. destruct (Nat.eqb_spec u t) as [->|N]; [intros [<-|[]]; auto|]. intros X. left. split; [exact X|]. intros ->. exact (Fresh u X). }
    split.
    - intros u j Hj. destruct (Sub u j Hj) as [[X N]|[-> _]]; [|auto]. destruct (A u j X) as [Y Z]. rewrite H by auto. auto.
    - intros j Hj Ho. destruct (Nat.eq_dec j i) as [->|N]; [exists t; split; [exact Ht|]; rewrite HE, Nat.eqb_refl; now left|]. rewrite H in Ho by auto. destruct (B j Hj Ho) as (u & Hu & X). exists u. split; [exact Hu|]. rewrite HE. destruct (Nat.eqb_spec u t) as [->|]; [|exact X]. rewrite Et in X. contradiction.
    - intros u u' j Hj Hj'. destruct (Sub u j Hj) as [[X N]|[Z1 Z2]], (Sub u' j Hj') as [[X' N']|[X1 ->]]; subst; eauto; congruence.
    - intros u. rewrite HE. destruct (u =? t); [repeat constructor; intros []|auto].
    - intros u Hu. rewrite HE. destruct (Nat.eqb_spec u t); [lia|auto].
  Qed.
End T.

(** ** sums over tasks *)
Definition total (f : nat -> list nat) (m : nat) : list nat := flat_map f (seq 0 m).
Lemma total_S f m : total f (S m) = total f m ++ f m.
Proof. unfold total. rewrite seq_S, flat_map_app. cbn. now rewrite app_nil_r. Qed.
Lemma total_ext f g m : (forall x, x < m -> f x = g x) -> total f m = total g m.
Proof. intros H. induction m as [|m IH]; [reflexivity|]. rewrite !total_S, IH, H; auto. Qed.
Lemma total_one f g i d : forall m, (forall x, x < m -> x <> i -> g x = f x) -> i < m -> Permutation (f i) (d ++ g i) -> Permutation (total f m) (d ++ total g m).
Proof.
  induction m as [|m IH]; intros H Hi P; [lia|]. rewrite !total_S. destruct (Nat.eq_dec i m) as [->|N].
  - rewrite (total_ext f g m) by (intros x Hx; symmetry; apply H; lia). rewrite P. rewrite !app_assoc. apply Permutation_app_tail, Permutation_app_comm.
  - rewrite (IH ltac:(intros x Hx Nx; apply H; lia) ltac:(lia) P). rewrite (H m) by lia. now rewrite <- app_assoc.
Qed.

(** ** the invariant: [spec] is what a task will return, [owner] who holds its future, [pos] orders tasks before those whose futures they hold *)
Definition onthr (x : status) : bool := match x with Active _ | Suspending _ _ => true | _ => false end.
Definition wst (x : status) : nat := match x with Active _ | Done => 0 | Queued _ | Waiting _ _ | Woken _ _ => 1 | Asleep _ | Suspending _ _ => 2 end.
Definition measure {A} (F : code -> list result -> A) (d : A) (spec : nat -> result) (x : status) (e : list nat) : A :=
  match x with Active c | Queued c | Asleep c => F c (map spec e) | Suspending k j | Waiting k j | Woken k j => F (k (spec j)) (map spec e) | Done => d end.
Section I.
  Variable n : nat.
  Section G.
    Variables (s : state) (spec : nat -> result) (owner pos : nat -> nat).
    Definition awaits (i : nat) (k : result -> code) (j : nat) : Prop := (forall r, wf (length (env s i)) (k r)) /\ j < next s /\ owner j = i /\ pos i < pos j /\ ~ In j (env s i).
    Definition good (i : nat) : Prop :=
      measure meaning (spec i) spec (st s i) (env s i) = spec i /\ (st s i <> Done -> res s i = None) /\
      match st s i with
      | Active c | Queued c | Asleep c => wf (length (env s i)) c
      | Suspending k j => awaits i k j
      | Waiting k j => awaits i k j /\ res s j = None /\ waiter s j = Some i
      | Woken k j => awaits i k j /\ res s j <> None
      | Done => res s i = Some (spec i)
      end /\ NoDup (env s i) /\ forall j, In j (env s i) -> j < next s /\ owner j = i /\ pos i < pos j.
  End G.
  Record Inv (s : state) (spec : nat -> result) (owner pos : nat -> nat) : Prop := {
    i_thr : Thr n (fun i => onthr (st s i)) (next s) (thr s);
    i_good : forall i, i < next s -> good s spec owner pos i;
    i_wait : forall j i, waiter s j = Some i -> i < next s /\ exists k, st s i = Waiting k j;
    i_new : forall j, next s <= j -> res s j = None /\ waiter s j = None;
    i_zero : 0 < next s;
    i_ret : forall r, ret s = Some r -> res s 0 = Some r /\ thr s n = [] }.
  Definition effs (s : state) (spec : nat -> result) : list nat := out s ++ total (fun i => measure effects [] spec (st s i) (env s i)) (next s).
  Definition count (s : state) (spec : nat -> result) : nat := sum_to (next s) (fun i => measure tasks 1 spec (st s i) (env s i)).
  Definition weight (s : state) (spec : nat -> result) : nat := sum_to (next s) (fun i => wst (st s i) + measure cost 0 spec (st s i) (env s i)) + match ret s with None => 1 | Some _ => 0 end.
End I.
