(** C17: how often a coroutine is resumed, and when its result is there (over Model.v). C70: what is reported when a task is used up. *)
From Coq Require Import List Arith Bool Lia.
From Verif.Common Require Import TS.
From Verif.Task Require Import Model Spec Proofs.
Import ListNotations.
#[local] Arguments upd : simpl never.

(** ** what the history says of coroutine [f] *)
Definition is_suspend (f : nat) (e : event) : nat := match e with ESuspend g _ => if Nat.eqb g f then 1 else 0 | _ => 0 end.
Definition is_eager (f : nat) (e : event) : nat := match e with ENewEager _ g => if Nat.eqb g f then 1 else 0 | _ => 0 end.
Definition is_finish (f : nat) (e : event) : nat := match e with EFinish g => if Nat.eqb g f then 1 else 0 | _ => 0 end.
Definition count (p : event -> nat) (l : list event) : nat := list_sum (map p l).
Lemma count_snoc p l e : count p (l ++ [e]) = count p l + p e.
Proof. unfold count. rewrite map_app, list_sum_app. cbn. lia. Qed.

(** ** invariant *)
Definition ok (sus eag fin : nat) (x : option fstate) (r : nat) (done : bool) : Prop :=
  match x with
  | None | Some FNew => r = 0 /\ eag = 0 /\ sus = 0 /\ fin = 0 /\ done = false
  | Some FRun => r + eag = S sus /\ fin = 0 /\ done = false
  | Some FSusp => r + eag = sus /\ fin = 0 /\ done = false
  | Some FGone => if done then r + eag = S sus /\ fin = 1 else r + eag = sus /\ fin = 0
  end.
Definition P (sus eag fin : nat -> nat) (s : state) : Prop := ub s = false -> forall f, ok (sus f) (eag f) (fin f) (frames s f) (resumes s f) (result_set s f).

Section Fixed.
  Variables sus eag fin : nat -> nat.
  Lemma P_obj s i o : P sus eag fin s -> P sus eag fin (set_obj s i o).
  Proof. intros H. exact H. Qed.
  Lemma P_term s : P sus eag fin s -> P sus eag fin (set_term s).
  Proof. intros H. exact H. Qed.
  Lemma P_stop s : P sus eag fin s -> P sus eag fin (set_stop s).
  Proof. intros H. exact H. Qed.
  Lemma P_ub s : P sus eag fin (set_ub s).
  Proof. intros H. discriminate. Qed.
  Lemma P_resume s h : P sus eag fin s -> P sus eag fin (coro_resume s h).
  Proof.
    intros H. unfold coro_resume. destruct h as [f|]; [|apply P_ub]. destruct (frames s f) as [[]|] eqn:E; try apply P_ub; intros Hu g; specialize (H Hu g); cbn [frames resumes result_set inc_start inc_resume set_frame] in *;
      (destruct (Nat.eq_dec g f) as [->|N]; [rewrite !upd_same; rewrite E in H; cbn in *; intuition lia|rewrite !upd_other by exact N; exact H]).
  Qed.
  Lemma P_destroy s h : P sus eag fin s -> P sus eag fin (hdestroy s h).
  Proof.
    intros H. unfold hdestroy. destruct (holds h); [|exact H]. unfold coro_destroy. destruct (m_h h) as [f|]; [|apply P_ub]. destruct (frames s f) as [[]|] eqn:E; try apply P_ub; intros Hu g; specialize (H Hu g);
      cbn [frames resumes result_set inc_destroy set_frame] in *;
      (destruct (Nat.eq_dec g f) as [->|N]; [rewrite !upd_same; rewrite E in H; cbn in *; destruct (result_set s f); intuition (try discriminate; lia)|rewrite !upd_other by exact N; exact H]).
  Qed.
  Lemma P_enqueue s h q : P sus eag fin s -> P sus eag fin (enqueue s h q).
  Proof. intros H. unfold enqueue. destruct (hbool h); [destruct (stop_now s); [now apply P_term|now apply P_obj]|now apply P_destroy]. Qed.
End Fixed.

Lemma P_ext s1 e1 f1 s2 e2 f2 s : (forall f, s1 f = s2 f) -> (forall f, e1 f = e2 f) -> (forall f, f1 f = f2 f) -> P s1 e1 f1 s -> P s2 e2 f2 s.
Proof. intros A B C H Hu f. rewrite <- A, <- B, <- C. exact (H Hu f). Qed.

Definition Pl (l : list event) (s : state) : Prop := P (fun f => count (is_suspend f) l) (fun f => count (is_eager f) l) (fun f => count (is_finish f) l) s.
Lemma Pl_plain l e s : (forall f, is_suspend f e = 0) -> (forall f, is_eager f e = 0) -> (forall f, is_finish f e = 0) -> Pl l s -> Pl (l ++ [e]) s.
Proof. intros A B C. apply P_ext; intros f; rewrite count_snoc; [rewrite A|rewrite B|rewrite C]; lia. Qed.
#[local] Hint Resolve P_obj P_term P_stop P_ub P_resume P_destroy P_enqueue : tk.

Lemma Pl_step l s e s' : ub s = false -> Pl l s -> next s e = Some s' -> Pl (l ++ [e]) s'.
Proof.
  intros Hu H Hn. unfold next in Hn. destruct (step s e) as [[s1 o]|] eqn:Hs; [|discriminate]. cbn in Hn. injection Hn as ->. unfold step in Hs.
  rewrite Hu in Hs. cbn [orb] in Hs. destruct (terminated s); [discriminate|].
  destruct e.
  1:{ destruct (is_none (objs s i) && is_none (frames s f)) eqn:E; [|discriminate]. injection Hs as <- _. apply Pl_plain; try reflexivity. apply andb_true_iff in E as [_ E]. destruct (frames s f) eqn:Ef; [discriminate|].
      intros _ g. specialize (H Hu g). cbn [frames resumes result_set set_obj set_frame]. destruct (Nat.eq_dec g f) as [->|N]; [rewrite upd_same; rewrite Ef in H; exact H|rewrite upd_other by exact N; exact H]. }
  1:{ destruct (is_none (objs s i) && is_none (frames s f)) eqn:E; [|discriminate]. injection Hs as <- _. apply andb_true_iff in E as [_ E]. destruct (frames s f) eqn:Ef; [discriminate|].
      intros _ g. specialize (H Hu g). cbn [frames resumes result_set set_obj set_frame inc_start]. rewrite !count_snoc. cbn [is_suspend is_eager is_finish].
      destruct (Nat.eqb_spec f g) as [->|N]; [rewrite upd_same; rewrite Ef in H; cbn in *; intuition lia|rewrite upd_other by congruence; rewrite !Nat.add_0_r; exact H]. }
  all: try (apply Pl_plain; [reflexivity|reflexivity|reflexivity|]; unfold Pl in *).
  - destruct (is_none (objs s i)); [|discriminate]. destruct (objs s j) as [[|h|]|]; try discriminate; injection Hs as <- _; auto with tk.
  - destruct (objs s i) as [[hi| |]|]; try discriminate. destruct (objs s j) as [[hj0| |]|]; try discriminate. cbv zeta in Hs. destruct (objs _ j) as [[hj| |]|]; try discriminate. injection Hs as <- _. auto with tk.
  - destruct (objs s i); [|discriminate]. injection Hs as <- _. auto with tk.
  - destruct (is_none (objs s i)); [|discriminate]. destruct (objs s j) as [[| |]|]; try discriminate. injection Hs as <- _. auto with tk.
  - destruct (is_none (objs s q)); [|discriminate]. destruct (objs s j) as [[| |[|] h [f|]]|]; try discriminate; try (injection Hs as <- _; auto with tk; fail).
    destruct (result_set s f); [injection Hs as <- _; exact H|]. destruct (hbool h); injection Hs as <- _; auto with tk.
  - destruct (is_none (objs s q)); [|discriminate]. destruct (objs s j) as [[| |[|] h fut]|]; try discriminate; [injection Hs as <- _; auto with tk|].
    destruct (hbool h); [|injection Hs as <- _; exact H]. destruct fut as [f|]; [|injection Hs as <- _; auto with tk]. cbv zeta in Hs. destruct (result_set s f); injection Hs as <- _; auto with tk.
  - destruct (is_none (objs s q)); [|discriminate]. destruct (objs s j) as [[| |eg h [f|]]|]; try discriminate; injection Hs as <- _; auto with tk.
  - destruct (objs s i) as [[h| |]|]; try discriminate. injection Hs as <- _. unfold call. auto with tk.
  - destruct (is_none (objs s q)); [|discriminate]. destruct (objs s i) as [[h| |]|]; try discriminate. injection Hs as <- _. auto with tk.
  - destruct (is_none (objs s q)); [|discriminate]. destruct (objs s i) as [[h| |]|]; try discriminate. destruct (hbool h); injection Hs as <- _; auto with tk.
  - destruct (objs s q) as [[|h|]|]; try discriminate. destruct (stop_now s); [discriminate|]. injection Hs as <- _. unfold call. auto with tk.
  - destruct (is_none (objs s i)); [|discriminate]. destruct (frames s f) as [[]|] eqn:Ef; try discriminate. injection Hs as <- _.
    intros _ g. specialize (H Hu g). cbn [frames resumes result_set set_obj set_frame]. rewrite !count_snoc. cbn [is_suspend is_eager is_finish].
    destruct (Nat.eqb_spec f g) as [->|N]; [rewrite upd_same; rewrite Ef in H; cbn in *; intuition lia|rewrite upd_other by congruence; rewrite !Nat.add_0_r; exact H].
  - destruct (frames s f) as [[]|]; try discriminate. injection Hs as <- _. auto with tk.
  - destruct (frames s f) as [[]|] eqn:Ef; try discriminate. injection Hs as <- _.
    intros _ g. specialize (H Hu g). cbn [frames resumes result_set set_result inc_destroy set_frame]. rewrite !count_snoc. cbn [is_suspend is_eager is_finish].
    destruct (Nat.eqb_spec f g) as [->|N]; [rewrite !upd_same; rewrite Ef in H; cbn in *; intuition lia|rewrite !upd_other by congruence; rewrite !Nat.add_0_r; exact H].
  - injection Hs as <- _. auto with tk.
Qed.
Lemma Pl_run l : forall s, run_all next allowed init l -> run next init l = Some s -> Pl l s.
Proof.
  assert (G : forall l2 l1 s0 s, ub s0 = false -> Pl l1 s0 -> run next s0 l2 = Some s -> Pl (l1 ++ l2) s).
  { induction l2 as [|e l2 IH]; intros l1 s0 s Hu H Hr; cbn [run] in Hr; [injection Hr as <-; now rewrite app_nil_r|]. destruct (next s0 e) as [s1|] eqn:E; [|discriminate].
    destruct (ub s1) eqn:Eu.
    - destruct l2 as [|e2 l2]; cbn [run] in Hr; [injection Hr as <-; now apply (Pl_step _ s0)|]. unfold next at 1, step at 1 in Hr. rewrite Eu in Hr. cbn in Hr. discriminate.
    - change (e :: l2) with ([e] ++ l2). rewrite app_assoc. apply (IH _ s1); auto. now apply (Pl_step _ s0). }
  intros s _ Hr. apply (G l [] init s); auto. intros _ f. cbn. auto.
Qed.

(** C17: a coroutine is resumed exactly once for every time it was suspended (and once to start it, unless it is an eager one, which starts by itself): while it
    runs, all its suspensions have been answered; while it is suspended, all but the last. Its result is there exactly if it ran to its end, which happens at
    most once. *)
Theorem C17_resumed_once_per_suspension : forall l s f, run_all next allowed init l -> run next init l = Some s ->
  let suspended := count (is_suspend f) l in let eager := count (is_eager f) l in let finished := count (is_finish f) l in
  (frames s f = Some FRun -> resumes s f + eager = S suspended) /\
  (frames s f = Some FSusp -> resumes s f + eager = suspended) /\
  (frames s f = Some FNew -> resumes s f = 0) /\
  (frames s f = Some FGone -> resumes s f + eager = suspended + finished) /\
  finished <= 1 /\ (result_set s f = true <-> finished = 1) /\ (finished = 1 -> frames s f = Some FGone).
Proof.
  intros l s f HA Hr. pose proof (inv_run l s HA Hr) as HI. pose proof (Pl_run l s HA Hr (i_ub _ _ HI) f) as H. cbv zeta. unfold ok in H.
  destruct (frames s f) as [[]|]; repeat split; try congruence; try (intros; discriminate); try lia; destruct (result_set s f); try lia; try (intros; lia); try reflexivity;
    destruct H as (? & H); try lia; intuition (try congruence; try lia).
Qed.
Print Assumptions C17_resumed_once_per_suspension.
