(** Proofs for C148: every future of a program goes through a run of Future/Model.v: the steps the program takes with it are possible there, in the same order, and give the same result. *)
From Coq Require Import List Arith Bool Lia Permutation.
From Verif.Common Require Import TS Sum.
From Verif.Fork Require Import Spec Model Proofs Steps Steps2 Runs Futures.
From Verif Require Future.Model Future.Spec.
Import ListNotations.

(** ** the future *)
Notation fstep := (Future.Model.step 1 false).
Definition leads (fs : Future.Model.state) (evs : list Future.Model.event) (fs' : Future.Model.state) (log : list Future.Spec.obs) : Prop := run fstep fs evs = Some fs' /\ trace fstep Future.Spec.observe fs evs = log.
Ltac fut0 := repeat (rewrite ?upd_same; cbn).
Lemma f_set fs r ph : future_at fs None ph -> exists fs', leads fs [Future.Model.ESet r 0] fs' [Future.Spec.Fulfilled r] /\ future_at fs' (Some r) (match ph with Wait => Woke | p => p end).
Proof.
  intros (A & B & C). destruct fs as [ff w fu fl az]. cbn in A, B. subst az fl. unfold leads. cbn [run trace Future.Model.step Future.Model.asserted Future.Model.fulfilled Future.Spec.observe].
  destruct ph; cbn in C; [destruct C as (-> & -> & C)|destruct C as (-> & -> & C)|destruct C as (_ & -> & -> & C)|destruct C as (X & _); congruence|destruct C as (X & _); congruence];
    cbn [Future.Model.none_blocked Future.Model.futs]; rewrite C; cbn; unfold Future.Model.set_value; cbn; fut0; rewrite ?C; cbn; fut0; eexists; (split; [split; reflexivity|]); unfold future_at; fut0; rewrite ?C; cbn; repeat split; auto; try congruence.
Qed.
Lemma f_await_no fs : future_at fs None Held -> exists fs', leads fs [Future.Model.EAwait 0] fs' [] /\ future_at fs' None Susp.
Proof.
  intros (A & B & C & D & E). destruct fs as [ff w fu fl az]. cbn in A, B, C, D, E. subst. unfold leads. cbn. rewrite E. cbn. unfold Future.Model.fetch. cbn. rewrite E. fut0. eexists. split; [split; reflexivity|]. unfold future_at. fut0. auto 10.
Qed.
Lemma f_await_yes fs r : future_at fs (Some r) Held -> exists fs', leads fs [Future.Model.EAwait 0] fs' [Future.Spec.Got 0 (Future.Spec.as_outcome r)] /\ future_at fs' (Some r) Used.
Proof.
  intros (A & B & C & D & E). destruct fs as [ff w fu fl az]. cbn in A, B, C, D, E. subst. unfold leads. cbn. rewrite E. cbn. unfold Future.Model.get_nonblk, Future.Model.fetch. cbn. rewrite E. fut0. eexists. split; [split; [reflexivity|]|].
  - fut0. destruct r; reflexivity.
  - unfold future_at. fut0. repeat split; congruence.
Qed.
Lemma f_suspend fs r : future_at fs r Susp -> exists fs', leads fs [Future.Model.ESuspend 0] fs' [] /\ future_at fs' r (match r with None => Wait | Some _ => Woke end).
Proof.
  intros (A & B & C & D & E). destruct fs as [ff w fu fl az]. cbn in A, B, C, D, E. subst. unfold leads. cbn. rewrite E. cbn. unfold Future.Model.set_waiting. cbn. destruct r; cbn; (eexists; split; [split; reflexivity|]); unfold future_at; fut0; rewrite ?E; cbn; repeat split; congruence.
Qed.
Lemma f_resume fs r : future_at fs (Some r) Woke -> exists fs', leads fs [Future.Model.EResume 0] fs' [Future.Spec.Got 0 (Future.Spec.as_outcome r)] /\ future_at fs' (Some r) Used.
Proof.
  intros (A & B & _ & C & D & E). destruct fs as [ff w fu fl az]. cbn in A, B, C, D, E. subst. unfold leads. cbn. rewrite E. cbn. unfold Future.Model.get_nonblk, Future.Model.fetch. cbn. rewrite E. fut0. eexists. split; [split; [reflexivity|]|].
  - destruct r; reflexivity.
  - unfold future_at. fut0. repeat split; congruence.
Qed.
Lemma f_get fs r : future_at fs (Some r) Held -> exists fs', leads fs [Future.Model.EGet 0; Future.Model.EGetRest 0] fs' [Future.Spec.Got 0 (Future.Spec.as_outcome r)] /\ future_at fs' (Some r) Used.
Proof.
  intros (A & B & C & D & E). destruct fs as [ff w fu fl az]. cbn in A, B, C, D, E. subst. unfold leads. cbn [run trace Future.Model.step Future.Model.asserted Future.Model.futs Future.Spec.observe Nat.ltb Nat.leb]. rewrite E. cbn [Future.Model.at_ Future.Model.m_has_got Future.Model.ss_ff]. unfold Future.Model.goto, Future.Model.set_fut. cbn [Future.Model.ss_ff Future.Model.ss_waiting Future.Model.futs Future.Model.fulfilled Future.Model.asserted]. rewrite E. cbn [Future.Model.m_ff Future.Model.m_has_got]. cbn. unfold Future.Model.get_nonblk, Future.Model.fetch. fut0. eexists. split; [split; [reflexivity|]|].
  - fut0. destruct r; reflexivity.
  - unfold future_at. fut0. repeat split; congruence.
Qed.

(** ** the program *)
Definition nobody (s : state) : Prop := forall i p, i < next s -> ~ has s i 0 p.
Definition sim (s s' : state) (j : nat) : Prop := forall ph fs, at_phase s j ph -> future_at fs (omap (res s j)) ph ->
  exists evs fs' ph' log, leads fs evs fs' log /\ at_phase s' j ph' /\ future_at fs' (omap (res s' j)) ph' /\ seen (omap (res s' j)) ph' = seen (omap (res s j)) ph ++ log.
Definition back (s s' : state) (j : nat) : Prop := forall i p, i < next s' -> has s' i j p -> exists i' p', i' < next s /\ has s i' j p'.
Section R.
  Variable n : nat.
  Notation Inv := (Inv n).
  Ltac fields := cbn [st env res waiter next thr ret out] in *.
  Lemma has_pos s spec owner pos i j p : Inv s spec owner pos -> i < next s -> has s i j p -> j < next s /\ owner j = i /\ pos i < pos j.
  Proof.
    intros HI Hi H. destruct (i_good _ _ _ _ _ HI i Hi) as (_ & _ & G & _ & E). destruct p; cbn in H; [auto| | | |contradiction]; destruct H as [k H]; rewrite H in G; unfold awaits in G; tauto.
  Qed.
  Lemma has_one s spec owner pos i i' j p p' : Inv s spec owner pos -> i < next s -> i' < next s -> has s i j p -> has s i' j p' -> i = i' /\ p = p'.
  Proof.
    intros HI Hi Hi' H H'. destruct (has_pos _ _ _ _ _ _ _ HI Hi H) as (_ & O & _). destruct (has_pos _ _ _ _ _ _ _ HI Hi' H') as (_ & O' & _). split; [congruence|]. assert (i' = i) as -> by congruence.
    destruct (i_good _ _ _ _ _ HI i Hi) as (_ & _ & G & _). unfold awaits in G. destruct p, p'; cbn in H, H'; try reflexivity; try contradiction; repeat match goal with X : exists k, _ |- _ => destruct X as [? X] end; try congruence;
      match goal with X : st _ _ = _ |- _ => rewrite X in G end; tauto.
  Qed.
  Lemma at_has s spec owner pos i j p ph : Inv s spec owner pos -> nobody s -> i < next s -> has s i j p -> at_phase s j ph -> ph = p.
  Proof.
    intros HI Z Hi H A. assert (p <> Used) by (intros ->; exact H). destruct ph; cbv beta iota delta [at_phase] in A; try (destruct A as [(_ & -> & _)|(i' & Hi' & A)]; [destruct (Z i p Hi H)|exact (proj2 (has_one _ _ _ _ _ _ _ _ _ HI Hi' Hi A H))]). destruct (A p) as [_ B]. destruct (B i Hi H).
  Qed.
  Lemma at_iff s s' j : (forall p, main_has s' j p <-> main_has s j p) -> (forall i p, i < next s' -> has s' i j p -> exists i', i' < next s /\ has s i' j p) ->
    (forall i p, i < next s -> has s i j p -> exists i', i' < next s' /\ has s' i' j p) -> res s' j = res s j -> sim s s' j /\ back s s' j.
  Proof.
    intros M B F R. split.
    - intros ph fs A Fu. exists [], fs, ph, []. split; [split; reflexivity|]. rewrite R. split; [|split; [exact Fu|now rewrite app_nil_r]].
      destruct ph; cbv beta iota delta [at_phase] in A |- *; try (destruct A as [A|(i & Hi & A)]; [left; now apply M|right; exact (F i _ Hi A)]).
      intros p. destruct (A p) as [A1 A2]. split; [rewrite M; exact A1|]. intros i Hi H. destruct (B i p Hi H) as (i' & Hi' & H'). exact (A2 i' Hi' H').
    - intros i p Hi H. destruct (B i p Hi H) as (i' & X). exists i', p. exact X.
  Qed.
  (** only task [i] changes *)
  Lemma at_local s s' i j : local s s' i -> (forall p, has s' i j p <-> has s i j p) -> sim s s' j /\ back s s' j.
  Proof.
    intros [A B C D E] H. assert (Hall : forall x p, has s' x j p <-> has s x j p). { intros x p. destruct (Nat.eq_dec x i) as [->|N]; [auto|]. unfold has. rewrite (A x N), (B x N). reflexivity. }
    apply at_iff; [unfold main_has; rewrite E; reflexivity| | |apply C]; intros x p Hx X; exists x; rewrite D in *; split; auto; now apply Hall.
  Qed.
  (** task [i], which is in phase [p] with [j], goes to phase [p'] with it *)
  Lemma at_moves s s' spec owner pos i j p p' : Inv s spec owner pos -> nobody s -> local s s' i -> i < next s -> has s i j p -> (forall q, has s' i j q <-> q = p' /\ p' <> Used) ->
    (forall fs, future_at fs (omap (res s j)) p -> exists evs fs' log, leads fs evs fs' log /\ future_at fs' (omap (res s j)) p' /\ seen (omap (res s j)) p' = seen (omap (res s j)) p ++ log) -> sim s s' j /\ back s s' j.
  Proof.
    intros HI Z [A B C D E] Hi H H' HF. assert (Hoth : forall x q, x <> i -> has s' x j q -> has s x j q) by (intros x q N; unfold has; now rewrite (A x N), (B x N)).
    assert (J : j <> 0) by (intros ->; exact (Z i p Hi H)). split.
    - intros ph fs P Fu. rewrite (at_has _ _ _ _ _ _ _ _ HI Z Hi H P) in Fu |- *. destruct (HF fs Fu) as (evs & fs' & log & L & F & S). exists evs, fs', p', log. rewrite C. split; [exact L|]. split; [|split; [exact F|exact S]].
      assert (G : forall q, ~ main_has s' j q /\ forall x, x < next s' -> has s' x j q -> x = i). { intros q. split; [intros (_ & X & _); exact (J X)|]. intros x Hx X. destruct (Nat.eq_dec x i) as [|N]; auto. rewrite D in Hx. apply (Hoth x q N) in X. exact (proj1 (has_one _ _ _ _ _ _ _ _ _ HI Hx Hi X H)). }
      destruct p'; cbv beta iota delta [at_phase]; try (right; exists i; rewrite D; split; [exact Hi|]; apply H'; split; [reflexivity|discriminate]).
      intros q. destruct (G q) as [G1 G2]. split; [exact G1|]. intros x Hx X. rewrite (G2 x Hx X) in X. apply H' in X. tauto.
    - intros x q Hx X. rewrite D in Hx. destruct (Nat.eq_dec x i) as [->|N]; [exists i, p; auto|]. exists x, q. auto.
  Qed.
  Lemma has_active s i j p c : st s i = Active c -> has s i j p -> p = Held /\ In j (env s i).
  Proof. intros A H. destruct p; cbn in H; auto; try contradiction; destruct H as [k H]; congruence. Qed.
  Lemma has_env s s' i : env s' i = env s i -> (forall j p, p <> Held -> ~ has s i j p) -> (forall j p, p <> Held -> ~ has s' i j p) -> forall j p, has s' i j p <-> has s i j p.
  Proof. intros E A B j p. destruct p; [cbn; now rewrite E| | | |]; split; intros X; (exfalso; first [eapply A; [|exact X]; discriminate|eapply B; [|exact X]; discriminate]). Qed.
  Definition plain (x : status) : Prop := match x with Suspending _ _ | Waiting _ _ | Woken _ _ => False | _ => True end.
  Lemma has_plain s i : plain (st s i) -> forall j p, p <> Held -> ~ has s i j p.
  Proof. intros P j p N H. destruct p; cbn in H; try congruence; try contradiction; destruct H as [k H]; rewrite H in P; exact P. Qed.
  Lemma sim_plain s s' i : local s s' i -> env s' i = env s i -> plain (st s i) -> plain (st s' i) -> forall j, sim s s' j /\ back s s' j.
  Proof. intros L E A B j. apply (at_local s s' i j L). apply has_env; auto; now apply has_plain. Qed.

  Lemma without_iff a (l : list nat) x y : NoDup l -> nth_error l a = Some y -> (In x (without a l) <-> In x l /\ x <> y).
  Proof.
    intros Nd N. destruct (without_spec y a l N) as (b & c & -> & -> & _). apply NoDup_remove in Nd as [_ Nd]. rewrite !in_app_iff in *. cbn. split.
    - intros X. split; [tauto|]. intros ->. auto.
    - intros [[X|[X|X]] Y]; auto. congruence.
  Qed.
  Lemma sim_await s spec owner pos t i l a k j0 s' : Inv s spec owner pos -> nobody s -> thr s t = i :: l -> st s i = Active (Await a k) -> nth_error (env s i) a = Some j0 ->
    s' = St (upd (st s) i (match res s j0 with Some r => Active (k r) | None => Suspending k j0 end)) (upd (env s) i (without a (env s i))) (res s) (waiter s) (next s) (thr s) (ret s) (out s) -> forall j, sim s s' j /\ back s s' j.
  Proof.
    intros HI Z Ht A N -> j. destruct (on_top _ _ _ _ _ _ _ _ HI Ht) as (Hi & _ & _). destruct (i_good _ _ _ _ _ HI i Hi) as (_ & _ & _ & Nd & _).
    assert (L : local s (St (upd (st s) i (match res s j0 with Some r => Active (k r) | None => Suspending k j0 end)) (upd (env s) i (without a (env s i))) (res s) (waiter s) (next s) (thr s) (ret s) (out s)) i) by (split; fields; auto; intros; rewrite ?updE; destruct (Nat.eqb_spec j1 i); congruence).
    destruct (Nat.eq_dec j j0) as [->|Nj].
    - apply (at_moves s _ spec owner pos i j0 Held (match res s j0 with Some _ => Used | None => Susp end) HI Z L Hi); [eapply nth_error_In; eassumption| |].
      + intros q. destruct q; cbn; rewrite ?upd_same, ?(without_iff a _ _ _ Nd N); destruct (res s j0); (split; [try intros [k0 X]; try intros X; try congruence; try tauto; try (split; [reflexivity|discriminate])|intros [X Y]; try discriminate; try congruence]); eauto; tauto.
      + intros fs Fu. destruct (res s j0) as [r|]; cbn in Fu |- *; [destruct (f_await_yes fs _ Fu) as (fs' & X & Y)|destruct (f_await_no fs Fu) as (fs' & X & Y)]; eauto 10.
    - apply (at_local s _ i j L). intros q. destruct q; cbn; rewrite ?upd_same, ?A; [rewrite (without_iff a _ _ _ Nd N); tauto| | | |reflexivity]; (split; intros [k0 X]; try congruence; destruct (res s j0); congruence).
  Qed.
  Lemma sim_suspend s spec owner pos t i l k j0 s' : Inv s spec owner pos -> nobody s -> thr s t = i :: l -> st s i = Suspending k j0 -> local s s' i -> env s' i = env s i ->
    st s' i = match res s j0 with Some _ => Woken k j0 | None => Waiting k j0 end -> forall j, sim s s' j /\ back s s' j.
  Proof.
    intros HI Z Ht A L Ee Es j. destruct (on_top _ _ _ _ _ _ _ _ HI Ht) as (Hi & _ & _). destruct (i_good _ _ _ _ _ HI i Hi) as (_ & _ & G & _). rewrite A in G. destruct G as (_ & _ & _ & _ & Ni).
    destruct (Nat.eq_dec j j0) as [->|Nj].
    - apply (at_moves s s' spec owner pos i j0 Susp (match res s j0 with Some _ => Woke | None => Wait end) HI Z L Hi); [exists k; exact A| |].
      + intros q. destruct q; cbn; rewrite ?Ee, ?Es; destruct (res s j0); (split; [try intros [k0 X]; try intros X; try congruence; try tauto; try (split; [reflexivity|discriminate])|intros [X Y]; try discriminate; try congruence]); eauto; tauto.
      + intros fs Fu. destruct (f_suspend fs _ Fu) as (fs' & X & Y). destruct (res s j0) as [r|]; cbn in Fu, Y |- *; eexists _, _, []; (split; [exact X|]); (split; [exact Y|reflexivity]).
    - apply (at_local s s' i j L). intros q. destruct q; cbn; rewrite ?Ee, ?Es, ?A; [reflexivity| | | |reflexivity]; (split; intros [k0 X]; try congruence; destruct (res s j0); congruence).
  Qed.
  Lemma sim_resume s spec owner pos i k j0 r s' : Inv s spec owner pos -> nobody s -> i < next s -> st s i = Woken k j0 -> res s j0 = Some r -> local s s' i -> env s' i = env s i -> st s' i = Active (k r) -> forall j, sim s s' j /\ back s s' j.
  Proof.
    intros HI Z Hi A R L Ee Es j. destruct (i_good _ _ _ _ _ HI i Hi) as (_ & _ & G & _). rewrite A in G. destruct G as ((_ & _ & _ & _ & Ni) & _).
    destruct (Nat.eq_dec j j0) as [->|Nj].
    - apply (at_moves s s' spec owner pos i j0 Woke Used HI Z L Hi); [exists k; exact A| |].
      + intros q. destruct q; cbn; rewrite ?Ee, ?Es; (split; [try intros [k0 X]; try intros X; try congruence; try tauto|intros [X Y]; congruence]).
      + intros fs Fu. rewrite R in *. cbn in Fu |- *. destruct (f_resume fs _ Fu) as (fs' & X & Y). eauto 10.
    - apply (at_local s s' i j L). intros q. destruct q; cbn; rewrite ?Ee, ?Es, ?A; [reflexivity| | | |reflexivity]; (split; intros [k0 X]; congruence).
  Qed.
  Lemma moved_kept {A} (x : A) : forall m l, In x l <-> In x (moved m l) \/ In x (kept m l).
  Proof. induction m as [|[] m IH]; intros [|y l]; cbn; try tauto; rewrite (IH l); tauto. Qed.
  Lemma sim_fork s spec owner pos t i l e mask c k s' : Inv s spec owner pos -> thr s t = i :: l -> st s i = Active (Fork e mask c k) ->
    s' = St (upd (upd (st s) i (Active k)) (next s) (if e then Active c else Queued c)) (upd (upd (env s) i (kept mask (env s i) ++ [next s])) (next s) (moved mask (env s i))) (res s) (waiter s) (S (next s)) (upd (thr s) t (if e then next s :: i :: l else i :: l)) (ret s) (out s) ->
    forall j, j < next s -> sim s s' j /\ back s s' j.
  Proof.
    intros HI Ht A -> j Hj. destruct (on_top _ _ _ _ _ _ _ _ HI Ht) as (Hi & _ & _). apply at_iff; [reflexivity| | |reflexivity]; fields.
    - intros x p Hx X. destruct (Nat.eq_dec x (next s)) as [->|N1].
      + exists i. split; [exact Hi|]. destruct p; cbn in X |- *; rewrite ?upd_same in X; try (destruct X as [k0 X]; destruct e; congruence); try contradiction. now apply moved_in in X.
      + exists x. split; [lia|]. destruct (Nat.eq_dec x i) as [->|N2].
        * destruct p; cbn in X |- *; try contradiction; rewrite upd_other, ?upd_same in X by lia; try (destruct X as [k0 X]; congruence); try contradiction. apply in_app_iff in X as [X|[X|[]]]; [now apply kept_in in X|lia].
        * destruct p; cbn in X |- *; rewrite ?upd_other in X by lia; auto.
    - intros x p Hx X. destruct (Nat.eq_dec x i) as [->|N2].
      + destruct (has_active _ _ _ _ _ A X) as [-> Y]. apply (moved_kept j mask) in Y as [Y|Y]; [exists (next s)|exists i]; (split; [lia|]); cbn; [now rewrite upd_same|]. rewrite upd_other, upd_same by lia. apply in_app_iff. auto.
      + exists x. split; [lia|]. destruct p; cbn in X |- *; rewrite ?upd_other by lia; auto.
  Qed.
  Lemma sim_get s spec owner pos r s' : Inv s spec owner pos -> nobody s -> res s 0 = Some r -> ret s = None -> s' = St (st s) (env s) (res s) (waiter s) (next s) (thr s) (Some r) (out s) -> forall j, sim s s' j /\ back s s' j.
  Proof.
    intros HI Z R E -> j. destruct j as [|j].
    - split; [|intros i p Hi H; destruct (Z i p Hi H)]. intros ph fs P Fu. assert (ph = Held) as ->. { destruct ph; cbv beta iota delta [at_phase] in P; auto; try (destruct P as [(X & _)|(i & Hi & X)]; [discriminate|]). - destruct (Z i Susp Hi X). - destruct (Z i Wait Hi X). - destruct (Z i Woke Hi X). - destruct (P Held) as [X _]. destruct X. split; auto. }
      fields. rewrite R in *. cbn in Fu. destruct (f_get fs _ Fu) as (fs' & X & Y). exists [Future.Model.EGet 0; Future.Model.EGetRest 0], fs', Used, [Future.Spec.Got 0 (Future.Spec.as_outcome (conv r))]. split; [exact X|]. split; [|split; [exact Y|reflexivity]].
      intros p. split; [intros (_ & _ & Q); cbn in Q; discriminate|]. intros i Hi Q. exact (Z i p Hi Q).
    - apply at_iff; auto; [|eauto|eauto]. intros p. split; intros (_ & Q & _); discriminate.
  Qed.
  Lemma sim_finish s spec owner pos t i l c r : Inv s spec owner pos -> nobody s -> thr s t = i :: l -> st s i = Active c -> forall j, sim s (finish s t i l r) j /\ back s (finish s t i l r) j.
  Proof.
    intros HI Z Ht A j. destruct (on_top _ _ _ _ _ _ _ _ HI Ht) as (Hi & _ & _).
    assert (Ri : res s i = None) by (destruct (i_good _ _ _ _ _ HI i Hi) as (_ & Y & _); apply Y; rewrite A; discriminate).
    assert (S1 : forall x, x < next s -> st (finish s t i l r) x = if x =? i then Done else match st s x with Waiting k j' => if j' =? i then Woken k j' else Waiting k j' | y => y end).
    { intros x Hx. unfold finish. fields. destruct (waiter s i) as [w|] eqn:W.
      - destruct (i_wait _ _ _ _ _ HI i w W) as (Hw & k & Sw). assert (w <> i) by congruence. rewrite upd_other, Sw by auto. rewrite !updE. destruct (Nat.eqb_spec x w) as [->|Nw].
        + destruct (Nat.eqb_spec w i); [congruence|]. now rewrite Sw, Nat.eqb_refl.
        + destruct (Nat.eqb_spec x i); [reflexivity|]. destruct (st s x) as [| | | |k' j'| |] eqn:Sx; auto. destruct (Nat.eqb_spec j' i) as [->|]; [|reflexivity]. destruct (i_good _ _ _ _ _ HI x Hx) as (_ & _ & G & _). rewrite Sx in G. destruct G as (_ & _ & G). congruence.
      - rewrite updE. destruct (Nat.eqb_spec x i); [reflexivity|]. destruct (st s x) as [| | | |k' j'| |] eqn:Sx; auto. destruct (Nat.eqb_spec j' i) as [->|]; [|reflexivity]. destruct (i_good _ _ _ _ _ HI x Hx) as (_ & _ & G & _). rewrite Sx in G. destruct G as (_ & _ & G). congruence. }
    assert (E1 : env (finish s t i l r) = env s) by reflexivity.
    set (s' := finish s t i l r) in *. assert (Nx : next s' = next s) by reflexivity. assert (Rt : ret s' = ret s) by reflexivity.
    assert (R' : res s' i = Some r) by (unfold s', finish; fields; apply upd_same). assert (Ro : j <> i -> res s' j = res s j) by (intros; unfold s', finish; fields; now apply upd_other). clearbody s'.
    (* what a task does with the future of [j] before and after *)
    assert (K : forall x p, x < next s -> has s' x j p <-> exists q, has s x j q /\ p = if j =? i then match q with Wait => Woke | q => q end else q).
    { intros x p Hx. split.
      - intros H. destruct p; cbn in H; try contradiction; [exists Held; cbn; rewrite <- E1; destruct (j =? i); now split| | |]; destruct H as [k H]; rewrite (S1 x Hx) in H; destruct (x =? i); try discriminate; destruct (st s x) as [| | |k' j'|k' j'|k' j'|] eqn:Sx; try discriminate; try match type of H with context [?a =? i] => destruct (Nat.eqb_spec a i) end; try discriminate; injection H as -> ->.
        + exists Susp. split; [exists k; exact Sx|]. destruct (j =? i); reflexivity.
        + exists Wait. split; [exists k; exact Sx|]. destruct (Nat.eqb_spec j i); congruence.
        + exists Wait. split; [exists k; exact Sx|]. subst. now rewrite Nat.eqb_refl.
        + exists Woke. split; [exists k; exact Sx|]. destruct (j =? i); reflexivity.
      - intros (q & H & ->). assert (Nq : q <> Held -> x <> i). { intros N ->. destruct q; cbn in H; try congruence; try contradiction; destruct H; congruence. }
        destruct q; cbn in H; try contradiction.
        + destruct (j =? i); cbn; now rewrite E1.
        + destruct H as [k H]. destruct (j =? i); exists k; rewrite (S1 x Hx), H; destruct (Nat.eqb_spec x i); auto; destruct Nq; auto; discriminate.
        + destruct H as [k H]. destruct (j =? i) eqn:J; exists k; rewrite (S1 x Hx), H, J; (destruct (Nat.eqb_spec x i); auto; destruct Nq; auto; discriminate).
        + destruct H as [k H]. destruct (j =? i); exists k; rewrite (S1 x Hx), H; destruct (Nat.eqb_spec x i); auto; destruct Nq; auto; discriminate. }
    destruct (Nat.eqb_spec j i) as [->|Nj].
    - split; [|intros x p Hx H; rewrite Nx in Hx; apply K in H as (q & H & _); [exists x, q; auto|exact Hx]].
      intros ph fs P Fu. rewrite Ri in *. rewrite R'. cbn [omap] in *. destruct (f_set fs (conv r) ph Fu) as (fs' & X & Y).
      exists [Future.Model.ESet (conv r) 0], fs', (match ph with Wait => Woke | q => q end), [Future.Spec.Fulfilled (conv r)]. split; [exact X|]. split; [|split; [exact Y|]].
      + destruct ph; cbv beta iota delta [at_phase] in P |- *; try (destruct P as [P|(x & Hx & P)]; [left; unfold main_has in *; rewrite Rt; try exact P; destruct P; discriminate|right; exists x; rewrite Nx; split; [exact Hx|]; apply (K x _ Hx); eexists; split; [exact P|reflexivity]]).
        destruct Fu as (_ & _ & Fu & _). congruence.
      + destruct ph; try reflexivity. destruct Fu as (_ & _ & Fu & _). congruence.
    - apply at_iff; [unfold main_has; now rewrite Rt| | |exact (Ro Nj)].
      + intros x p Hx H. rewrite Nx in Hx. apply K in H as (q & H & ->); [exists x; auto|exact Hx].
      + intros x p Hx H. exists x. rewrite Nx. split; [exact Hx|]. apply (K x p Hx). eauto.
  Qed.
  Lemma step_sim s e s' spec owner pos : Inv s spec owner pos -> nobody s -> step n s e = Some s' -> forall j, j < next s -> sim s s' j /\ back s s' j.
  Proof.
    intros HI Z. destruct e as [t|t i|i|]; cbn [step].
    - destruct (thr s t) as [|i l] eqn:E; [discriminate|]. destruct (st s i) as [c|c|c|k j|k j|k j|] eqn:A; try discriminate.
      + destruct c as [v|x|o c|c|eg m c k|a k].
        * intros X j _. injection X as <-. eapply sim_finish; eauto.
        * intros X j _. injection X as <-. eapply sim_finish; eauto.
        * intros X j _. injection X as <-. apply (sim_plain s _ i); fields; auto; [|now rewrite A|now rewrite upd_same]. split; fields; auto. intros x Nx. now apply upd_other.
        * intros X j _. injection X as <-. apply (sim_plain s _ i); fields; auto; [|now rewrite A|now rewrite upd_same]. split; fields; auto. intros x Nx. now apply upd_other.
        * intros X. injection X as <-. eapply sim_fork; eauto.
        * destruct (nth_error (env s i) a) as [j|] eqn:N; [|discriminate]. intros X j' _. injection X as <-. eapply sim_await; eauto.
      + intros X j' _. eapply (sim_suspend s spec owner pos t i l k j); eauto; destruct (res s j); injection X as <-; fields; try reflexivity; try (now rewrite upd_same); split; fields; auto; intros x Nx; now apply upd_other.
    - destruct (Nat.ltb_spec t n) as [Ht|]; [|discriminate]. destruct (Nat.ltb_spec i (next s)) as [Hi|]; [|discriminate]. cbn [andb]. destruct (thr s t) as [|] eqn:E; [|discriminate].
      destruct (st s i) as [c|c|c|k j|k j|k j|] eqn:A; try discriminate.
      + intros X j _. injection X as <-. apply (sim_plain s _ i); fields; auto; [|now rewrite A|now rewrite upd_same]. split; fields; auto. intros x Nx. now apply upd_other.
      + destruct (res s j) as [r|] eqn:Rj; [|discriminate]. intros X j' _. injection X as <-. eapply (sim_resume s spec owner pos i k j r); eauto; fields; [|now rewrite upd_same]. split; fields; auto. intros x Nx. now apply upd_other.
    - destruct (Nat.ltb_spec i (next s)) as [Hi|]; [|discriminate]. destruct (st s i) as [c|c|c|k j|k j|k j|] eqn:A; try discriminate. intros X j _. injection X as <-.
      apply (sim_plain s _ i); fields; auto; [|now rewrite A|now rewrite upd_same]. split; fields; auto. intros x Nx. now apply upd_other.
    - destruct (thr s n) as [|] eqn:E; [|discriminate]. destruct (res s 0) as [r|] eqn:R0; [|discriminate]. destruct (ret s) eqn:Re; [discriminate|]. intros X j _. injection X as <-. eapply sim_get; eauto.
  Qed.
  Definition tracked (s : state) (j : nat) : Prop := exists fl fs ph, run fstep Future.Model.init fl = Some fs /\ at_phase s j ph /\ future_at fs (omap (res s j)) ph /\ trace fstep Future.Spec.observe Future.Model.init fl = seen (omap (res s j)) ph.
  Lemma new_task s e s' : step n s e = Some s' -> next s' = next s \/ (next s' = S (next s) /\ res s' = res s /\ exists i, i < next s' /\ In (next s) (env s' i)) \/ exists t i l, thr s t = i :: l /\ ~ i < next s.
  Proof.
    destruct e as [t|t i|i|]; cbn [step]; intros X;
      repeat match type of X with context [match ?x with _ => _ end] => destruct x eqn:?; try discriminate end; injection X as <-; unfold finish; fields; auto.
    all: try (destruct (Nat.lt_ge_cases n0 (next s)) as [Hn|Hn]; [right; left; split; [reflexivity|]; split; [reflexivity|]; exists n0; split; [lia|]; rewrite upd_other, upd_same by lia; apply in_app_iff; right; now left|right; right; exists t, n0, l; split; [assumption|lia]]).
  Qed.
  Lemma run_tracked : forall l s s' spec owner pos, Inv s spec owner pos -> nobody s -> (forall j, j < next s -> tracked s j) -> run (step n) s l = Some s' -> nobody s' /\ forall j, j < next s' -> tracked s' j.
  Proof.
    induction l as [|e l IH]; cbn [run]; intros s s' spec owner pos HI Z T R; [injection R as <-; auto|]. destruct (step n s e) as [s1|] eqn:E; [|discriminate].
    pose proof (step_sim s e s1 spec owner pos HI Z E) as SS. destruct (step_ok n s e s1 spec owner pos HI E) as (sp & ow & po & I1 & _). apply (IH s1 s' sp ow po I1); [| |exact R].
    - intros i p Hi H. destruct (SS 0 (i_zero _ _ _ _ _ HI)) as [_ B]. destruct (B i p Hi H) as (i' & p' & Hi' & H'). exact (Z i' p' Hi' H').
    - intros j Hj. destruct (Nat.lt_ge_cases j (next s)) as [Lj|Gj].
      + destruct (SS j Lj) as [S _]. destruct (T j Lj) as (fl & fs & ph & A & B & C & D). destruct (S ph fs B C) as (evs & fs' & ph' & log & [L1 L2] & P & Fu & Se). exists (fl ++ evs), fs', ph'. split; [now rewrite (run_app _ _ _ _ _ A)|]. split; [exact P|]. split; [exact Fu|]. now rewrite (trace_app _ _ _ _ _ _ A), L2, D, Se.
      + destruct (new_task s e s1 E) as [X|[(X & Y & i & Hi & Z')|(t & i & l' & X & Y)]]; [lia| |destruct Y; apply (on_top _ _ _ _ _ _ _ _ HI X)].
        assert (j = next s) as -> by lia. exists [], Future.Model.init, Held. split; [reflexivity|]. rewrite Y, (proj1 (i_new _ _ _ _ _ HI (next s) (le_n _))). split; [right; exists i; auto|]. split; [|reflexivity]. repeat split.
  Qed.
End R.
