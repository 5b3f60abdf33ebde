(** C137: cancel_all_polling() of a dir_mutex (dir_mutex.cc 98-125), over Model.v. *)
From Coq Require Import List Arith Bool Lia.
From Verif.Common Require Import TS ListX.
From Verif.DirMutex Require Import Model Spec Proofs.
Import ListNotations.
#[local] Arguments upd : simpl never.

(** ** specification *)
(** the steps of poller [p] *)
Definition poller_step (p : nat) (ev : event) : Prop := match ev with EPollWake q | EPollCreate q | EPollHand q _ => q = p | _ => False end.
(** steps a poller can still take once its object was cancelled *)
Definition steps_left (x : ppc) : nat := match x with PCheck => 2 | PSleep | PCreated => 1 | PDone => 0 end.

(** C137: after the request to stop, every poller of the object ends after at most two more steps of its own, whatever the others do; it
    is never blocked; and the request is not taken back. *)
Theorem C137_polling_ends : forall s p m x, nth_error (pollers s) p = Some (m, x) -> stopped s m = true ->
  (x <> PDone -> exists ev s', poller_step p ev /\ next s ev = Some s') /\
  (forall ev s', next s ev = Some s' -> stopped s' m = true /\
     exists y, nth_error (pollers s') p = Some (m, y) /\ if match ev with EPollWake q | EPollCreate q | EPollHand q _ => q =? p | _ => false end then steps_left y < steps_left x else y = x).
Proof.
  intros s p m x Hp Hst. pose proof (nth_error_lt _ _ _ Hp) as Hlt. split.
  - intros Hx. destruct x; [| | |congruence].
    + exists (EPollWake p). eexists. split; [reflexivity|]. cbn [next]. rewrite Hp. reflexivity.
    + exists (EPollCreate p). destruct (file s) eqn:Ef; eexists; (split; [reflexivity|]); cbn [next]; rewrite Hp, Ef; reflexivity.
    + exists (EPollHand p None). eexists. split; [reflexivity|]. cbn [next]. rewrite Hp. reflexivity.
  - intros ev s' Hs. destruct ev as [c m0|c|c|q|q|q k|c k|c|m0|m0 k]; cbn [next] in Hs.
    + destruct (pc s c); try discriminate. injection Hs as <-. split; [exact Hst|]. eauto.
    + destruct (pc s c); try discriminate. destruct (file s); injection Hs as <-; (split; [exact Hst|]); [|eauto]. exists x. split; [|reflexivity]. cbn [pollers]. rewrite nth_error_app1 by exact Hlt. exact Hp.
    + destruct (pc s c); try discriminate. injection Hs as <-. split; [exact Hst|]. eauto.
    + destruct (nth_error (pollers s) q) as [[mq [| | |]]|] eqn:Eq; try discriminate. injection Hs as <-. split; [exact Hst|]. cbn [set_poller pollers].
      destruct (Nat.eqb_spec q p) as [->|N]; [|exists x; split; [rewrite nth_error_set_other by congruence; exact Hp|reflexivity]].
      rewrite Hp in Eq. injection Eq as -> ->. rewrite Hst. exists PDone. split; [now apply nth_error_set_same|cbn; lia].
    + destruct (nth_error (pollers s) q) as [[mq [| | |]]|] eqn:Eq; try discriminate.
      destruct (file s) eqn:Ef; injection Hs as <-; (split; [exact Hst|]); cbn [set_poller set_file pollers];
        (destruct (Nat.eqb_spec q p) as [->|N]; [|exists x; split; [rewrite nth_error_set_other by congruence; exact Hp|reflexivity]]);
        rewrite Hp in Eq; injection Eq as -> ->; eexists; (split; [now apply nth_error_set_same|cbn; lia]).
    + destruct (nth_error (pollers s) q) as [[mq [| | |]]|] eqn:Eq; try discriminate. destruct k as [i|].
      * unfold wake in Hs. destruct (take_nth i (waitq s mq)) as [[c r]|]; [|discriminate]. injection Hs as <-. split; [exact Hst|]. cbn [set_poller pollers].
        destruct (Nat.eqb_spec q p) as [->|N]; [|exists x; split; [rewrite nth_error_set_other by congruence; exact Hp|reflexivity]].
        rewrite Hp in Eq. injection Eq as -> ->. exists PDone. split; [now apply nth_error_set_same|cbn; lia].
      * injection Hs as <-. split; [exact Hst|]. cbn [set_poller set_file pollers].
        destruct (Nat.eqb_spec q p) as [->|N]; [|exists x; split; [rewrite nth_error_set_other by congruence; exact Hp|reflexivity]].
        rewrite Hp in Eq. injection Eq as -> ->. exists PDone. split; [now apply nth_error_set_same|cbn; lia].
    + destruct (pc s c); try discriminate. destruct k as [i|].
      * unfold wake in Hs. destruct (take_nth i _) as [[c0 r]|]; [|discriminate]. injection Hs as <-. split; [exact Hst|]. eauto.
      * injection Hs as <-. split; [exact Hst|]. eauto.
    + destruct (pc s c); try discriminate. injection Hs as <-. split; [exact Hst|]. eauto.
    + injection Hs as <-. cbn [stopped pollers]. split; [|eauto]. destruct (Nat.eq_dec m m0) as [->|N]; [apply upd_same|rewrite upd_other by exact N; exact Hst].
    + destruct (forallb _ _ && stopped s m0); [|discriminate]. destruct k as [i|].
      * unfold wake in Hs. destruct (take_nth i _) as [[c0 r]|]; [|discriminate]. injection Hs as <-. split; [exact Hst|]. eauto.
      * injection Hs as <-. split; [exact Hst|]. eauto.
Qed.
Print Assumptions C137_polling_ends.

(** ** what cancelling does to those who wait *)
(** nobody but those queued uses object [m], and its polling has ended *)
Definition left_alone (s : state) (m : nat) : Prop :=
  stopped s m = true /\ (forall p x, nth_error (pollers s) p = Some (m, x) -> x = PDone) /\ forall c, pc s c <> Trying m /\ pc s c <> Between m /\ pc s c <> Holding m.
Definition not_of (m : nat) (ev : event) : Prop := match ev with EAcquire _ m' => m' <> m | EDestroy _ _ => False | _ => True end.
Lemma left_alone_step s ev s' m c : inv s -> left_alone s m -> pc s c = Queued m -> not_of m ev -> next s ev = Some s' -> left_alone s' m /\ pc s' c = Queued m.
Proof.
  intros HI (Hst & Hp & Hc) Hq Hn Hs. assert (W : forall m' i w r, m' <> m -> take_nth i (waitq s m') = Some (w, r) -> w <> c).
  { intros m' i w r N E ->. apply take_nth_spec in E. destruct E as (l1 & l2 & El & _). assert (X : pc s c = Queued m') by (apply (i_q s HI); rewrite El; apply in_app_iff; right; now left). congruence. }
  destruct ev as [x m0|x|x|q|q|q k|x k|x|m0|m0 k]; cbn [next not_of] in *.
  - destruct (pc s x) eqn:Ex; try discriminate. injection Hs as <-. cbn [set_pc pc]. split; [|rewrite upd_other by congruence; exact Hq].
    split; [exact Hst|]. split; [exact Hp|]. intros y. cbn [set_pc pc]. destruct (Nat.eq_dec y x) as [->|N]; [rewrite upd_same; repeat split; congruence|rewrite upd_other by exact N; apply Hc].
  - destruct (pc s x) as [|m1| | | |] eqn:Ex; try discriminate. assert (N1 : m1 <> m) by (intros ->; destruct (Hc x) as (?&?&?); congruence). assert (N2 : x <> c) by congruence.
    destruct (file s); injection Hs as <-; (split; [|cbn [set_file set_pc pc]; rewrite upd_other by congruence; exact Hq]);
      (split; [exact Hst|]); split.
    + intros p y E. cbn [pollers] in E. destruct (Nat.lt_ge_cases p (length (pollers s))) as [L|L]; [rewrite nth_error_app1 in E by exact L; eauto|]. rewrite nth_error_app2 in E by exact L.
      destruct (p - length (pollers s)) as [|d]; cbn in E; [congruence|]. destruct d; discriminate.
    + intros y. cbn [pc]. destruct (Nat.eq_dec y x) as [->|N]; [rewrite upd_same; repeat split; congruence|rewrite upd_other by exact N; apply Hc].
    + exact Hp.
    + intros y. cbn [set_file set_pc pc]. destruct (Nat.eq_dec y x) as [->|N]; [rewrite upd_same; repeat split; congruence|rewrite upd_other by exact N; apply Hc].
  - destruct (pc s x) as [| |m1| | |] eqn:Ex; try discriminate. injection Hs as <-. cbn [pc]. split; [|rewrite upd_other by congruence; exact Hq]. split; [exact Hst|]. split; [exact Hp|].
    intros y. cbn [pc]. destruct (Nat.eq_dec y x) as [->|N]; [rewrite upd_same; repeat split; congruence|rewrite upd_other by exact N; apply Hc].
  - destruct (nth_error (pollers s) q) as [[mq [| | |]]|] eqn:Eq; try discriminate. injection Hs as <-. split; [|exact Hq]. split; [exact Hst|]. split; [|exact Hc].
    intros p y E. cbn [set_poller pollers] in E. pose proof (nth_error_lt _ _ _ Eq) as L. destruct (Nat.eq_dec p q) as [->|N]; [|rewrite nth_error_set_other in E by congruence; eauto].
    rewrite nth_error_set_same in E by exact L. injection E as -> <-. apply Hp in Eq. discriminate.
  - destruct (nth_error (pollers s) q) as [[mq [| | |]]|] eqn:Eq; try discriminate. pose proof (nth_error_lt _ _ _ Eq) as L.
    destruct (file s); injection Hs as <-; (split; [|exact Hq]); (split; [exact Hst|]); (split; [|exact Hc]); intros p y E; cbn [set_file set_poller pollers] in E;
      (destruct (Nat.eq_dec p q) as [->|N]; [|rewrite nth_error_set_other in E by congruence; eauto]); rewrite nth_error_set_same in E by exact L; injection E as -> <-; apply Hp in Eq; discriminate.
  - destruct (nth_error (pollers s) q) as [[mq [| | |]]|] eqn:Eq; try discriminate. pose proof (nth_error_lt _ _ _ Eq) as L. assert (Nq : mq <> m) by (intros ->; apply Hp in Eq; discriminate). destruct k as [i|].
    + unfold wake in Hs. destruct (take_nth i (waitq s mq)) as [[w r]|] eqn:Et; [|discriminate]. injection Hs as <-. pose proof (W _ _ _ _ Nq Et) as Nw. split; [|cbn [set_poller pc]; rewrite upd_other by congruence; exact Hq].
      split; [exact Hst|]. split.
      * intros p y E. cbn [set_poller pollers] in E. destruct (Nat.eq_dec p q) as [->|N]; [rewrite nth_error_set_same in E by exact L; congruence|]. rewrite nth_error_set_other in E by congruence. eauto.
      * intros y. cbn [set_poller pc]. destruct (Nat.eq_dec y w) as [->|N]; [rewrite upd_same; repeat split; congruence|rewrite upd_other by exact N; apply Hc].
    + injection Hs as <-. split; [|exact Hq]. split; [exact Hst|]. split; [|exact Hc]. intros p y E. cbn [set_file set_poller pollers] in E.
      destruct (Nat.eq_dec p q) as [->|N]; [rewrite nth_error_set_same in E by exact L; congruence|]. rewrite nth_error_set_other in E by congruence. eauto.
  - destruct (pc s x) as [| | | |m1|] eqn:Ex; try discriminate. assert (N1 : m1 <> m) by (intros ->; destruct (Hc x) as (?&?&?); congruence). assert (Nx : x <> c) by congruence. destruct k as [i|].
    + unfold wake in Hs. cbn [set_pc waitq] in Hs. destruct (take_nth i (waitq s m1)) as [[w r]|] eqn:Et; [|discriminate]. injection Hs as <-. pose proof (W _ _ _ _ N1 Et) as Nw.
      split; [|cbn [set_pc pc]; rewrite !upd_other by congruence; exact Hq]. split; [exact Hst|]. split; [exact Hp|]. intros y. cbn [set_pc pc].
      destruct (Nat.eq_dec y w) as [->|N]; [rewrite upd_same; repeat split; congruence|]. rewrite upd_other by exact N. destruct (Nat.eq_dec y x) as [->|N']; [rewrite upd_same; repeat split; congruence|rewrite upd_other by exact N'; apply Hc].
    + injection Hs as <-. cbn [set_pc pc]. split; [|rewrite upd_other by congruence; exact Hq]. split; [exact Hst|]. split; [exact Hp|].
      intros y. cbn [set_pc pc]. destruct (Nat.eq_dec y x) as [->|N]; [rewrite upd_same; repeat split; congruence|rewrite upd_other by exact N; apply Hc].
  - destruct (pc s x) as [| | | | |m1] eqn:Ex; try discriminate. injection Hs as <-. cbn [set_file set_pc pc]. split; [|rewrite upd_other by congruence; exact Hq]. split; [exact Hst|]. split; [exact Hp|].
    intros y. cbn [set_file set_pc pc]. destruct (Nat.eq_dec y x) as [->|N]; [rewrite upd_same; repeat split; congruence|rewrite upd_other by exact N; apply Hc].
  - injection Hs as <-. split; [|exact Hq]. split; [cbn [stopped]; destruct (Nat.eq_dec m m0) as [->|N]; [apply upd_same|rewrite upd_other by exact N; exact Hst]|]. split; [exact Hp|exact Hc].
  - contradiction.
Qed.
(** C137, refuted part: those who wait when the polling is cancelled are not told. From every reachable state in which the polling of [m] was cancelled
    and has ended and nobody but coroutine [c] and others in the queue uses object [m], [c] waits for ever, whatever happens through other objects
    and although the lock file may be gone, until somebody acquires through the same object or destroys one. *)
Theorem C137_cancel_strands_waiters_refuted : forall l s m c, nobody_destroys l -> run next init l = Some s -> left_alone s m -> pc s c = Queued m ->
  forall l' s', run next s l' = Some s' -> Forall (not_of m) l' -> pc s' c = Queued m.
Proof.
  intros l s m c Hd Hr HL Hq l'. pose proof (inv_run l init s inv_init Hd Hr) as HI. clear Hr Hd. revert s HI HL Hq.
  induction l' as [|ev l' IH]; intros s HI HL Hq s' Hr HF; cbn [run] in Hr; [injection Hr as <-; exact Hq|].
  destruct (next s ev) as [s1|] eqn:E; [|discriminate]. inversion HF as [|? ? H1 H2]; subst. destruct (left_alone_step _ _ _ _ _ HI HL Hq H1 E) as [HL1 Hq1].
  eapply (IH s1); eauto. assert (D : nobody_destroys [ev]) by (intros e [<-|[]]; destruct ev; try reflexivity; contradiction). apply (inv_run [ev] s s1 HI D). cbn [run]. now rewrite E.
Qed.
Print Assumptions C137_cancel_strands_waiters_refuted.
(** such a state: coroutine 0 holds through object 0, 1 waits at object 1, whose polling is cancelled; then 0 unlocks and the file is gone *)
Definition l_cancel : list event := [EAcquire 0 0; ECreate 0; EAcquire 1 1; ECreate 1; EEnqueue 1; ECancel 1; EPollWake 0; EUnlock 0 None; EDelete 0].
Example C137_case : nobody_destroys l_cancel /\ exists s, run next init l_cancel = Some s /\ left_alone s 1 /\ pc s 1 = Queued 1 /\ file s = false.
Proof.
  split; [intros ev H; cbn in H; intuition; subst; reflexivity|]. eexists. split; [vm_compute; reflexivity|]. split; [|split; reflexivity]. split; [reflexivity|]. split.
  - intros [|p] x E; cbn in E; [congruence|destruct p; discriminate].
  - intros [|[|c]]; repeat split; discriminate.
Qed.
