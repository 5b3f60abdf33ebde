(** C116: sleep_for measured in real time. The timer reads std::chrono::high_resolution_clock (include/koios/timer.h 35, 72, 96; src/timer.cc 23), which libstdc++ defines as
    system_clock: the wall clock, which can be set. [wall r] is what it shows at real time [r]; nothing is assumed about it. The rest is the model of Model.v; each event
    happens at a real time, real time does not go backwards, and every clock reading is what the wall clock shows at that moment. A thread does one thing at a time. *)
From Coq Require Import List Arith ZArith Bool Permutation Lia.
From Verif.Common Require Import TS.
From Verif.Timer Require Import Model Spec Proofs.
Import ListNotations.
Open Scope Z_scope.

(* one sleep_for: this_task.h 24-70; ghost *)
Record sleeper := Sl { thread : nat; since : Z; duration : Z; entry : timer_event }.
(* what the state keeps of timer.h 35, 72, 96, timer.cc 23 *)
Record cstate := C { tm : state; last : Z; slept : list sleeper (* every sleep_for so far: when, how long *) }.

Section Clock.
  Variable H : heap_ops.
  Variable wall : Z -> Z.
  (* before anything has happened; timer.h 35, 72, 96, timer.cc 23 *)
  Definition cinit : cstate := C init 0 [].
  (* clock readings are what the clock shows: timer.h 35, 72, 96, timer.cc 23 *)
  Definition reads (r : Z) (e : event) : bool :=
    match e with EAdd _ now _ _ | EPoll1 _ now | EMaxSleep _ now => now =? wall r | _ => true end.
  (* the thread is not inside a poll: timer.cc 20-59 *)
  Definition idle (s : state) (t : nat) : bool := match m_impl_ptrs s t with Ptr i => match polling i with Some _ => false | None => true end | _ => true end.
  (* a thread does one thing at a time: environment, not code of /repo *)
  Definition sequential (s : state) (e : event) : bool := match e with EAdd t _ _ _ | EPoll1 t _ => idle s t | _ => true end.
  (* what each step does: timer.h 35, 72, 96, timer.cc 23 *)
  Definition cstep (c : cstate) (re : Z * event) : option cstate :=
    let (r, e) := re in
    if (last c <=? r) && reads r e && sequential (tm c) e then
      match next H (tm c) e with
      | Some s => Some (C s r (match e with EAdd t now d x => if stop_requested (tm c) then slept c else Sl t r d (Ev (now + d) x) :: slept c | _ => slept c end))
      | None => None
      end
    else None.

  Definition known (c : cstate) (t : nat) (r1 : Z) (te : timer_event) : Prop :=
    exists z, In z (slept c) /\ thread z = t /\ entry z = te /\ timeout_tp te = wall (since z) + duration z /\ since z <= r1.
  Definition CInv (c : cstate) : Prop :=
    heaps_ok (tm c) /\
    forall t i, m_impl_ptrs (tm c) t = Ptr i ->
      exists r1, r1 <= last c /\ (forall te, In te (m_timer_heap i) -> known c t r1 te) /\ match polling i with Some now => now = wall r1 | None => True end.

  Lemma known_mono c c' t r r' te : (forall z, In z (slept c) -> In z (slept c')) -> r <= r' -> known c t r te -> known c' t r' te.
  Proof. intros Hi Hr (z & H1 & H2 & H3 & H4 & H5). exists z. repeat split; auto. lia. Qed.

  Hypothesis HH : std_heap H.
  Lemma CInv_step c re c' : CInv c -> cstep c re = Some c' -> CInv c'.
  Proof.
    intros [Hh Hk] Hs. destruct re as [r e]. unfold cstep in Hs. destruct (Z.leb_spec (last c) r) as [Hr|]; [|discriminate]. cbn [andb] in Hs.
    destruct (reads r e) eqn:Er; [|discriminate]. destruct (sequential (tm c) e) eqn:Eq; [|discriminate]. cbn [andb] in Hs. destruct (next H (tm c) e) as [s|] eqn:En; [|discriminate].
    injection Hs as <-. split; [eapply (heaps_step H HH); eauto|]. cbn.
    assert (Hsame : forall t i, m_impl_ptrs (tm c) t = Ptr i -> forall c', (forall z, In z (slept c) -> In z (slept c')) ->
        exists r1, r1 <= r /\ (forall te, In te (m_timer_heap i) -> known c' t r1 te) /\ match polling i with Some now => now = wall r1 | None => True end).
    { intros t i Hi c' Hc'. destruct (Hk t i Hi) as (r1 & H1 & H2 & H3). exists r1. split; [lia|]. split; [|exact H3]. intros te Hte. eapply known_mono; eauto. lia. }
    unfold next in En. destruct (step H (tm c) e) as [[s1 o]|] eqn:Es; [|discriminate]. cbn in En. injection En as ->. unfold step in Es. destruct (ub (tm c)); [discriminate|].
    destruct e as [t|t now dura x|t now|t|t now| |].
    - destruct (m_impl_ptrs (tm c) t) as [| |i0] eqn:Et; injection Es as <- _; intros t' i Hi.
      + cbn in Hi. unfold upd in Hi. destruct (Nat.eqb_spec t' t); [|eapply Hsame; eauto]. injection Hi as <-. exists r. split; [lia|]. cbn. split; [contradiction|exact I].
      + eapply Hsame; eauto.
      + eapply Hsame; eauto.
    - destruct (stop_requested (tm c)) eqn:Est; [injection Es as <- _; intros t' i Hi; eapply Hsame; eauto|]. cbn in Er. apply Z.eqb_eq in Er. subst now.
      injection Es as Es. unfold deref in Es. destruct (m_impl_ptrs (tm c) t) as [| |i0] eqn:Et; injection Es as <- _; intros t' i Hi; cbn in Hi; unfold upd in Hi; destruct (Nat.eqb_spec t' t); try discriminate;
        try (eapply Hsame; eauto; intros; right; assumption).
      injection Hi as <-. subst t'. exists r. split; [lia|]. cbn [m_timer_heap polling]. split.
      + intros te Hte. apply (Permutation_in _ (proj2 (push_ok H HH (m_timer_heap i0) _ ltac:(specialize (Hh t); unfold pending in Hh; rewrite Et in Hh; exact Hh)))) in Hte.
        apply in_app_iff in Hte as [Hte|[<-|[]]].
        * destruct (Hsame t i0 Et (C (tm c) r (Sl t r dura (Ev (wall r + dura) x) :: slept c)) ltac:(intros; right; assumption)) as (r1 & H1 & H2 & _).
          eapply known_mono; [| |apply H2; exact Hte]; [auto|lia].
        * eexists. split; [left; reflexivity|]. cbn. repeat split; auto; lia.
      + cbn in Eq. unfold idle in Eq. rewrite Et in Eq. destruct (polling i0); [discriminate|exact I].
    - cbn in Er. apply Z.eqb_eq in Er. subst now. injection Es as Es. unfold deref in Es. destruct (m_impl_ptrs (tm c) t) as [| |i0] eqn:Et.
      1,2: injection Es as <- _; intros t' i Hi; cbn in Hi; unfold upd in Hi; destruct (Nat.eqb_spec t' t); try discriminate; eapply Hsame; eauto.
      destruct (stop_requested (tm c)); [injection Es as <- _; intros t' i Hi; eapply Hsame; eauto|]. destruct (m_timer_heap i0) as [|f h] eqn:Ei; [injection Es as <- _; intros t' i Hi; eapply Hsame; eauto|].
      destruct (wall r <? timeout_tp f); injection Es as <- _; intros t' i Hi; [eapply Hsame; eauto|]. cbn in Hi. unfold upd in Hi. destruct (Nat.eqb_spec t' t); [|eapply Hsame; eauto].
      injection Hi as <-. subst t'. exists r. cbn [m_timer_heap polling]. split; [lia|]. split; [|reflexivity]. rewrite <- Ei. intros te Hte.
      destruct (Hsame t i0 Et (C (tm c) r (slept c)) ltac:(auto)) as (r1 & H1 & H2 & _). eapply known_mono; [| |apply H2; exact Hte]; [auto|lia].
    - destruct (m_impl_ptrs (tm c) t) as [| |i0] eqn:Et; try discriminate. destruct (polling i0) as [now|]; [|discriminate].
      destruct (take_expired_spec H HH now (m_timer_heap i0)) as (h' & l' & Ee & A & B & _); [specialize (Hh t); unfold pending in Hh; rewrite Et in Hh; exact Hh|]. rewrite Ee in Es. injection Es as <- _.
      intros t' i Hi. cbn in Hi. unfold upd in Hi. destruct (Nat.eqb_spec t' t); [|eapply Hsame; eauto]. injection Hi as <-. subst t'. cbn [m_timer_heap polling].
      destruct (Hsame t i0 Et (C (set_slot (tm c) t (Ptr (Impl h' None))) r (slept c)) ltac:(auto)) as (r1 & H1 & H2 & _). exists r1. split; [lia|]. split; [|exact I].
      intros te Hte. apply H2. apply (Permutation_in _ B) in Hte. now apply filter_In in Hte.
    - destruct (stop_requested (tm c)); [injection Es as <- _; intros t' i Hi; eapply Hsame; eauto|]. injection Es as Es. unfold deref in Es. destruct (m_impl_ptrs (tm c) t) as [| |i0] eqn:Et; injection Es as <- _;
        intros t' i Hi; cbn in Hi; unfold upd in Hi; try (destruct (Nat.eqb_spec t' t); [discriminate|]); eapply Hsame; eauto.
    - injection Es as <- _. intros t' i Hi. eapply Hsame; eauto.
    - injection Es as <- _. intros t' i Hi. cbn in Hi. destruct (m_impl_ptrs (tm c) t') as [| |i0] eqn:Et; try discriminate. injection Hi as <-. destruct (Hsame t' i0 Et (C (St (fun t => match m_impl_ptrs (tm c) t with Ptr i => Ptr (Impl [] (polling i)) | x => x end) true (ub (tm c))) r (slept c)) ltac:(auto)) as (r1 & H1 & H2 & H3).
      exists r1. cbn. split; [lia|]. split; [contradiction|exact H3].
  Qed.
  Lemma CInv_run l c : run cstep cinit l = Some c -> CInv c.
  Proof. apply (run_inv _ CInv); [intros; eapply CInv_step; eauto|]. split; [intros t; apply is_heap_nil|]. cbn. discriminate. Qed.
End Clock.

(** C116: a coroutine that awaits sleep_for(d) is not resumed before d has passed. False: the wall clock may be set forward. Here by d, for any d: resumed after one unit of time. *)
Theorem C116_clock_set_forward_refuted : forall d, 0 < d -> exists wall c c' te,
  (forall a b, a <= b -> wall a <= wall b) /\
  run (cstep sorted_ops wall) cinit [(0, EPrepare 0); (0, EAdd 0 (wall 0) d 1); (1, EPoll1 0 (wall 1))] = Some c /\ In (Sl 0 0 d te) (slept c) /\
  cstep sorted_ops wall c (1, EPoll2 0) = Some c' /\ observe sorted_ops (tm c) (EPoll2 0) (tm c') = [Resumed 0 d [te]].
Proof.
  intros d Hd. set (wall := fun r => if r <=? 0 then 0 else d).
  assert (E0 : wall 0 = 0) by reflexivity. assert (E1 : wall 1 = d) by reflexivity.
  exists wall. rewrite E0, E1.
  assert (R1 : reads wall 0 (EAdd 0 0 d 1) = true) by reflexivity. assert (R2 : reads wall 1 (EPoll1 0 d) = true) by (unfold reads; rewrite E1; apply Z.eqb_refl).
  set (c1 := C (set_slot init 0 (Ptr (Impl [] None))) 0 []).
  set (te := Ev (0 + d) 1). set (c2 := C (set_slot (tm c1) 0 (Ptr (Impl [te] None))) 0 [Sl 0 0 d te]).
  set (c3 := C (set_slot (tm c2) 0 (Ptr (Impl [te] (Some d)))) 1 [Sl 0 0 d te]).
  set (c4 := C (set_slot (tm c3) 0 (Ptr (Impl [] None))) 1 [Sl 0 0 d te]).
  assert (S1 : cstep sorted_ops wall cinit (0, EPrepare 0) = Some c1) by reflexivity.
  assert (S2 : cstep sorted_ops wall c1 (0, EAdd 0 0 d 1) = Some c2) by reflexivity.
  assert (L : (d <? timeout_tp te) = false) by (apply Z.ltb_ge; cbn [timeout_tp te]; lia).
  assert (S3 : cstep sorted_ops wall c2 (1, EPoll1 0 d) = Some c3).
  { unfold cstep. rewrite R2. cbn [last c2 sequential idle]. change (0 <=? 1) with true. cbn [andb]. unfold idle. change (m_impl_ptrs (tm c2) 0%nat) with (Ptr (Impl [te] None)). cbn [polling].
    unfold next, step, deref. change (ub (tm c2)) with false. change (m_impl_ptrs (tm c2) 0%nat) with (Ptr (Impl [te] None)). change (stop_requested (tm c2)) with false. cbn [m_timer_heap]. rewrite L. reflexivity. }
  assert (L' : (timeout_tp te <=? d) = true) by (apply Z.leb_le; cbn [timeout_tp te]; lia).
  assert (T : take_expired sorted_ops d [te] = Some ([], [te])) by (cbn -[Z.leb timeout_tp te]; rewrite L'; reflexivity).
  assert (S4 : step sorted_ops (tm c3) (EPoll2 0) = Some (tm c4, [Resumed 0 d [te]])).
  { unfold step. change (ub (tm c3)) with false. change (m_impl_ptrs (tm c3) 0%nat) with (Ptr (Impl [te] (Some d))). cbn [polling m_timer_heap]. rewrite T. reflexivity. }
  exists c3, c4, te. split; [|split; [|split; [|split]]].
  - intros a b Hab. unfold wall. destruct (Z.leb_spec a 0), (Z.leb_spec b 0); lia.
  - cbn [run]. rewrite S1. cbn [run]. rewrite S2. cbn [run]. rewrite S3. reflexivity.
  - left. reflexivity.
  - unfold cstep, next. rewrite S4. reflexivity.
  - unfold observe. rewrite S4. reflexivity.
Qed.
Print Assumptions C116_clock_set_forward_refuted.

(** What holds: if the wall clock never gains on real time, nobody is resumed early, in any history and for every heap implementation: whoever a poll resumes
    has called sleep_for on that thread at least its duration ago. *)
Theorem C116_never_early_partial : forall H wall, std_heap H -> (forall a b, a <= b -> wall b - wall a <= b - a) ->
  forall l c r t now ts, run (cstep H wall) cinit l = Some c -> last c <= r ->
  observe H (tm c) (EPoll2 t) (tm c) = [Resumed t now ts] ->
  forall te, In te ts -> exists z, In z (slept c) /\ thread z = t /\ entry z = te /\ since z + duration z <= r.
Proof.
  intros H wall HH Hw l c r t now ts Hr Hl Ho te Hte. destruct (CInv_run H wall HH l c Hr) as [Hh Hk]. unfold observe in Ho. destruct (step H (tm c) (EPoll2 t)) as [[s' o]|] eqn:Es; [|discriminate]. subst o.
  unfold step in Es. destruct (ub (tm c)); [discriminate|]. destruct (m_impl_ptrs (tm c) t) as [| |i] eqn:Et; try discriminate. destruct (polling i) as [now'|] eqn:Ep; [|discriminate].
  destruct (take_expired_spec H HH now' (m_timer_heap i)) as (h' & l' & Ee & A & B & D & _); [specialize (Hh t); unfold pending in Hh; rewrite Et in Hh; exact Hh|].
  rewrite Ee in Es. injection Es as _ <- <-. destruct (Hk t i Et) as (r1 & H1 & H2 & H3). rewrite Ep in H3. subst now'.
  apply (Permutation_in _ D) in Hte. apply filter_In in Hte as [Hin Hdue]. unfold due in Hdue. apply Z.leb_le in Hdue. destruct (H2 te Hin) as (z & Z1 & Z2 & Z3 & Z4 & Z5).
  exists z. repeat split; auto. specialize (Hw (since z) r1 Z5). lia.
Qed.
Print Assumptions C116_never_early_partial.
(** a history with a clock that runs at two thirds of real time, from 100 *)
Definition slow (r : Z) : Z := 100 + (2 * r) / 3.
Example C116_slow_clock : forall a b, a <= b -> slow b - slow a <= b - a.
Proof. intros a b Hab. unfold slow. pose proof (Z.div_mod (2 * a) 3). pose proof (Z.div_mod (2 * b) 3). pose proof (Z.mod_pos_bound (2 * a) 3). pose proof (Z.mod_pos_bound (2 * b) 3). lia. Qed.
Example C116_case : exists c,
  run (cstep sorted_ops slow) cinit [(0, EPrepare 0); (3, EAdd 0 102 4 1); (6, EPoll1 0 104); (9, EPoll1 0 106)] = Some c /\
  observe sorted_ops (tm c) (EPoll2 0) (tm c) = [Resumed 0 106 [Ev 106 1]] /\ slept c = [Sl 0 3 4 (Ev 106 1)].
Proof. eexists. split; [vm_compute; reflexivity|]. split; vm_compute; reflexivity. Qed.
