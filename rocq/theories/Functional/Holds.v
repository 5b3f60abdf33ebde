(** What holds of C53 and C76, which are false in general. *)
From Coq Require Import List Arith Bool Lia.
From Verif.Common Require Import TS.
From Verif.Functional Require Import Model Spec Proofs Props.
Import ListNotations.

(** C53 for a call whose dispatches are not interleaved with those of other calls, whatever was dispatched before and is dispatched afterwards: it is even. *)
Theorem C53_uninterrupted_call_partial : forall W t l1 k c l2 s i j,
  0 < t -> length (l1 ++ repeat c k) <= W -> 0 < W -> ~ In c l1 -> ~ In c l2 ->
  run (dnext W t) (dinit 0) (l1 ++ repeat c k ++ l2) = Some s -> i < t -> j < t -> load_of c i (log s) <= load_of c j (log s) + 1.
Proof.
  intros W t l1 k c l2 s i j Ht HW HW0 N1 N2 Hr Hi Hj.
  assert (K : forall l a s', run (dnext W t) a l = Some s' -> exists lg, log s' = lg ++ log a /\ rev (map fst lg) = l /\
     forall b, counter b = counter a -> exists s'', run (dnext W t) b l = Some s'' /\ log s'' = lg ++ log b).
  { clear. induction l as [|e l IH]; intros a s' H; cbn in H.
    - injection H as <-. exists []. repeat split. intros b _. exists b. split; reflexivity.
    - destruct (IH _ _ H) as (lg & E1 & E2 & E3). exists (lg ++ [(e, counter a mod t)]). cbn in E1. rewrite <- app_assoc. cbn. repeat split.
      + exact E1.
      + rewrite map_app, rev_app_distr. cbn. now rewrite E2.
      + intros b Hb. destruct (E3 (DSt (S (counter b) mod W) ((e, counter b mod t) :: log b))) as (s'' & F1 & F2); [cbn; now rewrite Hb|]. exists s''. split; [exact F1|]. rewrite F2. cbn. now rewrite <- app_assoc, Hb. }
  apply run_app_inv in Hr as (s1 & R1 & Hr). apply run_app_inv in Hr as (s2 & R2 & R3).
  destruct (K _ _ _ R1) as (g1 & E1 & M1 & _). destruct (K _ _ _ R2) as (g2 & E2 & M2 & F2). destruct (K _ _ _ R3) as (g3 & E3 & M3 & _).
  assert (Z : forall g x, ~ In c (rev (map fst g)) -> load_of c x g = 0).
  { clear. intros g x. unfold load_of. induction g as [|[a b] g IH]; cbn; [reflexivity|]. rewrite in_app_iff. cbn. intros N. destruct (Nat.eqb_spec a c) as [E|E]; [exfalso; tauto|]. cbn. apply IH. tauto. }
  assert (App : forall g h x, load_of c x (g ++ h) = load_of c x g + load_of c x h) by (intros g h x; unfold load_of; now rewrite filter_app, app_length).
  assert (Lo : forall x, load_of c x (log s) = load x g2).
  { intros x. rewrite E3, E2, E1. cbn [dinit log]. rewrite app_nil_r, !App, (Z g3), (Z g1) by (rewrite ?M3, ?M1; assumption). rewrite Nat.add_0_r. cbn.
    unfold load_of, load. f_equal. assert (A : forall p, In p g2 -> fst p = c). { intros p Hp. apply (repeat_spec k). rewrite <- M2. apply -> in_rev. now apply in_map. }
    apply filter_ext_in. intros p Hp. rewrite (A p Hp), Nat.eqb_refl. reflexivity. }
  rewrite !Lo. rewrite app_length, repeat_length in HW.
  destruct (Nat.eq_dec k 0) as [->|Nk]. { cbn in M2. destruct g2; [cbn; lia|]. cbn in M2. destruct (rev (map fst g2)); discriminate. }
  assert (C1 : counter s1 = length l1).
  { pose proof (dinv_run W t l1 0 0 _ s1 HW0 (dinv_init W t 0 HW0) R1) as (H & _). apply H. lia. }
  destruct (F2 (dinit (length l1))) as (s'' & G1 & G2); [now rewrite C1|]. cbn in G2. rewrite app_nil_r in G2. rewrite <- G2.
  apply (C34_even_window W t (length l1) (repeat c k) s'' i j); auto; rewrite ?repeat_length; lia.
Qed.
Print Assumptions C53_uninterrupted_call_partial.
Example C53_case : exists s, run (dnext 100 3) (dinit 0) ([7;8] ++ repeat 9 5 ++ [7]) = Some s /\ load_of 9 0 (log s) = 2 /\ load_of 9 1 (log s) = 1 /\ load_of 9 2 (log s) = 2.
Proof. eexists. split; [vm_compute; reflexivity|]. repeat split. Qed.

(** C76, what for_each does when some element throws: the elements up to and including the first one that throws are run exactly once and complete before for_each ends, and its exception is
    what for_each ends with. Missing: the elements after it. *)
Theorem C76_up_to_the_first_failure_partial : forall V X n (out : nat -> result V X) i x l s r,
  i < n -> out i = Exc x -> (forall j, j < i -> exists v, out j = Val v) ->
  run (next n out true) (init n true) l = Some s -> fin s = Some r ->
  r = Exc x /\ NoDup (launched s) /\ forall j, (In j (launched s) <-> j <= i) /\ (In j (completed s) <-> j <= i).
Proof.
  intros V X n out i x l s r Hi Ho Hv Hr Hf. pose proof (fin_result n out true l s r Hr Hf) as R.
  assert (Rx : r = Exc x).
  { rewrite R. replace n with (i + (n - i)) by lia. rewrite seq_app, map_app. cbn. clear R Hr Hf.
    assert (E : exists vs, map out (seq 0 i) = map Val vs).
    { clear Ho Hi. assert (A : forall k, k <= i -> exists vs, map out (seq 0 k) = map Val vs). { induction k as [|k IH]; intros L; [now exists []|]. destruct IH as (vs & E); [lia|]. destruct (Hv k) as (v & Ev); [lia|]. exists (vs ++ [v]). rewrite seq_S, !map_app, E. cbn. now rewrite Ev. } now apply A. }
    destruct E as (vs & ->). rewrite await_vals. destruct (n - i) as [|m] eqn:E; [lia|]. cbn. now rewrite Ho. }
  subst r. split; [exact Rx|]. destruct (C35_for_each_once V X n out l s Hr) as (ND & _). split; [exact ND|].
  pose proof (C76_for_each_exception_refuted V X n out i x l s Ho Hr) as NL. destruct (inv_run n out true l s Hr).
  rewrite Hf, Rx in v_fin. destruct v_fin as (L & Op & C).
  assert (Pi : pos s = i).
  { destruct (Nat.lt_trichotomy (pos s) i) as [B|[B|B]]; [destruct (Hv _ B) as (v & Ev); congruence|exact B|]. exfalso.
    assert (E : In (out i) (map out (seq 0 (pos s)))) by (apply in_map, in_seq; lia). rewrite v_acc, Ho in E. apply in_map_iff in E as (v & Ev & _). discriminate. }
  assert (A : forall j, In j (launched s) -> j <= i) by (intros j B; destruct (Nat.le_gt_cases j i) as [J|J]; [exact J|exfalso; now apply (NL j J)]).
  assert (B : forall j, j <= i -> In j (completed s)) by (intros j J; destruct (Nat.eq_dec j i) as [->|N]; [rewrite <- Pi; exact C|apply v_comp; lia]).
  intros j. split; split; auto.
Qed.
Print Assumptions C76_up_to_the_first_failure_partial.
Example C76_case : exists s, run (next 3 (fun i => match i with 1 => Exc 5 | _ => Val i end) true) (init 3 true) [EDeref; EComplete 0; EResume; EDeref; EComplete 1; EResume] = Some s /\
  fin s = Some (Exc 5) /\ launched s = [1; 0].
Proof. eexists. split; [vm_compute; reflexivity|]. split; reflexivity. Qed.
