(** What holds of C74, C75 and C84, which are false in general. *)
From Coq Require Import List Arith Bool Lia.
From Verif.Common Require Import TS.
From Verif.EventLoop Require Import Model Spec Proofs Props.
Import ListNotations.

(** C74 for histories in which every loop is added before the first worker ends: adding is safe, no ended thread's object is used. *)
Theorem C74_added_while_all_workers_run_partial : forall l1 l2 s, (forall t, ~ In (UExit t) l1) -> (forall lp, ~ In (UAdd lp) l2) ->
  run unext uinit (l1 ++ l2) = Some s -> uub s = false.
Proof.
  intros l1 l2 s N1 N2 Hr. apply run_app_inv in Hr as (s1 & R1 & R2).
  assert (A : forall l s0 s', (forall t, ~ In (UExit t) l) -> uub s0 = false -> exited s0 = [] -> run unext s0 l = Some s' -> uub s' = false).
  { induction l as [|e l IH]; intros s0 s' N Hu He Hr; cbn [run] in Hr; [now injection Hr as <-|]. destruct (unext s0 e) as [s2|] eqn:E; [|discriminate].
    assert (B : uub s2 = false /\ exited s2 = []).
    { unfold unext in E. rewrite Hu in E. destruct e as [t|lp| |t].
      - destruct (memb t (attrs s0)); [discriminate|]. injection E as <-. auto.
      - destruct (memb lp (loops s0)); [discriminate|]. injection E as <-. cbn. rewrite He. split; [|reflexivity]. cbn. clear. induction (attrs s0); auto.
      - injection E as <-. auto.
      - exfalso. apply (N t). now left. }
    destruct B as [B1 B2]. apply (IH s2 s'); auto. intros t Ht. apply (N t). now right. }
  assert (B : forall l s0 s', (forall lp, ~ In (UAdd lp) l) -> uub s0 = false -> run unext s0 l = Some s' -> uub s' = false).
  { induction l as [|e l IH]; intros s0 s' N Hu Hr; cbn [run] in Hr; [now injection Hr as <-|]. destruct (unext s0 e) as [s2|] eqn:E; [|discriminate].
    assert (C : uub s2 = false).
    { unfold unext in E. rewrite Hu in E. destruct e as [t|lp| |t].
      - destruct (memb t (attrs s0)); [discriminate|]. now injection E as <-.
      - exfalso. apply (N lp). now left.
      - now injection E as <-.
      - destruct (memb t (attrs s0)); [|discriminate]. now injection E as <-. }
    apply (IH s2 s'); auto. intros lp Hl. apply (N lp). now right. }
  apply (B l2 s1 s N2); [|exact R2]. now apply (A l1 uinit s1 N1).
Qed.
Print Assumptions C74_added_while_all_workers_run_partial.
Example C74_case : exists s, run unext uinit ([UPrep 1; UAdd 5; UPrep 2; UAdd 6; UStop] ++ [UExit 1; UStop; UExit 2]) = Some s /\ (prepared s, uub s) = ([(6,2); (6,1); (5,2); (5,1)], false).
Proof. apply run_proj_ok with (f := fun s => (prepared s, uub s)). vm_compute. reflexivity. Qed.

(** C84 for loops added before the last stop(): they receive it. Missing: loops after whose addition stop() is not called again. *)
Theorem C84_added_before_a_stop_partial : forall l1 lp l2 l3 s, run unext uinit (l1 ++ UAdd lp :: l2 ++ UStop :: l3) = Some s -> In lp (ustopped s).
Proof. intros l1 lp l2 l3 s Hr. apply (C55_registered_are_stopped _ _ lp Hr). eauto. Qed.
Print Assumptions C84_added_before_a_stop_partial.
Example C84_case : exists s, run unext uinit [UPrep 1; UAdd 4; UStop; UAdd 5; UStop] = Some s /\ (memb 5 (loops s), memb 5 (ustopped s), uub s) = (true, true, false).
Proof. apply run_proj_ok with (f := fun s => (memb 5 (loops s), memb 5 (ustopped s), uub s)). vm_compute. reflexivity. Qed.

(** no two workers, of whatever pools, compute their idle times at the same time; specification *)
Definition one_at_a_time (s : sstate) (e : sevent) : Prop := match e with SLock _ => forall v, spc s v = SIdle | _ => True end.
(** C75 for any number of event loops whose workers do not compute their idle times at the same time: each worker gets the minimum of what the component loops of its own event loop allow it. *)
Theorem C75_idle_times_one_at_a_time_partial : forall k pool ans l s w r, run_all (snext k pool ans) one_at_a_time sinit l ->
  run (snext k pool ans) sinit l = Some s -> spc s w = SDone r ->
  match r with
  | Some m => (exists i, i < k /\ m = ans i w) /\ forall i, i < k -> m <= ans i w
  | None => k = 0
  end.
Proof.
  intros k pool ans l s w r HA Hr Hw.
  set (G := fun s : sstate => forall w, spc s w <> SIdle -> (forall v, v <> w -> spc s v = SIdle) /\
     match spc s w with SPush i => i <= k /\ duras s = map (fun j => ans j w) (seq 0 i) | SDone r => r = min_of (map (fun j => ans j w) (seq 0 k)) | _ => True end).
  assert (H : G s).
  { refine (run_inv_cond (snext k pool ans) one_at_a_time G _ l sinit s _ HA Hr).
    - clear. intros s e s' HI HP Hs. destruct e as [x|x|x|x|x]; cbn [snext] in Hs; destruct (spc s x) as [| |i|r] eqn:Ex; try discriminate.
      + destruct (lock s (pool x)); [discriminate|]. injection Hs as <-. intros v Hv. cbn in *. destruct (Nat.eq_dec v x) as [->|N]; [|rewrite upd_other in Hv by exact N; exfalso; apply Hv, HP].
        rewrite upd_same. split; [|exact I]. intros u Hu. rewrite upd_other by exact Hu. apply HP.
      + injection Hs as <-. destruct (HI x) as [O _]; [congruence|]. intros v Hv. cbn in *. destruct (Nat.eq_dec v x) as [->|N]; [|rewrite upd_other in Hv by exact N; exfalso; apply Hv, O, N].
        rewrite upd_same. split; [|split; [lia|reflexivity]]. intros u Hu. rewrite upd_other by exact Hu. now apply O.
      + destruct (Nat.ltb_spec i k) as [L|]; [|discriminate]. injection Hs as <-. destruct (HI x) as [O C]; [congruence|]. rewrite Ex in C. destruct C as [C1 C2].
        intros v Hv. cbn in *. destruct (Nat.eq_dec v x) as [->|N]; [|rewrite upd_other in Hv by exact N; exfalso; apply Hv, O, N].
        rewrite upd_same. split; [|split; [lia|]]. { intros u Hu. rewrite upd_other by exact Hu. now apply O. } rewrite C2. change (ans 0 x :: map (fun j => ans j x) (seq 1 i)) with (map (fun j => ans j x) (seq 0 (S i))). now rewrite seq_S, map_app.
      + destruct (Nat.eqb_spec i k) as [L|]; [|discriminate]. subst i. assert (E' : s' = SSt (duras s) (lock s) (upd (spc s) x (SDone (min_of (duras s))))) by congruence. subst s'.
        destruct (HI x) as [O C]; [congruence|]. rewrite Ex in C. destruct C as [C1 C2].
        intros v Hv. cbn [spc duras] in *. destruct (Nat.eq_dec v x) as [->|N]; [|rewrite upd_other in Hv by exact N; exfalso; apply Hv, O, N].
        rewrite upd_same. split; [|now rewrite C2]. intros u Hu. rewrite upd_other by exact Hu. now apply O.
      + injection Hs as <-. destruct (HI x) as [O _]; [congruence|]. intros v Hv. cbn in *. destruct (Nat.eq_dec v x) as [->|N]; [rewrite upd_same in Hv; contradiction|rewrite upd_other in Hv by exact N; exfalso; apply Hv, O, N].
    - intros v Hv. cbn in Hv. contradiction. }
  destruct (H w) as [_ C]; [congruence|]. rewrite Hw in C. destruct r as [m|].
  - symmetry in C. apply min_of_spec in C as [B1 B2]. apply in_map_iff in B1 as (i & E & Hi). apply in_seq in Hi. split.
    + exists i. split; [lia|auto].
    + intros j Hj. apply B2. apply in_map_iff. exists j. split; [auto|]. apply in_seq. lia.
  - symmetry in C. apply min_of_none in C. destruct k; [reflexivity|discriminate].
Qed.
Print Assumptions C75_idle_times_one_at_a_time_partial.
Example C75_case : run_all (snext 2 (fun w => w) ans2) one_at_a_time sinit [SLock 1; SClear 1; SPushNext 1; SPushNext 1; SMin 1; SUnlock 1; SLock 2; SClear 2; SPushNext 2; SPushNext 2; SMin 2] /\
  exists s, run (snext 2 (fun w => w) ans2) sinit [SLock 1; SClear 1; SPushNext 1; SPushNext 1; SMin 1; SUnlock 1; SLock 2; SClear 2; SPushNext 2; SPushNext 2; SMin 2] = Some s /\ spc s 2 = SDone (Some 1).
Proof.
  split; [|apply run_proj_ok with (f := fun s => spc s 2); vm_compute; reflexivity].
  cbn [run_all]. repeat (split; [first [exact I|intros [|[|[|v]]]; reflexivity]|intros s' Hs'; vm_compute in Hs'; injection Hs' as <-]). exact I.
Qed.
