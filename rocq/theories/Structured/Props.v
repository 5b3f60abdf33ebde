(** C139: theorems. *)
From Coq Require Import List Arith Bool Lia.
From Verif.Common Require Import TS Sum.
From Verif.Structured Require Import Model Spec Proofs.
Import ListNotations.

(** Whatever the worker picks next, a run of well-formed programs has at most so many steps, and it ends only when every task that is to be started has finished. *)
Theorem C139_completes : forall n roots progs rank given, well_formed n roots progs rank given -> forall l s, run (step n) (init roots progs) l = Some s ->
  length l <= sum_to n (fun i => 2 * length (progs i) + 2) /\ (stuck n s -> forall i, reached roots progs i -> stat s i = Finished).
Proof.
  intros n roots progs rank given WF l s Hr. destruct (P_run n roots progs rank given l _ _ _ _ (P_init _ _ _ _ _ WF) Hr) as [(held & futs & HP) L]. split.
  - enough (weight_all n (init roots progs) = sum_to n (fun i => 2 * length (progs i) + 2)) by lia. unfold weight_all. apply sum_to_ext. intros i Hi. unfold weight, init. cbn [prog stat]. destruct (roots i); reflexivity.
  - intros St i H. now apply (reached_done n roots progs rank given s held futs WF HP St).
Qed.
(** A run that cannot go on leaves nothing locked and nothing owed. *)
Theorem C139_leaves_nothing : forall n roots progs rank given, well_formed n roots progs rank given -> forall l s, run (step n) (init roots progs) l = Some s -> stuck n s ->
  (forall m, own s m = None /\ queue s m = []) /\ (forall g, cnt s g = 0 /\ gqueue s g = []) /\ forall i, stat s i = Finished \/ stat s i = Dormant.
Proof.
  intros n roots progs rank given WF l s Hr St. destruct (P_run n roots progs rank given l _ _ _ _ (P_init _ _ _ _ _ WF) Hr) as [(held & futs & HP) _].
  pose proof (progress _ _ _ _ _ _ _ _ HP St) as Pg. assert (H0 : forall i, held i = []) by (intros i; apply (p_idle _ _ _ _ _ _ _ _ HP), or_comm, Pg).
  assert (NW : forall i r, stat s i <> Waits r) by (intros i r E; destruct (Pg i); congruence).
  split; [|split; [|exact Pg]].
  - intros m. split.
    + destruct (own s m) as [j|] eqn:E; auto. pose proof (p_own _ _ _ _ _ _ _ _ HP m j) as X. rewrite E, Nat.eqb_refl, H0 in X. discriminate.
    + destruct (queue s m) as [|i q] eqn:E; auto. exfalso. apply (NW i (M m)), (p_q _ _ _ _ _ _ _ _ HP). rewrite E. now left.
  - intros g. split.
    + rewrite (p_cnt _ _ _ _ _ _ _ _ HP). rewrite (sum_to_ext n _ (fun _ => 0)) by (intros i; rewrite H0; reflexivity). clear. induction n; cbn; auto.
    + destruct (gqueue s g) as [|i q] eqn:E; auto. exfalso. apply (NW i (G g)), (p_g _ _ _ _ _ _ _ _ HP). rewrite E. now left.
Qed.
(** No operation of such a program is an error: the running task can always go on. *)
Theorem C139_no_misuse : forall n roots progs rank given, well_formed n roots progs rank given -> forall l s t, run (step n) (init roots progs) l = Some s -> cur s = Some t -> step n s Go <> None.
Proof.
  intros n roots progs rank given WF l s t Hr Ec. destruct (P_run n roots progs rank given l _ _ _ _ (P_init _ _ _ _ _ WF) Hr) as [(held & futs & HP) _]. exact (go_enabled _ _ _ _ _ _ _ _ _ HP Ec).
Qed.

(** ** a case: task 0 starts two workers that share a mutex and report to a group, waits for the group, then for the result of one of them *)
Definition pool (i : nat) : list action :=
  match i with
  | 0 => [Add 0 2; Spawn 1; Spawn 2; Wait 0; Join 1]
  | 1 | 2 => [Lock 0; Pause; Unlock 0; Done 0]
  | _ => [] end.
Definition pool_given (i : nat) : list nat := match i with 1 | 2 => [0] | _ => [] end.
Definition first (i : nat) : bool := i =? 0.
Example C139_case : exists rank, well_formed 3 first pool rank pool_given /\ (forall i, i < 3 -> reached first pool i)
  /\ exists l1 l2 s1 s, run (step 3) (init first pool) l1 = Some s1 /\ stat s1 0 = Waits (G 0) /\ stat s1 2 = Waits (M 0) /\ own s1 0 = Some 1
  /\ run (step 3) s1 l2 = Some s /\ stuck 3 s /\ forall i, i < 3 -> stat s i = Finished.
Proof.
  exists (fun r => match r with M _ => 5 | G _ => 4 | F 0 => 0 | F _ => 3 end). split; [|split].
  - split.
    + intros i Hi. destruct i as [|[|[|i]]]; [| | |lia]; unfold first; cbn; unfold may_wait; cbn; repeat (split || eexists); auto; try lia; try reflexivity; try (intros h [<-|H]; [lia|]); try (intros h H); cbn in *; intuition (subst; lia).
    + intros i H. apply Nat.eqb_eq in H. lia.
    + intros i t Hi H. destruct i as [|[|[|i]]]; cbn in H; try contradiction; try lia. destruct H as [<-|[<-|[]]]; split; (lia || reflexivity).
    + intros i Hi. destruct i as [|[|[|i]]]; cbn; [|constructor|constructor|lia]. constructor; [|constructor; [|constructor]]; cbn; intuition discriminate.
    + intros i j t Hi Hj A B. destruct i as [|[|[|i]]]; cbn in A; try contradiction; try lia. destruct j as [|[|[|j]]]; cbn in B; try contradiction; try lia.
  - intros i Hi. assert (R0 : reached first pool 0) by (now apply r_root). destruct i as [|[|[|i]]]; [exact R0| | |lia]; (apply (r_start _ _ 0); [exact R0|cbn; auto]).
  - exists [Pick 0; Go; Go; Go; Go; Pick 1; Go; Go; Pick 2; Go], [Pick 1; Go; Go; Go; Pick 2; Go; Pick 2; Go; Go; Go; Pick 0; Go; Go]. do 2 eexists.
    split; [vm_compute; reflexivity|]. do 3 (split; [vm_compute; reflexivity|]). split; [vm_compute; reflexivity|]. split.
    + intros [t|]; [|vm_compute; reflexivity]. do 3 (destruct t as [|t]; [vm_compute; reflexivity|]). reflexivity.
    + intros i Hi. do 3 (destruct i as [|i]; [vm_compute; reflexivity|]). lia.
Qed.
(** ** the order is needed: a task that waits for the group while it has the mutex that the worker needs *)
Definition crossed (i : nat) : list action :=
  match i with
  | 0 => [Add 0 1; Spawn 1; Lock 0; Wait 0; Unlock 0]
  | 1 => [Lock 0; Unlock 0; Done 0]
  | _ => [] end.
Theorem C139_order_is_needed : exists l s, run (step 2) (init first crossed) l = Some s /\ stuck 2 s /\ stat s 0 = Waits (G 0) /\ stat s 1 = Waits (M 0).
Proof.
  exists [Pick 0; Go; Go; Go; Go; Pick 1; Go]. eexists. split; [vm_compute; reflexivity|]. split; [|split; reflexivity].
  intros [t|]; [|vm_compute; reflexivity]. do 2 (destruct t as [|t]; [vm_compute; reflexivity|]). reflexivity.
Qed.
Print Assumptions C139_completes.
Print Assumptions C139_leaves_nothing.
Print Assumptions C139_no_misuse.
Print Assumptions C139_order_is_needed.
