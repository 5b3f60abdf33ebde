(** C86: how false it is. Every assignment over a generator object that still has a body loses that body for ever. *)
From Coq Require Import List Arith Bool Lia.
From Verif.Common Require Import TS.
From Verif.Generator Require Import Model.
Import ListNotations.

(** invariant: a held body has been made and is alive, and one object holds it *)
Definition one_holder (s : ostate) : Prop := forall i f, gobj s i = Some (Some f) -> fmade s f = true /\ falive s f = true /\ forall j, gobj s j = Some (Some f) -> j = i.
Lemma one_holder_step s e s' : one_holder s -> onext s e = Some s' -> one_holder s'.
Proof.
  intros H E. destruct e as [a g|a b|a b|a]; cbn in E.
  - destruct (gobj s a) eqn:Ea; [discriminate|]. destruct (fmade s g) eqn:Eg; [discriminate|]. injection E as <-. intros i f Hi. cbn in *.
    destruct (Nat.eq_dec i a) as [->|Na].
    + rewrite upd_same in Hi. injection Hi as <-. rewrite !upd_same. repeat split. intros j Hj. destruct (Nat.eq_dec j a) as [|N]; [assumption|]. rewrite upd_other in Hj by exact N. destruct (H _ _ Hj). congruence.
    + rewrite upd_other in Hi by exact Na. destruct (H _ _ Hi) as (M & A & U). assert (f <> g) by congruence. rewrite !upd_other by assumption. repeat split; auto.
      intros j Hj. destruct (Nat.eq_dec j a) as [->|N]; [rewrite upd_same in Hj; congruence|rewrite upd_other in Hj by exact N; auto].
  - destruct (gobj s a) eqn:Ea; [discriminate|]. destruct (gobj s b) as [p|] eqn:Eb; [|discriminate]. injection E as <-. assert (a <> b) by congruence. intros i f Hi. cbn in *.
    assert (K : forall k, upd (upd (gobj s) b (Some None)) a (Some p) k = Some (Some f) -> exists k0, gobj s k0 = Some (Some f) /\ ((k = a /\ k0 = b) \/ (k <> a /\ k <> b /\ k0 = k))).
    { intros k Hk. destruct (Nat.eq_dec k a) as [->|N]; [rewrite upd_same in Hk; exists b; split; [congruence|auto]|]. rewrite upd_other in Hk by exact N. destruct (Nat.eq_dec k b) as [->|N2]; [rewrite upd_same in Hk; discriminate|].
      rewrite upd_other in Hk by exact N2. exists k. auto. }
    destruct (K i Hi) as (i0 & Hi0 & Ci). destruct (H _ _ Hi0) as (M & A & U). repeat split; auto. intros j Hj. destruct (K j Hj) as (j0 & Hj0 & Cj). pose proof (U _ Hj0). lia.
  - destruct (gobj s a) eqn:Ea; [|discriminate]. destruct (gobj s b) as [p|] eqn:Eb; [|discriminate]. destruct (Nat.eqb_spec a b) as [|Nab]; injection E as <-; [exact H|]. intros i f Hi. cbn in *.
    assert (K : forall k, upd (upd (gobj s) b (Some None)) a (Some p) k = Some (Some f) -> exists k0, gobj s k0 = Some (Some f) /\ ((k = a /\ k0 = b) \/ (k <> a /\ k <> b /\ k0 = k))).
    { intros k Hk. destruct (Nat.eq_dec k a) as [->|N]; [rewrite upd_same in Hk; exists b; split; [congruence|auto]|]. rewrite upd_other in Hk by exact N. destruct (Nat.eq_dec k b) as [->|N2]; [rewrite upd_same in Hk; discriminate|].
      rewrite upd_other in Hk by exact N2. exists k. auto. }
    destruct (K i Hi) as (i0 & Hi0 & Ci). destruct (H _ _ Hi0) as (M & A & U). repeat split; auto. intros j Hj. destruct (K j Hj) as (j0 & Hj0 & Cj). pose proof (U _ Hj0). lia.
  - destruct (gobj s a) as [[g|]|] eqn:Ea; [| |discriminate]; injection E as <-; intros i f Hi; cbn in *; (destruct (Nat.eq_dec i a) as [->|N]; [rewrite upd_same in Hi; discriminate|]; rewrite upd_other in Hi by exact N);
      destruct (H _ _ Hi) as (M & A & U); [assert (f <> g) by (intros ->; apply N; symmetry; apply U; exact Ea); rewrite upd_other by assumption|]; repeat split; auto;
      intros j Hj; (destruct (Nat.eq_dec j a) as [->|N2]; [rewrite upd_same in Hj; discriminate|rewrite upd_other in Hj by exact N2; auto]).
Qed.
(** lost: made, alive, held by nobody; stays so *)
Lemma lost_step s e s' f : fmade s f = true -> falive s f = true -> (forall k, gobj s k <> Some (Some f)) -> onext s e = Some s' ->
  fmade s' f = true /\ falive s' f = true /\ (forall k, gobj s' k <> Some (Some f)).
Proof.
  intros M A N E. destruct e as [a g|a b|a b|a]; cbn in E.
  - destruct (gobj s a) eqn:Ea; [discriminate|]. destruct (fmade s g) eqn:Eg; [discriminate|]. injection E as <-. cbn. assert (f <> g) by congruence. rewrite !upd_other by assumption. repeat split; auto.
    intros k. destruct (Nat.eq_dec k a) as [->|]; [rewrite upd_same; congruence|rewrite upd_other by assumption; auto].
  - destruct (gobj s a) eqn:Ea; [discriminate|]. destruct (gobj s b) as [p|] eqn:Eb; [|discriminate]. injection E as <-. cbn. repeat split; auto. intros k. pose proof (N b) as Nb. rewrite Eb in Nb.
    destruct (Nat.eq_dec k a) as [->|]; [now rewrite upd_same|rewrite upd_other by assumption]. destruct (Nat.eq_dec k b) as [->|]; [now rewrite upd_same|rewrite upd_other by assumption; auto].
  - destruct (gobj s a) eqn:Ea; [|discriminate]. destruct (gobj s b) as [p|] eqn:Eb; [|discriminate]. destruct (Nat.eqb_spec a b); injection E as <-; [auto|]. cbn. repeat split; auto. intros k. pose proof (N b) as Nb. rewrite Eb in Nb.
    destruct (Nat.eq_dec k a) as [->|]; [now rewrite upd_same|rewrite upd_other by assumption]. destruct (Nat.eq_dec k b) as [->|]; [now rewrite upd_same|rewrite upd_other by assumption; auto].
  - destruct (gobj s a) as [[g|]|] eqn:Ea; [| |discriminate]; injection E as <-; cbn; [assert (f <> g) by (intros ->; now apply (N a)); rewrite upd_other by assumption|]; repeat split; auto;
      intros k; (destruct (Nat.eq_dec k a) as [->|]; [now rewrite upd_same|rewrite upd_other by assumption; auto]).
Qed.

(** C86, refuted for every history (with any number of such assignments before) and every assignment from another generator object to one that still has a body: from then on no object holds that body, and whatever is done
    afterwards, all objects destroyed included, it stays alive. *)
Theorem C86_every_assignment_over_a_body_leaks_refuted : forall l s i j f p, run onext oinit l = Some s -> gobj s i = Some (Some f) -> i <> j -> gobj s j = Some p ->
  exists s', onext s (OAssign i j) = Some s' /\ forall l' s'', run onext s' l' = Some s'' -> falive s'' f = true /\ forall k, gobj s'' k <> Some (Some f).
Proof.
  intros l s i j f p R Hi N Hj. assert (I : one_holder s). { revert R. apply (run_inv onext one_holder one_holder_step). intros ? ? H. discriminate H. }
  destruct (I _ _ Hi) as (M & A & U). cbn. rewrite Hi, Hj. destruct (Nat.eqb_spec i j); [contradiction|]. eexists. split; [reflexivity|]. intros l' s'' R'.
  assert (H : fmade s'' f = true /\ falive s'' f = true /\ forall k, gobj s'' k <> Some (Some f)).
  { revert R'. apply (run_inv onext (fun x => fmade x f = true /\ falive x f = true /\ forall k, gobj x k <> Some (Some f))).
    - intros x e x' (H1 & H2 & H3) E. exact (lost_step x e x' f H1 H2 H3 E).
    - cbn. repeat split; auto. intros k. destruct (Nat.eq_dec k i) as [->|].
      + rewrite upd_same. intros [= ->]. now apply N; symmetry; apply U.
      + rewrite upd_other by assumption. destruct (Nat.eq_dec k j) as [->|]; [rewrite upd_same; discriminate|]. rewrite upd_other by assumption. intros Hk. now apply U in Hk. }
  tauto.
Qed.
Print Assumptions C86_every_assignment_over_a_body_leaks_refuted.
Example C86_leak_case : exists s, run onext oinit [OMake 0 7; OMake 1 8; OAssign 0 1; OMake 2 9] = Some s /\ (gobj s 0, gobj s 2, gobj s 1, falive s 7) = (Some (Some 8), Some (Some 9), Some None, true).
Proof. apply run_proj_ok with (f := fun s => (gobj s 0, gobj s 2, gobj s 1, falive s 7)). vm_compute. reflexivity. Qed.
