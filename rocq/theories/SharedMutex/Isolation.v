(** C129: what reader-writer exclusion is for: while a coroutine holds a koios::shared_mutex, shared or unique, the data it reads does not change except by its own writes. Clients of the shared_mutex of Model.v: data is read only while holding the lock, and written only while holding it uniquely. *)
From Coq Require Import List Arith ZArith Bool Lia.
From Verif.Common Require Import TS.
From Verif.SharedMutex Require Import Model Spec Proofs Waiting.
Import ListNotations.

Section I.
  Context {M : Type}.
  (* what the state keeps of coroutine_shared_mutex.cc 12-132 (the mutex, Model.v) and client code *)
  Record cstate := CSt { mx : state; mem : M }.
  (* the steps of coroutine_shared_mutex.cc 12-132 (the mutex, Model.v) and client code *)
  Inductive cevent := Mx (e : event) | Read (i : nat) | Write (i : nat) (f : M -> M).
  (* what each step does: coroutine_shared_mutex.cc 12-132 (the mutex, Model.v) and client code *)
  Definition cstep (s : cstate) (e : cevent) : option cstate :=
    match e with
    | Mx e => match step (mx s) e with Some m => Some (CSt m (mem s)) | None => None end
    | Read i => match at_ (mx s) i with Reading | Writing => Some s | _ => None end
    | Write i f => match at_ (mx s) i with Writing => Some (CSt (mx s) (f (mem s))) | _ => None end
    end.
  (** ** specification *)
  Inductive cobs := Lock (o : obs) | DidRead (i : nat) (v : M) | DidWrite (i : nat).
  Definition cobserve (s : cstate) (e : cevent) (s' : cstate) : list cobs :=
    match e with Mx e => map Lock (observe (mx s) e (mx s')) | Read i => [DidRead i (mem s)] | Write i _ => [DidWrite i] end.
  (** what coroutine [i] reads does not change between its own locking, unlocking and writing; [seen] is what it has read since *)
  Fixpoint stable (i : nat) (seen : option M) (log : list cobs) : Prop :=
    match log with
    | [] => True
    | DidRead j v :: log => if j =? i then match seen with Some u => v = u | None => True end /\ stable i (Some v) log else stable i seen log
    | DidWrite j :: log => stable i (if j =? i then None else seen) log
    | Lock (GotShared j) :: log | Lock (GotUnique j) :: log | Lock (Unlocks j) :: log => stable i (if j =? i then None else seen) log
    | Lock (Refused _) :: log => stable i seen log
    end.
  Definition no_defect (s : cstate) (e : cevent) : Prop := match e with Mx e => defects_not_hit (mx s) e | _ => True end.

  Lemma stable_gen i : forall l s seen, WInv (mx s) -> run_all cstep no_defect s l -> (cls (at_ (mx s) i) <> 0 -> seen = None \/ seen = Some (mem s)) ->
    (cls (at_ (mx s) i) = 0 -> seen = None) -> stable i seen (trace cstep cobserve s l).
  Proof.
    induction l as [|e l IH]; intros s seen HI Hd Hn Hz; cbn [trace]; [exact I|]. destruct (cstep s e) as [s'|] eqn:Hs; [|exact I].
    destruct Hd as [Hd1 Hd2]. specialize (Hd2 s' Hs). destruct e as [e|j|j f]; cbn [cstep cobserve no_defect] in *.
    - destruct (step (mx s) e) as [m|] eqn:Em; [|discriminate]. injection Hs as <-. cbn [mx]. destruct (WInv_step _ _ _ HI Hd1 Em) as [HI' Ho].
      assert (seen = None \/ seen = Some (mem s)) as Hse by (destruct (Nat.eq_dec (cls (at_ (mx s) i)) 0); auto).
      destruct (observe (mx s) e m) as [|o [|o2 r]]; cbn [map app stable].
      + apply IH; cbn [mx mem]; auto. intros H. apply Hz. now rewrite <- Ho.
      + destruct o as [j|j|j|j]; cbn [stable].
        * destruct Ho as (H1 & _ & _). apply IH; cbn [mx mem]; auto; rewrite H1; destruct (Nat.eqb_spec i j), (Nat.eqb_spec j i); subst; try contradiction; auto; congruence.
        * destruct Ho as (H1 & _ & _). apply IH; cbn [mx mem]; auto; rewrite H1; destruct (Nat.eqb_spec i j), (Nat.eqb_spec j i); subst; try contradiction; auto; congruence.
        * destruct Ho as (H1 & _). apply IH; cbn [mx mem]; auto; rewrite H1; destruct (Nat.eqb_spec i j), (Nat.eqb_spec j i); subst; try contradiction; auto; congruence.
        * apply IH; cbn [mx mem]; auto; rewrite Ho; auto.
      + destruct o; contradiction.
    - cbn [app stable]. assert (s' = s) as -> by (destruct (at_ (mx s) j); congruence). destruct (Nat.eqb_spec j i) as [->|N].
      + assert (cls (at_ (mx s) i) <> 0) as C by (destruct (at_ (mx s) i); discriminate). split.
        * destruct (Hn C) as [E|E]; rewrite E; auto.
        * apply IH; auto. intros H. contradiction.
      + apply IH; auto.
    - destruct (at_ (mx s) j) eqn:Ej; try discriminate. injection Hs as <-. cbn [app stable]. destruct (Nat.eqb_spec j i) as [->|N].
      + apply IH; cbn [mx mem]; auto.
      + apply IH; cbn [mx mem]; auto. intros C. exfalso.
        assert (W : writer_pc (at_ (mx s) j) = true) by now rewrite Ej.
        assert (cls (at_ (mx s) i) = 1 \/ cls (at_ (mx s) i) = 2) as [C1|C2] by (destruct (at_ (mx s) i); cbn in *; auto; contradiction).
        * assert (m_state (mx s) = SHR) by (apply (w_rd _ HI i); destruct (at_ (mx s) i); (reflexivity || discriminate)). pose proof (w_wr _ HI j W). congruence.
        * apply cls_wr in C2. now apply N, (w_one _ HI).
  Qed.
End I.
Arguments cevent : clear implicits. Arguments cstate : clear implicits.

(** C129: in every history that does not hit the two defects of C04, for every coroutine. Missing from the full statement: histories that do. *)
Theorem C129_reads_are_stable_partial : forall M (m : M) l i, run_all cstep no_defect (CSt init m) l -> stable i None (trace cstep cobserve (CSt init m) l).
Proof. intros M m l i H. apply stable_gen; auto. apply WInv_init. Qed.
Print Assumptions C129_reads_are_stable_partial.
Definition writer_then_readers : list (cevent nat) :=
[Mx (EAcqUni 2); Mx (EUniEnq 2); Mx (EResume 2); Read 2; Write 2 S; Mx (EAcqShr 4); Read 2; Mx (ERelease 2 0 0); Mx (EAcqShr 0); Mx (EAcqShr 1); Read 0; Read 1; Mx (EAcqUni 3); Mx (EUniEnq 3); Read 0; Mx (ERelease 1 0 0); Read 0].
Definition no_defectb (s : cstate nat) (e : cevent nat) : bool := match e with Mx e => dnh (mx s) e | _ => true end.
Example C129_case : run_all cstep no_defect (CSt init 5) writer_then_readers /\
  trace cstep cobserve (CSt init 5) writer_then_readers =
    [Lock (GotUnique 2); DidRead 2 5; DidWrite 2; DidRead 2 6; Lock (Unlocks 2); Lock (GotShared 0); Lock (GotShared 1); DidRead 0 6; DidRead 1 6; DidRead 0 6; Lock (Unlocks 1); DidRead 0 6].
Proof.
  split; [|vm_compute; reflexivity]. apply (run_allb_ok cstep no_defectb no_defect); [|vm_compute; reflexivity].
  intros s [e|i|i f]; cbn; auto. apply dnh_ok.
Qed.
(** C129 refuted in general: a reader sees a value change under its lock (a writer is let in beside it, C04). *)
Theorem C129_torn_read_refuted : exists (l : list (cevent nat)) s, run cstep (CSt init 5) l = Some s /\ ~ stable 1 None (trace cstep cobserve (CSt init 5) l).
Proof.
  exists (map Mx writer_with_reader ++ [Read 1; Write 3 S; Read 1]).
  destruct (run_proj_ok cstep (fun s => mem s) (CSt init 5) (map Mx writer_with_reader ++ [Read 1; Write 3 S; Read 1]) 6) as (s & H & _); [vm_compute; reflexivity|]. exists s. split; [exact H|].
  replace (trace cstep cobserve (CSt init 5) (map Mx writer_with_reader ++ [Read 1; Write 3 S; Read 1])) with (trace cstep cobserve (CSt init 5) (map Mx writer_with_reader) ++ [DidRead 1 5; DidWrite 3; DidRead 1 6]) by (vm_compute; reflexivity).
  vm_compute. intuition discriminate.
Qed.
Print Assumptions C129_torn_read_refuted.
