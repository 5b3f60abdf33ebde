(** What holds of C95: destroying a dir_mutex while nobody has the lock and nobody waits on it keeps the mutual exclusion. *)
From Coq Require Import List Arith Bool Lia.
From Verif.Common Require Import TS ListX.
From Verif.DirMutex Require Import Model Spec Proofs.
Import ListNotations.

(** an object is destroyed only while no coroutine has the lock (through whatever object), no poller of the directory is between
    creating the lock file and handing it over, and nobody waits on the object *)
Definition destroyed_at_rest (s : state) (ev : event) : Prop :=
  match ev with
  | EDestroy m _ => (forall c m', ~ holds s c m') /\ (forall p m', nth_error (pollers s) p <> Some (m', PCreated)) /\ waitq s m = []
  | _ => True
  end.

Lemma inv_step_rest s ev s' : inv s -> destroyed_at_rest s ev -> next s ev = Some s' -> inv s'.
Proof.
  intros HI HP Hn. destruct (is_destroy ev) eqn:D; [|eapply inv_step; eassumption].
  destruct ev as [c m|c|c|p|p|p k|c k|c|m|m k]; try discriminate. cbn [destroyed_at_rest] in HP. destruct HP as (Hh & Hp & Hq).
  cbn [next] in Hn. destruct (_ && _); [|discriminate]. destruct k as [i|].
  - unfold wake in Hn. rewrite Hq in Hn. destruct i; discriminate.
  - injection Hn as <-. destruct HI as [If Ic Ip Iq Iqn Ib Ibn]. split; cbn [set_file file owner pc waitq betw pollers]; auto.
    + easy.
    + intros c. split; [|discriminate]. intros (m' & H). exfalso. eapply (Hh c m'). exact H.
    + intros p. split; [|discriminate]. intros (m' & H). exfalso. eapply Hp. exact H.
Qed.

Theorem C95_destroyed_at_rest_partial : forall l s, run_all next destroyed_at_rest init l -> run next init l = Some s ->
  (forall c m c' m', holds s c m -> holds s c' m' -> c = c' /\ m = m') /\ (forall c m, holds s c m -> file s = true).
Proof.
  intros l s HP HR. assert (HI : inv s).
  { refine (run_inv_cond next destroyed_at_rest inv _ l init s inv_init HP HR). intros; eapply inv_step_rest; eauto. }
  destruct HI as [If Ic _ _ _ _ _]. split.
  - intros c m c' m' H H'. assert (E : owner s = Some (OwnC c)) by (apply Ic; eauto). assert (E' : owner s = Some (OwnC c')) by (apply Ic; eauto).
    assert (c = c') by congruence. subst c'. split; [easy|]. unfold holds in *. destruct H as [H|H], H' as [H'|H']; congruence.
  - intros c m H. apply If. assert (E : owner s = Some (OwnC c)) by (apply Ic; eauto). congruence.
Qed.
Print Assumptions C95_destroyed_at_rest_partial.
(** a process uses and destroys its object, another then gets the lock through its own *)
Definition in_turn : list event :=
  [EAcquire 0 0; ECreate 0; EUnlock 0 None; EDelete 0; ECancel 0; EDestroy 0 None; EAcquire 1 1; ECreate 1].
Example C95_case : run_all next destroyed_at_rest init in_turn /\ exists s, run next init in_turn = Some s /\ holds s 1 1.
Proof.
  split.
  - unfold in_turn. cbn [run_all destroyed_at_rest]. repeat (split; [first [exact I|idtac]|let x := fresh in let H := fresh in intros x H; vm_compute in H; inversion H; subst; clear H]); try exact I.
    repeat split; cbn.
    + intros c m [H|H]; destruct c; discriminate.
    + intros p m' H. destruct p; discriminate.
  - destruct (run_proj_ok next (fun s => pc s 1) init in_turn (Holding 1)) as (s & Hr & Hp); [vm_compute; reflexivity|]. exists s. split; [exact Hr|]. now left.
Qed.
