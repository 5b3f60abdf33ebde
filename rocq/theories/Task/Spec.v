From Coq Require Import List Arith Bool.
From Verif.Common Require Import TS.
From Verif.Task Require Import Model.
Import ListNotations.

(** object i owns frame f: destroying i would destroy f *)
Definition owns (s : state) (i f : nat) : Prop :=
  exists o, objs s i = Some o /\ holds (handle_of o) = true /\ m_h (handle_of o) = Some f.

(** Uses the documentation allows: a task_on_the_fly is only called or woken while it owns a coroutine (operator bool); a
    lazy task is run() only while it still has its coroutine and its future, or after the result is there; no
    await_suspend throws; quick_stop() is not called. *)
Definition allowed (s : state) (e : event) : Prop :=
  match e with
  | ECall i | EWakeUpWh i _ => exists o, objs s i = Some o /\ hbool (handle_of o) = true
  | ERun j _ => forall h fut, objs s j = Some (OTask false h fut) ->
                exists f, fut = Some f /\ (hbool h = true \/ result_set s f = true)
  | ESuspendThrow _ => False
  | EQuickStop => False
  | _ => True
  end.
Definition allowedb (s : state) (e : event) : bool :=
  match e with
  | ECall i | EWakeUpWh i _ => match objs s i with Some o => hbool (handle_of o) | None => false end
  | ERun j _ => match objs s j with
                | Some (OTask false h (Some f)) => hbool h || result_set s f
                | Some (OTask false h None) => false
                | _ => true
                end
  | ESuspendThrow _ | EQuickStop => false
  | _ => true
  end.
Lemma allowedb_ok s e : allowedb s e = true -> allowed s e.
Proof.
  destruct e; cbn; try discriminate; auto.
  - destruct (objs s j) as [[?|?|[|] h [f|]]|]; try (intros _ ? ? E; discriminate E); try discriminate.
    intros Hb h' fut E. inversion E; subst. exists f. split; [reflexivity|]. now apply orb_true_iff in Hb.
  - destruct (objs s i); [|discriminate]. eauto.
  - destruct (objs s i); [|discriminate]. eauto.
Qed.
