(** C122: make_lazy(f, args...) and the callable it is given. include/koios/functional.h 27-44, and through it for_each 96-110 and for_each_dispatch_evenly 123-143, which call it for every element.

    [f] is an object with state (a lambda with captures, a function object), whose call operator is a coroutine: its body reaches that state through [this]. The two overloads:
    - 27-36, [f] returns an eager task: make_lazy is itself a coroutine; [f] is a parameter, so a copy lives in its frame; when it is scheduled it calls that copy and awaits the task;
    - 38-44, [f] returns a lazy task: make_lazy is an ordinary function; [f] is a by-value parameter, which lives until make_lazy returns; the task it returns has not begun to run.
    include/koios/return_value_or_void.h 60-63, 73-76: the awaiting coroutine is woken in return_value(), before the local variables of the body are destroyed (C97).
    Simplification: one call of make_lazy; the caller keeps no copy of its own alive for it (the code does not refer to one). *)
From Coq Require Import List Arith Bool.
From Verif.Common Require Import TS.
Import ListNotations.

(* the frame of make_lazy in the first overload, functional.h 27-36 *)
Inductive wrapper := WNone | WReady | WAwaits | WGone.           (* make_lazy's frame, which holds the copy of f *)
(* the coroutine f(args...) returns, functional.h 27-44 *)
Inductive body := BNone | BReady | BRuns | BSuspended | BReturned | BGone.   (* the coroutine of f; BReturned: co_return done, locals not yet destroyed *)
(* what the state keeps of functional.h 27-44 *)
Record state := St { wrap : wrapper; param : bool (* the by-value parameter exists *); bdy : body; dangling : bool (* f's state was used after it was gone *) }.
(* before anything has happened; functional.h 27-44 *)
Definition init : state := St WNone false BNone false.
(* the steps of functional.h 27-44 *)
Inductive event :=
| ECall        (* make_lazy(f, args...) *)
| EReturn      (* make_lazy returns to its caller *)
| ESchedule    (* the lazy task is run *)
| EUse         (* a statement of the body uses f's state *)
| ESuspend | EResume
| ECoReturn    (* co_return in the body: the promise is fulfilled *)
| EUseInDtor   (* the destructor of a local variable of the body uses f's state *)
| EDestroyed   (* the body's frame is gone *)
| EWrapperEnds. (* make_lazy's coroutine gets the result and ends *)

Section L.
  Variable lazy : bool.       (* f returns a lazy task *)
  (** where the [this] of the body points to exists *)
  (* the copy of f that the body refers to: functional.h 27-36 (in the frame), 38-44 (a parameter) *)
  Definition alive (s : state) : bool := if lazy then param s else match wrap s with WReady | WAwaits => true | _ => false end.
  (* the body reads its captures: functional.h 27-44 *)
  Definition use (s : state) : state := St (wrap s) (param s) (bdy s) (dangling s || negb (alive s)).
  (* bookkeeping of the model, no counterpart in /repo *)
  Definition set_b (s : state) b := St (wrap s) (param s) b (dangling s).
  (* what each step does: functional.h 27-44 *)
  Definition step (s : state) (e : event) : option state :=
    match e with
    | ECall => match wrap s, bdy s, param s with
               | WNone, BNone, false => Some (if lazy then St WNone true BReady (dangling s) else St WReady true BNone (dangling s))
               | _, _, _ => None
               end
    | EReturn => if param s then Some (St (wrap s) false (bdy s) (dangling s)) else None
    | ESchedule => if param s then None else     (* the caller has the task only when make_lazy has returned *)
                   if lazy then match bdy s with BReady => Some (set_b s BRuns) | _ => None end
                   else match wrap s, bdy s with WReady, BNone => Some (St WAwaits (param s) BRuns (dangling s)) | _, _ => None end
    | EUse => match bdy s with BRuns => Some (use s) | _ => None end
    | ESuspend => match bdy s with BRuns => Some (set_b s BSuspended) | _ => None end
    | EResume => match bdy s with BSuspended => Some (set_b s BRuns) | _ => None end
    | ECoReturn => match bdy s with BRuns => Some (set_b s BReturned) | _ => None end
    | EUseInDtor => match bdy s with BReturned => Some (use s) | _ => None end
    | EDestroyed => match bdy s with BReturned => Some (set_b s BGone) | _ => None end
    | EWrapperEnds => match wrap s, bdy s with WAwaits, (BReturned | BGone) => Some (St WGone (param s) (bdy s) (dangling s)) | _, _ => None end
    end.
End L.

(** C122: the callable given to make_lazy (for_each, ...) lives as long as its coroutine uses it. What holds: if it returns eager tasks, every use by a statement of the body finds it alive, in every history. *)
(* specification, no counterpart in /repo *)
Definition body_uses_only (e : event) : Prop := e <> EUseInDtor.
Theorem C122_eager_partial : forall l s, run (step false) init l = Some s -> Forall body_uses_only l -> dangling s = false.
Proof.
  assert (G : forall l s s', dangling s = false -> match bdy s with BRuns | BSuspended => wrap s = WAwaits | _ => True end -> run (step false) s l = Some s' -> Forall body_uses_only l -> dangling s' = false).
  { induction l as [|e l IH]; intros s s' Hd Hb Hr Hf; cbn [run] in Hr; [injection Hr as <-; exact Hd|]. destruct (step false s e) as [s1|] eqn:Es; [|discriminate]. apply Forall_cons_iff in Hf as [He Hf]. apply (IH s1 s'); auto.
    - destruct s as [w p b d]; cbn in *. destruct e; cbn in Es; try (exfalso; apply He; reflexivity); destruct w, b, p; try discriminate; injection Es as <-; cbn; subst; auto; discriminate.
    - destruct s as [w p b d]; cbn in *. destruct e; cbn in Es; destruct w, b, p; try discriminate; injection Es as <-; cbn; auto; discriminate. }
  intros l s Hr Hf. apply (G l init s); auto. exact I.
Qed.
Print Assumptions C122_eager_partial.
Example C122_eager_case : exists s, run (step false) init [ECall; EReturn; ESchedule; EUse; ESuspend; EResume; EUse; ECoReturn; EWrapperEnds; EDestroyed] = Some s /\ dangling s = false /\ wrap s = WGone.
Proof. eexists. split; [reflexivity|]. split; reflexivity. Qed.

(** Not if a destructor uses it: the wrapper, with the copy, may be gone before the local variables of the body are. *)
Theorem C122_destructor_refuted : exists l s, run (step false) init l = Some s /\ dangling s = true.
Proof. exists [ECall; EReturn; ESchedule; EUse; ECoReturn; EWrapperEnds; EUseInDtor]. eexists. split; reflexivity. Qed.
Print Assumptions C122_destructor_refuted.
(** If it returns lazy tasks: no use finds it alive, in no history. The parameter is gone before the body begins. *)
Theorem C122_lazy_refuted : forall l s, run (step true) init l = Some s -> In EUse l \/ In EUseInDtor l -> dangling s = true.
Proof.
  assert (G : forall l s s', match bdy s with BNone | BReady => True | _ => param s = false end -> (param s = true -> bdy s = BReady) -> run (step true) s l = Some s' -> In EUse l \/ In EUseInDtor l \/ dangling s = true -> dangling s' = true).
  { induction l as [|e l IH]; intros s s' Hb Hp Hr Hu; cbn [run] in Hr; [injection Hr as <-; destruct Hu as [[]|[[]|Hu]]; exact Hu|]. destruct (step true s e) as [s1|] eqn:Es; [|discriminate].
    apply (IH s1 s'); auto; destruct s as [w p b d]; cbn in *; destruct e; cbn in Es; destruct w, b, p; try discriminate; try (specialize (Hp eq_refl); discriminate); injection Es as <-; cbn; auto; try discriminate;
      destruct Hu as [[Hu|Hu]|[[Hu|Hu]|Hu]]; try discriminate; auto; rewrite ?orb_true_r; auto; subst; cbn; auto. }
  intros l s Hr Hu. apply (G l init s); auto; [exact I|discriminate|tauto].
Qed.
Print Assumptions C122_lazy_refuted.
Example C122_lazy_case : exists s, run (step true) init [ECall; EReturn; ESchedule; EUse] = Some s /\ dangling s = true.
Proof. eexists. split; reflexivity. Qed.
