From Coq Require Import List.
From Verif.Expected Require Import Model Spec.
Import ListNotations.

(** C29: on a value, and_then calls the function exactly once, on that value, and returns what the function returned
    (or lets its exception through); the function's effects are the only effects. *)
Theorem C29_and_then_value : forall W X T U E (v : T) (f : T -> comp W X (expected U E)) w,
  calls (and_then (make_value v) (recorded f)) w = [v] /\
  result (and_then (make_value v) (recorded f)) w = fst (f v w) /\
  effect (and_then (make_value v) (recorded f)) w = snd (f v w).
Proof.
  intros. unfold calls, result, effect, and_then, recorded, make_value. cbn.
  destruct (f v w) as [r w']; cbn. auto.
Qed.
Print Assumptions C29_and_then_value.

(** C29: on an error, the function is not called, nothing happens, and the same error comes out. *)
Theorem C29_and_then_error : forall W X T U E (e : E) (f : T -> comp W X (expected U E)) w,
  calls (and_then (make_unexpected e) (recorded f)) w = [] /\
  result (and_then (make_unexpected e) (recorded f)) w = Ret (make_unexpected e) /\
  effect (and_then (make_unexpected e) (recorded f)) w = w.
Proof. intros. repeat split. Qed.
Print Assumptions C29_and_then_error.

(** C29: chains associate: (o.and_then(f)).and_then(g) is o.and_then(x -> f(x).and_then(g)), for every object
    (a valueless one included), every f and g, including functions that throw. *)
Theorem C29_and_then_assoc : forall W X T U V E (o : expected T E)
    (f : T -> comp W X (expected U E)) (g : U -> comp W X (expected V E)),
  same (seq (and_then o f) (fun r => and_then r g)) (and_then o (fun x => seq (f x) (fun r => and_then r g))).
Proof. intros W X T U V E [v|e|] f g w; reflexivity. Qed.
Print Assumptions C29_and_then_assoc.

(** C29: wrapping and binding are inverse. *)
Theorem C29_identity_laws : forall W X T U E (v : T) (o : expected T E) (f : T -> comp W X (expected U E)),
  same (and_then (make_value v) f) (f v) /\
  (o <> Valueless -> same (and_then o (fun x w => (Ret (make_value x), w))) (fun w : W => (@Ret X _ o, w))).
Proof.
  intros. split; [intros w; reflexivity|]. intros Ho w. destruct o; [reflexivity|reflexivity|congruence].
Qed.
Print Assumptions C29_identity_laws.

(** C29: what was put in is what comes out: exactly one of value()/error() succeeds and returns the stored object. *)
Theorem C29_accessors : forall X T E (v : T) (e : E),
  (has_value (make_value (E := E) v) = true /\ value (X := X) (make_value (E := E) v) = Ret v /\ error (X := X) (make_value (E := E) v) = BadAccess) /\
  (has_value (make_unexpected (T := T) e) = false /\ error (X := X) (make_unexpected (T := T) e) = Ret e /\ value (X := X) (make_unexpected (T := T) e) = BadAccess) /\
  (has_value_v (E := E) make_ok = true /\ value_v (X := X) (E := E) make_ok = Ret tt /\ error_v (X := X) (E := E) make_ok = BadAccess) /\
  (has_value_v (make_unexpected_v e) = false /\ error_v (X := X) (make_unexpected_v e) = Ret e /\ value_v (X := X) (make_unexpected_v e) = BadAccess).
Proof. intros. repeat split. Qed.
Print Assumptions C29_accessors.

(** C29: for every object, a valueless one included: has_value() says whether value() succeeds, value() and error() never both succeed,
    and neither does exactly for the valueless object. *)
Theorem C29_has_value_iff : forall X T E (o : expected T E),
  (has_value o = true <-> exists v, value (X := X) o = Ret v) /\
  ((exists v, value (X := X) o = Ret v) -> error (X := X) o = BadAccess) /\
  (value (X := X) o = BadAccess /\ error (X := X) o = BadAccess <-> o = Valueless).
Proof.
  intros X T E [v|e|]; cbn; repeat split; intros; try easy; try (eexists; reflexivity); try (now destruct H).
Qed.
Print Assumptions C29_has_value_iff.

(** The state flag of the object itself is not changed by and_then (its content is moved from). *)
Theorem C29_object_keeps_its_state : forall T E mv me (o : expected T E),
  has_value (after_and_then mv me o) = has_value o.
Proof. intros T E mv me [v|e|]; reflexivity. Qed.
Print Assumptions C29_object_keeps_its_state.

(** C29 for expected<void,Err>, whose representation is different. *)
Theorem C29_void_and_then : forall W X U E (e : E) (f : comp W X (expected U E)) (h : comp W X (expected_void E)),
  same (and_then_v make_ok f) f /\
  same (and_then_v (make_unexpected_v e) f) (fun w => (Ret (make_unexpected e), w)) /\
  same (and_then_vv make_ok h) h /\
  same (and_then_vv (make_unexpected_v e) h) (fun w => (Ret (make_unexpected_v e), w)).
Proof. intros. repeat split. Qed.
Print Assumptions C29_void_and_then.

Theorem C29_void_assoc : forall W X T U E (o : expected T E) (ov : expected_void E)
    (f : T -> comp W X (expected_void E)) (h : comp W X (expected_void E)) (g : comp W X (expected U E)),
  same (seq (and_then_tv o f) (fun r => and_then_v r g)) (and_then o (fun x => seq (f x) (fun r => and_then_v r g))) /\
  same (seq (and_then_vv ov h) (fun r => and_then_v r g)) (and_then_v ov (seq h (fun r => and_then_v r g))).
Proof.
  intros. split; intros w; [destruct o as [v|e|]|destruct ov as [e|]]; reflexivity.
Qed.
Print Assumptions C29_void_assoc.

(** Concrete case: a counter as world; the second function fails, the third is never called. *)
Example C29_case :
  let inc := fun (n : nat) (w : nat) => (@Ret unit _ (@make_value nat nat (n + 1)), S w) in
  let fail := fun (n : nat) (w : nat) => (@Ret unit _ (@make_unexpected nat nat 7), S w) in
  seq (seq (and_then (make_value 1) inc) (fun r => and_then r fail)) (fun r => and_then r inc) 0 = (Ret (make_unexpected 7), 2).
Proof. reflexivity. Qed.
