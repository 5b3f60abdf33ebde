(** Model of koios::expected (include/koios/expected.h).

    The functions given to and_then are arbitrary C++ callables: they may read and change any state and may throw.
    They are modelled as computations over an arbitrary world [W].
    Not modelled: overload resolution among the constructors (each constructor is named here by what it stores);
    move constructors of values and errors do not throw (unexpected_t requires it for the error type). *)
Section World.
Variable W : Type.    (* the rest of the program state *)
Variable X : Type.    (* exception objects thrown by user code *)

(** how a C++ expression ends *)
(* the end of a C++ expression: environment, not code of /repo *)
Inductive outcome (A : Type) :=
| Ret (a : A)
| Throw (x : X)
| BadAccess.          (* std::bad_variant_access *)
Arguments Ret {A}. Arguments Throw {A}. Arguments BadAccess {A}.
(* a callable given to and_then: environment, not code of /repo *)
Definition comp (A : Type) := W -> outcome A * W.

(** expected_base<T,Err>::m_storage, expected.h 28-47: a std::variant<T,Err>.
    Index 2 = valueless_by_exception, which a throwing assignment can leave behind. *)
Inductive expected (T E : Type) :=
| Value (v : T)
| Error (e : E)
| Valueless.
Arguments Value {T E}. Arguments Error {T E}. Arguments Valueless {T E}.

(** expected.h 40 *)
Definition has_value {T E} (o : expected T E) : bool := match o with Value _ => true | _ => false end.
(** expected.h 42: get<1>(m_storage) *)
Definition error {T E} (o : expected T E) : outcome E := match o with Error e => Ret e | _ => BadAccess end.
(** expected.h 43: get<0>(m_storage) *)
Definition value {T E} (o : expected T E) : outcome T := match o with Value v => Ret v | _ => BadAccess end.

(** expected.h 94-99, 101-106, and the conversions of unexpected_t 164-168 *)
Definition make_value {T E} (v : T) : expected T E := Value v.
(* unexpected_tag constructor and unexpected_t, expected.h 101-106, 145-170 *)
Definition make_unexpected {T E} (e : E) : expected T E := Error e.

(** and_then, expected.h 113-137, both for functions returning an expected (126-129) and for functions returning a
    task of an expected (130-135: koios::identity(...) is a task which co_returns its argument, functional.h): what
    is modelled is the effect of evaluating the call and, for the task case, awaiting the result. *)
Definition and_then {T U E} (o : expected T E) (f : T -> comp (expected U E)) : comp (expected U E) :=
  fun w =>
    if has_value o then
      match value o with
      | Ret v => f v w
      | Throw x => (Throw x, w)
      | BadAccess => (BadAccess, w)
      end
    else
      match error o with
      | Ret e => (Ret (make_unexpected e), w)
      | Throw x => (Throw x, w)
      | BadAccess => (BadAccess, w)
      end.

(** The object after the call: and_then moves out of it (122, 128, 133), so its content is the moved-from value. *)
(* and_then moves the content out: expected.h 113-136 *)
Definition after_and_then {T E} (moved_v : T -> T) (moved_e : E -> E) (o : expected T E) : expected T E :=
  match o with Value v => Value (moved_v v) | Error e => Error (moved_e e) | Valueless => Valueless end.

(** expected_base<void,Err>, expected.h 49-80: only an optional error is stored *)
Definition expected_void (E : Type) := option E.
(* has_value, expected.h 65 *)
Definition has_value_v {E} (o : expected_void E) : bool := match o with None => true | Some _ => false end.  (* 65 *)
Definition error_v {E} (o : expected_void E) : outcome E := match o with Some e => Ret e | None => BadAccess end.  (* 67-71 *)
Definition value_v {E} (o : expected_void E) : outcome unit := match o with Some _ => BadAccess | None => Ret tt end. (* 73-76 *)
Definition make_ok {E} : expected_void E := None.                      (* 56-58, 108-111, ok() 174-194 *)
Definition make_unexpected_v {E} (e : E) : expected_void E := Some e.  (* 60-63 *)

(** and_then of expected<void,Err> (line 123: f()) whose function returns an expected<U,Err> *)
Definition and_then_v {U E} (o : expected_void E) (f : comp (expected U E)) : comp (expected U E) :=
  fun w =>
    if has_value_v o then f w
    else match error_v o with Ret e => (Ret (make_unexpected e), w) | Throw x => (Throw x, w) | BadAccess => (BadAccess, w) end.
(** ... and with a function returning an expected<void,Err> *)
(* and_then of expected<void>, expected.h 113-136, line 123 *)
Definition and_then_vv {E} (o : expected_void E) (f : comp (expected_void E)) : comp (expected_void E) :=
  fun w =>
    if has_value_v o then f w
    else match error_v o with Ret e => (Ret (make_unexpected_v e), w) | Throw x => (Throw x, w) | BadAccess => (BadAccess, w) end.
(** and_then of expected<T,Err> with a function returning an expected<void,Err> *)
(* and_then from T to void, expected.h 113-136 *)
Definition and_then_tv {T E} (o : expected T E) (f : T -> comp (expected_void E)) : comp (expected_void E) :=
  fun w =>
    if has_value o then
      match value o with Ret v => f v w | Throw x => (Throw x, w) | BadAccess => (BadAccess, w) end
    else match error o with Ret e => (Ret (make_unexpected_v e), w) | Throw x => (Throw x, w) | BadAccess => (BadAccess, w) end.

(** C++ sequencing: evaluate c, then use its value (the glue in e.g. f(x).and_then(g)) *)
(* one computation after the other: environment, not code of /repo *)
Definition seq {A B} (c : comp A) (k : A -> comp B) : comp B :=
  fun w => match c w with
           | (Ret a, w') => k a w'
           | (Throw x, w') => (Throw x, w')
           | (BadAccess, w') => (BadAccess, w')
           end.
End World.
Arguments Ret {X A}. Arguments Throw {X A}. Arguments BadAccess {X A}.
Arguments Value {T E}. Arguments Error {T E}. Arguments Valueless {T E}.
Arguments has_value {T E}. Arguments value {X T E}. Arguments error {X T E}.
Arguments has_value_v {E}. Arguments value_v {X E}. Arguments error_v {X E}.
Arguments make_value {T E}. Arguments make_unexpected {T E}. Arguments make_ok {E}. Arguments make_unexpected_v {E}.
Arguments and_then {W X T U E}. Arguments and_then_v {W X U E}. Arguments and_then_vv {W X E}. Arguments and_then_tv {W X T E}.
Arguments after_and_then {T E}. Arguments seq {W X A B}.
