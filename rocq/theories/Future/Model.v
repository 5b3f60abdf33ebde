(** Model of koios::promise / koios::future at the granularity of the critical sections of the shared
    state's std::mutex.

    /repo/include/koios/future.h 30-215, future_aw.h 18-48.

    One promise and any number of futures obtained from it (promise::get_future may be called
    repeatedly, future.h 187-190); future [i] is used by one consumer (a coroutine or a blocking
    thread) at a time, as the class requires.
    External and assumed: toolpex::callback_promise calls its callback (shared_state::set_value) exactly
    once when the promise is fulfilled; toolpex::future_frame stores a value or an exception. *)
From Coq Require Import List Arith Bool.
From Verif.Common Require Import TS.
Import ListNotations.

(** what a future_frame holds *)
(* a value or an exception, as toolpex::future_frame holds it: future.h 42-49 *)
Inductive result := Value (v : nat) | Exception (e : nat).

(* where the consumer is: future_aw.h 18-48, future.h 136-147 *)
Inductive pc :=
| Idle
| Suspending   (* co_await: await_ready() was false, await_suspend pending *)
| Waiting      (* suspended, registered as m_waiting *)
| Woken        (* handed to the scheduler *)
| Blocked      (* get(): inside m_cond.wait *)
| Notified.    (* get(): past wait_util_has_value() *)

(* the members of future, future.h 84-104 *)
Record fut := Fut { m_ff : option result; m_has_got : bool; at_ : pc }.

(* what the state keeps of future.h 30-215, future_aw.h 18-48 *)
Record state := St {
  ss_ff : option result;        (* shared_state::m_ff *)
  ss_waiting : option nat;      (* shared_state::m_waiting *)
  futs : nat -> fut;
  fulfilled : option result;    (* ghost: what the promise was fulfilled with *)
  asserted : bool               (* toolpex_assert(!m_waiting) failed: program aborted *)
}.
(* before anything has happened; future.h 30-215, future_aw.h 18-48 *)
Definition init : state :=
  {| ss_ff := None; ss_waiting := None;
     futs := fun _ => {| m_ff := None; m_has_got := false; at_ := Idle |};
     fulfilled := None; asserted := false |}.

(* what get_nonblk(), ready() and get() answer with: future.h 106-147 *)
Inductive outcome :=
| Returns (v : nat) | Rethrows (e : nat)
| NotReady        (* std::out_of_range *)
| AlreadyGot.     (* std::logic_error *)

Inductive event :=
| ESet (r : result) (w : nat)  (* promise fulfilled; w = thread chosen by notify_one, if any is blocked *)
| EReady (i : nat)             (* future::ready(), 149-155 *)
| EGetNonblk (i : nat)         (* future::get_nonblk(), 106-134 *)
| EGet (i : nat)               (* future::get() up to and including wait_util_has_value, 136-143 *)
| ESpurious (i : nat)          (* m_cond.wait returns without notification *)
| EGetRest (i : nat)           (* rest of get(), 144-146 *)
| EAwait (i : nat)             (* co_await: await_ready, future_aw.h 31-34 *)
| ESuspend (i : nat)           (* await_suspend -> set_waiting, future_aw.h 36-39, future.h 51-58 *)
| EResume (i : nat).           (* the scheduler resumes it: await_resume -> get_nonblk, future_aw.h 41-44 *)

(* bookkeeping of the model, no counterpart in /repo *)
Definition set_fut (s : state) i f := St (ss_ff s) (ss_waiting s) (upd (futs s) i f) (fulfilled s) (asserted s).
(* bookkeeping of the model, no counterpart in /repo *)
Definition goto (s : state) i p :=
  set_fut s i {| m_ff := m_ff (futs s i); m_has_got := m_has_got (futs s i); at_ := p |}.

(** if (!m_ff) m_ff = m_ss->get_future_frame_ptr();   (111, 145, 153; 60-64: moves it out of the
    shared state) *)
Definition fetch (s : state) (i : nat) : state :=
  match m_ff (futs s i) with
  | Some _ => s
  | None => let f := futs s i in
            St None (ss_waiting s)
               (upd (futs s) i {| m_ff := ss_ff s; m_has_got := m_has_got f; at_ := at_ f |})
               (fulfilled s) (asserted s)
  end.

(** future.h 106-134 *)
Definition get_nonblk (s0 : state) (i : nat) : state * outcome :=
  let s := fetch s0 i in
  let f := futs s i in
  match m_ff f with
  | None => (s, NotReady)
  | Some r => if m_has_got f then (s, AlreadyGot)
              else (set_fut s i {| m_ff := m_ff f; m_has_got := true; at_ := at_ f |},
                    match r with Value v => Returns v | Exception e => Rethrows e end)
  end.

(** wake_up(task): hand the registered coroutine to the scheduler *)
(* wake_up of the awaiting coroutine: future.h 42-49 *)
Definition wake (s : state) (w : nat) : state := goto s w Woken.

(** future.h 42-49; notify_one wakes at most one thread blocked in wait *)
Definition set_value (s : state) (r : result) (w : nat) : state :=
  let s1 := St (Some r) None (futs s) (Some r) (asserted s) in
  let s2 := match ss_waiting s with Some i => wake s1 i | None => s1 end in
  match at_ (futs s2 w) with Blocked => goto s2 w Notified | _ => s2 end.

(** future.h 51-58 *)
Definition set_waiting (s : state) (i : nat) : state :=
  match ss_waiting s with
  | Some _ => St (ss_ff s) (ss_waiting s) (futs s) (fulfilled s) true
  | None =>
      match ss_ff s with
      | Some _ => wake s i
      | None => let s1 := goto s i Waiting in
                St (ss_ff s1) (Some i) (futs s1) (fulfilled s1) (asserted s1)
      end
  end.

(** [any_blocked]: some consumer is blocked in m_cond.wait. notify_one must pick one of them if there is one; [w] is
    the pick. The condition is decidable only for finitely many consumers, so it is stated in [step] as: [w] is blocked, or
    nobody among the consumers below the bound [n] is. *)
(* nobody is left in the condition variable: future.h 42-67 *)
Fixpoint none_blocked (n : nat) (s : state) : bool :=
  match n with
  | O => true
  | S n' => match at_ (futs s n') with Blocked => false | _ => none_blocked n' s end
  end.

(** [n]: number of futures in the program; [sp]: whether condition variables wake spuriously. *)
(* what each step does: future.h 30-215, future_aw.h 18-48 *)
Definition step (n : nat) (sp : bool) (s : state) (e : event) : option state :=
  if asserted s then None else
  match e with
  | ESet r w =>
      match fulfilled s with
      | None => if none_blocked n s || match at_ (futs s w) with Blocked => true | _ => false end
                then Some (set_value s r w) else None
      | Some _ => None
      end
  | EReady i => if Nat.ltb i n then match at_ (futs s i) with Idle => Some (fetch s i) | _ => None end else None
  | EGetNonblk i => if Nat.ltb i n then match at_ (futs s i) with Idle => Some (fst (get_nonblk s i)) | _ => None end else None
  | EGet i =>
      if Nat.ltb i n then
      match at_ (futs s i) with
      | Idle => if m_has_got (futs s i) then Some s
                else Some (goto s i (match ss_ff s with Some _ => Notified | None => Blocked end))
      | _ => None
      end else None
  | ESpurious i => if sp then match at_ (futs s i) with Blocked => Some (goto s i Notified) | _ => None end else None
  | EGetRest i =>
      match at_ (futs s i) with
      | Notified => Some (goto (fst (get_nonblk (fetch s i) i)) i Idle)
      | _ => None
      end
  | EAwait i =>
      if Nat.ltb i n then
      match at_ (futs s i) with
      | Idle => let s1 := fetch s i in
                match m_ff (futs s1 i) with
                | Some _ => Some (fst (get_nonblk s1 i))       (* ready: await_resume at once *)
                | None => Some (goto s1 i Suspending)
                end
      | _ => None
      end else None
  | ESuspend i => match at_ (futs s i) with Suspending => Some (set_waiting s i) | _ => None end
  | EResume i => match at_ (futs s i) with
                 | Woken => Some (goto (fst (get_nonblk s i)) i Idle)
                 | _ => None
                 end
  end.
