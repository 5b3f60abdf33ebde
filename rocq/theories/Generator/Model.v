(** Model of koios generators: include/koios/generator.h and include/koios/generator_shared_state.h.

    One generator, one consumer coroutine calling next_value_async() (a second simultaneous consumer violates the assertion in
    set_waiting_coro). The body yields the values [vals] and then returns, or throws if [throws]. Every step is one critical
    section of shared_state's spin lock or one scheduler action; the consumer's and the generator's steps interleave freely. *)
From Coq Require Import List Arith Bool.
From Verif.Common Require Import TS.
Import ListNotations.

Section G.
  Context {V : Type}.
  Variable vals : list V.
  Variable throws : bool.

  Inductive gpc :=
  | GParked      (* suspended, handle in m_generator_coro (initially: generator.h 235, lazily started) *)
  | GQueued      (* woken, in the scheduler's queue *)
  | GRunning
  | GSet         (* yield_value stored the value (117-118), about to run await_suspend (128) *)
  | GParking     (* handle stored (136), about to wake the consumer (137) *)
  | GRet1        (* return_void: finalized set (103), consumer not yet woken (104) *)
  | GRet2        (* consumer woken; the body's local variables are still to be destroyed *)
  | GThrown      (* unhandled_exception rethrows out of resume() (107) *)
  | GGone.       (* frame destroyed *)
  (* where the consumer is: generator.h 71-89, generator_shared_state.h 47-74 *)
  Inductive cpc :=
  | CIdle        (* consumer is running, not inside next_value_async *)
  | CSusp        (* await_suspend: set_waiting_coro done (78), about to wake the generator (79) *)
  | CWaiting
  | CQueued.     (* woken *)

  (* what the state keeps of generator.h 60-240, generator_shared_state.h 14-101 *)
  Record state := St {
    gen : gpc; cons : cpc; waiting : bool (* m_waiting_coro *); slot : option V; finalized : bool;
    rest : list V;                 (* values the body has not yielded yet *)
    received : list (option V);    (* results of next_value_async so far *)
    alive : bool;                  (* the generator object exists *)
    bad : bool                     (* a toolpex_assert failed, or a null handle was woken *)
  }.
  (* before anything has happened; generator.h 60-240, generator_shared_state.h 14-101 *)
  Definition init : state := St GParked CIdle false None false vals [] true false.

  Inductive event :=
  | CCall     (* co_await gen.next_value_async() up to set_waiting_coro: 71-78 *)
  | CWake     (* 79 *)
  | CResume   (* the consumer continues: await_resume 82-89 *)
  | GRun      (* a worker resumes the generator *)
  | GYield    (* co_yield: 113-118 *)
  | GPark     (* await_suspend of the yield: 128-136 *)
  | GNotify   (* 137 *)
  | GReturn   (* 101-103 *)
  | GRetNotify(* 104 *)
  | GDone     (* destruction of the body's locals, final suspend (destroy_aw) *)
  | GThrow    (* 107 *)
  | ODestroy. (* the generator object is destroyed: 224-229, try_finalize *)

  (* what each step does: generator.h 60-240, generator_shared_state.h 14-101 *)
  Definition next (s : state) (e : event) : option state :=
    if bad s then None else
    match e with
    | CCall =>
        match cons s with
        | CIdle => if alive s then
                     if finalized s then Some (St (gen s) CIdle (waiting s) (slot s) true (rest s) (received s ++ [None]) true false)
                     else if waiting s then Some (St (gen s) (cons s) true (slot s) false (rest s) (received s) true true)
                     else Some (St (gen s) CSusp true (slot s) false (rest s) (received s) true false)
                   else None
        | _ => None
        end
    | CWake =>
        match cons s with
        | CSusp => match gen s with
                   | GParked | GParking => Some (St GQueued CWaiting (waiting s) (slot s) (finalized s) (rest s) (received s) (alive s) false)
                   | _ => Some (St (gen s) CSusp (waiting s) (slot s) (finalized s) (rest s) (received s) (alive s) true)
                   end
        | _ => None
        end
    | CResume =>
        match cons s with
        | CQueued => if finalized s then Some (St (gen s) CIdle (waiting s) (slot s) true (rest s) (received s ++ [None]) (alive s) false)
                     else match slot s with
                          | Some v => Some (St (gen s) CIdle (waiting s) None false (rest s) (received s ++ [Some v]) (alive s) false)
                          | None => Some (St (gen s) CQueued (waiting s) None false (rest s) (received s) (alive s) true)
                          end
        | _ => None
        end
    | GRun => match gen s with
              | GQueued => Some (St GRunning (cons s) (waiting s) (slot s) (finalized s) (rest s) (received s) (alive s) false)
              | _ => None
              end
    | GYield => match gen s, rest s with
                | GRunning, v :: r =>
                    Some (St GSet (cons s) (waiting s) (if finalized s then slot s else Some v) (finalized s) r (received s) (alive s) false)
                | _, _ => None
                end
    | GPark => match gen s with
               | GSet => if finalized s
                         then Some (St GGone (cons s) (waiting s) (slot s) true (rest s) (received s) (alive s) (waiting s))
                         else Some (St GParking (cons s) (waiting s) (slot s) false (rest s) (received s) (alive s) false)
               | _ => None
               end
    | GNotify => match gen s with
                 | GParking => Some (St GParked (if waiting s then CQueued else cons s) false (slot s) (finalized s) (rest s) (received s) (alive s) false)
                 | _ => None
                 end
    | GReturn => match gen s, rest s with
                 | GRunning, [] => if throws then None
                                   else Some (St GRet1 (cons s) (waiting s) (slot s) true [] (received s) (alive s) false)
                 | _, _ => None
                 end
    | GRetNotify => match gen s with
                    | GRet1 => Some (St GRet2 (if waiting s then CQueued else cons s) false (slot s) (finalized s) (rest s) (received s) (alive s) false)
                    | _ => None
                    end
    | GDone => match gen s with
               | GRet2 => Some (St GGone (cons s) (waiting s) (slot s) (finalized s) (rest s) (received s) (alive s) false)
               | _ => None
               end
    | GThrow => match gen s, rest s with
                | GRunning, [] => if throws then Some (St GThrown (cons s) (waiting s) (slot s) (finalized s) [] (received s) (alive s) false) else None
                | _, _ => None
                end
    | ODestroy => match cons s with      (* by the consumer, outside of next_value_async *)
                  | CIdle => if alive s then
                               Some (St (match gen s with GParked => GGone | g => g end) CIdle (waiting s) (slot s) true (rest s) (received s) false (waiting s))
                             else None
                  | _ => None
                  end
    end.
End G.

(** * unique_impl, generator.h 248-270, on the sequence the source generator delivers: [compared] is compared_opt *)
Section U.
  Context {V : Type}.
  Variable equal : V -> V -> bool.
  Fixpoint unique_loop (compared : V) (src : list V) : list V :=
    match src with
    | [] => [compared]                                      (* 257-261 *)
    | cur :: src' => if equal compared cur then unique_loop compared src'      (* 264-265 *)
                     else compared :: unique_loop cur src'                     (* 266 *)
    end.
  (* unique_impl, generator.h 247-270 *)
  Definition unique_impl (src : list V) : list V :=
    match src with [] => [] | x :: src' => unique_loop x src' end.
End U.

(** * merge, generator.h 360-392: heads of the lists are lhs_cur / rhs_cur *)
Section M.
  Context {V : Type}.
  Variable comp : V -> V -> bool.
  Fixpoint merge (lhs : list V) : list V -> list V :=
    fix go (rhs : list V) : list V :=
      match lhs, rhs with
      | l :: lhs', r :: rhs' => if comp l r then l :: merge lhs' rhs else r :: go rhs'    (* 367-378 *)
      | l :: lhs', [] => l :: merge lhs' []                                              (* 380-384 *)
      | [], r :: rhs' => r :: go rhs'                                                    (* 385-389 *)
      | [], [] => []                                                                     (* 390 *)
      end.
End M.

(** * Ownership of generator objects: generator.h 221-238. Each coroutine frame f has one shared_state, which the promise in the frame
    keeps alive (60) and which owns the frame's handle while it is suspended (17 of generator_shared_state.h): a reference
    cycle that only try_finalize (88-95) or running to the end breaks. Objects hold [Some f] or null. *)
Record ostate := OSt { gobj : nat -> option (option nat); falive : nat -> bool; fmade : nat -> bool }.
(* no generator object yet: generator.h 188-240 *)
Definition oinit : ostate := OSt (fun _ => None) (fun _ => false) (fun _ => false).
Inductive oevent :=
| OMake (i f : nat)      (* calling a generator coroutine *)
| OMove (i j : nat)      (* move constructor (222) *)
| OAssign (i j : nat)    (* defaulted move assignment (223): only the shared_ptr is replaced *)
| OKill (i : nat).       (* destructor (224-229) *)
Definition onext (s : ostate) (e : oevent) : option ostate :=
  match e with
  | OMake i f => match gobj s i with
                 | None => if fmade s f then None else Some (OSt (upd (gobj s) i (Some (Some f))) (upd (falive s) f true) (upd (fmade s) f true))
                 | Some _ => None
                 end
  | OMove i j => match gobj s i, gobj s j with
                 | None, Some p => Some (OSt (upd (upd (gobj s) j (Some None)) i (Some p)) (falive s) (fmade s))
                 | _, _ => None
                 end
  | OAssign i j => match gobj s i, gobj s j with
                   | Some _, Some p => if Nat.eqb i j then Some s
                                       else Some (OSt (upd (upd (gobj s) j (Some None)) i (Some p)) (falive s) (fmade s))
                   | _, _ => None
                   end
  | OKill i => match gobj s i with
               | Some (Some f) => Some (OSt (upd (gobj s) i None) (upd (falive s) f false) (fmade s))
               | Some None => Some (OSt (upd (gobj s) i None) (falive s) (fmade s))
               | None => None
               end
  end.
