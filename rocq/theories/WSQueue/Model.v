(** Model of koios::work_stealing_queue (/repo/include/koios/work_stealing_queue.h 22-128) over
    moodycamel_queue_wrapper (src/moodycamel_queue_wrapper.cc).

    Each underlying queue operation is one atomic step; a dequeue takes *some* element of a non-empty
    queue (moodycamel: no global FIFO) and fails on an empty one. The map is replaced copy-on-write under an
    atomic shared_ptr (38-56, 99-119), so an operation works on the snapshot it loaded: a dequeue remembers the keys it still has to visit.
    unordered_map iteration order is arbitrary: every event that iterates or takes begin() carries the order. *)
From Coq Require Import List Arith Bool.
From Verif.Common Require Import TS.
Import ListNotations.

(* std::thread::id: work_stealing_queue.h 22-128 *)
Definition tid := nat.
(* where a thread is in dequeue(), work_stealing_queue.h 38-56 *)
Inductive pc := Idle | Stealing (rest : list tid).

(* what the state keeps of work_stealing_queue.h 22-128 *)
Record state := St {
  keys : list tid;               (* registered consumer threads *)
  q : tid -> list nat;           (* contents of each thread's queue *)
  at_ : tid -> pc;               (* dequeue in progress *)
  ub : bool
}.
(* before anything has happened; work_stealing_queue.h 22-128 *)
Definition init : state := {| keys := []; q := fun _ => []; at_ := fun _ => Idle; ub := false |}.

Inductive event :=
| ERegister (t : tid)                       (* add_consumer_thread_id, 108-117 *)
| EEnqueue (attr : tid) (b : tid) (x : nat) (* enqueue(attr, x), 67-76; b = key of begin() *)
| EDeqOwn (t : tid) (k : nat) (order : list tid)  (* dequeue(attr t): own queue, 43-48; order = iteration order of the snapshot *)
| EDeqSteal (t : tid) (k : nat).            (* next queue of the loop, 50-57 *)

(* specification, no counterpart in /repo (what a user can observe) *)
Inductive obs := In_ (x : nat) | Out (t : tid) (r : option nat).

(* bookkeeping of the model, no counterpart in /repo *)
Definition memb (t : tid) (l : list tid) : bool := existsb (Nat.eqb t) l.
(* bookkeeping of the model, no counterpart in /repo *)
Definition set_pc s t p := St (keys s) (q s) (upd (at_ s) t p) (ub s).
(* undefined behaviour is recorded: bookkeeping of the model, no counterpart in /repo *)
Definition boom s := St (keys s) (q s) (at_ s) true.

(** [order] visits exactly the keys *)
(* an iteration order of the map: environment, not code of /repo *)
Definition same_keys (l order : list tid) : bool :=
  Nat.eqb (length order) (length l) && forallb (fun t => memb t order) l && forallb (fun t => memb t l) order.

(** one try_dequeue on queue [j] by thread [t]; the element taken is the [k]-th *)
(* one underlying try_dequeue, src/moodycamel_queue_wrapper.cc *)
Definition try_dequeue (s : state) (j : tid) (k : nat) : option (option nat * state) :=
  match q s j with
  | [] => Some (None, s)
  | _ => match take_nth k (q s j) with
         | Some (x, r) => Some (Some x, St (keys s) (upd (q s) j r) (at_ s) (ub s))
         | None => None                       (* not a valid choice *)
         end
  end.

(* what each step does: work_stealing_queue.h 22-128 *)
Definition step (s : state) (e : event) : option (state * list obs) :=
  if ub s then None else
  match e with
  | ERegister t => if memb t (keys s) then Some (s, [])      (* insert of an existing key: no effect *)
                   else Some (St (t :: keys s) (upd (q s) t []) (at_ s) (ub s), [])
  | EEnqueue a b x =>
      if memb a (keys s) then Some (St (keys s) (upd (q s) a (q s a ++ [x])) (at_ s) (ub s), [In_ x])
      else match keys s with
           | [] => Some (boom s, [])                        (* *queues.begin() of an empty map *)
           | _ => if memb b (keys s) then Some (St (keys s) (upd (q s) b (q s b ++ [x])) (at_ s) (ub s), [In_ x])
                  else None
           end
  | EDeqOwn t k order =>
      match at_ s t with
      | Idle =>
          if memb t (keys s) then
            if same_keys (keys s) order then
            match try_dequeue s t k with
            | Some (Some x, s') => Some (s', [Out t (Some x)])
            | Some (None, s') => Some (set_pc s' t (Stealing order), [])
            | None => None
            end else None
          else Some (boom s, [])                            (* queues[id] inserts a null pointer, then -> *)
      | _ => None
      end
  | EDeqSteal t k =>
      match at_ s t with
      | Stealing [] => Some (set_pc s t Idle, [Out t None])
      | Stealing (j :: rest) =>
          match try_dequeue s j k with
          | Some (Some x, s') => Some (set_pc s' t Idle, [Out t (Some x)])
          | Some (None, s') => Some (set_pc s' t (Stealing rest), [])
          | None => None
          end
      | _ => None
      end
  end.

(** 78-88 *)
Fixpoint total (l : list tid) (f : tid -> list nat) : nat :=
  match l with [] => 0 | t :: l' => length (f t) + total l' f end.
(* size(), work_stealing_queue.h 75-85 *)
Definition size (s : state) : nat := total (keys s) (q s).

(* bookkeeping of the model, no counterpart in /repo *)
Definition next (s : state) (e : event) : option state := option_map fst (step s e).
(* specification, no counterpart in /repo (what a user can observe) *)
Definition observe (s : state) (e : event) (_ : state) : list obs :=
  match step s e with Some (_, o) => o | None => [] end.

(** A complete dequeue by [t] with nothing else going on. *)
(* a whole dequeue() run without interruption: specification, no counterpart in /repo *)
Fixpoint scan (s : state) (t : tid) (k : nat) (rest : list tid) : option nat :=
  match rest with
  | [] => None
  | j :: rest' => match q s j with
                  | [] => scan s t k rest'
                  | l => nth_error l (k mod length l)
                  end
  end.
