(** Model of koios::uring::op_batch(_rep), op_batch_execute_aw and koios::iouring_event_loop.

    /repo/include/koios/iouring_op_batch_rep.h 26-82, src/iouring_op_batch_rep.cc 12-29,
    include/koios/iouring_op_batch.h 50-349, src/iouring_op_batch.cc 14-414,
    src/iouring_op_batch_execute_aw.cc 14-26, include/koios/iouring.h 34-138, src/iouring.cc 25-184.

    Simplifications: what an operation does (opcode, descriptor, buffer) is one opaque number; deadlines are
    unbounded integers; the memory resource holding the vectors is not modelled; a coroutine is its frame address.
    The kernel is the environment: it takes any number of submitted entries off the submission queue at each
    io_uring_submit, and completes each entry it took exactly once, at any later time, in any order and with any result
    (koios submits no multishot operation). *)
From Coq Require Import List Arith ZArith Bool.
From Verif.Common Require Import TS.
Import ListNotations.

(** What an entry asks for: a user operation, or IORING_OP_LINK_TIMEOUT with a deadline (iouring_op_batch.cc 380-384). *)
Inductive opk := Oper (n : nat) | LinkTimeout (d : Z).

(** the fields of ::io_uring_sqe the code relies on: operation, IOSQE_IO_LINK, user_data *)
(* an entry of m_sqes, iouring_op_batch_rep.h 26-82 (q_ud: its user data, src/iouring_op_batch_rep.cc 12-17) *)
Record sqe := Sqe { q_op : opk; q_link : bool; q_ud : nat }.

(** ioret_for_any_base (value only); [r_op] is ghost: the operation whose completion this is. The code does not store it. *)
(* an entry of m_rets, iouring_op_batch_rep.h 26-82; r_op: ghost, the operation it answers *)
Record ret := Ret { r_val : Z; r_op : opk }.

(** iouring_op_batch_rep.h 78-81 *)
Record rep := Rep { m_sqes : list sqe; m_rets : list ret; m_was_timeout_set : bool }.
(* an empty op_batch_rep, iouring_op_batch_rep.h 26-82 *)
Definition rep0 : rep := Rep [] [] false.

(** iouring_op_batch_rep.cc 12-17: the slot get_sqe() returns, filled with [q]. [None]: prev(end()) of an empty vector (UB). *)
Definition put_sqe (r : rep) (q : sqe) : option rep :=
  if m_was_timeout_set r
  then match rev (m_sqes r) with
       | [] => None
       | lst :: pre => Some (Rep (rev pre ++ [q; lst]) (m_rets r) (m_was_timeout_set r))
       end
  else Some (Rep (m_sqes r ++ [q]) (m_rets r) (m_was_timeout_set r)).

(** iouring_op_batch.cc 34-355: every prep_* takes get_sqe(), fills it, and sets IOSQE_IO_LINK *)
Definition prep (r : rep) (n : nat) : option rep := put_sqe r (Sqe (Oper n) true 0).

(** iouring_op_batch.cc 357-388; [None] deadline is time_point::max() (360-361). Re-preparing back() leaves its flags. Result
    [None]: back() of an empty vector (UB). *)
Definition timeout (r : rep) (tp : option Z) : option rep :=
  match tp with
  | None => Some r
  | Some d =>
      if m_was_timeout_set r
      then match rev (m_sqes r) with
           | [] => None
           | lst :: pre => Some (Rep (rev pre ++ [Sqe (LinkTimeout d) (q_link lst) (q_ud lst)]) (m_rets r) true)
           end
      else Some (Rep (m_sqes r ++ [Sqe (LinkTimeout d) false 0]) (m_rets r) true)
  end.

(** iouring_op_batch_rep.h 65: clears the entries only; the assertion fails if no result is there *)
Definition clear (r : rep) : option rep :=
  match m_rets r with [] => None | _ => Some (Rep [] (m_rets r) (m_was_timeout_set r)) end.

(** iouring_op_batch_rep.h 62, 63 *)
Definition add_ret (r : rep) (x : ret) : rep := Rep (m_sqes r) (m_rets r ++ [x]) (m_was_timeout_set r).
(* has_enough_ret, iouring_op_batch_rep.h 26-82 *)
Definition has_enough_ret (r : rep) : bool := length (m_rets r) =? length (m_sqes r).

(** iouring_op_batch_rep.cc 19-23 and iouring_op_batch_execute_aw.cc 17-20. [None]: the batch is empty (asserted in iouring_op_batch.cc 18). *)
Definition arm (r : rep) (ud : nat) : option rep :=
  match rev (map (fun q => Sqe (q_op q) (q_link q) ud) (m_sqes r)) with
  | [] => None
  | lst :: pre => Some (Rep (rev pre ++ [Sqe (q_op lst) false (q_ud lst)]) (m_rets r) (m_was_timeout_set r))
  end.

(** The calls of op_batch's interface, in program order. *)
(* the calls of a user on an op_batch: prep functions, timeout, clear; iouring_op_batch.h 50-349 *)
Inductive call := Prep (n : nat) | Timeout (tp : option Z) | Clear.
(* src/iouring_op_batch.cc 14-414 *)
Definition do_call (r : rep) (c : call) : option rep :=
  match c with Prep n => prep r n | Timeout tp => timeout r tp | Clear => clear r end.

(** errors: iouring_ioret.cc 13-28 for results other than -1 with a stale errno (that case is C25's) *)
Definition err (x : ret) : Z := if (r_val x <? 0)%Z then (- r_val x)%Z else 0%Z.
(* environment, not code of /repo (errno) *)
Definition ETIME : Z := 62%Z.
(* environment, not code of /repo (errno) *)
Definition ECANCELED : Z := 125%Z.
(** iouring_op_batch.cc 390-398 *)
Definition all_success (r : rep) : bool :=
  forallb (fun x => (err x =? 0)%Z)
    (firstn (length (m_rets r) - (if m_was_timeout_set r then 1 else 0)) (m_rets r)).
(** iouring_op_batch.cc 400-408; [None]: back() of an empty vector *)
Definition is_timeout (r : rep) : option bool :=
  if m_was_timeout_set r
  then match rev (m_rets r) with [] => None | x :: _ => Some (negb (err x =? ECANCELED)%Z) end
  else Some false.
(** iouring_single_op_aw.h 32-35: what a single-operation awaitable returns; [None]: front() of an empty vector *)
Definition single_result (r : rep) : option ret := hd_error (m_rets r).

(** * The event loop *)

(** an entry of m_opreps: key, batch; [e_x] is ghost: the execution it belongs to *)
(* an element of m_opreps, iouring.h 34-138 *)
Record entry := Entry { e_key : nat; e_b : nat; e_x : nat }.
(** a submitted entry inside the submission queue or the kernel; [i_x] ghost *)
(* a submission entry in the ring: environment, not code of /repo; i_x: ghost *)
Record item := Item { i_q : sqe; i_x : nat }.
(** a completion in the completion queue; [c_op], [c_x] ghost *)
(* a completion entry: environment, not code of /repo; c_op, c_x: ghost *)
Record cqe := Cqe { c_ud : nat; c_val : Z; c_op : opk; c_x : nat }.

(** iouring_event_loop_perthr, iouring.h 73-82, with the rings shared with the kernel; [polling]: iterations left of a
    do_occured_nonblk call that is under way (it holds m_lk) *)
Record ring := Ring {
  m_stoped : bool;
  m_opreps : list entry;
  m_num_mis_shot : Z;
  sq : list item; inflight : list item; cq : list cqe;
  polling : nat
}.
(* a ring before use, iouring.h 34-138 *)
Definition ring0 : ring := Ring false [] 1 [] [] [] 0.

(** iouring.h 37, io_uring_queue_init(1024): the capacity of the submission queue *)
Definition sq_entries : nat := Nat.pow 2 10.

(** iouring.cc 36-46, on a 32 bit unsigned *)
Definition mis_shot (m : Z) : Z := ((2 * m) mod 2 ^ 32)%Z.
(** iouring.h 69 *)
Definition mis_shot_indicator (m : Z) : Z := ((m - 1) mod 2 ^ 32)%Z.
(** iouring.cc 119-125 (milliseconds) *)
Definition perthr_max_sleep (r : ring) : Z :=
  match m_opreps r with [] => (mis_shot_indicator (m_num_mis_shot r) * 25)%Z | _ => 0%Z end.

(** The runtime: every thread's ring (thread_local m_impl, iouring.cc 25; [None] = null), the batches, which coroutine
    frames are suspended in a co_await execute(), the scheduler's queue; ghost: the number of executions started, the
    completions the kernel produced (in that order), what was submitted, resumed and dropped; [fault]: an assertion
    failed or undefined behaviour was executed. *)
Record state := St {
  m_impl : nat -> option ring;
  m_cleaning : bool;
  reps : nat -> rep;
  susp : nat -> bool;
  runq : list nat;
  next_x : nat;
  klog : list (nat * ret);
  submitted : list (nat * (nat * nat * list opk));   (* execution, (thread, frame address, operations) *)
  resumed : list (nat * (nat * list ret));           (* execution, (frame address, return slots at that moment) *)
  dropped : list nat;                                (* frames destroyed because the ring was stopped *)
  fault : bool
}.
(* before anything has happened; iouring_op_batch_rep.h 26-82, iouring.h 34-138, iouring.cc 25-184 *)
Definition init : state :=
  St (fun _ => None) false (fun _ => rep0) (fun _ => false) [] 0 [] [] [] [] false.

(* bookkeeping of the model, no counterpart in /repo *)
Definition set_ring (s : state) (w : nat) (r : ring) : state :=
  St (upd (m_impl s) w (Some r)) (m_cleaning s) (reps s) (susp s) (runq s) (next_x s) (klog s) (submitted s) (resumed s) (dropped s) (fault s).
(* bookkeeping of the model, no counterpart in /repo *)
Definition set_rep (s : state) (b : nat) (r : rep) : state :=
  St (m_impl s) (m_cleaning s) (upd (reps s) b r) (susp s) (runq s) (next_x s) (klog s) (submitted s) (resumed s) (dropped s) (fault s).
(* bookkeeping of the model, no counterpart in /repo *)
Definition set_fault (s : state) : state :=
  St (m_impl s) (m_cleaning s) (reps s) (susp s) (runq s) (next_x s) (klog s) (submitted s) (resumed s) (dropped s) true.

(* m_opreps.find, src/iouring.cc 47-65 *)
Fixpoint find_key (k : nat) (l : list entry) : option entry :=
  match l with [] => None | e :: l' => if e_key e =? k then Some e else find_key k l' end.
(* m_opreps.erase, src/iouring.cc 47-65 *)
Definition erase_key (k : nat) (l : list entry) : list entry := filter (fun e => negb (e_key e =? k)) l.

(* the steps of iouring_op_batch_rep.h 26-82, iouring.h 34-138, iouring.cc 25-184 *)
Inductive event :=
| EPrepare (w : nat)                 (* thread_specific_preparation on thread w *)
| ECall (b : nat) (c : call)         (* a call on batch b *)
| ENew (b : nat)                     (* batch b is (re)constructed: a new op_batch object at this address *)
| EExec (w a b k : nat)              (* on thread w, coroutine a does co_await b.execute(); the kernel then takes k entries *)
| EComplete (w i : nat) (v : Z)      (* the kernel completes its i-th pending entry of thread w with result v *)
| EPollBegin (w : nat)               (* thread w enters do_occured_nonblk *)
| EPollStep (w : nat)                (* one iteration of its loop *)
| EResume                            (* a worker takes the next task of the queue and resumes it *)
| EStop (t : nat) (graceful : bool). (* thread t calls iouring_event_loop::stop() / quick_stop() *)

(** iouring.cc 104-117 after arm; [None] is: not enabled *)
Definition add_event (s : state) (w a b k : nat) (r : ring) (bt : rep) : option state :=
  if m_stoped r
  then (* 110: return; h is destroyed *)
       Some (St (m_impl s) (m_cleaning s) (upd (reps s) b bt) (susp s) (runq s) (next_x s) (klog s) (submitted s) (resumed s)
                (dropped s ++ [a]) (fault s))
  else match find_key a (m_opreps r) with
       | Some _ => Some (set_fault s)                                                       (* 111 *)
       | None =>
           if sq_entries <? length (sq r) + length (m_sqes bt) then Some (set_fault s)        (* 115: io_uring_get_sqe is NULL *)
           else
             let q := sq r ++ map (fun e => Item e (next_x s)) (m_sqes bt) in
             if k <=? length q then
               Some (St (upd (m_impl s) w (Some (Ring (m_stoped r) (m_opreps r ++ [Entry a b (next_x s)]) 1
                                                      (skipn k q) (inflight r ++ firstn k q) (cq r) (polling r))))
                        (m_cleaning s) (upd (reps s) b bt) (upd (susp s) a true) (runq s) (S (next_x s)) (klog s)
                        (submitted s ++ [(next_x s, (w, a, map q_op (m_sqes bt)))]) (resumed s) (dropped s) (fault s))
             else None
       end.

(** iouring.cc 48-65; [r] is the ring without the completion *)
Definition dealwith_cqe (s : state) (w : nat) (r : ring) (c : cqe) : state :=
  match find_key (c_ud c) (m_opreps r) with
  | None => set_fault s                                                                       (* 56 *)
  | Some e =>
      let bt := add_ret (reps s (e_b e)) (Ret (c_val c) (c_op c)) in
      if has_enough_ret bt
      then St (upd (m_impl s) w (Some (Ring (m_stoped r) (erase_key (c_ud c) (m_opreps r)) (m_num_mis_shot r)
                                            (sq r) (inflight r) (cq r) (polling r))))
              (m_cleaning s) (upd (reps s) (e_b e) bt) (susp s) (runq s ++ [e_key e]) (next_x s) (klog s) (submitted s)
              (resumed s ++ [(e_x e, (e_key e, m_rets bt))]) (dropped s) (fault s)
      else set_rep (set_ring s w r) (e_b e) bt
  end.

Definition next (s : state) (ev : event) : option state :=
  if fault s then None else
  match ev with
  | EPrepare w =>  (* iouring.cc 135-139; the pool calls it once per thread *)
      match m_impl s w with None => Some (set_ring s w ring0) | Some _ => None end
  | ECall b c => match do_call (reps s b) c with Some r => Some (set_rep s b r) | None => Some (set_fault s) end
  | ENew b => Some (set_rep s b rep0)
  | EExec w a b k =>  (* a is executing, hence not suspended; thread w is not inside its own event loop *)
      if susp s a then None else
      match m_impl s w with
      | None => Some (set_fault s)                                                            (* iouring.cc 160 *)
      | Some r =>
          if polling r =? 0 then
            match arm (reps s b) a with
            | None => Some (set_fault s)                                                      (* iouring_op_batch.cc 18 *)
            | Some bt => add_event s w a b k r bt
            end
          else None
      end
  | EComplete w i v =>
      match m_impl s w with
      | None => None
      | Some r =>
          match take_nth i (inflight r) with
          | None => None
          | Some (it, rest) =>
              let s1 := set_ring s w (Ring (m_stoped r) (m_opreps r) (m_num_mis_shot r) (sq r) rest
                                           (cq r ++ [Cqe (q_ud (i_q it)) v (q_op (i_q it)) (i_x it)]) (polling r)) in
              Some (St (m_impl s1) (m_cleaning s1) (reps s1) (susp s1) (runq s1) (next_x s1)
                       (klog s1 ++ [(i_x it, Ret v (q_op (i_q it)))]) (submitted s1) (resumed s1) (dropped s1) (fault s1))
          end
      end
  | EPollBegin w =>  (* iouring.cc 67-83 *)
      match m_impl s w with
      | None => Some (set_fault s)                                                            (* 144 *)
      | Some r =>
          if polling r =? 0 then
            if m_stoped r then Some s
            else match cq r with
                 | [] => Some (set_ring s w (Ring (m_stoped r) (m_opreps r) (mis_shot (m_num_mis_shot r)) (sq r) (inflight r) (cq r) 0))
                 | _ => Some (set_ring s w (Ring (m_stoped r) (m_opreps r) 1 (sq r) (inflight r) (cq r) (length (cq r))))
                 end
          else None
      end
  | EPollStep w =>  (* iouring.cc 83-93 *)
      match m_impl s w with
      | None => None
      | Some r =>
          match polling r, cq r with
          | S n, c :: rest =>
              Some (dealwith_cqe s w (Ring (m_stoped r) (m_opreps r) (m_num_mis_shot r) (sq r) (inflight r) rest n) c)
          | S n, [] => Some (set_ring s w (Ring (m_stoped r) (m_opreps r) (m_num_mis_shot r) (sq r) (inflight r) [] 0))  (* 86 *)
          | O, _ => None
          end
      end
  | EResume =>
      match runq s with
      | [] => None
      | a :: q => Some (St (m_impl s) (m_cleaning s) (reps s) (upd (susp s) a false) q (next_x s) (klog s) (submitted s) (resumed s) (dropped s) (fault s))
      end
  | EStop t g =>  (* iouring.h 105, iouring.cc 164-169, 29-34: only the calling thread's own ring *)
      let cl := m_cleaning s || g in
      match m_impl s t with
      | None => Some (St (m_impl s) cl (reps s) (susp s) (runq s) (next_x s) (klog s) (submitted s) (resumed s) (dropped s) (fault s))
      | Some r =>
          if polling r =? 0 then
            Some (St (upd (m_impl s) t (Some (Ring true (m_opreps r) (m_num_mis_shot r) (sq r) (inflight r) (cq r) (polling r))))
                     cl (reps s) (susp s) (runq s) (next_x s) (klog s) (submitted s) (resumed s) (dropped s) (fault s))
          else None
      end
  end.

(** iouring.cc 171-178, called on thread w; [None]: the assertion m_impl fails *)
Definition max_sleep_duration (s : state) (w : nat) : option Z :=
  if m_cleaning s then Some 10000%Z
  else match m_impl s w with None => None | Some r => Some (Z.min 200 (perthr_max_sleep r)) end.
