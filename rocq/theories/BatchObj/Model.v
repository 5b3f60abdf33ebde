(** Model of op_batch as an object: the memory resource it owns, the copies of arguments (paths, socket addresses, time points) it makes
    for the kernel, and what happens to both under move construction, move assignment and destruction.

    include/koios/iouring_op_batch.h 50-64, 340-349 (members: m_mbr, m_mr, m_rep, m_peripheral), iouring_op_batch_rep.h 26-41,
    iouring_op_peripheral.h 20-76, src/iouring_op_peripheral.cc 12-43, src/iouring_op_batch.cc (prep functions with
    m_peripheral.add: connect, openat, unlink, unlinkat, rename, renameat, timeout).

    A memory resource and a copied object ("cell") are numbers. std::pmr rules used: a pmr container's allocator is taken over by move
    construction, and kept by move assignment, which compares the two resources first (a virtual call on both) and moves element by
    element if they differ.
    Simplifications: one copied argument per operation at most (rename copies a pair); an operation is a number; resources do
    not run out; a vector whose elements are all gone is taken not to touch its resource any more. *)
From Coq Require Import List Arith Bool.
From Verif.Common Require Import TS.
Import ListNotations.

(* the members of op_batch, iouring_op_batch.h 340-349 *)
Record batch := B {
  mbr : option nat;                      (* m_mbr: the resource this batch owns *)
  mr : nat;                              (* op_peripheral::m_mr: where copies are allocated *)
  ralloc : nat;                          (* allocator of the vectors of m_rep *)
  dalloc : nat;                          (* allocator of the list of m_peripheral *)
  entries : list (nat * option nat);     (* m_sqes: operation and the cell it points to, if any *)
  data : list nat                        (* m_objs: the cells, in order *)
}.

(* one copied argument, iouring_op_peripheral.h 20-76; where_: the resource it lives in *)
Record cell := Cell { where_ : nat; content : nat; right_alloc : bool }.

(* what the state keeps of iouring_op_batch.h 50-64, 340-349, iouring_op_peripheral.h 20-76, iouring_op_batch_rep.h 26-41 *)
Record state := St {
  res : nat -> option bool;              (* resources: None = never created, Some true = alive, Some false = destroyed *)
  cells : nat -> option cell;            (* copied objects that exist *)
  batches : nat -> option batch;
  moved : nat -> bool;                   (* ghost: the object was moved from (or made from such an object) *)
  ub : bool
}.
(* before anything has happened; iouring_op_batch.h 50-64, 340-349, iouring_op_peripheral.h 20-76, iouring_op_batch_rep.h 26-41 *)
Definition init : state := St (fun _ => None) (fun _ => None) (fun _ => None) (fun _ => false) false.

(* the steps of iouring_op_batch.h 50-64, 340-349, iouring_op_peripheral.h 20-76, iouring_op_batch_rep.h 26-41 *)
Inductive event :=
| EUser (a : nat)                        (* the user creates a memory resource *)
| EUserDrop (a : nat)                    (* ... and destroys it *)
| ENew (b a : nat)                       (* op_batch(): makes its own resource a *)
| ENewIn (b a : nat)                     (* op_batch(&a) *)
| EPrep (b c op x : nat)                 (* a prep function that copies its argument x into cell c *)
| EPrepPlain (b op : nat)                (* a prep function without copied argument *)
| EMove (d s : nat)                      (* op_batch d(std::move(s)) *)
| EAssign (d s : nat)                    (* d = std::move(s) *)
| EKill (b : nat)                        (* ~op_batch() *)
| EExec (b : nat).                       (* co_await b.execute(): the kernel reads every entry and what it points to *)

(* bookkeeping of the model, no counterpart in /repo *)
Definition is_none {A} (o : option A) : bool := match o with None => true | _ => false end.
(* whether a memory resource (iouring_op_batch.h 340-349, m_mbr) still exists *)
Definition alive (s : state) (a : nat) : bool := match res s a with Some true => true | _ => false end.
(* bookkeeping of the model, no counterpart in /repo *)
Definition set_ub s := St (res s) (cells s) (batches s) (moved s) true.
(* bookkeeping of the model, no counterpart in /repo *)
Definition set_batch s b x := St (res s) (cells s) (upd (batches s) b x) (moved s) (ub s).
(* bookkeeping of the model, no counterpart in /repo *)
Definition set_moved s b v := St (res s) (cells s) (batches s) (upd (moved s) b v) (ub s).
(* bookkeeping of the model, no counterpart in /repo *)
Definition add_cell s c x := St (res s) (upd (cells s) c (Some x)) (batches s) (moved s) (ub s).

(** destruction of a resource releases everything allocated in it *)
(* destruction of an owned resource, iouring_op_batch.h 340-349 (unique_ptr m_mbr) *)
Definition drop_res (s : state) (a : nat) : state :=
  St (upd (res s) a (Some false))
     (fun c => match cells s c with Some x => if Nat.eqb (where_ x) a then None else Some x | None => None end)
     (batches s) (moved s) (ub s).
(* the same for an object that may own none *)
Definition drop_own (s : state) (o : option nat) : state := match o with Some a => drop_res s a | None => s end.

(** ~op_peripheral_element(), iouring_op_peripheral.cc 30-35: destroys the object, gives the buffer back to m_alloc. Move construction
    (12-17) leaves m_alloc default-constructed, so for a moved element that is the wrong resource. *)
Definition kill_cell (s : state) (c : nat) : state :=
  match cells s c with
  | Some x => if alive s (where_ x) && right_alloc x
              then St (res s) (upd (cells s) c None) (batches s) (moved s) (ub s) else set_ub s
  | None => set_ub s
  end.
(* destruction of the copies, src/iouring_op_peripheral.cc 12-43 *)
Definition kill_cells (s : state) (l : list nat) : state := fold_left kill_cell l s.

(** moving a list element by element: new elements take over the buffers but not the allocator *)
(* a cell whose memory is given back to another resource than it came from: iouring_op_peripheral.h 20-76 *)
Definition taint (s : state) (c : nat) : state :=
  match cells s c with Some x => add_cell s c (Cell (where_ x) (content x) false) | None => set_ub s end.

(** operator=(op_batch&&) = default, iouring_op_batch.h 62: member by member *)
Definition assign (s : state) (d s_ : nat) (bd bs : batch) : state :=
  let s1 := drop_own s (mbr bd) in                                    (* m_mbr = move: the old resource dies first *)
  if alive s1 (ralloc bd) && alive s1 (ralloc bs) && alive s1 (dalloc bd) && alive s1 (dalloc bs) then
    (* m_rep, m_peripheral: the resources are compared; the old elements of the list are destroyed *)
    let s2 := kill_cells s1 (data bd) in
    let s3 := if Nat.eqb (dalloc bd) (dalloc bs) then s2 else fold_left taint (data bs) s2 in
    set_moved (set_batch (set_batch s3 s_ (Some (B None (mr bs) (ralloc bs) (dalloc bs) [] [])))
                         d (Some (B (mbr bs) (mr bs) (ralloc bd) (dalloc bd) (entries bs) (data bs)))) s_ true
  else set_ub s1.

(* what each step does: iouring_op_batch.h 50-64, 340-349, iouring_op_peripheral.h 20-76, iouring_op_batch_rep.h 26-41 *)
Definition step (s : state) (e : event) : option state :=
  if ub s then None else
  match e with
  | EUser a => if is_none (res s a) then Some (St (upd (res s) a (Some true)) (cells s) (batches s) (moved s) false) else None
  | EUserDrop a => if alive s a then Some (drop_res s a) else None
  | ENew b a =>
      if is_none (batches s b) && is_none (res s a) && negb (moved s b)
      then Some (St (upd (res s) a (Some true)) (cells s) (upd (batches s) b (Some (B (Some a) a a a [] []))) (moved s) false) else None
  | ENewIn b a =>
      if is_none (batches s b) && alive s a && negb (moved s b)
      then Some (set_batch s b (Some (B None a a a [] []))) else None
  | EPrep b c op x =>
      match batches s b with
      | Some y =>
          if is_none (cells s c) then
            if alive s (mr y) && alive s (ralloc y) && alive s (dalloc y)
            then Some (set_batch (add_cell s c (Cell (mr y) x true)) b
                         (Some (B (mbr y) (mr y) (ralloc y) (dalloc y) (entries y ++ [(op, Some c)]) (data y ++ [c]))))
            else Some (set_ub s)
          else None
      | None => None
      end
  | EPrepPlain b op =>
      match batches s b with
      | Some y => if alive s (ralloc y)
                  then Some (set_batch s b (Some (B (mbr y) (mr y) (ralloc y) (dalloc y) (entries y ++ [(op, None)]) (data y))))
                  else Some (set_ub s)
      | None => None
      end
  | EMove d s_ =>
      match batches s s_, batches s d with
      | Some y, None =>
          if moved s d then None else
          Some (set_moved (set_moved (set_batch (set_batch s s_ (Some (B None (mr y) (ralloc y) (dalloc y) [] []))) d (Some y))
                             d (moved s s_)) s_ true)
      | _, _ => None
      end
  | EAssign d s_ =>
      match batches s d, batches s s_ with
      | Some bd, Some bs => if Nat.eqb d s_ then None else Some (assign s d s_ bd bs)
      | _, _ => None
      end
  | EKill b =>
      match batches s b with
      | Some y =>
          let s1 := kill_cells s (data y) in
          let s2 := match entries y with [] => s1 | _ => if alive s1 (ralloc y) then s1 else set_ub s1 end in
          Some (set_batch (drop_own s2 (mbr y)) b None)
      | None => None
      end
  | EExec b =>
      match batches s b with
      | Some y => if forallb (fun e => match snd e with Some c => negb (is_none (cells s c)) | None => true end) (entries y) &&
                     negb (match entries y with [] => true | _ => false end)
                  then Some s else Some (set_ub s)
      | None => None
      end
  end.

(** What the kernel is given by an execution: operations with their arguments. *)
(* what the kernel finds when the batch is submitted: src/iouring_op_batch_execute_aw.cc 14-25, src/iouring.cc 104-117 *)
Definition reads (s : state) (b : nat) : list (nat * option nat) :=
  match batches s b with
  | Some y => map (fun e => (fst e, match snd e with
                                    | Some c => match cells s c with Some x => Some (content x) | None => None end
                                    | None => None end)) (entries y)
  | None => []
  end.
(* specification, no counterpart in /repo (what a user can observe) *)
Inductive obs := Submits (b : nat) (l : list (nat * option nat)).
(* specification, no counterpart in /repo (what a user can observe) *)
Definition observe (s : state) (e : event) (_ : state) : list obs :=
  match e with EExec b => [Submits b (reads s b)] | _ => [] end.
