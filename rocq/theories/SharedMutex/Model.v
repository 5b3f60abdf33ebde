(** Model of koios::shared_mutex at the granularity of the critical sections of its std::mutex.

    /repo/include/koios/coroutine_shared_mutex.h 24-70, /repo/src/coroutine_shared_mutex.cc 12-132,
    /repo/include/koios/acq_lk_aw.h 18-130, lock_base.h 46-53.

    Simplifications: toolpex::ref_count (external) is an integer counter whose fetch_sub returns the
    old value (it is unsigned in reality: -1 here is 2^64-1 there, every comparison made by the code
    agrees unless 2^63 readers are involved); the two moodycamel queues are bags: the choice of the
    dequeued element is part of the event; a coroutine's address is its number. assert() failures are
    recorded in [assert_failed] and execution continues (NDEBUG behaviour). *)
From Coq Require Import List Arith ZArith Bool.
From Verif.Common Require Import TS.
Import ListNotations.

(** coroutine_shared_mutex.h 52 *)
Inductive holding_state := NO | SHR | UNI | SHR_DURING_UNI.

(* where a coroutine or thread is in coroutine_shared_mutex.h 24-70, coroutine_shared_mutex.cc 12-132, acq_lk_aw.h 18-130 *)
Inductive pc :=
| Idle
| WantShr     (* acquire_shared: hold_this_shr_immediately() returned false, await_suspend pending *)
| ShrWaiting  (* suspended in m_shr_waitings *)
| ShrWoken    (* scheduled as shared holder *)
| Reading     (* has its shared_lock *)
| WantUni     (* acquire: await_ready returned false, await_suspend pending *)
| UniWaiting | UniWoken | Writing
(* a coroutine that already writes and calls acquire_shared on the same mutex *)
| WWantShr | WShrWaiting | WShrWoken | Both.

(* what the state keeps of coroutine_shared_mutex.h 24-70, coroutine_shared_mutex.cc 12-132, acq_lk_aw.h 18-130 *)
Record state := St {
  m_state : holding_state;
  m_shr_cnt : Z;
  m_current_writer : option nat;
  m_shr_waitings : list nat;
  m_uni_waitings : list nat;
  at_ : nat -> pc;
  kick : nat -> bool;        (* await_suspend of i has enqueued and still has to call try_wake_up_next *)
  assert_failed : bool;
  use_after_free : bool      (* acq_shr_lk_aw::await_suspend used its object after i was resumed *)
}.

(** coroutine_shared_mutex.h 64-69 *)
Definition init : state :=
  {| m_state := NO; m_shr_cnt := 0; m_current_writer := None; m_shr_waitings := [];
     m_uni_waitings := []; at_ := fun _ => Idle; kick := fun _ => false;
     assert_failed := false; use_after_free := false |}.

(* bookkeeping of the model, no counterpart in /repo *)
Definition set_state (s : state) h := St h (m_shr_cnt s) (m_current_writer s) (m_shr_waitings s) (m_uni_waitings s) (at_ s) (kick s) (assert_failed s) (use_after_free s).
(* bookkeeping of the model, no counterpart in /repo *)
Definition set_cnt (s : state) c := St (m_state s) c (m_current_writer s) (m_shr_waitings s) (m_uni_waitings s) (at_ s) (kick s) (assert_failed s) (use_after_free s).
(* bookkeeping of the model, no counterpart in /repo *)
Definition set_writer (s : state) w := St (m_state s) (m_shr_cnt s) w (m_shr_waitings s) (m_uni_waitings s) (at_ s) (kick s) (assert_failed s) (use_after_free s).
(* bookkeeping of the model, no counterpart in /repo *)
Definition set_shrq (s : state) q := St (m_state s) (m_shr_cnt s) (m_current_writer s) q (m_uni_waitings s) (at_ s) (kick s) (assert_failed s) (use_after_free s).
(* bookkeeping of the model, no counterpart in /repo *)
Definition set_uniq (s : state) q := St (m_state s) (m_shr_cnt s) (m_current_writer s) (m_shr_waitings s) q (at_ s) (kick s) (assert_failed s) (use_after_free s).
(* bookkeeping of the model, no counterpart in /repo *)
Definition goto (s : state) i p := St (m_state s) (m_shr_cnt s) (m_current_writer s) (m_shr_waitings s) (m_uni_waitings s) (upd (at_ s) i p) (kick s) (assert_failed s) (use_after_free s).
(* bookkeeping of the model, no counterpart in /repo *)
Definition set_kick (s : state) i b := St (m_state s) (m_shr_cnt s) (m_current_writer s) (m_shr_waitings s) (m_uni_waitings s) (at_ s) (upd (kick s) i b) (assert_failed s) (use_after_free s).
(* a failing assert is recorded: coroutine_shared_mutex.cc 12-132 *)
Definition fail_assert (s : state) (b : bool) := St (m_state s) (m_shr_cnt s) (m_current_writer s) (m_shr_waitings s) (m_uni_waitings s) (at_ s) (kick s) (assert_failed s || b) (use_after_free s).
(* bookkeeping of the model, no counterpart in /repo *)
Definition set_uaf (s : state) (b : bool) := St (m_state s) (m_shr_cnt s) (m_current_writer s) (m_shr_waitings s) (m_uni_waitings s) (at_ s) (kick s) (assert_failed s) (use_after_free s || b).

(* m_state == UNI: coroutine_shared_mutex.cc 12-132 *)
Definition is_UNI (h : holding_state) : bool := match h with UNI => true | _ => false end.
(* m_state is SHR or SHR_DURING_UNI: coroutine_shared_mutex.cc 12-132 *)
Definition is_SHRs (h : holding_state) : bool := match h with SHR | SHR_DURING_UNI => true | _ => false end.

(** .cc 100-103: health_check, asserted by being_held / being_held_sharedly *)
Definition health_check (s : state) : bool := negb (is_UNI (m_state s) && negb (Z.eqb (m_shr_cnt s) 0)).
(* assert(health_check()): coroutine_shared_mutex.cc 12-132 *)
Definition check (s : state) : state := fail_assert s (negb (health_check s)).
(** .cc 94-98, 105-109 *)
Definition being_held (s : state) : bool := is_UNI (m_state s).
(* being_held_sharedly, coroutine_shared_mutex.cc 12-132 *)
Definition being_held_sharedly (s : state) : bool := is_SHRs (m_state s).

(** ConcurrentQueue::try_dequeue: fails iff empty, otherwise takes some element (the k-th, modulo). *)
(* try_dequeue of a moodycamel queue: any element; environment, not code of /repo *)
Definition pick (k : nat) (q : list nat) : option (nat * list nat) :=
  match q with [] => None | _ => take_nth (k mod length q) q end.

(** wake_up(handle): the coroutine is handed to the scheduler as holder. *)
(* wake_up of a reader: coroutine_shared_mutex.cc 33-132 *)
Definition shr_woken (p : pc) : pc := match p with WShrWaiting | WWantShr => WShrWoken | _ => ShrWoken end.
(* wake_up of a reader: coroutine_shared_mutex.cc 33-132 *)
Definition wake_shr (s : state) (w : nat) : state := goto s w (shr_woken (at_ s w)).
(* wake_up of a writer: coroutine_shared_mutex.cc 33-132 *)
Definition wake_uni (s : state) (w : nat) : state := goto s w UniWoken.

(** .cc 111-121 *)
Definition try_wake_up_next_uni_impl (k : nat) (s0 : state) : state :=
  let s := check s0 in
  if being_held s || being_held_sharedly s then s
  else match pick k (m_uni_waitings s) with
       | Some (w, rest) => wake_uni (set_writer (set_state (set_uniq s rest) UNI) (Some w)) w
       | None => s
       end.

(** .cc 123-132 *)
Definition try_wake_up_shr_impl (k : nat) (s0 : state) : state :=
  let s := check s0 in
  if being_held s then s
  else match pick k (m_shr_waitings s) with
       | Some (w, rest) => wake_shr (set_state (set_shrq s rest) SHR) w
       | None => s
       end.

(** .cc 12-18 *)
Definition try_wake_up_next (ku ks : nat) (s : state) : state :=
  let s1 := try_wake_up_next_uni_impl ku s in
  if being_held s1 then check s1 else try_wake_up_shr_impl ks (check s1).

(** .cc 20-30 *)
Definition hold_this_shr_immediately (s0 : state) : bool * state :=
  let s := check s0 in
  if negb (being_held s) then (true, set_state (set_cnt s (m_shr_cnt s + 1)) SHR) else (false, s).

(** .cc 32-44 *)
Definition add_shr_waiting (i : nat) (s : state) : state :=
  match m_current_writer s with
  | Some w => if Nat.eqb w i then wake_shr (set_state s SHR_DURING_UNI) i
              else goto (set_shrq s (m_shr_waitings s ++ [i])) i
                        (match at_ s i with WWantShr => WShrWaiting | _ => ShrWaiting end)
  | None => goto (set_shrq s (m_shr_waitings s ++ [i])) i
                 (match at_ s i with WWantShr => WShrWaiting | _ => ShrWaiting end)
  end.

(** .cc 46-49 *)
Definition hold_this_immediately (s : state) : bool := false.

(** .cc 51-64 *)
Definition add_waiting (i : nat) (s0 : state) : state :=
  let s := check s0 in
  if negb (being_held s) && negb (being_held_sharedly s)
  then wake_uni (set_writer (set_state s UNI) (Some i)) i
  else goto (set_uniq s (m_uni_waitings s ++ [i])) i UniWaiting.

(** .cc 91: the statement after the switch *)
Definition finish (s0 : state) : state :=
  let s := check s0 in
  if negb (being_held s) && negb (being_held_sharedly s) then set_state s NO else s.

(** .cc 66-92 *)
Definition release (ku ks : nat) (s : state) : state :=
  match m_state s with
  | SHR => let old := m_shr_cnt s in
           let s1 := set_cnt s (old - 1) in
           if Z.eqb old 1 then finish (try_wake_up_next_uni_impl ku (set_state s1 NO)) else finish s1
  | UNI => let s1 := set_writer (set_state s NO) None in
           let s2 := try_wake_up_shr_impl ks s1 in
           if being_held_sharedly s2 then finish (check s2)
           else finish (try_wake_up_next_uni_impl ku (check s2))
  | SHR_DURING_UNI => set_state s UNI
  | NO => finish (fail_assert s true)                     (* assert(false) *)
  end.

Inductive event :=
| EAcqShr (i : nat)              (* co_await acquire_shared(): await_ready, acq_lk_aw.h 91-94 *)
| EShrEnq (i : nat)              (* await_suspend, first half: add_shr_waiting, acq_lk_aw.h 86 *)
| EKick (i : nat) (ku ks : nat)  (* await_suspend, second half: try_wake_up_next, acq_lk_aw.h 87 *)
| EAcqUni (i : nat)              (* co_await acquire(): await_ready, acq_lk_aw.h 33-36 *)
| EUniEnq (i : nat)              (* await_suspend: add_waiting, acq_lk_aw.h 27-30 *)
| ETryUni (i : nat)              (* co_await try_acquire(), acq_lk_aw.h 58-68 *)
| EResume (i : nat)              (* the scheduler resumes a woken coroutine *)
| ERelease (i : nat) (ku ks : nat). (* unlock() of a lock handle -> release() *)

(* what each step does: coroutine_shared_mutex.h 24-70, coroutine_shared_mutex.cc 12-132, acq_lk_aw.h 18-130 *)
Definition step (s : state) (e : event) : option state :=
  match e with
  | EAcqShr i =>
      match at_ s i with
      | Idle => let '(ok, s1) := hold_this_shr_immediately s in Some (goto s1 i (if ok then Reading else WantShr))
      | Writing => let '(ok, s1) := hold_this_shr_immediately s in Some (goto s1 i (if ok then Both else WWantShr))
      | _ => None
      end
  | EShrEnq i =>
      match at_ s i with
      | WantShr | WWantShr => Some (set_kick (add_shr_waiting i s) i true)
      | _ => None
      end
  | EKick i ku ks =>
      if kick s i
      then let resumed := match at_ s i with
                          | ShrWaiting | ShrWoken | WShrWaiting | WShrWoken => false
                          | _ => true     (* i already ran on: the awaitable object is gone *)
                          end in
           Some (try_wake_up_next ku ks (set_uaf (set_kick s i false) resumed))
      else None
  | EAcqUni i =>
      match at_ s i with
      | Idle => Some (goto s i (if hold_this_immediately s then Writing else WantUni))
      | _ => None
      end
  | EUniEnq i =>
      match at_ s i with WantUni => Some (add_waiting i s) | _ => None end
  | ETryUni i =>
      match at_ s i with
      | Idle => Some (goto s i (if hold_this_immediately s then Writing else Idle))
      | _ => None
      end
  | EResume i =>
      match at_ s i with
      | ShrWoken => Some (goto s i Reading)
      | UniWoken => Some (goto s i Writing)
      | WShrWoken => Some (goto s i Both)
      | _ => None
      end
  | ERelease i ku ks =>
      match at_ s i with
      | Reading | Writing => Some (release ku ks (goto s i Idle))
      | Both => Some (release ku ks (goto s i Writing))
      | _ => None
      end
  end.
