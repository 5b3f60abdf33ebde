(** C153: which coroutine frames are destroyed when the runtime is shut down.

    task.h 83-99 (a lazy task object owns its frame), 215-223 (co_await), task_on_the_fly.h 14-27 ("the destructor will ensure to call destroy()") and 79-106, future.h 30-72 (shared_state: m_waiting owns the coroutine that awaits), 76-172 and 174-215 (future and promise: shared pointers to it), promise_base.h 34-60 (the frame ends with the coroutine), thread_pool.cc 30-54, moodycamel's queue and the event loops destroy what is left in them.

    A frame is owned by exactly one handle: of the scheduler's queue, of an event loop, of a task object, or of the shared state of the task it awaits. A shared state lives as long as a future refers to it or the promise, which is part of the frame. Destructors run one inside the other, and on several threads; [todo] is what they still have to do, taken in any order.

    Simplifications: the two references of a promise (m_shared_state and the callback's copy) count as one; two coroutines do not await one future (C93); of a frame's variables only task objects and futures matter. Assumed: destroying a toolpex::callback_promise does not call its callback. *)
From Coq Require Import List Arith Bool Lia Permutation.
From Verif.Common Require Import TS Sum.
Import ListNotations.

(* a variable of a frame: a future or a task object (future.h 76-172, task.h 83-99) *)
Inductive item :=
| Fut (j : nat)   (* a future of coroutine j: a shared pointer to its shared state *)
| Han (j : nat).  (* a task object (or task_on_the_fly) that owns the frame of j, not yet started *)
(* where the handle of a frame is: thread_pool.h 259-273, timer.h, future.h 30-72, task.h 83-99 *)
Inductive place :=
| Unborn
| Held              (* a lazy task: its frame belongs to a task object *)
| Ready             (* in the scheduler's queue *)
| Running           (* on a thread; nobody owns the frame *)
| Sleeping          (* suspended in something that the runtime owns: a timer, an io_uring operation *)
| Awaiting (j : nat) (* in m_waiting of the shared state of j *)
| Dying             (* its destruction has been decided *)
| Gone.             (* the frame is destroyed *)
(* what a destructor still has to do: task_on_the_fly.h 79-106, future.h 76-172, 174-215 *)
Inductive action :=
| Destroy (i : nat) (* coroutine_handle::destroy() of frame i *)
| Release (j : nat). (* a shared pointer to the shared state of j goes away *)
(* what the state keeps of task.h 83-99, 215-223, task_on_the_fly.h 79-106, future.h 30-72, 76-172, 174-215, thread_pool.cc 30-54 *)
Record state := St {
  next : nat;                   (* coroutines are numbered as they are called; 0 is main() *)
  at_ : nat -> place;
  hold : list (nat * item);     (* what the variables of frame i hold *)
  refs : nat -> nat;            (* use_count of the shared state *)
  value : nat -> bool;          (* m_ff is set *)
  waiting : nat -> option nat;  (* m_waiting *)
  todo : list action;
  stopped : bool;               (* the workers have been joined *)
  destroyed : list nat;         (* frames, in the order in which they were destroyed *)
  fault : bool }.               (* a frame destroyed that is not there, or a reference given back that nobody had *)
(* before anything has happened; task.h 83-99, 215-223, task_on_the_fly.h 79-106, future.h 30-72, 76-172, 174-215, thread_pool.cc 30-54 *)
Definition init : state := St 1 (fun i => if i =? 0 then Running else Unborn) [] (fun _ => 0) (fun _ => false) (fun _ => None) [] false [] false.

Inductive event :=
| Call (i : nat) (eager : bool)  (* i calls a coroutine and keeps the task object *)
| Start (n : nat)                (* run(), or the first half of co_await of a lazy task: the handle goes to the scheduler, task.h 122-213, 221 *)
| Give (n k : nat)               (* an item is moved into a variable, or a parameter, of k *)
| Await (i n : nat)              (* i awaits the future that is item n, future_aw.h 28-36 *)
| Drop (n : nat)                 (* the variable goes out of scope *)
| Sleep (i : nat) | Wake (i : nat) | Resume (i : nat)
| Finish (i : nat)               (* co_return or an exception: the value is stored, the awaiting coroutine woken, the frame destroyed *)
| Work (n : nat)                 (* a destructor that has to run, runs *)
| Stop                           (* stop() or quick_stop() returns *)
| DropRoot (i : nat).            (* the queue or the event loop that has i is destroyed *)

(* bookkeeping of the model, no counterpart in /repo *)
Definition is_running (p : place) : bool := match p with Running => true | _ => false end.
(* bookkeeping of the model, no counterpart in /repo *)
Definition running (s : state) (i : nat) : bool := is_running (at_ s i) && negb (stopped s).
(* bookkeeping of the model, no counterpart in /repo *)
Definition isH (j : nat) (p : nat * item) : bool := match snd p with Han k => k =? j | Fut _ => false end.
(* the destructor of a variable: task_on_the_fly.h 79-106, future.h 76-172 *)
Definition act (x : item) : action := match x with Fut j => Release j | Han j => Destroy j end.
(* bookkeeping of the model, no counterpart in /repo *)
Definition set_at (s : state) i p := St (next s) (upd (at_ s) i p) (hold s) (refs s) (value s) (waiting s) (todo s) (stopped s) (destroyed s) (fault s).
(* bookkeeping of the model, no counterpart in /repo *)
Definition set_hold (s : state) h := St (next s) (at_ s) h (refs s) (value s) (waiting s) (todo s) (stopped s) (destroyed s) (fault s).
(* bookkeeping of the model, no counterpart in /repo *)
Definition set_refs (s : state) j r := St (next s) (at_ s) (hold s) (upd (refs s) j r) (value s) (waiting s) (todo s) (stopped s) (destroyed s) (fault s).
(* bookkeeping of the model, no counterpart in /repo *)
Definition set_value (s : state) j := St (next s) (at_ s) (hold s) (refs s) (upd (value s) j true) (waiting s) (todo s) (stopped s) (destroyed s) (fault s).
(* bookkeeping of the model, no counterpart in /repo *)
Definition set_waiting (s : state) j w := St (next s) (at_ s) (hold s) (refs s) (value s) (upd (waiting s) j w) (todo s) (stopped s) (destroyed s) (fault s).
(* bookkeeping of the model, no counterpart in /repo *)
Definition set_todo (s : state) t := St (next s) (at_ s) (hold s) (refs s) (value s) (waiting s) t (stopped s) (destroyed s) (fault s).
(* bookkeeping of the model, no counterpart in /repo *)
Definition set_stopped (s : state) := St (next s) (at_ s) (hold s) (refs s) (value s) (waiting s) (todo s) true (destroyed s) (fault s).
(* bookkeeping of the model, no counterpart in /repo *)
Definition set_fault (s : state) := St (next s) (at_ s) (hold s) (refs s) (value s) (waiting s) (todo s) (stopped s) (destroyed s) true.
(** a frame is destroyed: its variables, then the promise *)
(* the destruction of a frame, its variables and promise: task_on_the_fly.h 79-106, future.h 174-215 *)
Definition destroy (s : state) (i : nat) : state :=
  let mine := filter (fun p => fst p =? i) (hold s) in
  St (next s) (fun k => if k =? i then Gone else if existsb (isH k) mine then Dying else at_ s k) (filter (fun p => negb (fst p =? i)) (hold s))
     (refs s) (value s) (waiting s) (todo s ++ map (fun p => act (snd p)) mine ++ [Release i]) (stopped s) (destroyed s ++ [i]) (fault s).
(* bookkeeping of the model, no counterpart in /repo *)
Definition takes (s : state) (k : nat) (x : item) : bool :=
  match at_ s k with
  | Running => true
  | Held => match x with Han m => m <? k | Fut _ => true end  (* parameters of k: they were there before k was called *)
  | _ => false end.

(* what each step does: task.h 83-99, 215-223, task_on_the_fly.h 79-106, future.h 30-72, 76-172, 174-215, thread_pool.cc 30-54 *)
Definition step (s : state) (e : event) : option state :=
  match e with
  | Call i eager => if running s i then
      let j := next s in
      Some (St (S j) (upd (at_ s) j (if eager then Running else Held)) (hold s ++ (i, Fut j) :: (if eager then [] else [(i, Han j)]))
               (upd (refs s) j 2) (value s) (waiting s) (todo s) (stopped s) (destroyed s) (fault s))
    else None
  | Start n => match take_nth n (hold s) with
               | Some ((h, Han j), rest) => if running s h then Some (set_at (set_hold s rest) j Ready) else None
               | _ => None end
  | Give n k => match take_nth n (hold s) with
                | Some ((h, x), rest) => if running s h && takes s k x then Some (set_hold s (rest ++ [(k, x)])) else None
                | None => None end
  | Await i n => match nth_error (hold s) n with
                 | Some (_, Fut j) => if running s i && negb (i =? 0) then
                     if value s j then Some s
                     else match waiting s j with None => Some (set_waiting (set_at s i (Awaiting j)) j (Some i)) | Some _ => None end
                   else None
                 | _ => None end
  | Drop n => match take_nth n (hold s) with
              | Some ((h, x), rest) => if running s h || (h =? 0) then
                  let s1 := set_todo (set_hold s rest) (todo s ++ [act x]) in
                  Some (match x with Han j => set_at s1 j Dying | Fut _ => s1 end)
                else None
              | None => None end
  | Sleep i => if running s i && negb (i =? 0) then Some (set_at s i Sleeping) else None
  | Wake i => match at_ s i with Sleeping => if stopped s then None else Some (set_at s i Ready) | _ => None end
  | Resume i => match at_ s i with Ready => if stopped s then None else Some (set_at s i Running) | _ => None end
  | Finish i => if running s i && negb (i =? 0) then
      let s1 := set_value s i in
      Some (destroy (match waiting s i with Some k => set_waiting (set_at s1 k Ready) i None | None => s1 end) i)
    else None
  | Work n => match take_nth n (todo s) with
              | Some (Destroy i, rest) => match at_ s i with Dying => Some (destroy (set_todo s rest) i) | _ => Some (set_fault s) end
              | Some (Release j, rest) =>
                  match refs s j with
                  | 0 => Some (set_fault s)
                  | S r => let s1 := set_refs (set_todo s rest) j r in
                           if r =? 0 then match waiting s j with Some k => Some (set_todo (set_at (set_waiting s1 j None) k Dying) (rest ++ [Destroy k])) | None => Some s1 end
                           else Some s1
                  end
              | None => None end
  | Stop => if forallb (fun i => (i =? 0) || negb (is_running (at_ s i))) (seq 0 (next s)) && negb (stopped s) then Some (set_stopped s) else None
  | DropRoot i => match at_ s i with
                  | Ready | Sleeping => if stopped s then Some (set_todo (set_at s i Dying) (todo s ++ [Destroy i])) else None
                  | _ => None end
  end.

(** ** specification *)
(** the runtime is shut down: everything it had is destroyed, main() has dropped what it had, and all destructors have run *)
Definition torn_down (s : state) : Prop :=
  stopped s = true /\ todo s = [] /\ (forall i, at_ s i <> Ready /\ at_ s i <> Sleeping) /\ forall p, In p (hold s) -> fst p <> 0.
(** the frame of coroutine [i] is there *)
Definition frame (s : state) (i : nat) : bool := match at_ s i with Unborn | Gone => false | _ => true end.

(** ** proof *)
Definition cnt {A} (f : A -> bool) (l : list A) : nat := length (filter f l).
Lemma cnt_app {A} (f : A -> bool) l1 l2 : cnt f (l1 ++ l2) = cnt f l1 + cnt f l2.
Proof. unfold cnt. now rewrite filter_app, app_length. Qed.
Lemma cnt_cons {A} (f : A -> bool) x l : cnt f (x :: l) = (if f x then 1 else 0) + cnt f l.
Proof. unfold cnt. cbn. destruct (f x); reflexivity. Qed.
Lemma cnt_nil {A} (f : A -> bool) : cnt f [] = 0.
Proof. reflexivity. Qed.
Local Arguments cnt {A} f l : simpl never.
Lemma cnt_split {A} (f g : A -> bool) l : cnt f l = cnt f (filter g l) + cnt f (filter (fun x => negb (g x)) l).
Proof. induction l as [|x l IH]; cbn; auto. destruct (g x); cbn; rewrite !cnt_cons, IH; lia. Qed.
Lemma cnt_map {A B} (f : B -> bool) (g : A -> B) l : cnt f (map g l) = cnt (fun x => f (g x)) l.
Proof. induction l as [|x l IH]; cbn; auto. rewrite !cnt_cons. now rewrite IH. Qed.
Lemma cnt_ext {A} (f g : A -> bool) l : (forall x, f x = g x) -> cnt f l = cnt g l.
Proof. intros H. induction l as [|x l IH]; cbn; auto. rewrite !cnt_cons. now rewrite H, IH. Qed.
Lemma cnt_exists {A} (f : A -> bool) l : existsb f l = negb (cnt f l =? 0).
Proof. induction l as [|x l IH]; cbn; auto. rewrite cnt_cons. destruct (f x); cbn; auto. Qed.
Lemma cnt_pos {A} (f : A -> bool) l x : In x l -> f x = true -> 1 <= cnt f l.
Proof. intros H F. induction l as [|y l IH]; [destruct H|]. rewrite cnt_cons. destruct H as [->|H]; [rewrite F; lia|]. specialize (IH H). lia. Qed.
Lemma cnt_in {A} (f : A -> bool) l : 1 <= cnt f l -> exists x, In x l /\ f x = true.
Proof. induction l as [|y l IH]; [rewrite cnt_nil; lia|]. rewrite cnt_cons. destruct (f y) eqn:E; [exists y; split; auto; now left|]. intros H. destruct (IH H) as (x & Hx & Fx). exists x. split; auto. now right. Qed.

Definition isF (j : nat) (p : nat * item) : bool := match snd p with Fut k => k =? j | Han _ => false end.
Definition isD (j : nat) (a : action) : bool := match a with Destroy k => k =? j | Release _ => false end.
Definition isR (j : nat) (a : action) : bool := match a with Release k => k =? j | Destroy _ => false end.
Definition one (b : bool) : nat := if b then 1 else 0.
Definition alive (p : place) : bool := match p with Unborn | Gone => false | _ => true end.
Definition held (p : place) : bool := match p with Held => true | _ => false end.
Definition dying (p : place) : bool := match p with Dying => true | _ => false end.

(** [x]: the frame whose destruction is being carried out *)
Record J (x : option nat) (s : state) : Prop := {
  j_main : at_ s 0 = Running /\ 0 < next s;
  j_unborn : forall i, next s <= i <-> at_ s i = Unborn;
  j_fresh : forall i, next s <= i -> refs s i = 0;
  j_zero : refs s 0 = 0;
  j_ref : forall j, refs s j = cnt (isF j) (hold s) + one (alive (at_ s j) && negb (j =? 0)) + cnt (isR j) (todo s);
  j_held : forall j, cnt (isH j) (hold s) = one (held (at_ s j));
  j_dying : forall j, cnt (isD j) (todo s) = one (dying (at_ s j) && negb (match x with Some k => k =? j | None => false end));
  j_wait : forall j k, waiting s j = Some k <-> at_ s k = Awaiting j;
  j_wref : forall j k, waiting s j = Some k -> 1 <= refs s j;
  j_holder : forall p, In p (hold s) -> alive (at_ s (fst p)) = true;
  j_fault : fault s = false;
  j_nodup : NoDup (destroyed s);
  j_gone : forall i, In i (destroyed s) <-> at_ s i = Gone;
  j_order : forall j k, at_ s j = Held -> In (j, Han k) (hold s) -> k < j;
  j_stop : stopped s = true -> forall i, at_ s i = Running -> i = 0 \/ x = Some i }.
Notation I := (J None).

Ltac keep H := first [exact (j_main _ _ H) | exact (j_unborn _ _ H) | exact (j_fresh _ _ H) | exact (j_zero _ _ H) | exact (j_ref _ _ H) | exact (j_held _ _ H) | exact (j_dying _ _ H) | exact (j_wait _ _ H) | exact (j_wref _ _ H) | exact (j_holder _ _ H) | exact (j_fault _ _ H) | exact (j_nodup _ _ H) | exact (j_gone _ _ H) | exact (j_order _ _ H) | exact (j_stop _ _ H)].
Ltac keep1 H := first [exact (j_main _ _ H) | apply (proj1 (j_main _ _ H)) | apply (j_order _ _ H) | apply (j_wref _ _ H)].
Lemma J_init : I init.
Proof.
  split; cbn; auto; try discriminate.
  - intros i. destruct (Nat.eqb_spec i 0) as [->|N]; split; intros H; try lia; try discriminate; auto.
  - intros j. destruct (j =? 0); reflexivity.
  - intros j. destruct (j =? 0); reflexivity.
  - intros j. destruct (j =? 0); reflexivity.
  - intros j k. split; [discriminate|]. destruct (k =? 0); discriminate.
  - constructor.
  - intros i. split; [intros []|]. destruct (i =? 0); discriminate.
  - intros j k _ [].
Qed.

(** a frame's destructor *)
Lemma act_R j : forall p, isR j (act (snd p)) = isF j p.
Proof. intros [h [k|k]]; reflexivity. Qed.
Lemma act_D j : forall p, isD j (act (snd p)) = isH j p.
Proof. intros [h [k|k]]; reflexivity. Qed.
Lemma J_destroy s i : J (Some i) s -> i <> 0 -> at_ s i = Running \/ at_ s i = Dying -> waiting s i = None \/ at_ s i = Dying -> I (destroy s i).
Proof.
  intros H N0 Hp _. unfold destroy. set (mine := filter (fun p => fst p =? i) (hold s)).
  assert (Hm : forall j, existsb (isH j) mine = true -> at_ s j = Held).
  { intros j E. rewrite cnt_exists in E. pose proof (j_held _ _ H j) as Hh. rewrite (cnt_split (isH j) (fun p => fst p =? i) (hold s)) in Hh. fold mine in Hh.
    destruct (at_ s j); cbn in Hh; auto; destruct (cnt (isH j) mine); cbn in E; try discriminate; lia. }
  assert (Hi : existsb (isH i) mine = false) by (destruct (existsb (isH i) mine) eqn:E; auto; apply Hm in E; destruct Hp; congruence).
  assert (Ai : alive (at_ s i) = true) by (destruct Hp as [-> | ->]; reflexivity).
  assert (Hnew : forall k p, (if k =? i then Gone else if existsb (isH k) mine then Dying else at_ s k) = p -> p <> Gone -> p <> Dying -> k <> i /\ at_ s k = p).
  { intros k p. destruct (Nat.eqb_spec k i); [congruence|]. destruct (existsb (isH k) mine); [congruence|auto]. }
  split; cbn [next at_ hold refs value waiting todo stopped destroyed fault].
  - destruct (j_main _ _ H) as [M1 M2]. split; auto. destruct (Nat.eqb_spec 0 i); [congruence|]. destruct (existsb (isH 0) mine) eqn:E; auto. apply Hm in E. congruence.
  - intros k. rewrite (j_unborn _ _ H k). destruct (Nat.eqb_spec k i) as [->|Nk]; [split; [intros E; rewrite E in Ai; discriminate|discriminate]|].
    destruct (existsb (isH k) mine) eqn:E; [|tauto]. apply Hm in E. split; congruence.
  - apply (j_fresh _ _ H).
  - apply (j_zero _ _ H).
  - intros j. rewrite (j_ref _ _ H j), (cnt_split (isF j) (fun p => fst p =? i) (hold s)). fold mine. rewrite !cnt_app, cnt_map, (cnt_ext _ (isF j) mine (act_R j)), cnt_cons, cnt_nil. cbn [isR].
    rewrite (Nat.eqb_sym i j). destruct (Nat.eqb_spec j i) as [->|Nj].
    + rewrite Ai. cbn. apply Nat.eqb_neq in N0. rewrite N0. cbn. lia.
    + destruct (existsb (isH j) mine) eqn:E; [apply Hm in E; rewrite E; cbn; lia|lia].
  - intros j. pose proof (j_held _ _ H j) as Hh. rewrite (cnt_split (isH j) (fun p => fst p =? i) (hold s)) in Hh. fold mine in Hh. pose proof (cnt_exists (isH j) mine) as E.
    destruct (Nat.eqb_spec j i) as [->|Nj]; [|destruct (existsb (isH j) mine) eqn:E1].
    + destruct Hp as [Hp|Hp]; rewrite Hp in Hh; cbn in *; lia.
    + rewrite (Hm j E1) in Hh. cbn in *. destruct (cnt (isH j) mine); [discriminate|]. cbn in Hh. lia.
    + destruct (cnt (isH j) mine); [|discriminate]. cbn in Hh. lia.
  - intros j. rewrite !cnt_app, cnt_map, (cnt_ext _ (isH j) mine (act_D j)), cnt_cons, cnt_nil, (j_dying _ _ H j). cbn [isD negb]. rewrite (Nat.eqb_sym i j), andb_true_r.
    pose proof (j_held _ _ H j) as Hh. rewrite (cnt_split (isH j) (fun p => fst p =? i) (hold s)) in Hh. fold mine in Hh. pose proof (cnt_exists (isH j) mine) as E.
    destruct (Nat.eqb_spec j i) as [->|Nj]; [|destruct (existsb (isH j) mine) eqn:E1].
    + rewrite Hi in E. destruct (cnt (isH i) mine); [|discriminate]. rewrite andb_false_r. reflexivity.
    + rewrite (Hm j E1) in Hh |- *. destruct (cnt (isH j) mine); [discriminate|]. cbn in *. lia.
    + destruct (cnt (isH j) mine); [|discriminate]. rewrite andb_true_r. lia.
  - intros j k. rewrite (j_wait _ _ H j k). split; intros E.
    + destruct (Nat.eqb_spec k i) as [->|Nk]; [destruct Hp; congruence|]. destruct (existsb (isH k) mine) eqn:E1; auto. apply Hm in E1. congruence.
    + apply Hnew in E; [apply E|discriminate|discriminate].
  - apply (j_wref _ _ H).
  - intros p Hin. apply filter_In in Hin. destruct Hin as [Hin Ne]. destruct (fst p =? i); [discriminate|]. destruct (existsb (isH (fst p)) mine); [reflexivity|apply (j_holder _ _ H p Hin)].
  - apply (j_fault _ _ H).
  - apply NoDup_snoc; [apply (j_nodup _ _ H)|]. rewrite (j_gone _ _ H i). destruct Hp; congruence.
  - intros k. rewrite in_app_iff, (j_gone _ _ H k). cbn. destruct (Nat.eqb_spec k i) as [->|Nk]; [split; auto|]. destruct (existsb (isH k) mine) eqn:E1; [apply Hm in E1|]; intuition congruence.
  - intros j k E Hin. apply Hnew in E; [|discriminate|discriminate]. apply filter_In in Hin. apply (j_order _ _ H j k); tauto.
  - intros St k E. apply Hnew in E; [|discriminate|discriminate]. destruct (j_stop _ _ H St k (proj2 E)) as [X|X]; auto. injection X as ->. tauto.
Qed.

Lemma running_spec s i : running s i = true -> at_ s i = Running /\ stopped s = false.
Proof. unfold running. destruct (at_ s i), (stopped s); cbn; try discriminate; auto. Qed.
(** nothing but the place of one frame changes *)
Lemma J_move s i p : I s -> i <> 0 -> (at_ s i = Running \/ at_ s i = Ready \/ at_ s i = Sleeping) -> p = Running \/ p = Ready \/ p = Sleeping -> (p = Running -> stopped s = false) -> I (set_at s i p).
Proof.
  intros H N0 Hi Hp Hs.
  assert (A : alive (at_ s i) = true /\ held (at_ s i) = false /\ dying (at_ s i) = false /\ at_ s i <> Unborn /\ at_ s i <> Gone /\ forall j, at_ s i <> Awaiting j) by (destruct Hi as [-> |[-> | ->]]; repeat split; discriminate).
  assert (B : alive p = true /\ held p = false /\ dying p = false /\ p <> Unborn /\ p <> Gone /\ forall j, p <> Awaiting j) by (destruct Hp as [-> |[-> | ->]]; repeat split; discriminate).
  destruct A as (A1 & A2 & A3 & A4 & A5 & A6), B as (B1 & B2 & B3 & B4 & B5 & B6).
  assert (U : forall k, upd (at_ s) i p k = if k =? i then p else at_ s k) by reflexivity.
  split; unfold set_at; cbn [next at_ hold refs value waiting todo stopped destroyed fault]; try keep H.
  - rewrite U. destruct (Nat.eqb_spec 0 i); [congruence|keep1 H].
  - intros k. rewrite U, (j_unborn _ _ H k). destruct (Nat.eqb_spec k i) as [->|]; tauto.
  - intros j. rewrite (j_ref _ _ H j), U. destruct (Nat.eqb_spec j i) as [->|]; auto. now rewrite A1, B1.
  - intros j. rewrite (j_held _ _ H j), U. destruct (Nat.eqb_spec j i) as [->|]; auto. now rewrite A2, B2.
  - intros j. rewrite (j_dying _ _ H j), U. destruct (Nat.eqb_spec j i) as [->|]; auto. now rewrite A3, B3.
  - intros j k. rewrite (j_wait _ _ H j k), U. destruct (Nat.eqb_spec k i) as [->|]; [|tauto]. split; intros X; exfalso; [now apply (A6 j)|now apply (B6 j)].
  - intros q Hq. rewrite U. destruct (Nat.eqb_spec (fst q) i); auto. now apply (j_holder _ _ H).
  - intros k. rewrite (j_gone _ _ H k), U. destruct (Nat.eqb_spec k i) as [->|]; tauto.
  - intros j k. rewrite U. destruct (Nat.eqb_spec j i) as [->|]; [|keep1 H]. intros ->. discriminate.
  - intros St k. rewrite U. destruct (Nat.eqb_spec k i) as [->|]; [|apply (j_stop _ _ H St k)]. intros ->. rewrite Hs in St; [discriminate|reflexivity].
Qed.
(** a frame whose handle goes away *)
Lemma J_kill s i : I s -> at_ s i = Ready \/ at_ s i = Sleeping -> I (set_todo (set_at s i Dying) (todo s ++ [Destroy i])).
Proof.
  intros H Hi. assert (N0 : i <> 0) by (intros ->; destruct (j_main _ _ H); destruct Hi; congruence).
  assert (A : alive (at_ s i) = true /\ held (at_ s i) = false /\ dying (at_ s i) = false /\ at_ s i <> Unborn /\ at_ s i <> Gone /\ forall j, at_ s i <> Awaiting j) by (destruct Hi as [-> | ->]; repeat split; discriminate).
  destruct A as (A1 & A2 & A3 & A4 & A5 & A6).
  assert (U : forall k, upd (at_ s) i Dying k = if k =? i then Dying else at_ s k) by reflexivity.
  split; unfold set_at, set_todo; cbn [next at_ hold refs value waiting todo stopped destroyed fault]; try keep H.
  - rewrite U. destruct (Nat.eqb_spec 0 i); [congruence|keep1 H].
  - intros k. rewrite U, (j_unborn _ _ H k). destruct (Nat.eqb_spec k i) as [->|]; [split; [tauto|discriminate]|tauto].
  - intros j. rewrite (j_ref _ _ H j), U, cnt_app, cnt_cons, cnt_nil. cbn [isR]. destruct (Nat.eqb_spec j i) as [->|]; [rewrite A1; cbn; lia|lia].
  - intros j. rewrite (j_held _ _ H j), U. destruct (Nat.eqb_spec j i) as [->|]; auto. now rewrite A2.
  - intros j. rewrite U, cnt_app, cnt_cons, cnt_nil, (j_dying _ _ H j). cbn [isD]. rewrite (Nat.eqb_sym i j). destruct (Nat.eqb_spec j i) as [->|]; [now rewrite A3|lia].
  - intros j k. rewrite (j_wait _ _ H j k), U. destruct (Nat.eqb_spec k i) as [->|]; [|tauto]. split; intros X; exfalso; [now apply (A6 j)|discriminate].
  - intros q Hq. rewrite U. destruct (Nat.eqb_spec (fst q) i); auto. now apply (j_holder _ _ H).
  - intros k. rewrite (j_gone _ _ H k), U. destruct (Nat.eqb_spec k i) as [->|]; [split; [tauto|discriminate]|tauto].
  - intros j k. rewrite U. destruct (Nat.eqb_spec j i) as [->|]; [discriminate|keep1 H].
  - intros St k. rewrite U. destruct (Nat.eqb_spec k i) as [->|]; [discriminate|apply (j_stop _ _ H St k)].
Qed.
(** the waiter of a state [j] is given to the scheduler, or dies with the state *)
Lemma J_unwait s j k p : I s -> waiting s j = Some k -> p = Ready -> I (set_waiting (set_at s k p) j None).
Proof.
  intros H Hw ->. pose proof (proj1 (j_wait _ _ H j k) Hw) as Hk. assert (N0 : k <> 0) by (intros ->; destruct (j_main _ _ H); congruence).
  assert (U : forall m, upd (at_ s) k Ready m = if m =? k then Ready else at_ s m) by reflexivity.
  split; unfold set_waiting, set_at; cbn [next at_ hold refs value waiting todo stopped destroyed fault]; try keep H.
  - rewrite U. destruct (Nat.eqb_spec 0 k); [congruence|keep1 H].
  - intros m. rewrite U, (j_unborn _ _ H m). destruct (Nat.eqb_spec m k) as [->|]; [rewrite Hk; split; discriminate|tauto].
  - intros m. rewrite (j_ref _ _ H m), U. destruct (Nat.eqb_spec m k) as [->|]; auto. now rewrite Hk.
  - intros m. rewrite (j_held _ _ H m), U. destruct (Nat.eqb_spec m k) as [->|]; auto. now rewrite Hk.
  - intros m. rewrite (j_dying _ _ H m), U. destruct (Nat.eqb_spec m k) as [->|]; auto. now rewrite Hk.
  - intros m n. rewrite U. unfold upd. pose proof (j_wait _ _ H m n) as W. destruct (Nat.eqb_spec m j) as [->|Nm], (Nat.eqb_spec n k) as [->|Nn].
    + split; discriminate.
    + split; [discriminate|]. intros X. apply W in X. congruence.
    + split; [|discriminate]. intros X. apply W in X. congruence.
    + exact W.
  - intros m n. unfold upd. destruct (Nat.eqb_spec m j); [discriminate|keep1 H].
  - intros q Hq. rewrite U. destruct (Nat.eqb_spec (fst q) k); auto. now apply (j_holder _ _ H).
  - intros m. rewrite (j_gone _ _ H m), U. destruct (Nat.eqb_spec m k) as [->|]; [rewrite Hk; split; discriminate|tauto].
  - intros m n. rewrite U. destruct (Nat.eqb_spec m k) as [->|]; [discriminate|keep1 H].
  - intros St m. rewrite U. destruct (Nat.eqb_spec m k) as [->|]; [discriminate|apply (j_stop _ _ H St m)].
Qed.
Lemma take_cnt {A} n (l : list A) x r : take_nth n l = Some (x, r) -> (forall f, cnt f l = (if f x then 1 else 0) + cnt f r) /\ (forall y, In y r -> In y l) /\ In x l.
Proof.
  intros H. apply take_nth_spec in H. destruct H as (l1 & l2 & -> & -> & _). split; [|split].
  - intros f. rewrite !cnt_app, cnt_cons. lia.
  - intros y Hy. apply in_app_or in Hy. apply in_or_app. destruct Hy; [now left|right; now right].
  - apply in_elt.
Qed.
Lemma J_some s i : I s -> at_ s i = Running -> J (Some i) s.
Proof.
  intros H Hi. split; try keep H.
  - intros j. rewrite (j_dying _ _ H j). destruct (Nat.eqb_spec i j) as [<-|]; [now rewrite Hi|reflexivity].
  - intros St k Hk. destruct (j_stop _ _ H St k Hk); [now left|discriminate].
Qed.
Lemma isH_held s n h j r : I s -> take_nth n (hold s) = Some ((h, Han j), r) -> at_ s j = Held.
Proof.
  intros H T. apply take_cnt in T. destruct T as (T & _ & _). specialize (T (isH j)). cbn in T. rewrite Nat.eqb_refl, (j_held _ _ H j) in T. destruct (at_ s j); cbn in T; congruence.
Qed.

Lemma J_step s e s' : I s -> step s e = Some s' -> I s'.
Proof.
  intros H Hs. destruct e as [i eager|n|n k|i n|n|i|i|i|i|n| |i]; cbn [step] in Hs.
  - (* Call *) destruct (running s i) eqn:R; [|discriminate]. apply running_spec in R. destruct R as [Ri Rs]. injection Hs as <-. set (j := next s).
    assert (Uj : at_ s j = Unborn) by (apply (j_unborn _ _ H); auto). assert (Ni : i <> j) by congruence. assert (N0 : j <> 0) by (destruct (j_main _ _ H); unfold j; lia).
    set (p := if eager then Running else Held). assert (U : forall k, upd (at_ s) j p k = if k =? j then p else at_ s k) by reflexivity.
    assert (Fr : cnt (isF j) (hold s) = 0 /\ cnt (isR j) (todo s) = 0) by (pose proof (j_ref _ _ H j) as X; rewrite (j_fresh _ _ H j (le_n _)) in X; lia).
    assert (Hh : cnt (isH j) (hold s) = 0) by (rewrite (j_held _ _ H j), Uj; reflexivity). assert (Hd : cnt (isD j) (todo s) = 0) by (rewrite (j_dying _ _ H j), Uj; reflexivity).
    set (hh := if eager then [] else [(i, Han j)]).
    assert (HF : forall m, cnt (isF m) hh = 0) by (intros m; unfold hh; destruct eager; reflexivity).
    assert (HH : forall m, cnt (isH m) hh = one (negb eager && (j =? m))) by (intros m; unfold hh; destruct eager; [reflexivity|rewrite cnt_cons, cnt_nil; cbn; destruct (j =? m); reflexivity]).
    assert (Hhh : forall q, In q hh -> fst q = i) by (intros q; unfold hh; destruct eager; [intros []|intros [<-|[]]; reflexivity]).
    assert (Ap : alive p = true /\ dying p = false /\ p <> Gone /\ p <> Unborn /\ (forall m, p <> Awaiting m) /\ held p = negb eager) by (unfold p; destruct eager; repeat split; discriminate). destruct Ap as (P1 & P2 & P3 & P4 & P5 & P6).
    split; cbn [next at_ hold refs value waiting todo stopped destroyed fault].
    + rewrite U. destruct (Nat.eqb_spec 0 j); [congruence|]. split; [apply (j_main _ _ H)|lia].
    + intros k. rewrite U. destruct (Nat.eqb_spec k j) as [->|Nk]; [split; [lia|congruence]|]. rewrite <- (j_unborn _ _ H k). unfold j in Nk. lia.
    + intros k Hk. unfold upd. destruct (Nat.eqb_spec k j); [lia|]. apply (j_fresh _ _ H). unfold j in *. lia.
    + unfold upd. destruct (Nat.eqb_spec 0 j); [congruence|apply (j_zero _ _ H)].
    + intros m. rewrite U, cnt_app, cnt_cons, HF. unfold upd at 1. cbn [isF snd]. rewrite (Nat.eqb_sym j m). destruct (Nat.eqb_spec m j) as [->|Nm].
      * destruct Fr as [-> ->]. rewrite P1. apply Nat.eqb_neq in N0. rewrite N0. reflexivity.
      * rewrite (j_ref _ _ H m). lia.
    + intros m. rewrite U, cnt_app, cnt_cons, HH. cbn [isH snd]. rewrite (Nat.eqb_sym j m). destruct (Nat.eqb_spec m j) as [->|Nm]; [rewrite Hh, P6, andb_true_r; lia|]. rewrite (j_held _ _ H m), andb_false_r. cbn. lia.
    + intros m. rewrite U, (j_dying _ _ H m). destruct (Nat.eqb_spec m j) as [->|Nm]; auto. now rewrite Uj, P2.
    + intros m k. rewrite U, (j_wait _ _ H m k). destruct (Nat.eqb_spec k j) as [->|Nk]; [rewrite Uj; split; intros X; [discriminate|exfalso; now apply (P5 m)]|tauto].
    + intros m k Hw. unfold upd. destruct (Nat.eqb_spec m j); [lia|]. now apply (j_wref _ _ H m k).
    + intros q Hq. rewrite U. destruct (Nat.eqb_spec (fst q) j); auto. apply in_app_or in Hq. destruct Hq as [Hq|[<-|Hq]]; [now apply (j_holder _ _ H)|cbn; now rewrite Ri|rewrite (Hhh q Hq); now rewrite Ri].
    + apply (j_fault _ _ H).
    + apply (j_nodup _ _ H).
    + intros k. rewrite U, (j_gone _ _ H k). destruct (Nat.eqb_spec k j) as [->|Nk]; [rewrite Uj; split; [discriminate|congruence]|tauto].
    + intros m k. rewrite U. intros E Hin. apply in_app_or in Hin. destruct (Nat.eqb_spec m j) as [->|Nm].
      * exfalso. destruct Hin as [Hin|[Hin|Hin]]; [apply (j_holder _ _ H) in Hin; cbn in Hin; rewrite Uj in Hin; discriminate|discriminate|apply Hhh in Hin; cbn in Hin; congruence].
      * destruct Hin as [Hin|[Hin|Hin]]; [apply (j_order _ _ H m k E Hin)|discriminate|apply Hhh in Hin; cbn in Hin; congruence].
    + intros St. congruence.
  - (* Start *) destruct (take_nth n (hold s)) as [[[h [j|j]] r]|] eqn:T; try discriminate. destruct (running s h) eqn:R; [|discriminate]. apply running_spec in R. destruct R as [Rh Rs]. injection Hs as <-.
    pose proof (isH_held s n h j r H T) as Hj. apply take_cnt in T. destruct T as (T1 & T2 & T3). assert (N0 : j <> 0) by (intros ->; destruct (j_main _ _ H); congruence).
    assert (U : forall k, upd (at_ s) j Ready k = if k =? j then Ready else at_ s k) by reflexivity.
    split; unfold set_at, set_hold; cbn [next at_ hold refs value waiting todo stopped destroyed fault]; try keep H.
    + rewrite U. destruct (Nat.eqb_spec 0 j); [congruence|keep1 H].
    + intros k. rewrite U, (j_unborn _ _ H k). destruct (Nat.eqb_spec k j) as [->|]; [rewrite Hj; split; discriminate|tauto].
    + intros m. rewrite U, (j_ref _ _ H m), (T1 (isF m)). cbn [isF snd]. destruct (Nat.eqb_spec m j) as [->|]; [now rewrite Hj|reflexivity].
    + intros m. specialize (T1 (isH m)). rewrite (j_held _ _ H m) in T1. cbn [isH snd] in T1. rewrite U. rewrite (Nat.eqb_sym j m) in T1. destruct (m =? j) eqn:E; [apply Nat.eqb_eq in E; subst m; rewrite Hj in T1; cbn in *; lia|lia].
    + intros m. rewrite (j_dying _ _ H m), U. destruct (Nat.eqb_spec m j) as [->|]; auto. now rewrite Hj.
    + intros m k. rewrite (j_wait _ _ H m k), U. destruct (Nat.eqb_spec k j) as [->|]; [rewrite Hj; split; discriminate|tauto].
    + intros q Hq. rewrite U. destruct (Nat.eqb_spec (fst q) j); auto. apply (j_holder _ _ H). auto.
    + intros k. rewrite (j_gone _ _ H k), U. destruct (Nat.eqb_spec k j) as [->|]; [rewrite Hj; split; discriminate|tauto].
    + intros m k. rewrite U. destruct (Nat.eqb_spec m j); [discriminate|]. intros E Hin. apply (j_order _ _ H m k E). auto.
    + intros St. congruence.
  - (* Give *) destruct (take_nth n (hold s)) as [[[h x] r]|] eqn:T; try discriminate. destruct (running s h && takes s k x) eqn:R; [|discriminate]. apply andb_true_iff in R. destruct R as [R Tk]. injection Hs as <-.
    apply take_cnt in T. destruct T as (T1 & T2 & T3).
    assert (Cn : forall f, (forall a b y, f (a, y) = f (b, y)) -> cnt f (r ++ [(k, x)]) = cnt f (hold s)) by (intros f Hf; rewrite cnt_app, cnt_cons, cnt_nil, (T1 f), (Hf h k x); lia).
    split; unfold set_hold; cbn [next at_ hold refs value waiting todo stopped destroyed fault]; try keep H.
    + intros m. rewrite Cn by reflexivity. apply (j_ref _ _ H).
    + intros m. rewrite Cn by reflexivity. apply (j_held _ _ H).
    + intros q Hq. apply in_app_or in Hq. destruct Hq as [Hq|[<-|[]]]; [apply (j_holder _ _ H); auto|]. cbn. unfold takes in Tk. destruct (at_ s k); try discriminate; reflexivity.
    + intros m k' E Hin. apply in_app_or in Hin. destruct Hin as [Hin|[Hin|[]]]; [apply (j_order _ _ H m k' E); auto|]. injection Hin as -> ->. unfold takes in Tk. rewrite E in Tk. now apply Nat.ltb_lt.
  - (* Await *) destruct (nth_error (hold s) n) as [[h [j|j]]|] eqn:T; try discriminate. destruct (running s i && negb (i =? 0)) eqn:R; [|discriminate]. apply andb_true_iff in R. destruct R as [R N0]. apply running_spec in R. destruct R as [Ri Rs]. apply negb_true_iff, Nat.eqb_neq in N0.
    destruct (value s j); [injection Hs as <-; exact H|]. destruct (waiting s j) eqn:W; [discriminate|]. injection Hs as <-.
    assert (U : forall k, upd (at_ s) i (Awaiting j) k = if k =? i then Awaiting j else at_ s k) by reflexivity.
    split; unfold set_at, set_waiting; cbn [next at_ hold refs value waiting todo stopped destroyed fault]; try keep H.
    + rewrite U. destruct (Nat.eqb_spec 0 i); [congruence|keep1 H].
    + intros k. rewrite U, (j_unborn _ _ H k). destruct (Nat.eqb_spec k i) as [->|]; [rewrite Ri; split; discriminate|tauto].
    + intros m. rewrite U, (j_ref _ _ H m). destruct (Nat.eqb_spec m i) as [->|]; [now rewrite Ri|reflexivity].
    + intros m. rewrite (j_held _ _ H m), U. destruct (Nat.eqb_spec m i) as [->|]; auto. now rewrite Ri.
    + intros m. rewrite (j_dying _ _ H m), U. destruct (Nat.eqb_spec m i) as [->|]; auto. now rewrite Ri.
    + intros m k. rewrite U. unfold upd. pose proof (j_wait _ _ H m k) as X. destruct (Nat.eqb_spec m j) as [->|Nm], (Nat.eqb_spec k i) as [->|Nk].
      * split; auto.
      * split; [congruence|]. intros Y. apply X in Y. congruence.
      * split; [|congruence]. intros Y. apply X in Y. congruence.
      * exact X.
    + intros m k. unfold upd. destruct (Nat.eqb_spec m j) as [->|]; [|apply (j_wref _ _ H m k)]. intros _. rewrite (j_ref _ _ H j). apply nth_error_In in T. pose proof (cnt_pos (isF j) (hold s) (h, Fut j) T ltac:(cbn; apply Nat.eqb_refl)). lia.
    + intros q Hq. rewrite U. destruct (Nat.eqb_spec (fst q) i); auto. now apply (j_holder _ _ H).
    + intros k. rewrite (j_gone _ _ H k), U. destruct (Nat.eqb_spec k i) as [->|]; [rewrite Ri; split; discriminate|tauto].
    + intros m k. rewrite U. destruct (Nat.eqb_spec m i); [discriminate|keep1 H].
    + intros St. congruence.
  - (* Drop *) destruct (take_nth n (hold s)) as [[[h x] r]|] eqn:T; try discriminate. destruct (running s h || (h =? 0)); [|discriminate]. injection Hs as <-.
    destruct x as [j|j].
    + apply take_cnt in T. destruct T as (T1 & T2 & T3). split; unfold set_todo, set_hold; cbn [next at_ hold refs value waiting todo stopped destroyed fault]; try keep H.
      * intros m. rewrite (j_ref _ _ H m), (T1 (isF m)), cnt_app, cnt_cons, cnt_nil. cbn. lia.
      * intros m. rewrite <- (j_held _ _ H m), (T1 (isH m)). reflexivity.
      * intros m. rewrite cnt_app, cnt_cons, cnt_nil, (j_dying _ _ H m). cbn. lia.
      * intros q Hq. apply (j_holder _ _ H). auto.
      * intros m k E Hin. apply (j_order _ _ H m k E). auto.
    + pose proof (isH_held s n h j r H T) as Hj. apply take_cnt in T. destruct T as (T1 & T2 & T3). assert (N0 : j <> 0) by (intros ->; destruct (j_main _ _ H); congruence).
      assert (U : forall k, upd (at_ s) j Dying k = if k =? j then Dying else at_ s k) by reflexivity.
      split; unfold set_todo, set_hold, set_at; cbn [next at_ hold refs value waiting todo stopped destroyed fault]; try keep H.
      * rewrite U. destruct (Nat.eqb_spec 0 j); [congruence|keep1 H].
      * intros k. rewrite U, (j_unborn _ _ H k). destruct (Nat.eqb_spec k j) as [->|]; [rewrite Hj; split; discriminate|tauto].
      * intros m. rewrite U, (j_ref _ _ H m), (T1 (isF m)), cnt_app, cnt_cons, cnt_nil. cbn [isF snd isR act]. destruct (Nat.eqb_spec m j) as [->|]; [rewrite Hj; cbn; lia|lia].
      * intros m. specialize (T1 (isH m)). rewrite (j_held _ _ H m) in T1. cbn [isH snd] in T1. rewrite U. rewrite (Nat.eqb_sym j m) in T1. destruct (m =? j) eqn:E; [apply Nat.eqb_eq in E; subst m; rewrite Hj in T1; cbn in *; lia|lia].
      * intros m. rewrite U, cnt_app, cnt_cons, cnt_nil, (j_dying _ _ H m). cbn [isD act]. rewrite (Nat.eqb_sym j m). destruct (Nat.eqb_spec m j) as [->|]; [now rewrite Hj|lia].
      * intros m k. rewrite (j_wait _ _ H m k), U. destruct (Nat.eqb_spec k j) as [->|]; [rewrite Hj; split; discriminate|tauto].
      * intros q Hq. rewrite U. destruct (Nat.eqb_spec (fst q) j); auto. apply (j_holder _ _ H). auto.
      * intros k. rewrite (j_gone _ _ H k), U. destruct (Nat.eqb_spec k j) as [->|]; [rewrite Hj; split; discriminate|tauto].
      * intros m k. rewrite U. destruct (Nat.eqb_spec m j); [discriminate|]. intros E Hin. apply (j_order _ _ H m k E). auto.
      * intros St k. rewrite U. destruct (Nat.eqb_spec k j); [discriminate|apply (j_stop _ _ H St k)].
  - (* Sleep *) destruct (running s i && negb (i =? 0)) eqn:R; [|discriminate]. apply andb_true_iff in R. destruct R as [R N0]. apply running_spec in R. destruct R as [Ri Rs]. apply negb_true_iff, Nat.eqb_neq in N0. injection Hs as <-. apply J_move; auto.
  - (* Wake *) destruct (at_ s i) eqn:E; try discriminate. destruct (stopped s); [discriminate|]. injection Hs as <-. apply J_move; auto; try discriminate. intros ->. destruct (j_main _ _ H). congruence.
  - (* Resume *) destruct (at_ s i) eqn:E; try discriminate. destruct (stopped s) eqn:E1; [discriminate|]. injection Hs as <-. apply J_move; auto. intros ->. destruct (j_main _ _ H). congruence.
  - (* Finish *) destruct (running s i && negb (i =? 0)) eqn:R; [|discriminate]. apply andb_true_iff in R. destruct R as [R N0]. apply running_spec in R. destruct R as [Ri Rs]. apply negb_true_iff, Nat.eqb_neq in N0. injection Hs as <-.
    assert (Hv : I (set_value s i)) by (split; unfold set_value; cbn [next at_ hold refs value waiting todo stopped destroyed fault]; keep H).
    destruct (waiting s i) as [k|] eqn:W.
    + assert (Nk : k <> i) by (intros ->; apply (j_wait _ _ H) in W; congruence). assert (Ri' : at_ (set_waiting (set_at (set_value s i) k Ready) i None) i = Running) by (cbn; rewrite upd_other by auto; exact Ri).
      apply J_destroy; auto; [apply J_some; auto; apply (J_unwait (set_value s i) i k Ready Hv W eq_refl)|]. left. cbn. apply upd_same.
    + apply J_destroy; auto. apply J_some; auto.
  - (* Work *) destruct (take_nth n (todo s)) as [[[i|j] r]|] eqn:T; [| |discriminate].
    + apply take_cnt in T. destruct T as (T1 & T2 & T3). assert (Di : at_ s i = Dying) by (pose proof (cnt_pos (isD i) (todo s) (Destroy i) T3 ltac:(cbn; apply Nat.eqb_refl)) as X; rewrite (j_dying _ _ H i) in X; destruct (at_ s i); cbn in X; auto; lia).
      rewrite Di in Hs. injection Hs as <-. assert (N0 : i <> 0) by (intros ->; destruct (j_main _ _ H); congruence). apply J_destroy; auto.
      split; unfold set_todo; cbn [next at_ hold refs value waiting todo stopped destroyed fault]; try keep H.
      * intros m. rewrite (j_ref _ _ H m), (T1 (isR m)). cbn. lia.
      * intros m. specialize (T1 (isD m)). rewrite (j_dying _ _ H m) in T1. cbn [isD] in T1. destruct (i =? m) eqn:E; [apply Nat.eqb_eq in E; subst m; rewrite Di in *; cbn in *; lia|lia].
      * intros St k Hk. destruct (j_stop _ _ H St k Hk); [now left|discriminate].
    + apply take_cnt in T. destruct T as (T1 & T2 & T3). pose proof (j_ref _ _ H j) as Rj. pose proof (cnt_pos (isR j) (todo s) (Release j) T3 ltac:(cbn; apply Nat.eqb_refl)) as X. destruct (refs s j) as [|q] eqn:Q; [lia|].
      assert (N0 : j <> 0) by (intros ->; rewrite (j_zero _ _ H) in Q; discriminate).
      assert (Nf : j < next s) by (destruct (Nat.lt_ge_cases j (next s)); auto; rewrite (j_fresh _ _ H j) in Q by auto; discriminate).
      assert (TD : forall m, cnt (isD m) r = cnt (isD m) (todo s)) by (intros m; now rewrite (T1 (isD m))).
      assert (TR : forall m, cnt (isR m) (todo s) = one (j =? m) + cnt (isR m) r) by (intros m; rewrite (T1 (isR m)); cbn; destruct (j =? m); reflexivity).
      assert (Keep : q <> 0 \/ waiting s j = None -> I (set_refs (set_todo s r) j q)).
      { intros Hq. split; unfold set_todo, set_refs; cbn [next at_ hold refs value waiting todo stopped destroyed fault]; try keep H.
        - intros k Hk. unfold upd. destruct (Nat.eqb_spec k j); [lia|apply (j_fresh _ _ H k Hk)].
        - unfold upd. destruct (Nat.eqb_spec 0 j); [congruence|apply (j_zero _ _ H)].
        - intros m. unfold upd. pose proof (j_ref _ _ H m) as Rm. rewrite (TR m), (Nat.eqb_sym j m) in Rm. destruct (m =? j) eqn:Emj; [apply Nat.eqb_eq in Emj; subst m; rewrite Q in Rm; cbn [one] in Rm; lia|cbn [one] in Rm; lia].
        - intros m. rewrite TD. apply (j_dying _ _ H m).
        - intros m k Hw. unfold upd. destruct (Nat.eqb_spec m j) as [->|]; [destruct Hq; [lia|congruence]|apply (j_wref _ _ H m k Hw)]. }
      destruct (Nat.eqb_spec q 0) as [->|Nq]; [|injection Hs as <-; auto].
      destruct (waiting s j) as [k|] eqn:W; [|injection Hs as <-; auto]. injection Hs as <-.
      pose proof (proj1 (j_wait _ _ H j k) W) as Hk. assert (K0 : k <> 0) by (intros ->; destruct (j_main _ _ H); congruence).
      assert (U : forall m, upd (at_ s) k Dying m = if m =? k then Dying else at_ s m) by reflexivity.
      split; unfold set_todo, set_refs, set_at, set_waiting; cbn [next at_ hold refs value waiting todo stopped destroyed fault]; try keep H.
      * rewrite U. destruct (Nat.eqb_spec 0 k); [congruence|keep1 H].
      * intros m. rewrite U, (j_unborn _ _ H m). destruct (Nat.eqb_spec m k) as [->|]; [rewrite Hk; split; discriminate|tauto].
      * intros m Hm. unfold upd. destruct (Nat.eqb_spec m j); [lia|apply (j_fresh _ _ H m Hm)].
      * unfold upd. destruct (Nat.eqb_spec 0 j); [congruence|apply (j_zero _ _ H)].
      * intros m. rewrite U, cnt_app, cnt_cons, cnt_nil. cbn [isR]. unfold upd. pose proof (j_ref _ _ H m) as Rm. rewrite (TR m), (Nat.eqb_sym j m) in Rm.
        assert (Al : alive (if m =? k then Dying else at_ s m) = alive (at_ s m)) by (destruct (Nat.eqb_spec m k) as [->|]; [now rewrite Hk|reflexivity]). rewrite Al.
        destruct (m =? j) eqn:Emj; [apply Nat.eqb_eq in Emj; subst m; rewrite Q in Rm; cbn [one] in Rm; lia|cbn [one] in Rm; lia].
      * intros m. rewrite (j_held _ _ H m), U. destruct (Nat.eqb_spec m k) as [->|]; auto. now rewrite Hk.
      * intros m. rewrite U, cnt_app, cnt_cons, cnt_nil, TD, (j_dying _ _ H m). cbn [isD]. rewrite (Nat.eqb_sym k m). destruct (Nat.eqb_spec m k) as [->|]; [now rewrite Hk|lia].
      * intros m k'. rewrite U. unfold upd. pose proof (j_wait _ _ H m k') as Y. destruct (Nat.eqb_spec m j) as [->|Nm], (Nat.eqb_spec k' k) as [->|Nk].
        -- split; discriminate.
        -- split; [discriminate|]. intros Z. apply Y in Z. congruence.
        -- split; [|discriminate]. intros Z. apply Y in Z. congruence.
        -- exact Y.
      * intros m k'. unfold upd. destruct (Nat.eqb_spec m j); [discriminate|apply (j_wref _ _ H)].
      * intros p Hp. rewrite U. destruct (Nat.eqb_spec (fst p) k); auto. now apply (j_holder _ _ H).
      * intros m. rewrite (j_gone _ _ H m), U. destruct (Nat.eqb_spec m k) as [->|]; [rewrite Hk; split; discriminate|tauto].
      * intros m k'. rewrite U. destruct (Nat.eqb_spec m k); [discriminate|keep1 H].
      * intros St m. rewrite U. destruct (Nat.eqb_spec m k); [discriminate|apply (j_stop _ _ H St m)].
  - (* Stop *) destruct (forallb _ _ && _) eqn:R; [|discriminate]. apply andb_true_iff in R. destruct R as [R _]. injection Hs as <-. split; unfold set_stopped; cbn [next at_ hold refs value waiting todo stopped destroyed fault]; try keep H.
    intros _ i Hi. rewrite forallb_forall in R. destruct (Nat.lt_ge_cases i (next s)) as [L|L]; [|apply (j_unborn _ _ H) in L; congruence]. specialize (R i ltac:(apply in_seq; lia)). rewrite Hi, orb_false_r in R. left. now apply Nat.eqb_eq.
  - (* DropRoot *) destruct (at_ s i) eqn:E; try discriminate; (destruct (stopped s); [|discriminate]); injection Hs as <-; apply J_kill; auto.
Qed.
Lemma J_run l s : run step init l = Some s -> I s.
Proof. intros R. exact (run_inv step I J_step l init s J_init R). Qed.

(** ** after stop() *)
Lemma remains {A} n (l : list A) x r y : take_nth n l = Some (x, r) -> In y l -> y = x \/ In y r.
Proof. intros T H. apply take_nth_spec in T. destruct T as (l1 & l2 & -> & -> & _). apply in_app_or in H. rewrite in_app_iff. destruct H as [H|[H|H]]; auto. Qed.
Lemma cnt_two {A} (f : A -> bool) l x y : In x l -> In y l -> x <> y -> f x = true -> f y = true -> 2 <= cnt f l.
Proof.
  intros Hx Hy N Fx Fy. apply in_split in Hx. destruct Hx as (l1 & l2 & ->). rewrite cnt_app, cnt_cons, Fx.
  apply in_app_or in Hy. destruct Hy as [Hy|[Hy|Hy]]; [pose proof (cnt_pos f l1 y Hy Fy); lia|congruence|pose proof (cnt_pos f l2 y Hy Fy); lia].
Qed.
(** what a step after stop() can be *)
Lemma stopped_step s e s' : I s -> stopped s = true -> step s e = Some s' ->
  (exists n x r, e = Drop n /\ take_nth n (hold s) = Some ((0, x), r) /\ s' = match x with Han j => set_at (set_todo (set_hold s r) (todo s ++ [act x])) j Dying | Fut _ => set_todo (set_hold s r) (todo s ++ [act x]) end)
  \/ (exists n i r, e = Work n /\ take_nth n (todo s) = Some (Destroy i, r) /\ at_ s i = Dying /\ s' = destroy (set_todo s r) i)
  \/ (exists n j r q, e = Work n /\ take_nth n (todo s) = Some (Release j, r) /\ refs s j = S q /\ (q <> 0 \/ waiting s j = None) /\ s' = set_refs (set_todo s r) j q)
  \/ (exists n j r k, e = Work n /\ take_nth n (todo s) = Some (Release j, r) /\ refs s j = 1 /\ at_ s k = Awaiting j /\ s' = set_todo (set_at (set_waiting (set_refs (set_todo s r) j 0) j None) k Dying) (r ++ [Destroy k]))
  \/ (exists i, e = DropRoot i /\ (at_ s i = Ready \/ at_ s i = Sleeping) /\ s' = set_todo (set_at s i Dying) (todo s ++ [Destroy i])).
Proof.
  intros H St Hs. pose proof (J_step s e s' H Hs) as H'.
  destruct e as [i eager|n|n k|i n|n|i|i|i|i|n| |i]; cbn [step] in Hs; unfold running in Hs; rewrite ?St in Hs; cbn [negb] in Hs; rewrite ?andb_false_r in Hs; cbn [andb] in Hs; try discriminate.
  - destruct (take_nth n (hold s)) as [[[h [j|j]] r]|]; try discriminate. rewrite andb_false_r in Hs. discriminate.
  - destruct (take_nth n (hold s)) as [[[h x] r]|]; [|discriminate]. rewrite andb_false_r in Hs. discriminate.
  - destruct (nth_error (hold s) n) as [[h [j|j]]|]; discriminate.
  - destruct (take_nth n (hold s)) as [[[h x] r]|] eqn:T; [|discriminate]. rewrite andb_false_r in Hs. cbn [orb] in Hs. destruct (Nat.eqb_spec h 0) as [->|]; [|discriminate]. injection Hs as <-. left. exists n, x, r. auto.
  - destruct (at_ s i); discriminate.
  - destruct (at_ s i); discriminate.
  - destruct (take_nth n (todo s)) as [[[i|j] r]|] eqn:T; [| |discriminate].
    + right. left. exists n, i, r. destruct (at_ s i) eqn:E; try (injection Hs as <-; apply j_fault in H'; discriminate). injection Hs as <-. auto.
    + right. right. destruct (refs s j) as [|q] eqn:Q; [injection Hs as <-; apply j_fault in H'; discriminate|].
      destruct (Nat.eqb_spec q 0) as [->|Nq]; [destruct (waiting s j) as [k|] eqn:W|].
      * right. left. exists n, j, r, k. injection Hs as <-. apply (j_wait _ _ H) in W. auto.
      * left. exists n, j, r, 0. injection Hs as <-. auto 8.
      * left. exists n, j, r, q. injection Hs as <-. auto 8.
  - do 4 right. exists i. destruct (at_ s i) eqn:E; try discriminate; injection Hs as <-; auto.
Qed.
Lemma stopped_stays s e s' : stopped s = true -> I s -> step s e = Some s' -> stopped s' = true /\ next s' = next s.
Proof.
  intros St H Hs. destruct (stopped_step s e s' H St Hs) as [(n & x & r & -> & T & ->)|[(n & i & r & -> & T & D & ->)|[(n & j & r & q & -> & T & Q & W & ->)|[(n & j & r & k & -> & T & Q & W & ->)|(i & -> & P & ->)]]]]; try (split; [exact St|reflexivity]).
  destruct x; (split; [exact St|reflexivity]).
Qed.
(** ... and what was there before, of what is there afterwards *)
Lemma back_step s e s' : I s -> stopped s = true -> step s e = Some s' ->
  (forall i, at_ s' i <> Gone -> at_ s' i <> Dying -> at_ s' i = at_ s i) /\ forall p, In p (hold s') -> In p (hold s).
Proof.
  intros H St Hs. destruct (stopped_step s e s' H St Hs) as [(n & x & r & -> & T & ->)|[(n & i & r & -> & T & D & ->)|[(n & j & r & q & -> & T & Q & W & ->)|[(n & j & r & k & -> & T & Q & W & ->)|(i & -> & P & ->)]]]].
  - apply take_cnt in T. destruct T as (_ & T & _). destruct x as [j|j]; cbn; split; auto. intros i. unfold upd. destruct (i =? j); auto. congruence.
  - cbn. split; [|intros p Hp; apply filter_In in Hp; tauto]. intros k. destruct (k =? i); [congruence|]. destruct (existsb _ _); [congruence|auto].
  - cbn. auto.
  - cbn. split; auto. intros i. unfold upd. destruct (i =? k); [congruence|auto].
  - cbn. split; auto. intros k. unfold upd. destruct (k =? i); [congruence|auto].
Qed.

(** ** specification: what keeps a frame alive *)
(** A set of frames sustains itself if each of them is a lazy task that another one owns, or awaits a coroutine that is one of them, or whose future one of them has. *)
Definition sustains (s : state) (X : nat -> Prop) : Prop :=
  forall i, X i -> i <> 0 /\
    match at_ s i with
    | Held => exists h, X h /\ In (h, Han i) (hold s)
    | Awaiting j => X j \/ exists h, X h /\ In (h, Fut j) (hold s)
    | _ => False end.

Lemma sustains_alive s X i : sustains s X -> X i -> alive (at_ s i) = true.
Proof. intros H Hi. destruct (H i Hi) as (_ & Y). destruct (at_ s i); auto; destruct Y. Qed.
Lemma sustains_step s e s' X : I s -> stopped s = true -> sustains s X -> step s e = Some s' -> sustains s' X /\ forall i, X i -> at_ s' i = at_ s i.
Proof.
  intros H St Hx Hs.
  (* it is enough that the places stay, and the items *)
  assert (Go : (forall i, X i -> at_ s' i = at_ s i) -> (forall h x, X h -> In (h, x) (hold s) -> In (h, x) (hold s')) -> sustains s' X /\ forall i, X i -> at_ s' i = at_ s i).
  { intros A B. split; auto. intros i Hi. destruct (Hx i Hi) as (N0 & Y). split; auto. rewrite (A i Hi). destruct (at_ s i); auto.
    - destruct Y as (h & Hh & Y). exists h. auto.
    - destruct Y as [Y|(h & Hh & Y)]; [now left|right; exists h; auto]. }
  (* a lazy task of the set belongs to a frame of the set, and to no other *)
  assert (Own : forall i h, X i -> In (h, Han i) (hold s) -> X h).
  { intros i h Hi Hin. destruct (Hx i Hi) as (_ & Y). pose proof (j_held _ _ H i) as C. pose proof (cnt_pos (isH i) (hold s) (h, Han i) Hin ltac:(cbn; apply Nat.eqb_refl)) as P.
    destruct (at_ s i); cbn [held one] in C; try lia. destruct Y as (h' & Hh' & Y). destruct (Nat.eq_dec h h') as [->|N]; auto.
    pose proof (cnt_two (isH i) (hold s) (h, Han i) (h', Han i) Hin Y ltac:(congruence) ltac:(cbn; apply Nat.eqb_refl) ltac:(cbn; apply Nat.eqb_refl)). lia. }
  destruct (stopped_step s e s' H St Hs) as [(n & x & r & -> & T & ->)|[(n & i & r & -> & T & D & ->)|[(n & j & r & q & -> & T & Q & W & ->)|[(n & j & r & k & -> & T & Q & W & ->)|(i & -> & P & ->)]]]].
  - pose proof (fun y => remains n (hold s) (0, x) r y T) as Rm. assert (Hr : forall h y, X h -> In (h, y) (hold s) -> In (h, y) r) by (intros h y Hh Hy; destruct (Rm _ Hy) as [E|E]; auto; injection E as -> _; destruct (Hx 0 Hh); congruence).
    destruct x as [j|j]; apply Go; cbn; auto. intros i Hi. unfold upd. destruct (Nat.eqb_spec i j) as [->|]; auto. exfalso.
    apply take_cnt in T. destruct T as (_ & _ & T). pose proof (Own j 0 Hi T) as H0. destruct (Hx 0 H0). congruence.
  - assert (Ni : ~ X i) by (intros Hi; destruct (Hx i Hi) as (_ & Y); rewrite D in Y; exact Y).
    apply Go; cbn.
    + intros k Hk. destruct (Nat.eqb_spec k i) as [->|]; [contradiction|]. destruct (existsb (isH k) (filter _ (hold s))) eqn:E; auto. exfalso. apply existsb_exists in E. destruct E as ([h [m|m]] & Hin & E); cbn in E; [discriminate|]. apply Nat.eqb_eq in E. subst m.
      apply filter_In in Hin. destruct Hin as [Hin E]. cbn in E. apply Nat.eqb_eq in E. subst h. exact (Ni (Own k i Hk Hin)).
    + intros h x Hh Hin. apply filter_In. split; auto. cbn. destruct (Nat.eqb_spec h i) as [->|]; [contradiction|reflexivity].
  - apply Go; cbn; auto.
  - apply Go; cbn; auto. intros i Hi. unfold upd. destruct (Nat.eqb_spec i k) as [->|]; auto. exfalso. destruct (Hx k Hi) as (_ & Y). rewrite W in Y.
    pose proof (j_ref _ _ H j) as R. rewrite Q in R. apply take_cnt in T. destruct T as (_ & _ & T). pose proof (cnt_pos (isR j) (todo s) (Release j) T ltac:(cbn; apply Nat.eqb_refl)) as C.
    destruct Y as [Y|(h & Hh & Y)].
    + rewrite (sustains_alive s X j Hx Y) in R. destruct (Hx j Y) as (N0 & _). apply Nat.eqb_neq in N0. rewrite N0 in R. cbn in R. lia.
    + pose proof (cnt_pos (isF j) (hold s) (h, Fut j) Y ltac:(cbn; apply Nat.eqb_refl)). lia.
  - apply Go; cbn; auto. intros k Hk. unfold upd. destruct (Nat.eqb_spec k i) as [->|]; auto. exfalso. destruct (Hx i Hk) as (_ & Y). destruct P as [P|P]; rewrite P in Y; exact Y.
Qed.
Lemma sustains_run l : forall s s' X, I s -> stopped s = true -> sustains s X -> run step s l = Some s' -> sustains s' X /\ forall i, X i -> at_ s' i = at_ s i.
Proof.
  induction l as [|e l IH]; intros s s' X H St Hx R; cbn in R; [injection R as <-; auto|]. destruct (step s e) as [s1|] eqn:E; [|discriminate].
  destruct (sustains_step s e s1 X H St Hx E) as (Hx1 & A1). pose proof (J_step s e s1 H E) as H1. destruct (stopped_stays s e s1 St H E) as (St1 & _).
  destruct (IH s1 s' X H1 St1 Hx1 R) as (Hx' & A'). split; auto. intros i Hi. rewrite (A' i Hi). auto.
Qed.
Lemma back_run l : forall s s', I s -> stopped s = true -> run step s l = Some s' ->
  I s' /\ stopped s' = true /\ next s' = next s /\ (forall i, at_ s' i <> Gone -> at_ s' i <> Dying -> at_ s' i = at_ s i) /\ forall p, In p (hold s') -> In p (hold s).
Proof.
  induction l as [|e l IH]; intros s s' H St R; cbn in R; [injection R as <-; auto|]. destruct (step s e) as [s1|] eqn:E; [|discriminate].
  destruct (back_step s e s1 H St E) as (A & B). pose proof (J_step s e s1 H E) as H1. destruct (stopped_stays s e s1 St H E) as (St1 & N1).
  destruct (IH s1 s' H1 St1 R) as (H' & St' & N' & A' & B'). split; [exact H'|]. split; [exact St'|]. split; [congruence|]. split; [|auto]. intros i G D. rewrite <- A; [auto| |]; rewrite <- (A' i G D); auto.
Qed.

(** ** theorems *)
(** No frame is destroyed twice, none that is still in use, and no shared state is given back more often than it was taken: in every execution, whenever and in whatever order the destructors run. *)
Theorem C153_destroyed_at_most_once l s : run step init l = Some s ->
  fault s = false /\ NoDup (destroyed s) /\ forall i, In i (destroyed s) <-> at_ s i = Gone.
Proof. intros R. apply J_run in R. exact (conj (j_fault _ _ R) (conj (j_nodup _ _ R) (j_gone _ _ R))). Qed.

Lemma at_torn_down s : I s -> torn_down s -> sustains s (fun i => i <> 0 /\ frame s i = true).
Proof.
  intros H (St & Td & Rt & Hd) i (N0 & Fi). split; auto. unfold frame in Fi. destruct (at_ s i) as [| | | | |j| |] eqn:E; try discriminate.
  - pose proof (j_held _ _ H i) as C. rewrite E in C. cbn in C. destruct (cnt_in (isH i) (hold s) ltac:(lia)) as ([h [m|m]] & Hin & Y); cbn in Y; [discriminate|]. apply Nat.eqb_eq in Y. subst m.
    exists h. split; auto. split; [exact (Hd _ Hin)|]. exact (j_holder _ _ H _ Hin).
  - exact (proj1 (Rt i) E).
  - destruct (j_stop _ _ H St i E); congruence.
  - exact (proj2 (Rt i) E).
  - pose proof (j_wref _ _ H j i (proj2 (j_wait _ _ H j i) E)) as R. pose proof (j_ref _ _ H j) as C. rewrite Td, cnt_nil in C.
    destruct (alive (at_ s j) && negb (j =? 0)) eqn:A.
    + left. apply andb_true_iff in A. destruct A as [A B]. apply negb_true_iff, Nat.eqb_neq in B. auto.
    + right. cbn in C. destruct (cnt_in (isF j) (hold s) ltac:(lia)) as ([h [m|m]] & Hin & Y); cbn in Y; [|discriminate]. apply Nat.eqb_eq in Y. subst m.
      exists h. split; auto. split; [exact (Hd _ Hin)|]. exact (j_holder _ _ H _ Hin).
  - pose proof (j_dying _ _ H i) as C. rewrite E, Td in C. discriminate.
Qed.

(** Exactly which frames are left: those of a set that sustains itself when stop() returns. *)
Theorem C153_survivors l s l' s' i : run step init l = Some s -> stopped s = true -> run step s l' = Some s' -> torn_down s' -> i <> 0 ->
  (frame s' i = true <-> exists X, sustains s X /\ X i).
Proof.
  intros R St R' Td N0. pose proof (J_run l s R) as H. destruct (back_run l' s s' H St R') as (H' & St' & N' & A & B). split.
  - intros Fi. exists (fun i => i <> 0 /\ frame s' i = true). split; auto. pose proof (at_torn_down s' H' Td) as Y. intros k Hk. destruct (Y k Hk) as (K0 & Z). split; auto.
    destruct (at_ s' k) as [| | | | |j| |] eqn:E; try destruct Z; rewrite <- A, E by (rewrite E; discriminate).
    + destruct H0 as [H0 H1]. exists x. auto.
    + now left.
    + right. destruct H0 as (h & Hh & Hin). exists h. auto.
  - intros (X & Hx & Hi). destruct (sustains_run l' s s' X H St Hx R') as (Hx' & E). exact (sustains_alive s' X i Hx' Hi).
Qed.

(** A coroutine that awaits a future it has itself (what co_await of a task or of a future does) when stop() returns is never destroyed: its frame holds the future, the future holds the shared state, and that holds the frame. *)
Theorem C153_awaiting_frame_never_destroyed l s l' s' i j : run step init l = Some s -> stopped s = true -> at_ s i = Awaiting j -> In (i, Fut j) (hold s) ->
  run step s l' = Some s' -> at_ s' i = Awaiting j /\ ~ In i (destroyed s').
Proof.
  intros R St E Hin R'. pose proof (J_run l s R) as H. assert (N0 : i <> 0) by (intros ->; destruct (j_main _ _ H); congruence).
  assert (Hx : sustains s (eq i)) by (intros k <-; split; auto; rewrite E; right; exists i; auto).
  destruct (sustains_run l' s s' (eq i) H St Hx R') as (_ & A). specialize (A i eq_refl). rewrite E in A. split; auto. destruct (back_run l' s s' H St R') as (H' & _). rewrite (j_gone _ _ H' i). congruence.
Qed.

(** What does hold: if no coroutine is awaiting another when stop() returns, then all are destroyed. *)
Theorem C153_all_destroyed_partial l s l' s' : run step init l = Some s -> stopped s = true -> (forall i j, at_ s i <> Awaiting j) ->
  run step s l' = Some s' -> torn_down s' -> forall i, 0 < i < next s' -> In i (destroyed s').
Proof.
  intros R St NA R' Td i Hi. pose proof (J_run l s R) as H. destruct (back_run l' s s' H St R') as (H' & _ & N' & _ & _). apply (j_gone _ _ H' i).
  destruct (frame s' i) eqn:F.
  - exfalso. apply (C153_survivors l s l' s' i R St R' Td ltac:(lia)) in F. destruct F as (X & Hx & Xi).
    assert (Up : forall d k, X k -> next s - k <= d -> False).
    { induction d as [|d IH]; intros k Xk Hd; pose proof (sustains_alive s X k Hx Xk) as A; destruct (Hx k Xk) as (K0 & Y); (assert (L : k < next s) by (destruct (Nat.lt_ge_cases k (next s)) as [|L]; auto; apply (j_unborn _ _ H) in L; rewrite L in A; discriminate)); [lia|].
      destruct (at_ s k) as [| | | | |j| |] eqn:E; try exact Y; [|exact (NA k j E)]. destruct Y as (h & Xh & Hin). destruct (Hx h Xh) as (h0 & Z). destruct (at_ s h) as [| | | | |j| |] eqn:Eh; try exact Z; [|exact (NA h j Eh)].
      pose proof (j_order _ _ H h k Eh Hin). apply (IH h Xh). lia. }
    exact (Up (next s - i) i Xi (le_n _)).
  - unfold frame in F. destruct (at_ s' i) eqn:E; try discriminate; auto. apply (j_unborn _ _ H') in E. lia.
Qed.

(** ** the destructors come to an end *)
Definition weight (p : place) : nat := match p with Unborn | Gone => 0 | Dying => 2 | _ => 4 end.
Definition measure (s : state) : nat := 2 * length (hold s) + length (todo s) + sum_to (next s) (fun i => weight (at_ s i)).
Lemma sum_to_le m f g : (forall i, i < m -> f i <= g i) -> sum_to m f <= sum_to m g.
Proof. induction m as [|m IH]; cbn; intros H; [lia|]. pose proof (H m (Nat.lt_succ_diag_r m)). assert (sum_to m f <= sum_to m g) by (apply IH; intros; apply H; lia). lia. Qed.
Lemma sum_to_less m f g i d : i < m -> (forall k, k < m -> f k <= g k) -> f i + d <= g i -> sum_to m f + d <= sum_to m g.
Proof.
  induction m as [|m IH]; cbn; intros L H D; [lia|]. destruct (Nat.eq_dec i m) as [->|N].
  - assert (sum_to m f <= sum_to m g) by (apply sum_to_le; intros; apply H; lia). lia.
  - pose proof (H m (Nat.lt_succ_diag_r m)). assert (sum_to m f + d <= sum_to m g) by (apply IH; auto; lia). lia.
Qed.
Lemma take_len {A} n (l : list A) x r : take_nth n l = Some (x, r) -> length l = S (length r).
Proof. intros T. apply take_nth_spec in T. destruct T as (l1 & l2 & -> & -> & _). rewrite !app_length. cbn. lia. Qed.
Lemma filter_len {A} (f : A -> bool) l : length l = length (filter f l) + length (filter (fun x => negb (f x)) l).
Proof. induction l as [|x l IH]; cbn; auto. destruct (f x); cbn; lia. Qed.
Lemma measure_step s e s' : I s -> stopped s = true -> step s e = Some s' -> measure s' < measure s.
Proof.
  intros H St Hs. assert (Lv : forall i, at_ s i <> Unborn -> i < next s) by (intros i Hi; destruct (Nat.lt_ge_cases i (next s)) as [|L]; auto; apply (j_unborn _ _ H) in L; congruence).
  unfold measure. destruct (stopped_step s e s' H St Hs) as [(n & x & r & -> & T & ->)|[(n & i & r & -> & T & D & ->)|[(n & j & r & q & -> & T & Q & W & ->)|[(n & j & r & k & -> & T & Q & W & ->)|(i & -> & P & ->)]]]].
  - pose proof (take_len _ _ _ _ T) as L. destruct x as [j|j]; cbn [hold todo next at_ set_at set_todo set_hold]; rewrite app_length; cbn [length]; [lia|].
    assert (sum_to (next s) (fun i => weight (upd (at_ s) j Dying i)) <= sum_to (next s) (fun i => weight (at_ s i))); [|lia].
    apply sum_to_le. intros i Hi. pose proof (isH_held s n 0 j r H T) as Hj. unfold upd. destruct (Nat.eqb_spec i j) as [->|]; [rewrite Hj; cbn; lia|lia].
  - pose proof (take_len _ _ _ _ T) as L. unfold destroy. cbn [hold todo next at_ set_todo]. set (mine := filter (fun p => fst p =? i) (hold s)).
    pose proof (filter_len (fun p => fst p =? i) (hold s)) as F. fold mine in F. rewrite !app_length, map_length. cbn [length].
    assert (sum_to (next s) (fun k => weight (if k =? i then Gone else if existsb (isH k) mine then Dying else at_ s k)) + 2 <= sum_to (next s) (fun k => weight (at_ s k))); [|lia].
    apply (sum_to_less _ _ _ i); [apply Lv; congruence| |rewrite Nat.eqb_refl, D; cbn; lia].
    intros k Hk. destruct (Nat.eqb_spec k i) as [->|]; [cbn; lia|]. destruct (existsb (isH k) mine) eqn:E; [|lia]. rewrite cnt_exists in E.
    pose proof (j_held _ _ H k) as C. rewrite (cnt_split (isH k) (fun p => fst p =? i) (hold s)) in C. fold mine in C. destruct (cnt (isH k) mine); [discriminate|]. destruct (at_ s k); cbn in *; lia.
  - pose proof (take_len _ _ _ _ T) as L. cbn [hold todo next at_ set_todo set_refs]. lia.
  - pose proof (take_len _ _ _ _ T) as L. cbn [hold todo next at_ set_todo set_refs set_at set_waiting]. rewrite app_length. cbn [length].
    assert (sum_to (next s) (fun i => weight (upd (at_ s) k Dying i)) + 2 <= sum_to (next s) (fun i => weight (at_ s i))); [|lia].
    apply (sum_to_less _ _ _ k); [apply Lv; congruence| |rewrite upd_same, W; cbn; lia]. intros i Hi. unfold upd. destruct (Nat.eqb_spec i k) as [->|]; [rewrite W; cbn; lia|lia].
  - cbn [hold todo next at_ set_todo set_at]. rewrite app_length. cbn [length].
    assert (sum_to (next s) (fun k => weight (upd (at_ s) i Dying k)) + 2 <= sum_to (next s) (fun k => weight (at_ s k))); [|lia].
    apply (sum_to_less _ _ _ i); [apply Lv; destruct P; congruence| |rewrite upd_same; destruct P as [->| ->]; cbn; lia]. intros k Hk. unfold upd. destruct (Nat.eqb_spec k i) as [->|]; [destruct P as [->| ->]; cbn; lia|lia].
Qed.
(** From stop() on every execution is finite, with a bound, and it can go on until everything is torn down. *)
Theorem C153_teardown_ends l s : run step init l = Some s -> stopped s = true ->
  (exists b, forall l' s', run step s l' = Some s' -> length l' <= b) /\
  (torn_down s \/ exists e s', step s e = Some s') /\
  exists l' s', run step s l' = Some s' /\ torn_down s'.
Proof.
  intros R St. apply J_run in R. rename R into H.
  assert (B : forall l' s0 s', I s0 -> stopped s0 = true -> run step s0 l' = Some s' -> length l' + measure s' <= measure s0).
  { induction l' as [|e l' IH]; intros s0 s' H0 S0 R'; cbn in R'; [injection R' as <-; cbn [length]; lia|]. destruct (step s0 e) as [s1|] eqn:E; [|discriminate].
    pose proof (measure_step s0 e s1 H0 S0 E) as M. destruct (stopped_stays s0 e s1 S0 H0 E) as (S1 & _). specialize (IH s1 s' (J_step _ _ _ H0 E) S1 R'). cbn [length]. lia. }
  assert (Pr : forall s0, I s0 -> stopped s0 = true -> torn_down s0 \/ exists e s', step s0 e = Some s').
  { clear. intros s0 H S0. destruct (todo s0) as [|a t] eqn:T.
    2:{ right. exists (Work 0). cbn [step]. rewrite T. cbn. destruct a as [i|j].
        - destruct (at_ s0 i); eexists; reflexivity.
        - destruct (refs s0 j) as [|q]; [eexists; reflexivity|]. destruct (q =? 0); [destruct (waiting s0 j)|]; eexists; reflexivity. }
    destruct (existsb (fun i => match at_ s0 i with Ready | Sleeping => true | _ => false end) (seq 0 (next s0))) eqn:E1.
    { right. apply existsb_exists in E1. destruct E1 as (i & _ & E1). exists (DropRoot i). cbn [step]. rewrite S0. destruct (at_ s0 i); try discriminate; eexists; reflexivity. }
    destruct (existsb (fun p => fst p =? 0) (hold s0)) eqn:E2.
    { right. apply existsb_exists in E2. destruct E2 as ([h x] & Hin & E2). cbn in E2. apply Nat.eqb_eq in E2. subst h. apply In_nth_error in Hin. destruct Hin as (n & Hn).
      exists (Drop n). cbn [step]. destruct (take_nth n (hold s0)) as [[[h y] r]|] eqn:Tn.
      - apply take_nth_spec in Tn. destruct Tn as (l1 & l2 & Eq & -> & Ln). rewrite Eq, nth_error_app2 in Hn by lia. rewrite <- Ln, Nat.sub_diag in Hn. injection Hn as -> ->. cbn. rewrite orb_true_r. eexists. reflexivity.
      - apply take_nth_None in Tn. pose proof (nth_error_Some (hold s0) n). rewrite Hn in H0. assert (n < length (hold s0)) by (apply H0; discriminate). lia. }
    left. split; [exact S0|]. split; [exact T|]. split.
    - intros i. destruct (Nat.lt_ge_cases i (next s0)) as [L|L]; [|apply (j_unborn _ _ H) in L; rewrite L; split; discriminate].
      assert (Q : match at_ s0 i with Ready | Sleeping => true | _ => false end = false).
      { destruct (match at_ s0 i with Ready | Sleeping => true | _ => false end) eqn:Q; auto. rewrite <- E1. symmetry. apply existsb_exists. exists i. split; [apply in_seq; lia|exact Q]. }
      destruct (at_ s0 i); try discriminate; split; discriminate.
    - intros p Hp E. rewrite <- not_true_iff_false in E2. apply E2. apply existsb_exists. exists p. split; auto. now apply Nat.eqb_eq. }
  split; [|split].
  - exists (measure s). intros l' s' R'. specialize (B l' s s' H St R'). lia.
  - auto.
  - assert (Ex : forall m s0, measure s0 <= m -> I s0 -> stopped s0 = true -> exists l' s', run step s0 l' = Some s' /\ torn_down s').
    { induction m as [|m IH]; intros s0 Hm H0 S0; (destruct (Pr s0 H0 S0) as [Td|(e & s1 & E)]; [exists [], s0; auto|]); pose proof (measure_step s0 e s1 H0 S0 E) as M; [lia|].
      destruct (stopped_stays s0 e s1 S0 H0 E) as (S1 & _). destruct (IH s1 ltac:(lia) (J_step _ _ _ H0 E) S1) as (l' & s' & R' & Td). exists (e :: l'), s'. split; auto. cbn. now rewrite E. }
    exact (Ex (measure s) s (le_n _) H St).
Qed.

(** ** cases *)
(** main starts coroutine 1; it calls coroutine 2 and awaits it; 2 sleeps; quick_stop(); the event loop destroys 2, main drops the future of 1: 2 is destroyed, 1 is not. *)
Definition leak : list event := [Call 0 false; Start 1; Resume 1; Call 1 false; Start 2; Await 1 1; Resume 2; Sleep 2; Stop; DropRoot 2; Drop 0; Work 0; Work 0; Work 0].
Definition view (s : state) := (map (at_ s) [0; 1; 2; 3], hold s, (map (refs s) [1; 2], todo s, stopped s, (destroyed s, fault s))).
Lemma leak_view : option_map view (run step init leak) = Some ([Running; Awaiting 2; Gone; Unborn], [(1, Fut 2)], ([1; 1], [], true, ([2], false))).
Proof. vm_compute. reflexivity. Qed.
(** the property in full is false of the program: everything is torn down, and a frame is left for good *)
Theorem C153_all_destroyed_refuted : exists l s, run step init l = Some s /\ torn_down s /\ frame s 1 = true /\ ~ In 1 (destroyed s) /\ forall l' s', run step s l' = Some s' -> ~ In 1 (destroyed s').
Proof.
  destruct (run step init leak) as [s|] eqn:R; [|pose proof leak_view as V; rewrite R in V; discriminate]. pose proof leak_view as V. rewrite R in V. cbn [option_map] in V. injection V as A0 A1 A2 A3 Hh R1 R2 Ht Hst Hd Hf.
  exists leak, s. pose proof (J_run _ _ R) as H. split; auto. split; [|split; [|split]].
  - split; [exact Hst|]. split; [exact Ht|]. split; [|rewrite Hh; intros p [<-|[]]; discriminate].
    intros i. destruct i as [|[|[|i]]]; [rewrite A0|rewrite A1|rewrite A2|]; try (split; discriminate).
    assert (U : at_ s (3 + i) = Unborn) by (apply (j_unborn _ _ H); apply (j_unborn _ _ H) in A3; lia). cbn in U. rewrite U. split; discriminate.
  - unfold frame. now rewrite A1.
  - rewrite Hd. intros [E|[]]; discriminate.
  - intros l' s' R'. assert (Hin : In (1, Fut 2) (hold s)) by (rewrite Hh; now left). exact (proj2 (C153_awaiting_frame_never_destroyed leak s l' s' 1 2 R Hst A1 Hin R')).
Qed.
(** nobody awaits: a coroutine that sleeps, with a lazy task and an eager one's future in its frame, a coroutine that is ready, a lazy task of main's: all five are destroyed, each once *)
Definition clean : list event := [Call 0 false; Start 1; Resume 1; Call 1 false; Call 1 true; Sleep 1; Call 0 true; Sleep 3; Wake 3; Call 0 false; Sleep 4; Stop].
Definition clean2 : list event := [DropRoot 1; DropRoot 4; Drop 6; Work 1; Drop 0; DropRoot 3; Drop 4; Drop 3] ++ repeat (Work 0) 14.
Example C153_case_all_destroyed : exists s s', run step init clean = Some s /\ run step s clean2 = Some s' /\ (forall i j, at_ s i <> Awaiting j) /\ torn_down s' /\ destroyed s' = [4; 1; 5; 3; 2].
Proof.
  destruct (run step init clean) as [s|] eqn:R; [|vm_compute in R; discriminate]. destruct (run step s clean2) as [s'|] eqn:R'.
  2:{ exfalso. assert (E : run step init (clean ++ clean2) = None) by (rewrite (run_app step init clean clean2 s R); exact R'). vm_compute in E. discriminate. }
  assert (E : run step init (clean ++ clean2) = Some s') by (rewrite (run_app step init clean clean2 s R); exact R'). exists s, s'. split; auto. split; auto.
  assert (V : option_map (fun s => (next s, map (at_ s) (seq 0 6))) (run step init clean) = Some (6, [Running; Sleeping; Held; Ready; Sleeping; Held])) by (vm_compute; reflexivity). rewrite R in V. injection V as Vn V0 V1 V2 V3 V4 V5.
  assert (V' : option_map (fun s => (next s, map (at_ s) (seq 0 6), (hold s, todo s, stopped s, destroyed s))) (run step init (clean ++ clean2)) = Some (6, [Running; Gone; Gone; Gone; Gone; Gone], ([], [], true, [4; 1; 5; 3; 2]))) by (vm_compute; reflexivity). rewrite E in V'. injection V' as Wn W0 W1 W2 W3 W4 W5 Wh Wt Ws Wd.
  pose proof (J_run _ _ R) as H. pose proof (J_run _ _ E) as H'. split; [|split; [|exact Wd]].
  - intros i j. destruct i as [|[|[|[|[|[|i]]]]]]; try congruence. assert (U : at_ s (6 + i) = Unborn) by (apply (j_unborn _ _ H); lia). cbn in U. congruence.
  - split; [exact Ws|]. split; [exact Wt|]. split; [|rewrite Wh; intros p []]. intros i. destruct i as [|[|[|[|[|[|i]]]]]]; try (split; congruence). assert (U : at_ s' (6 + i) = Unborn) by (apply (j_unborn _ _ H'); lia). cbn in U. split; congruence.
Qed.
(** the coroutine of the leak is a self-sustaining set when stop() returns *)
Example C153_case_survivor : exists s, run step init (firstn 9 leak) = Some s /\ stopped s = true /\ at_ s 1 = Awaiting 2 /\ In (1, Fut 2) (hold s) /\ sustains s (eq 1).
Proof.
  destruct (run step init (firstn 9 leak)) as [s|] eqn:R; [|vm_compute in R; discriminate]. exists s. split; auto.
  assert (V : option_map (fun s => (stopped s, at_ s 1, hold s)) (run step init (firstn 9 leak)) = Some (true, Awaiting 2, [(0, Fut 1); (1, Fut 2)])) by (vm_compute; reflexivity). rewrite R in V. injection V as V0 V1 V2.
  assert (Hin : In (1, Fut 2) (hold s)) by (rewrite V2; right; now left). repeat split; auto; destruct H; auto; try (rewrite V1; right; exists 1; auto).
Qed.

Print Assumptions C153_destroyed_at_most_once.
Print Assumptions C153_survivors.
Print Assumptions C153_awaiting_frame_never_destroyed.
Print Assumptions C153_all_destroyed_partial.
Print Assumptions C153_teardown_ends.
Print Assumptions C153_all_destroyed_refuted.
