(** C61: dir_mutex::unlock() blocks a worker thread until another worker has run the unlink task for it.

    src/dir_mutex.cc 148-159 (unlock: [this->delete_lock_file().result()] when nobody is waiting); include/koios/task.h 225-247
    (result() = run_and_get_future().get(), a blocking get); src/thread_pool.cc 56-119 (a worker runs one task at a time; the
    event loops, hence io_uring completions, are polled only by workers between tasks: before_each_task()).

    Model: [n] workers; the tasks that call unlock() are numbered and arrive in the ready queue at any time. Each event is one
    turn of one worker. Simplifications: workers are interchangeable (any free worker may take any task, as work stealing
    allows); the kernel completes every unlinkat; other tasks are irrelevant (they finish) and omitted. *)
From Coq Require Import List Arith Bool Lia.
From Verif.Common Require Import TS ListX.
Import ListNotations.
#[local] Arguments upd : simpl never.

Inductive phase :=
| NotYet
| Ready      (* the task whose guard will call unlock() is in the scheduler's queue *)
| Posted     (* a worker is blocked in its unlock(): task.h 238; delete_lock_file() is in the queue *)
| Submitted  (* a worker ran delete_lock_file() up to its co_await (dir_mutex.cc 150): the unlinkat is in the ring *)
| Released.  (* its completion was seen, the promise was fulfilled, unlock() returned *)

(* what the state keeps of dir_mutex.cc 148-159, task.h 225-247, thread_pool.cc 56-119 *)
Record bstate := B {
  ph : nat -> phase;
  blocked : list nat       (* the unlocks that are blocking a worker *)
}.
(* before anything has happened; dir_mutex.cc 148-159, task.h 225-247, thread_pool.cc 56-119 *)
Definition binit : bstate := B (fun _ => NotYet) [].

(* the steps of dir_mutex.cc 148-159, task.h 225-247, thread_pool.cc 56-119 *)
Inductive bevent :=
| BArrive (i : nat)        (* a task that will call unlock() is scheduled *)
| BUnlock (i : nat)        (* a free worker runs it *)
| BRunDelete (i : nat)     (* a free worker runs its delete_lock_file() task *)
| BComplete (i : nat).     (* a free worker sees the completion and runs the rest of delete_lock_file() *)

(* some worker is not blocked in get(): thread_pool.cc 56-119 *)
Definition bfree (n : nat) (s : bstate) : bool := length (blocked s) <? n.
(* bookkeeping of the model, no counterpart in /repo *)
Definition bremove (i : nat) (l : list nat) : list nat := filter (fun x => negb (x =? i)) l.

(* what each step does: dir_mutex.cc 148-159, task.h 225-247, thread_pool.cc 56-119 *)
Definition bnext (n : nat) (s : bstate) (ev : bevent) : option bstate :=
  match ev with
  | BArrive i => match ph s i with NotYet => Some (B (upd (ph s) i Ready) (blocked s)) | _ => None end
  | BUnlock i =>
      match ph s i with
      | Ready => if bfree n s then Some (B (upd (ph s) i Posted) (blocked s ++ [i])) else None
      | _ => None
      end
  | BRunDelete i =>
      match ph s i with
      | Posted => if bfree n s then Some (B (upd (ph s) i Submitted) (blocked s)) else None
      | _ => None
      end
  | BComplete i =>
      match ph s i with
      | Submitted => if bfree n s then Some (B (upd (ph s) i Released) (bremove i (blocked s))) else None
      | _ => None
      end
  end.

(** No worker can do anything: every event but the arrival of more work is disabled. *)
(* specification, no counterpart in /repo *)
Definition stuck (n : nat) (s : bstate) : Prop :=
  forall i, bnext n s (BUnlock i) = None /\ bnext n s (BRunDelete i) = None /\ bnext n s (BComplete i) = None.

(* specification, no counterpart in /repo *)
Definition in_progress (s : bstate) (i : nat) : Prop := ph s i = Posted \/ ph s i = Submitted.

(* specification, no counterpart in /repo *)
Fixpoint upto (n : nat) : list nat := match n with 0 => [] | S k => upto k ++ [k] end.
(* specification, no counterpart in /repo *)
Definition all_unlock (n : nat) : list bevent := flat_map (fun i => [BArrive i; BUnlock i]) (upto n).

Lemma length_upto n : length (upto n) = n.
Proof. induction n; cbn; [easy|]. rewrite app_length. cbn. lia. Qed.

Lemma all_unlock_run n k : k <= n ->
  exists s, run (bnext n) binit (all_unlock k) = Some s /\ blocked s = upto k /\
    (forall i, i < k -> ph s i = Posted) /\ (forall i, k <= i -> ph s i = NotYet).
Proof.
  induction k as [|k IH]; intros Hk.
  - exists binit. cbn. repeat split; lia.
  - destruct IH as (s & HR & Hb & Hp & Hn); [lia|]. unfold all_unlock in *. cbn [upto]. rewrite flat_map_app. cbn [flat_map app].
    rewrite (run_app (bnext n) _ _ _ _ HR). cbn [run bnext]. rewrite (Hn k) by lia. cbn [ph blocked]. rewrite upd_same.
    assert (Hf : bfree n (B (upd (ph s) k Ready) (blocked s)) = true) by (unfold bfree; cbn [blocked]; rewrite Hb, length_upto; apply Nat.ltb_lt; lia).
    rewrite Hf. eexists. split; [reflexivity|]. cbn [ph blocked]. rewrite Hb. split; [reflexivity|]. split.
    + intros i Hi. destruct (Nat.eq_dec i k) as [->|Hne]; [apply upd_same|rewrite !upd_other by easy; apply Hp; lia].
    + intros i Hi. rewrite !upd_other by lia. apply Hn. lia.
Qed.

(** ... and it stays that way whatever arrives later. *)
Lemma full_stuck n s : length (blocked s) = n -> stuck n s.
Proof.
  intros H. assert (Hf : bfree n s = false) by (unfold bfree; apply Nat.ltb_ge; lia).
  intros i. cbn [bnext]. rewrite Hf. destruct (ph s i); easy.
Qed.

Lemma full_forever n l : forall s s', length (blocked s) = n -> run (bnext n) s l = Some s' ->
  length (blocked s') = n /\ forall i, in_progress s i -> in_progress s' i.
Proof.
  induction l as [|e l IH]; cbn [run]; intros s s' Hb HR; [inversion HR; subst; auto|].
  destruct (bnext n s e) as [s1|] eqn:E; [|discriminate]. pose proof (full_stuck n s Hb) as Hs.
  destruct e as [i|i|i|i]; try (destruct (Hs i) as (H1 & H2 & H3); congruence). cbn in E. destruct (ph s i) eqn:Ei; try discriminate. inversion E; subst s1; clear E.
  destruct (IH (B (upd (ph s) i Ready) (blocked s)) s' Hb HR) as [H1 H2]. split; [exact H1|]. intros j Hj. apply H2. unfold in_progress in *. cbn [ph].
  destruct (Nat.eq_dec j i) as [->|Hne]; [destruct Hj; congruence|now rewrite upd_other].
Qed.

(** C61, full statement: once unlock() has begun it returns, whatever else the workers are doing. False for every pool size:
    [n] tasks that unlock at the same time block all [n] workers for ever. *)
Theorem C61_dir_mutex_unlock_returns_refuted :
  forall n, 1 <= n ->
  exists l s, run (bnext n) binit l = Some s /\ (forall i, i < n -> in_progress s i) /\ stuck n s /\
    forall l' s', run (bnext n) s l' = Some s' -> stuck n s' /\ forall i, i < n -> in_progress s' i.
Proof.
  intros n _. destruct (all_unlock_run n n (le_n n)) as (s & HR & Hb & Hp & _).
  assert (Hl : length (blocked s) = n) by now rewrite Hb, length_upto.
  exists (all_unlock n), s. split; [exact HR|]. split; [intros i Hi; left; auto|]. split; [now apply full_stuck|].
  intros l' s' HR'. destruct (full_forever n l' s s' Hl HR') as [H1 H2]. split; [now apply full_stuck|]. intros i Hi. apply H2. left. auto.
Qed.
Print Assumptions C61_dir_mutex_unlock_returns_refuted.

(** A pool of one worker: a single unlock() without waiters is enough. *)
Example C61_single_worker : exists s, run (bnext 1) binit [BArrive 0; BUnlock 0] = Some s /\ stuck 1 s /\ in_progress s 0.
Proof.
  destruct (run_proj_ok (bnext 1) (fun s => (ph s 0, blocked s)) binit [BArrive 0; BUnlock 0] (Posted, [0])) as (s & Hr & Hp); [vm_compute; reflexivity|].
  inversion Hp as [[H1 H2]]. exists s. split; [exact Hr|]. split; [apply full_stuck; rewrite H2; reflexivity|now left].
Qed.

(** What holds: as long as at least one worker is not inside unlock(), every unlock() in progress can be driven to its end
    by the workers' next turns. Missing: the states in which all workers are inside unlock(). *)
Record binv (s : bstate) : Prop := {
  b_in : forall i, In i (blocked s) <-> in_progress s i;
  b_nd : NoDup (blocked s)
}.
Lemma binv_run n l s : run (bnext n) binit l = Some s -> binv s.
Proof.
  apply (run_inv (bnext n) binv).
  - clear. intros s ev s' [Hin Hnd] Hn. unfold in_progress in *. destruct ev as [i|i|i|i]; cbn [bnext] in Hn; destruct (ph s i) eqn:Ei; try discriminate.
    + inversion Hn; subst s'; clear Hn. split; cbn [ph blocked]; [|exact Hnd]. intros j. unfold in_progress. cbn [ph]. rewrite Hin.
      destruct (Nat.eq_dec j i) as [->|Hne]; [rewrite upd_same, Ei; intuition discriminate|now rewrite upd_other].
    + destruct (bfree n s); [|discriminate]. inversion Hn; subst s'; clear Hn. split; cbn [ph blocked].
      * intros j. unfold in_progress. cbn [ph]. rewrite in_app_iff, Hin. destruct (Nat.eq_dec j i) as [->|Hne]; [rewrite upd_same; cbn; intuition|rewrite upd_other by easy; cbn; intuition congruence].
      * apply NoDup_snoc; [exact Hnd|]. rewrite Hin, Ei. intuition discriminate.
    + destruct (bfree n s); [|discriminate]. inversion Hn; subst s'; clear Hn. split; cbn [ph blocked]; [|exact Hnd]. intros j. unfold in_progress. cbn [ph]. rewrite Hin.
      destruct (Nat.eq_dec j i) as [->|Hne]; [rewrite upd_same, Ei; intuition discriminate|now rewrite upd_other].
    + destruct (bfree n s); [|discriminate]. inversion Hn; subst s'; clear Hn. split; cbn [ph blocked]; [|now apply NoDup_filter]. intros j. unfold in_progress, bremove. cbn [ph].
      rewrite filter_In, Hin. destruct (Nat.eqb_spec j i) as [->|Hne]; cbn [negb]; [rewrite upd_same; intuition discriminate|rewrite upd_other by easy; intuition].
  - split; cbn; [|constructor]. intros i. unfold in_progress; cbn. split; [easy|intros [?|?]; discriminate].
Qed.

Theorem C61_dir_mutex_unlock_returns_partial :
  forall n l s, run (bnext n) binit l = Some s -> length (blocked s) < n ->
    forall i, in_progress s i ->
      exists l' s', (l' = [BComplete i] \/ l' = [BRunDelete i; BComplete i]) /\ run (bnext n) s l' = Some s' /\
        ph s' i = Released /\ length (blocked s') < length (blocked s).
Proof.
  intros n l s HR Hl i Hi. destruct (binv_run n l s HR) as [Hin Hnd].
  assert (Hf : bfree n s = true) by (unfold bfree; now apply Nat.ltb_lt).
  assert (Hlen : length (bremove i (blocked s)) < length (blocked s)).
  { assert (H : In i (blocked s)) by now apply Hin. clear -H. unfold bremove. induction (blocked s) as [|x q IH]; [easy|]. cbn.
    destruct (Nat.eqb_spec x i) as [->|Hne]; cbn [negb length].
    - clear. induction q as [|y q IH]; cbn; [lia|]. destruct (Nat.eqb_spec y i); cbn [negb length]; lia.
    - destruct H as [H|H]; [congruence|]. specialize (IH H). lia. }
  destruct Hi as [Hi|Hi].
  - exists [BRunDelete i; BComplete i]. cbn [run bnext]. rewrite Hi, Hf. cbn [ph]. rewrite upd_same.
    change (bfree n (B (upd (ph s) i Submitted) (blocked s))) with (bfree n s). rewrite Hf.
    eexists. split; [now right|]. split; [reflexivity|]. cbn [ph blocked]. rewrite upd_same. auto.
  - exists [BComplete i]. cbn [run bnext]. rewrite Hi, Hf. eexists. split; [now left|]. split; [reflexivity|]. cbn [ph blocked]. rewrite upd_same. auto.
Qed.
Print Assumptions C61_dir_mutex_unlock_returns_partial.

Example C61_two_workers : exists s, run (bnext 2) binit [BArrive 0; BUnlock 0] = Some s /\ length (blocked s) < 2 /\ in_progress s 0.
Proof.
  destruct (run_proj_ok (bnext 2) (fun s => (ph s 0, blocked s)) binit [BArrive 0; BUnlock 0] (Posted, [0])) as (s & Hr & Hp); [vm_compute; reflexivity|].
  inversion Hp as [[H1 H2]]. exists s. rewrite H2. cbn. unfold in_progress. auto.
Qed.
