(** C159: functors given to a thread_pool under the C++ memory model: what the thread that enqueues has done before is visible to the functor, and what the functor has done is visible to whoever obtains its result.

    thread_pool.h 83-130 (enqueue, enqueue_no_future), 174-235 (the functor is bound, packed and put into the queue), thread_pool.cc 71-110 (a worker takes it out and executes it).
    A functor may itself enqueue functors and obtain results; any thread may do both, workers included.
    Environment: putting a functor into the queue (moodycamel's, the work-stealing queue made of it, or std::queue under a lock) synchronizes with taking it out; std::packaged_task: storing the result or
    exception synchronizes with the return of get() of its std::future.
    Simplifications: which worker takes which functor, and in which order, is arbitrary (that is C14, C41, C109); the checks of the stop flag are left out (C15, C16); a functor given to enqueue_no_future()
    is one whose result nobody obtains. *)
From Coq Require Import List Arith Bool Lia.
From Verif.Common Require Import TS.
From Verif.Weak Require Import HB.
Import ListNotations.
#[local] Arguments upd : simpl never.

(** ** the operations on memory *)
Inductive op :=
| Code (t : nat) (f : option nat)   (* code executed by thread t, as part of functor f or outside of every functor *)
| Push (f t : nat)                  (* t puts f into the queue: thread_pool.h 187, 195, 212, 230 *)
| Pop (f t : nat)                   (* t takes it out: thread_pool.cc 75 *)
| Stored (f t : nat)                (* its result or exception is stored, the last thing packaged_task does: thread_pool.h 212, 230 *)
| Got (f t : nat).                  (* get() of its future returns or throws in t *)
(** the thread that executes an operation; specification, no counterpart in /repo *)
Definition who (o : op) : nat := match o with Code t _ | Push _ t | Pop _ t | Stored _ t | Got _ t => t end.
(** synchronizes-with of the queue and of std::packaged_task and std::future; environment, not code of /repo *)
Definition sw (h : list op) (m n : nat) : Prop :=
  m < n /\ ((exists f t u, nth_error h m = Some (Push f t) /\ nth_error h n = Some (Pop f u)) \/
            (exists f t u, nth_error h m = Some (Stored f t) /\ nth_error h n = Some (Got f u))).
(** specification, no counterpart in /repo *)
Definition happens_before := hb who sw.

(** ** the program *)
(* where a functor is: thread_pool.h 174-235, thread_pool.cc 71-110 *)
Inductive place := Nowhere | Queued | RunBy (w : nat) | Finished.
(* m_tasks, and the functor each thread is executing: thread_pool.cc 75, 98 *)
Record state := St { at_ : nat -> place; cur : nat -> option nat }.
(* nothing enqueued: thread_pool.h 44-50 *)
Definition init : state := St (fun _ => Nowhere) (fun _ => None).
(* the steps of thread_pool.h 83-235, thread_pool.cc 71-110 *)
Inductive event :=
| ECode (t : nat)          (* t executes code: its functor's, or its own *)
| EEnqueue (t f : nat)
| EDequeue (w f : nat)
| EEnd (w : nat)           (* w's functor returns or throws *)
| EGet (t f : nat).
(* what each step does: thread_pool.h 83-235, thread_pool.cc 71-110 *)
Definition step (s : state) (e : event) : option state :=
  match e with
  | ECode t => Some s
  | EEnqueue t f => match at_ s f with Nowhere => Some (St (upd (at_ s) f Queued) (cur s)) | _ => None end
  | EDequeue w f => match at_ s f, cur s w with Queued, None => Some (St (upd (at_ s) f (RunBy w)) (upd (cur s) w (Some f))) | _, _ => None end
  | EEnd w => match cur s w with Some f => Some (St (upd (at_ s) f Finished) (upd (cur s) w None)) | None => None end
  | EGet t f => match at_ s f with Finished => Some s | _ => None end
  end.
(* the memory operations of each step: thread_pool.h 83-235, thread_pool.cc 71-110 *)
Definition ops (s : state) (e : event) (_ : state) : list op :=
  match e with
  | ECode t => [Code t (cur s t)]
  | EEnqueue t f => [Push f t]
  | EDequeue w f => [Pop f w]
  | EEnd w => match cur s w with Some f => [Stored f w] | None => [] end
  | EGet t f => [Got f t]
  end.
(** specification, no counterpart in /repo *)
Definition history (l : list event) : list op := trace step ops init l.

(** ** proof *)
Lemma sw_lt h m k : sw h m k -> m < k /\ k < length h.
Proof. intros (H & [(f & t & u & _ & B)|(f & t & u & _ & B)]); (split; [exact H|apply nth_error_Some; congruence]). Qed.
Lemma sw_ext h x m k : sw h m k -> sw (h ++ x) m k.
Proof. intros (H & [(f & t & u & A & B)|(f & t & u & A & B)]); (split; [exact H|]); [left|right]; exists f, t, u; split; now apply nth_ext. Qed.
Notation kn := (knows who sw).
Notation "m <' k 'in' h" := (hb who sw h m k) (at level 70, k at next level, h at next level).
Definition code_of (h : list op) (f i : nat) : Prop := exists w, nth_error h i = Some (Code w (Some f)).
Definition push_of (h : list op) (f k : nat) : Prop := exists t, nth_error h k = Some (Push f t).
Record J (s : state) (h : list op) : Prop := {
  j_cur : forall w f, cur s w = Some f <-> at_ s f = RunBy w;
  j_fresh : forall f k, push_of h f k -> at_ s f <> Nowhere;
  j_code : forall f i, code_of h f i -> at_ s f <> Nowhere /\ at_ s f <> Queued;
  j_in : forall f i k, code_of h f i -> push_of h f k -> hb who sw h k i;
  j_run : forall f w k, at_ s f = RunBy w -> push_of h f k -> kn h w k;
  j_by : forall f w v i, at_ s f = RunBy w -> nth_error h i = Some (Code v (Some f)) -> v = w;
  j_fin : forall f, at_ s f = Finished -> exists k t, nth_error h k = Some (Stored f t) /\ forall i, code_of h f i -> hb who sw h i k;
  j_got : forall f k t, nth_error h k = Some (Got f t) -> at_ s f = Finished /\ forall i, code_of h f i -> hb who sw h i k }.
Lemma nth_new {A} (t : list A) o k x : nth_error (t ++ [o]) k = Some x -> nth_error t k = Some x \/ (k = length t /\ x = o).
Proof.
  intros H. destruct (Nat.lt_ge_cases k (length t)) as [L|L]; [left; now rewrite nth_error_app1 in H by exact L|].
  rewrite nth_error_app2 in H by exact L. destruct (k - length t) as [|z] eqn:E; cbn in H; [injection H as <-; right; split; [lia|reflexivity]|destruct z; discriminate].
Qed.
Lemma hbx h x m k : hb who sw h m k -> hb who sw (h ++ x) m k.
Proof. apply hb_ext, sw_ext. Qed.
Lemma knx h x i m : kn h i m -> kn (h ++ x) i m.
Proof. apply knows_ext, sw_ext. Qed.
Lemma code_new h o f i : code_of (h ++ [o]) f i -> code_of h f i \/ (i = length h /\ exists w, o = Code w (Some f)).
Proof. intros (w & H). apply nth_new in H as [H|[-> H]]; [left; now exists w|right; split; [reflexivity|exists w; congruence]]. Qed.
Lemma push_new h o f k : push_of (h ++ [o]) f k -> push_of h f k \/ (k = length h /\ exists t, o = Push f t).
Proof. intros (w & H). apply nth_new in H as [H|[-> H]]; [left; now exists w|right; split; [reflexivity|exists w; congruence]]. Qed.
(** an operation that is neither part of a functor nor an enqueueing, nor the end of get() *)
Lemma J_op s h o : J s h -> (forall w f, o <> Code w (Some f)) -> (forall f t, o <> Push f t) -> (forall f t, o <> Got f t) -> J s (h ++ [o]).
Proof.
  intros H Nc Np Ng.
  assert (C : forall f i, code_of (h ++ [o]) f i -> code_of h f i) by (intros f i B; apply code_new in B as [B|[_ (w & B)]]; [exact B|now apply Nc in B]).
  assert (P : forall f i, push_of (h ++ [o]) f i -> push_of h f i) by (intros f i B; apply push_new in B as [B|[_ (w & B)]]; [exact B|now apply Np in B]).
  split.
  - apply (j_cur _ _ H).
  - intros f k B. apply (j_fresh _ _ H f k). auto.
  - intros f i B. apply (j_code _ _ H f i). auto.
  - intros f i k B B'. apply hbx. eapply j_in; eauto.
  - intros f w k B B'. apply knx. eapply j_run; eauto.
  - intros f w v i B B'. apply nth_new in B' as [B'|[_ B']]; [eapply j_by; eauto|]. symmetry in B'. now apply Nc in B'.
  - intros f B. destruct (j_fin _ _ H f B) as (k & t & X & Y). exists k, t. split; [now apply nth_ext|]. intros i Z. apply hbx. auto.
  - intros f k t B. apply nth_new in B as [B|[_ B]]; [|symmetry in B; now apply Ng in B]. destruct (j_got _ _ H f k t B) as [X Y]. split; [exact X|]. intros i Z. apply hbx. auto.
Qed.
Lemma upd_case {A} (f : nat -> A) c d p : (d = c /\ upd f c p d = p) \/ (d <> c /\ upd f c p d = f d).
Proof. destruct (Nat.eq_dec d c) as [->|N]; [left; split; [reflexivity|apply upd_same]|right; split; [exact N|now apply upd_other]]. Qed.
Lemma J_step s e s' h : J s h -> step s e = Some s' -> J s' (h ++ ops s e s').
Proof.
  intros H Hs. destruct e as [t|t f|w f|w|t f]; cbn [step ops] in *.
  - (* code *) injection Hs as <-. destruct (cur s t) as [f|] eqn:Ec; [|apply J_op; auto; discriminate].
    assert (Rf : at_ s f = RunBy t) by now apply (j_cur _ _ H).
    assert (P : forall g i, push_of (h ++ [Code t (Some f)]) g i -> push_of h g i) by (intros g i B; apply push_new in B as [B|[_ (v & B)]]; [exact B|discriminate]).
    split.
    + apply (j_cur _ _ H).
    + intros g k B. apply (j_fresh _ _ H g k). auto.
    + intros g i B. apply code_new in B as [B|[-> (v & B)]]; [now apply (j_code _ _ H g i)|]. injection B as -> ->. rewrite Rf. split; discriminate.
    + intros g i k B B'. apply P in B'. apply code_new in B as [B|[-> (v & B)]]; [apply hbx; eapply j_in; eauto|]. injection B as -> ->.
      apply knows_next; [apply sw_ext|]. eapply j_run; eauto.
    + intros g w k B B'. apply knx. eapply j_run; eauto.
    + intros g w v i B B'. apply nth_new in B' as [B'|[_ B']]; [eapply j_by; eauto|]. injection B' as -> ->. congruence.
    + intros g B. destruct (j_fin _ _ H g B) as (k & u & X & Y). exists k, u. split; [now apply nth_ext|]. intros i Z.
      apply code_new in Z as [Z|[-> (v & Z)]]; [apply hbx; auto|]. injection Z as -> ->. congruence.
    + intros g k u B. apply nth_new in B as [B|[_ B]]; [|discriminate]. destruct (j_got _ _ H g k u B) as [X Y]. split; [exact X|]. intros i Z.
      apply code_new in Z as [Z|[-> (v & Z)]]; [apply hbx; auto|]. injection Z as -> ->. congruence.
  - (* enqueue *) destruct (at_ s f) eqn:Ef; try discriminate. injection Hs as <-.
    assert (C : forall g i, code_of (h ++ [Push f t]) g i -> code_of h g i) by (intros g i B; apply code_new in B as [B|[_ (v & B)]]; [exact B|discriminate]).
    split; cbn [at_ cur].
    + intros w g. rewrite (j_cur _ _ H). destruct (upd_case (at_ s) f g Queued) as [[-> U]|[N U]]; rewrite U; [split; congruence|reflexivity].
    + intros g k B. destruct (upd_case (at_ s) f g Queued) as [[-> U]|[N U]]; rewrite U; [discriminate|]. apply push_new in B as [B|[_ (v & B)]]; [now apply (j_fresh _ _ H g k)|congruence].
    + intros g i B. apply C in B. destruct (j_code _ _ H g i B). destruct (upd_case (at_ s) f g Queued) as [[-> U]|[N U]]; rewrite U; [contradiction|auto].
    + intros g i k B B'. apply C in B. apply push_new in B' as [B'|[-> (v & B')]]; [apply hbx; eapply j_in; eauto|]. injection B' as -> _. destruct (j_code _ _ H g i B). contradiction.
    + intros g w k B B'. destruct (upd_case (at_ s) f g Queued) as [[-> U]|[N U]]; rewrite U in B; [discriminate|]. apply push_new in B' as [B'|[-> (v & B')]]; [apply knx; eapply j_run; eauto|congruence].
    + intros g w v i B B'. destruct (upd_case (at_ s) f g Queued) as [[-> U]|[N U]]; rewrite U in B; [discriminate|]. apply nth_new in B' as [B'|[_ B']]; [eapply j_by; eauto|discriminate].
    + intros g B. destruct (upd_case (at_ s) f g Queued) as [[-> U]|[N U]]; rewrite U in B; [discriminate|]. destruct (j_fin _ _ H g B) as (k & u & X & Y). exists k, u. split; [now apply nth_ext|]. intros i Z. apply hbx. auto.
    + intros g k u B. apply nth_new in B as [B|[_ B]]; [|discriminate]. destruct (j_got _ _ H g k u B) as [X Y]. destruct (upd_case (at_ s) f g Queued) as [[-> U]|[N U]]; rewrite U; [congruence|].
      split; [exact X|]. intros i Z. apply hbx. auto.
  - (* dequeue *) destruct (at_ s f) eqn:Ef; try discriminate. destruct (cur s w) eqn:Ew; [discriminate|]. injection Hs as <-.
    assert (H1 : J s (h ++ [Pop f w])) by (apply J_op; auto; discriminate).
    split; cbn [at_ cur].
    + intros v g. destruct (upd_case (at_ s) f g (RunBy w)) as [[-> U]|[N U]]; rewrite U; destruct (upd_case (cur s) w v (Some f)) as [[-> V]|[M V]]; rewrite V.
      * split; congruence.
      * rewrite (j_cur _ _ H). split; congruence.
      * rewrite <- (j_cur _ _ H). split; congruence.
      * apply (j_cur _ _ H).
    + intros g k B. destruct (upd_case (at_ s) f g (RunBy w)) as [[-> U]|[N U]]; rewrite U; [discriminate|]. now apply (j_fresh _ _ H1 g k).
    + intros g i B. destruct (upd_case (at_ s) f g (RunBy w)) as [[-> U]|[N U]]; rewrite U; [split; discriminate|]. now apply (j_code _ _ H1 g i).
    + apply (j_in _ _ H1).
    + intros g v k B B'. destruct (upd_case (at_ s) f g (RunBy w)) as [[-> U]|[N U]]; rewrite U in B; [|eapply j_run; eauto]. injection B as <-.
      apply push_new in B' as [B'|[_ (u & B')]]; [|discriminate]. destruct B' as (u & B'). change w with (who (Pop f w)). apply knows_now. apply hb_sw. split; [apply nth_error_Some; congruence|].
      left. exists f, u, w. split; [now apply nth_ext|apply nth_snoc].
    + intros g v u i B B'. destruct (upd_case (at_ s) f g (RunBy w)) as [[-> U]|[N U]]; rewrite U in B; [|eapply j_by; eauto]. exfalso.
      destruct (j_code _ _ H1 f i (ex_intro _ u B')). contradiction.
    + intros g B. destruct (upd_case (at_ s) f g (RunBy w)) as [[-> U]|[N U]]; rewrite U in B; [discriminate|]. now apply (j_fin _ _ H1).
    + intros g k u B. destruct (j_got _ _ H1 g k u B) as [X Y]. destruct (upd_case (at_ s) f g (RunBy w)) as [[-> U]|[N U]]; rewrite U; [congruence|auto].
  - (* end *) destruct (cur s w) as [f|] eqn:Ew; [|discriminate]. injection Hs as <-.
    assert (H1 : J s (h ++ [Stored f w])) by (apply J_op; auto; discriminate).
    assert (Rf : at_ s f = RunBy w) by now apply (j_cur _ _ H).
    split; cbn [at_ cur].
    + intros v g. destruct (upd_case (at_ s) f g Finished) as [[-> U]|[N U]]; rewrite U; destruct (upd_case (cur s) w v None) as [[-> V]|[M V]]; rewrite V.
      * split; congruence.
      * rewrite (j_cur _ _ H). split; congruence.
      * rewrite <- (j_cur _ _ H). split; congruence.
      * apply (j_cur _ _ H).
    + intros g k B. destruct (upd_case (at_ s) f g Finished) as [[-> U]|[N U]]; rewrite U; [discriminate|]. now apply (j_fresh _ _ H1 g k).
    + intros g i B. destruct (upd_case (at_ s) f g Finished) as [[-> U]|[N U]]; rewrite U; [split; discriminate|]. now apply (j_code _ _ H1 g i).
    + apply (j_in _ _ H1).
    + intros g v k B B'. destruct (upd_case (at_ s) f g Finished) as [[-> U]|[N U]]; rewrite U in B; [discriminate|]. eapply j_run; eauto.
    + intros g v u i B B'. destruct (upd_case (at_ s) f g Finished) as [[-> U]|[N U]]; rewrite U in B; [discriminate|]. eapply j_by; eauto.
    + intros g B. destruct (upd_case (at_ s) f g Finished) as [[-> U]|[N U]]; rewrite U in B; [|now apply (j_fin _ _ H1)].
      exists (length h), w. split; [apply nth_snoc|]. intros i Z. apply code_new in Z as [(v & Z)|[_ (v & Z)]]; [|discriminate].
      pose proof (j_by _ _ H f w v i Rf Z) as ->. eapply hb_po; [apply nth_error_Some; congruence|apply nth_ext; exact Z|apply nth_snoc|reflexivity].
    + intros g k u B. destruct (j_got _ _ H1 g k u B) as [X Y]. destruct (upd_case (at_ s) f g Finished) as [[-> U]|[N U]]; rewrite U; auto.
  - (* get *) destruct (at_ s f) eqn:Ef; try discriminate. injection Hs as <-.
    assert (C : forall g i, code_of (h ++ [Got f t]) g i -> code_of h g i) by (intros g i B; apply code_new in B as [B|[_ (v & B)]]; [exact B|discriminate]).
    assert (P : forall g i, push_of (h ++ [Got f t]) g i -> push_of h g i) by (intros g i B; apply push_new in B as [B|[_ (v & B)]]; [exact B|discriminate]).
    split.
    + apply (j_cur _ _ H).
    + intros g k B. apply (j_fresh _ _ H g k). auto.
    + intros g i B. apply (j_code _ _ H g i). auto.
    + intros g i k B B'. apply hbx. eapply j_in; eauto.
    + intros g w k B B'. apply knx. eapply j_run; eauto.
    + intros g w v i B B'. apply nth_new in B' as [B'|[_ B']]; [eapply j_by; eauto|discriminate].
    + intros g B. destruct (j_fin _ _ H g B) as (k & u & X & Y). exists k, u. split; [now apply nth_ext|]. intros i Z. apply hbx. auto.
    + intros g k u B. apply nth_new in B as [B|[-> B]].
      * destruct (j_got _ _ H g k u B) as [X Y]. split; [exact X|]. intros i Z. apply hbx. auto.
      * injection B as -> ->. split; [exact Ef|]. intros i Z. apply C in Z. destruct (j_fin _ _ H f Ef) as (k & v & X & Y).
        eapply sync_next; [apply sw_ext| |right; exact (Y i Z)]. split; [apply nth_error_Some; congruence|]. right. exists f, v, t. split; [now apply nth_ext|apply nth_snoc].
Qed.
Lemma J_init : J init [].
Proof.
  split; try discriminate.
  - intros [|k] n; split; discriminate.
  - intros f [|k] (t & H); discriminate.
  - intros f [|k] (t & H); discriminate.
  - intros f [|k] j (t & H); discriminate.
  - intros f [|k] t H; discriminate.
Qed.
Lemma J_run : forall l s h s', J s h -> run step s l = Some s' -> J s' (h ++ trace step ops s l).
Proof.
  induction l as [|e l IH]; intros s h s' HJ Hr; cbn [run trace] in *; [injection Hr as <-; now rewrite app_nil_r|].
  destruct (step s e) as [s1|] eqn:E; [|discriminate]. rewrite app_assoc. eapply IH; [now apply (J_step s e)|exact Hr].
Qed.

(** C159, in: everything a thread has done before it enqueues a functor happens before everything the functor does, whichever worker executes it. *)
Theorem C159_what_was_done_before_enqueue : forall l s, run step init l = Some s ->
  forall k f t, nth_error (history l) k = Some (Push f t) ->
  forall m o, nth_error (history l) m = Some o -> who o = t -> m <= k ->
  forall j w, nth_error (history l) j = Some (Code w (Some f)) -> happens_before (history l) m j.
Proof.
  intros l s Hr k f t Hk m o Hm Ho Lm j w Hj. pose proof (J_run l _ [] s J_init Hr) as HJ. cbn [app] in HJ.
  assert (B : hb who sw (history l) k j) by (eapply (j_in _ _ HJ); [exists w; exact Hj|exists t; exact Hk]).
  destruct (Nat.eq_dec m k) as [->|N]; [exact B|]. eapply hb_trans; [|exact B]. eapply hb_po; [|exact Hm|exact Hk|]; [lia|now rewrite Ho].
Qed.
Print Assumptions C159_what_was_done_before_enqueue.
(** C159, out: everything a functor does happens before the return of get() of its future, and before everything the thread that called get() does afterwards. *)
Theorem C159_what_the_functor_did : forall l s, run step init l = Some s ->
  forall k f t, nth_error (history l) k = Some (Got f t) ->
  forall j w, nth_error (history l) j = Some (Code w (Some f)) ->
  forall m o, nth_error (history l) m = Some o -> who o = t -> k <= m -> happens_before (history l) j m.
Proof.
  intros l s Hr k f t Hk j w Hj m o Hm Ho Lm. pose proof (J_run l _ [] s J_init Hr) as HJ. cbn [app] in HJ.
  destruct (j_got _ _ HJ f k t Hk) as [_ B]. specialize (B j (ex_intro _ w Hj)).
  destruct (Nat.eq_dec m k) as [->|N]; [exact B|]. eapply hb_trans; [exact B|]. eapply hb_po; [|exact Hk|exact Hm|]; [lia|now rewrite Ho].
Qed.
Print Assumptions C159_what_the_functor_did.
(** Thread 9 enqueues functor 0; worker 1 executes it, and it enqueues functor 1, which worker 2 executes; thread 9 obtains the result of the second. *)
Definition l159 := [ECode 9; EEnqueue 9 0; EDequeue 1 0; ECode 9; ECode 1; EEnqueue 1 1; EDequeue 2 1; ECode 1; ECode 2; EEnd 2; EEnd 1; EGet 9 1; ECode 9].
Example C159_case : exists s, run step init l159 = Some s /\
  history l159 = [Code 9 None; Push 0 9; Pop 0 1; Code 9 None; Code 1 (Some 0); Push 1 1; Pop 1 2; Code 1 (Some 0); Code 2 (Some 1); Stored 1 2; Stored 0 1; Got 1 9; Code 9 None] /\
  happens_before (history l159) 0 4 /\ happens_before (history l159) 4 8 /\ happens_before (history l159) 8 12.
Proof.
  assert (R : exists s, run step init l159 = Some s) by (eexists; reflexivity). destruct R as (s & R). exists s. split; [exact R|]. split; [reflexivity|]. split; [|split].
  - eapply (C159_what_was_done_before_enqueue l159 s R 1 0 9); [reflexivity|reflexivity|reflexivity|lia|reflexivity].
  - eapply (C159_what_was_done_before_enqueue l159 s R 5 1 1); [reflexivity|reflexivity|reflexivity|lia|reflexivity].
  - eapply (C159_what_the_functor_did l159 s R 11 1 9); [reflexivity|reflexivity|reflexivity|reflexivity|lia].
Qed.
