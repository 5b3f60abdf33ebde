(** C158: thread_pool::stop() under the C++ memory model: what the functors and tasks did is visible to whoever has returned from stop() or quick_stop().

    thread_pool.cc 36-48 (stop: call_once; notify, then join thread after thread), 50-54 (quick_stop: a flag, then stop()), 56-119 (consumer, the function of a worker's thread).

    Threads 0..n-1 are the workers that start() created; every other number is a thread that may call stop(), any number of them at the same time.
    Environment: std::call_once (the first caller executes the body; the others return when it is done, and that completion synchronizes with their return), std::jthread::join (the end of a thread synchronizes with the return of join on it).
    Simplifications: what a worker executes (functors, coroutines, event loops) is [Work]; a worker may end at any time after stop was requested, whether or not functors are left (that is C15, C155); start() has returned (C113, C112); a worker does not call stop() itself (that is C78). *)
From Coq Require Import List Arith Bool Lia.
From Verif.Common Require Import TS.
From Verif.Weak Require Import HB.
Import ListNotations.
#[local] Arguments upd : simpl never.

(** ** the operations on memory *)
Inductive op :=
| Work (w : nat)          (* code executed by worker w: thread_pool.cc 56-119 *)
| Ends (w : nat)          (* the function of w's thread returns: thread_pool.cc 119 *)
| Joined (c w : nat)      (* c's join() of w returns: thread_pool.cc 45 *)
| OnceEnd (c : nat)       (* the body given to call_once returns: thread_pool.cc 47 *)
| OnceSkip (c : nat)      (* call_once returns without having executed the body: thread_pool.cc 38 *)
| Returns (c : nat)       (* stop() returns: thread_pool.cc 48 *)
| After (c : nat).        (* code of the caller after stop() *)
(** the thread that executes an operation; specification, no counterpart in /repo *)
Definition who (o : op) : nat := match o with Work w | Ends w => w | Joined c _ | OnceEnd c | OnceSkip c | Returns c | After c => c end.
(** synchronizes-with, C++ standard: [thread.thread.member] (join), [thread.once.callonce]; environment, not code of /repo *)
Definition sw (t : list op) (m n : nat) : Prop :=
  m < n /\ ((exists c w, nth_error t m = Some (Ends w) /\ nth_error t n = Some (Joined c w)) \/
            (exists c d, nth_error t m = Some (OnceEnd c) /\ nth_error t n = Some (OnceSkip d))).
(** specification, no counterpart in /repo *)
Definition happens_before := hb who sw.

(** ** the program *)
(* where a thread that calls stop() is: thread_pool.cc 36-48 *)
Inductive cpc := Idle | Calling | Joining (left : list nat) | Leaving | Out.
(* what the state keeps of thread_pool.cc 36-48: m_stop_once_flag, the request, the threads *)
Record wstate := WSt {
  req : bool;               (* m_stop_source.request_stop() *)
  ended : nat -> bool;      (* the function of the worker's thread has returned *)
  begun : bool;             (* m_stop_once_flag: somebody executes or has executed the body *)
  done : bool;              (* m_stop_once_flag: the body is done *)
  at_ : nat -> cpc }.
(* before anything has happened; thread_pool.cc 18-28 *)
Definition winit : wstate := WSt false (fun _ => false) false false (fun _ => Idle).
(* the steps of thread_pool.cc 36-54, 56-119 *)
Inductive wevent :=
| EWork (w : nat) | EEnd (w : nat)
| ECall (c : nat)         (* c calls stop(), or quick_stop(), which calls stop() *)
| EOnce (c : nat)         (* call_once lets c in *)
| EJoin (c : nat)         (* the next join() of c returns *)
| EBody (c : nat)         (* the loop is over, the body returns *)
| ESkip (c : nat)         (* call_once returns for c *)
| EReturn (c : nat) | EAfter (c : nat).
(* bookkeeping of the model, no counterpart in /repo *)
Definition goto (s : wstate) (c : nat) (p : cpc) : wstate := WSt (req s) (ended s) (begun s) (done s) (upd (at_ s) c p).

Section P.
Variable n : nat.         (* number of workers *)
(* what each step does: thread_pool.cc 36-54, 56-119 *)
Definition wstep (s : wstate) (e : wevent) : option wstate :=
  match e with
  | EWork w => if (w <? n) && negb (ended s w) then Some s else None
  | EEnd w => if (w <? n) && negb (ended s w) && req s then Some (WSt (req s) (upd (ended s) w true) (begun s) (done s) (at_ s)) else None
  | ECall c => if n <=? c then match at_ s c with Idle | Out => Some (goto s c Calling) | _ => None end else None
  | EOnce c => match at_ s c with Calling => if begun s then None else Some (WSt true (ended s) true (done s) (upd (at_ s) c (Joining (seq 0 n)))) | _ => None end
  | EJoin c => match at_ s c with Joining (w :: r) => if ended s w then Some (goto s c (Joining r)) else None | _ => None end
  | EBody c => match at_ s c with Joining [] => Some (WSt (req s) (ended s) (begun s) true (upd (at_ s) c Leaving)) | _ => None end
  | ESkip c => match at_ s c with Calling => if done s then Some (goto s c Leaving) else None | _ => None end
  | EReturn c => match at_ s c with Leaving => Some (goto s c Out) | _ => None end
  | EAfter c => match at_ s c with Out => Some s | _ => None end
  end.
(* the memory operations of each step: thread_pool.cc 36-54, 56-119 *)
Definition ops (s : wstate) (e : wevent) (_ : wstate) : list op :=
  match e with
  | EWork w => [Work w] | EEnd w => [Ends w]
  | EJoin c => match at_ s c with Joining (w :: _) => [Joined c w] | _ => [] end
  | EBody c => [OnceEnd c] | ESkip c => [OnceSkip c] | EReturn c => [Returns c] | EAfter c => [After c]
  | ECall _ | EOnce _ => []
  end.
(** specification, no counterpart in /repo *)
Definition history (l : list wevent) : list op := trace wstep ops winit l.

(** ** proof *)
Lemma sw_lt t m k : sw t m k -> m < k /\ k < length t.
Proof. intros (H & [(c & w & _ & B)|(c & w & _ & B)]); (split; [exact H|apply nth_error_Some; congruence]). Qed.
Lemma sw_ext t x m k : sw t m k -> sw (t ++ x) m k.
Proof. intros (H & [(c & w & A & B)|(c & w & A & B)]); (split; [exact H|]); [left|right]; exists c, w; split; now apply nth_ext. Qed.
Notation kn := (knows who sw).
Lemma kn_ext t x i m : kn t i m -> kn (t ++ x) i m.
Proof. apply knows_ext, sw_ext. Qed.
Definition by_worker (t : list op) (w m : nat) : Prop := nth_error t m = Some (Work w).
Record J (s : wstate) (t : list op) : Prop := {
  j_out : forall w m, by_worker t w m -> w < n;
  j_end : forall w m, ended s w = true -> by_worker t w m -> exists k, nth_error t k = Some (Ends w) /\ hb who sw t m k;
  j_join : forall c r w m, at_ s c = Joining r -> by_worker t w m -> In w r \/ kn t c m /\ ended s w = true;
  j_once : done s = true -> exists c k, nth_error t k = Some (OnceEnd c) /\ forall w m, by_worker t w m -> hb who sw t m k;
  j_leave : forall c, at_ s c = Leaving \/ at_ s c = Out -> done s = true /\ forall w m, by_worker t w m -> kn t c m;
  j_all : done s = true -> forall w, w < n -> ended s w = true;
  j_joined : forall c r w, at_ s c = Joining r -> w < n -> In w r \/ ended s w = true;
  j_ret : forall k c, nth_error t k = Some (Returns c) \/ nth_error t k = Some (After c) -> done s = true /\ forall w m, by_worker t w m -> hb who sw t m k }.
Lemma worker_old t o w m : (forall v, o <> Work v) -> by_worker (t ++ [o]) w m -> by_worker t w m.
Proof.
  unfold by_worker. intros N H. destruct (Nat.lt_ge_cases m (length t)) as [L|L]; [now rewrite nth_error_app1 in H by exact L|].
  rewrite nth_error_app2 in H by exact L. destruct (m - length t) as [|z]; cbn in H; [congruence|destruct z; discriminate].
Qed.
Lemma worker_new t v w m : by_worker (t ++ [Work v]) w m -> by_worker t w m \/ (w = v /\ m = length t).
Proof.
  unfold by_worker. intros H. destruct (Nat.lt_ge_cases m (length t)) as [L|L]; [left; now rewrite nth_error_app1 in H by exact L|].
  rewrite nth_error_app2 in H by exact L. destruct (m - length t) as [|z] eqn:E; cbn in H; [injection H as <-; right; split; [reflexivity|lia]|destruct z; discriminate].
Qed.
Lemma nth_new {A} (t : list A) o k x : nth_error (t ++ [o]) k = Some x -> nth_error t k = Some x \/ (k = length t /\ x = o).
Proof.
  intros H. destruct (Nat.lt_ge_cases k (length t)) as [L|L]; [left; now rewrite nth_error_app1 in H by exact L|].
  rewrite nth_error_app2 in H by exact L. destruct (k - length t) as [|z] eqn:E; cbn in H; [injection H as <-; right; split; [lia|reflexivity]|destruct z; discriminate].
Qed.
Lemma hbx t x m k : hb who sw t m k -> hb who sw (t ++ x) m k.
Proof. apply hb_ext, sw_ext. Qed.
(** a step that executes one operation, not of a worker's functor, and changes at most the place of one caller *)
Lemma J_quiet s s' t : J s t -> (forall w, ended s' w = ended s w) -> done s' = done s -> (forall c r, at_ s' c = Joining r -> at_ s c = Joining r \/ r = seq 0 n) ->
  (forall c, at_ s' c = Leaving \/ at_ s' c = Out -> at_ s c = Leaving \/ at_ s c = Out) -> J s' t.
Proof.
  intros H E D A L. split.
  - apply (j_out _ _ H).
  - intros w m X. rewrite E in X. now apply (j_end _ _ H).
  - intros c r w m X B. apply A in X as [X| ->]; [rewrite E; now apply (j_join _ _ H c)|]. left. apply in_seq. pose proof (j_out _ _ H w m B). lia.
  - rewrite D. apply (j_once _ _ H).
  - intros c X. rewrite D. apply (j_leave _ _ H). auto.
  - rewrite D. intros X w Hw. rewrite E. now apply (j_all _ _ H).
  - intros c r w X Hw. apply A in X as [X| ->]; [rewrite E; now apply (j_joined _ _ H c)|]. left. apply in_seq. lia.
  - intros k c X. rewrite D. now apply (j_ret _ _ H k c).
Qed.
Lemma J_op s t o : J s t -> (forall v, o <> Work v) -> ((exists c, o = Returns c \/ o = After c) -> done s = true /\ forall w m, by_worker t w m -> kn t (who o) m) -> J s (t ++ [o]).
Proof.
  intros H N R. split.
  - intros w m B. apply worker_old in B; [|exact N]. eapply j_out; eauto.
  - intros w m X B. apply worker_old in B; [|exact N]. destruct (j_end _ _ H w m X B) as (k & Hk & Hb). exists k. split; [now apply nth_ext|now apply hbx].
  - intros c r w m X B. apply worker_old in B; [|exact N]. destruct (j_join _ _ H c r w m X B) as [Y|[Y Z]]; [auto|right; split; [now apply kn_ext|exact Z]].
  - intros D. destruct (j_once _ _ H D) as (c & k & Hk & Hb). exists c, k. split; [now apply nth_ext|]. intros w m B. apply worker_old in B; [|exact N]. apply hbx. eauto.
  - intros c X. destruct (j_leave _ _ H c X) as [D K]. split; [exact D|]. intros w m B. apply worker_old in B; [|exact N]. apply kn_ext. eauto.
  - apply (j_all _ _ H).
  - apply (j_joined _ _ H).
  - intros k c X. assert (Y : (nth_error t k = Some (Returns c) \/ nth_error t k = Some (After c)) \/ (k = length t /\ (o = Returns c \/ o = After c))).
    { destruct X as [X|X]; apply nth_new in X as [X|[-> X]]; auto. }
    destruct Y as [Y|[-> Y]].
    + destruct (j_ret _ _ H k c Y) as [D K]. split; [exact D|]. intros w m B. apply worker_old in B; [|exact N]. apply hbx. eauto.
    + destruct (R (ex_intro _ c Y)) as [D K]. split; [exact D|]. intros w m B. apply worker_old in B; [|exact N]. apply knows_next; [apply sw_ext|]. eauto.
Qed.
Lemma upd_cases (f : nat -> cpc) c d p : (d = c /\ upd f c p d = p) \/ (d <> c /\ upd f c p d = f d).
Proof. destruct (Nat.eq_dec d c) as [->|N]; [left; split; [reflexivity|apply upd_same]|right; split; [exact N|now apply upd_other]]. Qed.
Lemma J_step s e s' t : J s t -> wstep s e = Some s' -> J s' (t ++ ops s e s').
Proof.
  intros H Hs. destruct e as [w|w|c|c|c|c|c|c|c]; cbn [wstep ops] in *.
  - (* EWork *) destruct (Nat.ltb_spec w n) as [Lw|]; [|discriminate]. destruct (ended s w) eqn:Ew; [discriminate|]. cbn in Hs. injection Hs as <-.
    split.
    + intros v m B. apply worker_new in B as [B|[-> ->]]; [eapply j_out; eauto|exact Lw].
    + intros v m X B. apply worker_new in B as [B|[-> ->]]; [|congruence]. destruct (j_end _ _ H v m X B) as (k & Hk & Hb). exists k. split; [now apply nth_ext|now apply hbx].
    + intros c r v m X B. apply worker_new in B as [B|[-> ->]]; [destruct (j_join _ _ H c r v m X B) as [Y|[Y Z]]; [auto|right; split; [now apply kn_ext|exact Z]]|].
      destruct (j_joined _ _ H c r w X Lw) as [Y|Y]; [auto|congruence].
    + intros D. rewrite (j_all _ _ H D w Lw) in Ew. discriminate.
    + intros c X. destruct (j_leave _ _ H c X) as [D _]. rewrite (j_all _ _ H D w Lw) in Ew. discriminate.
    + apply (j_all _ _ H).
    + apply (j_joined _ _ H).
    + intros k c X. assert (Y : nth_error t k = Some (Returns c) \/ nth_error t k = Some (After c)) by (destruct X as [X|X]; apply nth_new in X as [X|[-> X]]; auto; discriminate).
      destruct (j_ret _ _ H k c Y) as [D _]. rewrite (j_all _ _ H D w Lw) in Ew. discriminate.
  - (* EEnd *) destruct (Nat.ltb_spec w n) as [Lw|]; [|discriminate]. destruct (ended s w) eqn:Ew; [discriminate|]. cbn in Hs. destruct (req s); [|discriminate]. injection Hs as <-.
    assert (H1 : J s (t ++ [Ends w])) by (apply J_op; [exact H|discriminate|intros (c & [X|X]); discriminate]).
    split; cbn [ended done at_].
    + apply (j_out _ _ H1).
    + intros v m X B. destruct (Nat.eq_dec v w) as [->|N]; [|rewrite upd_other in X by exact N; now apply (j_end _ _ H1)].
      exists (length t). split; [apply nth_snoc|]. apply worker_old in B; [|discriminate].
      eapply hb_po; [|apply nth_ext; exact B|apply nth_snoc|reflexivity]. apply nth_error_Some. unfold by_worker in B. congruence.
    + intros c r v m X B. destruct (j_join _ _ H1 c r v m X B) as [Y|[Y Z]]; [auto|]. right. split; [exact Y|]. destruct (Nat.eq_dec v w) as [->|N]; [apply upd_same|now rewrite upd_other].
    + apply (j_once _ _ H1).
    + apply (j_leave _ _ H1).
    + intros D v Lv. destruct (Nat.eq_dec v w) as [->|N]; [apply upd_same|rewrite upd_other by exact N; now apply (j_all _ _ H1)].
    + intros c r v X Lv. destruct (j_joined _ _ H1 c r v X Lv) as [Y|Y]; [auto|]. right. destruct (Nat.eq_dec v w) as [->|N]; [apply upd_same|now rewrite upd_other].
    + apply (j_ret _ _ H1).
  - (* ECall *) rewrite app_nil_r. destruct (n <=? c); [|discriminate].
    assert (Q : s' = goto s c Calling) by (destruct (at_ s c); congruence). subst s'. apply (J_quiet s); auto; cbn [goto at_]; intros d; destruct (upd_cases (at_ s) c d Calling) as [[-> U]|[N U]]; rewrite U; intros; auto; try discriminate. destruct H0; discriminate.
  - (* EOnce *) rewrite app_nil_r. destruct (at_ s c) eqn:Ec; try discriminate. destruct (begun s); [discriminate|]. injection Hs as <-. apply (J_quiet s); auto; cbn [at_]; intros d; destruct (upd_cases (at_ s) c d (Joining (seq 0 n))) as [[-> U]|[N U]]; rewrite U; intros; auto; [right; congruence|]. destruct H0; discriminate.
  - (* EJoin *) destruct (at_ s c) as [| |[|w r]| |] eqn:Ec; try discriminate. destruct (ended s w) eqn:Ew; [|discriminate]. injection Hs as <-.
    assert (H1 : J s (t ++ [Joined c w])) by (apply J_op; [exact H|discriminate|intros (d & [X|X]); discriminate]).
    assert (K : forall m, by_worker (t ++ [Joined c w]) w m -> kn (t ++ [Joined c w]) c m).
    { intros m B. apply worker_old in B; [|discriminate]. destruct (j_end _ _ H w m Ew B) as (k & Hk & Hb). change c with (who (Joined c w)) at 2. apply knows_now. eapply sync_next; [apply sw_ext| |right; exact Hb].
      split; [apply nth_error_Some; congruence|]. left. exists c, w. split; [now apply nth_ext|apply nth_snoc]. }
    split; cbn [goto ended done at_].
    + apply (j_out _ _ H1).
    + apply (j_end _ _ H1).
    + intros d r' v m X B. destruct (upd_cases (at_ s) c d (Joining r)) as [[-> U]|[N U]]; rewrite U in X; [|now apply (j_join _ _ H1 d)].
      injection X as <-. destruct (j_join _ _ H1 c (w :: r) v m Ec B) as [[<-|Y]|Y]; auto.
    + apply (j_once _ _ H1).
    + intros d X. destruct (upd_cases (at_ s) c d (Joining r)) as [[-> U]|[N U]]; rewrite U in X; [destruct X; discriminate|]. now apply (j_leave _ _ H1).
    + apply (j_all _ _ H1).
    + intros d r' v X Lv. destruct (upd_cases (at_ s) c d (Joining r)) as [[-> U]|[N U]]; rewrite U in X; [|now apply (j_joined _ _ H1 d)].
      injection X as <-. destruct (j_joined _ _ H1 c (w :: r) v Ec Lv) as [[<-|Y]|Y]; auto.
    + apply (j_ret _ _ H1).
  - (* EBody *) destruct (at_ s c) as [| |[|w r]| |] eqn:Ec; try discriminate. injection Hs as <-.
    assert (H1 : J s (t ++ [OnceEnd c])) by (apply J_op; [exact H|discriminate|intros (d & [X|X]); discriminate]).
    assert (K : forall w m, by_worker t w m -> kn t c m) by (intros w m B; destruct (j_join _ _ H c [] w m Ec B) as [[]|[Y _]]; exact Y).
    assert (A : forall w, w < n -> ended s w = true) by (intros w Lw; destruct (j_joined _ _ H c [] w Ec Lw) as [[]|Y]; exact Y).
    split; cbn [ended done at_].
    + apply (j_out _ _ H1).
    + apply (j_end _ _ H1).
    + intros d r' v m X B. destruct (upd_cases (at_ s) c d Leaving) as [[-> U]|[N U]]; rewrite U in X; [discriminate|now apply (j_join _ _ H1 d)].
    + intros _. exists c, (length t). split; [apply nth_snoc|]. intros w m B. apply worker_old in B; [|discriminate]. apply knows_next; [apply sw_ext|]. exact (K w m B).
    + intros d X. split; [reflexivity|]. destruct (upd_cases (at_ s) c d Leaving) as [[-> U]|[N U]]; rewrite U in X; [|now apply (j_leave _ _ H1)].
      intros w m B. apply worker_old in B; [|discriminate]. apply kn_ext. eauto.
    + intros _. exact A.
    + intros d r' v X Lv. auto.
    + intros k d X. split; [reflexivity|]. now apply (j_ret _ _ H1 k d).
  - (* ESkip *) destruct (at_ s c) eqn:Ec; try discriminate. destruct (done s) eqn:Ed; [|discriminate]. injection Hs as <-.
    assert (H1 : J s (t ++ [OnceSkip c])) by (apply J_op; [exact H|discriminate|intros (d & [X|X]); discriminate]).
    assert (K : forall w m, by_worker (t ++ [OnceSkip c]) w m -> kn (t ++ [OnceSkip c]) c m).
    { intros w m B. apply worker_old in B; [|discriminate]. destruct (j_once _ _ H Ed) as (d & k & Hk & Hb). change c with (who (OnceSkip c)) at 2. apply knows_now. eapply sync_next; [apply sw_ext| |right; exact (Hb w m B)].
      split; [apply nth_error_Some; congruence|]. right. exists d, c. split; [now apply nth_ext|apply nth_snoc]. }
    split; cbn [goto ended done at_]; try apply H1.
    + intros d r' v m X B. destruct (upd_cases (at_ s) c d Leaving) as [[-> U]|[N U]]; rewrite U in X; [discriminate|now apply (j_join _ _ H1 d)].
    + intros d X. destruct (upd_cases (at_ s) c d Leaving) as [[-> U]|[N U]]; rewrite U in X; [split; [exact Ed|exact K]|now apply (j_leave _ _ H1)].
    + intros d r' v X Lv. destruct (upd_cases (at_ s) c d Leaving) as [[-> U]|[N U]]; rewrite U in X; [discriminate|now apply (j_joined _ _ H1 d r' v)].
  - (* EReturn *) destruct (at_ s c) eqn:Ec; try discriminate. injection Hs as <-.
    assert (H1 : J s (t ++ [Returns c])) by (apply J_op; [exact H|discriminate|intros _; apply (j_leave _ _ H c); auto]).
    apply (J_quiet s); auto; cbn [goto at_]; intros d; destruct (upd_cases (at_ s) c d Out) as [[-> U]|[N U]]; rewrite U; intros; auto; discriminate.
  - (* EAfter *) destruct (at_ s c) eqn:Ec; try discriminate. injection Hs as <-. apply J_op; [exact H|discriminate|intros _; apply (j_leave _ _ H c); auto].
Qed.
Lemma J_init : J winit [].
Proof.
  split; try discriminate.
  - intros w [|m] H; discriminate.
  - intros c [H|H]; discriminate.
  - intros [|k] c [H|H]; discriminate.
Qed.
Lemma J_run : forall l s t s', J s t -> run wstep s l = Some s' -> J s' (t ++ trace wstep ops s l).
Proof.
  induction l as [|e l IH]; intros s t s' HJ Hr; cbn [run trace] in *; [injection Hr as <-; now rewrite app_nil_r|].
  destruct (wstep s e) as [s1|] eqn:E; [|discriminate]. rewrite app_assoc. eapply IH; [now apply (J_step s e)|exact Hr].
Qed.
End P.

(** C158: whatever a worker did at any time happens before every return of stop(), by whichever of the threads that call it, and before everything that thread does from then on. In particular no functor or coroutine runs when or after stop() has returned. *)
Theorem C158_visible_after_stop : forall n l s, run (wstep n) winit l = Some s ->
  forall m w k c, nth_error (history n l) m = Some (Work w) -> nth_error (history n l) k = Some (Returns c) \/ nth_error (history n l) k = Some (After c) ->
  happens_before (history n l) m k /\ m < k.
Proof.
  intros n l s Hr m w k c Hm Hk. destruct (j_ret _ _ _ (J_run n l _ [] s (J_init n) Hr) k c Hk) as [_ K]. specialize (K w m Hm). split; [exact K|].
  eapply hb_lt in K; [apply K|]. apply sw_lt.
Qed.
Print Assumptions C158_visible_after_stop.
(** Two workers, two threads that call stop(): one joins, the other waits for it in call_once. *)
Definition l158 := [EWork 0; ECall 2; EWork 1; EOnce 2; ECall 3; EWork 1; EEnd 0; EJoin 2; EWork 1; EEnd 1; EJoin 2; EBody 2; ESkip 3; EReturn 3; EAfter 3; EReturn 2].
Example C158_case : exists s, run (wstep 2) winit l158 = Some s /\
  history 2 l158 = [Work 0; Work 1; Work 1; Ends 0; Joined 2 0; Work 1; Ends 1; Joined 2 1; OnceEnd 2; OnceSkip 3; Returns 3; After 3; Returns 2] /\
  happens_before (history 2 l158) 5 10 /\ happens_before (history 2 l158) 0 12.
Proof.
  assert (R : exists s, run (wstep 2) winit l158 = Some s) by (eexists; reflexivity). destruct R as (s & R). exists s. split; [exact R|]. split; [reflexivity|].
  split; eapply (C158_visible_after_stop 2 l158 s R); [reflexivity|left; reflexivity|reflexivity|left; reflexivity].
Qed.
