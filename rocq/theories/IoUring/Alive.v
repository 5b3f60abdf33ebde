(** C161: does the kernel only touch memory of coroutines that exist?

    A coroutine hands buffers, addresses and timespecs that live in its frame (or in the frames that wait for it) to the kernel: iouring_op_batch_execute_aw.cc 14-26, iouring.cc 105-118. The frame is
    owned by m_opreps of the ring of the worker that submitted (iouring.h 76-79) until all completions were received (iouring.cc 48-64).
    Environment: the kernel posts one completion for each submitted operation, in any order, and accesses the memory of an operation at most from its submission to its completion. [sync]: whether
    io_uring_queue_exit() returns only after the kernel has given up all operations (Linux does not promise that: the ring's teardown is handed to a work queue).
    Simplifications: a frame stands for itself and all frames that wait for it; every incarnation of a frame has a number of its own although a freed address can be used again (the keys of m_opreps are
    addresses; a key is in use only while its frame exists); what an operation does is left out; a task that is queued at the end is destroyed at any time. *)
From Coq Require Import List Arith Bool Lia.
From Verif.Common Require Import TS.
Import ListNotations.
#[local] Arguments upd : simpl never.
#[local] Arguments Nat.eqb : simpl never.

(** ** what can be observed *)
Inductive obs := Touch (f : nat)      (* the kernel reads or writes memory of coroutine f *)
               | Destroyed (f : nat)  (* the frame of f is destroyed *)
               | Resumed (f : nat) (w : nat).   (* f is resumed on worker w *)

(** ** the program *)
Inductive place := Nowhere | Ready | Runs (w : nat) | Waits (w : nat) | Gone.
(* m_opreps (iouring.h 76-79) as a list of keys; per frame the number of results its batch waits for and has: iouring_op_batch_rep.h 61-62;
   per worker and frame the operations the kernel works on and the completions that wait in the ring; m_stoped: iouring.h 74; whether the thread has ended *)
Record state := St { at_ : nat -> place; opreps : nat -> list nat; total : nat -> nat; got : nat -> nat; infl : nat -> nat -> nat; cq : nat -> nat -> nat; stopped : nat -> bool; ended : nat -> bool }.
(* nothing was created yet: iouring.h 74-81 *)
Definition init : state := St (fun _ => Nowhere) (fun _ => []) (fun _ => 0) (fun _ => 0) (fun _ _ => 0) (fun _ _ => 0) (fun _ => false) (fun _ => false).
(* bookkeeping of the model, no counterpart in /repo *)
Definition upd2 (m : nat -> nat -> nat) (w f v : nat) : nat -> nat -> nat := upd m w (upd (m w) f v).
Inductive event :=
| ECreate (f : nat)                   (* a coroutine is called and its task enqueued *)
| ETake (w f : nat)                   (* consumer(): thread_pool.cc 64-117 *)
| EYield (w f : nat)                  (* the running coroutine is queued again *)
| EExecute (w f n : nat)              (* co_await batch.execute() with n operations: iouring_op_batch_execute_aw.cc 14-26, iouring.cc 105-118 *)
| EFinish (w f : nat)                 (* the coroutine ends and its frame is destroyed *)
| EDrop (f : nat)                     (* a queued task is destroyed with its queue *)
| EPoll (w f : nat)                   (* do_occured_nonblk() handles one completion: iouring.cc 66-93, 48-64 *)
| EStop (w : nat)                     (* stop(), quick_stop() on the worker: iouring.cc 28-34 *)
| EExit (w : nat)                     (* the worker thread ends: ~iouring_event_loop_perthr(), iouring.h 42-45, then its members *)
| KTouch (w f : nat)                  (* the kernel accesses memory of an operation *)
| KDone (w f : nat).                  (* the kernel posts a completion *)

Section P.
Variable sync : bool.
(* what each step does: iouring.cc 28-118, iouring.h 42-45, 76-79. A batch has between 1 and 1024 operations (larger ones: C59) *)
Definition step (s : state) (e : event) : option state :=
  let '(St a o t g k c st en) := s in
  match e with
  | ECreate f => match a f with Nowhere => Some (St (upd a f Ready) o t g k c st en) | _ => None end
  | ETake w f => match a f with Ready => if en w then None else Some (St (upd a f (Runs w)) o t g k c st en) | _ => None end
  | EYield w f => match a f with Runs v => if v =? w then Some (St (upd a f Ready) o t g k c st en) else None | _ => None end
  | EExecute w f n => match a f with
      | Runs v => if (v =? w) && (1 <=? n) && (n <=? 1024) && negb (en w) then
          if st w then Some (St (upd a f Gone) o t g k c st en)    (* iouring.cc 110: h is destroyed *)
          else Some (St (upd a f (Waits w)) (upd o w (f :: o w)) (upd t f n) (upd g f 0) (upd2 k w f (k w f + n)) c st en)
          else None
      | _ => None end
  | EFinish w f => match a f with Runs v => if v =? w then Some (St (upd a f Gone) o t g k c st en) else None | _ => None end
  | EDrop f => match a f with Ready => Some (St (upd a f Gone) o t g k c st en) | _ => None end
  | EPoll w f => if st w || en w then None else
      match c w f with
      | S m => let o' := if S (g f) =? t f then upd o w (filter (fun x => negb (x =? f)) (o w)) else o in
               let a' := if S (g f) =? t f then upd a f Ready else a in
               Some (St a' o' t (upd g f (S (g f))) k (upd2 c w f m) st en)
      | 0 => None end
  | EStop w => Some (St a o t g k c (upd st w true) en)
  | EExit w => if en w then None else
      if sync then Some (St (fun f => if existsb (Nat.eqb f) (o w) then Gone else a f) (upd o w []) t g (upd k w (fun _ => 0)) c st (upd en w true))
      else Some (St (fun f => if existsb (Nat.eqb f) (o w) then Gone else a f) (upd o w []) t g k c st (upd en w true))
  | KTouch w f => match k w f with S _ => Some s | 0 => None end
  | KDone w f => match k w f with S m => Some (St a o t g (upd2 k w f m) (upd2 c w f (S (c w f))) st en) | 0 => None end
  end.
(* what is observed of each step: iouring.cc 28-118, iouring.h 42-45, 76-79 *)
Definition ops (s : state) (e : event) (_ : state) : list obs :=
  match e with
  | ETake w f => [Resumed f w]
  | EExecute w f _ => if stopped s w then [Destroyed f] else []
  | EFinish _ f | EDrop f => [Destroyed f]
  | EExit w => map Destroyed (opreps s w)
  | KTouch _ f => [Touch f]
  | _ => []
  end.
(** specification, no counterpart in /repo *)
Definition observed (l : list event) : list obs := trace step ops init l.

(** the coroutine an observation is about; specification *)
Definition about (o : obs) : nat := match o with Touch f | Destroyed f | Resumed f _ => f end.
(** no worker ends while the kernel works on an operation of its ring; specification *)
Definition quiet (s : state) (e : event) : Prop := match e with EExit w => forall f, infl s w f = 0 | _ => True end.

(** ** proof *)
Record Inv (s : state) : Prop := {
  i_waits : forall w f, In f (opreps s w) <-> at_ s f = Waits w;
  i_nodup : forall w, NoDup (opreps s w);
  i_sum : forall w f, at_ s f = Waits w -> infl s w f + cq s w f + got s f = total s f /\ got s f < total s f;
  i_none : forall w f, at_ s f <> Waits w -> ended s w = false -> infl s w f = 0 /\ cq s w f = 0;
  i_end : forall w, ended s w = true -> opreps s w = [];
  i_endk : forall w f, ended s w = true -> infl s w f = 0 }.
Lemma Inv_init : Inv init.
Proof. split; cbn; intros; try discriminate; auto; [split; [tauto|discriminate]|constructor]. Qed.
Lemma upd2_same m w f v : upd2 m w f v w f = v.
Proof. unfold upd2. now rewrite !upd_same. Qed.
Lemma upd2_other m w f v w' f' : w' <> w \/ f' <> f -> upd2 m w f v w' f' = m w' f'.
Proof. unfold upd2. intros H. destruct (Nat.eq_dec w' w) as [E|N]; [subst w'; rewrite upd_same; destruct H as [H|H]; [contradiction|now rewrite upd_other]|now rewrite upd_other by exact N]. Qed.
Lemma upd2_eqn m w f v w' f' : upd2 m w f v w' f' = if (w' =? w) && (f' =? f) then v else m w' f'.
Proof. destruct (Nat.eqb_spec w' w) as [E|N], (Nat.eqb_spec f' f) as [E'|N']; subst; cbn [andb]; [apply upd2_same|apply upd2_other; auto..]. Qed.
(** a frame that is in no ring goes to another place *)
Lemma Inv_move a o t g k c st en f p : Inv (St a o t g k c st en) -> (forall w, a f <> Waits w) -> (forall w, p <> Waits w) -> Inv (St (upd a f p) o t g k c st en).
Proof.
  intros [H1 H2 H3 H4 H5 H6] N1 N2. cbn in *.
  assert (E : forall w x, upd a f p x = Waits w <-> a x = Waits w).
  { intros w x. destruct (Nat.eq_dec x f) as [->|N]; [rewrite upd_same; split; intros B; exfalso; [now apply (N2 w)|now apply (N1 w)]|now rewrite upd_other by exact N]. }
  split; cbn; auto.
  - intros w x. rewrite E. apply H1.
  - intros w x B. apply H3. now apply E.
  - intros w x B. apply H4. intros C. apply B. now apply E.
Qed.
Lemma existsb_In f l : existsb (Nat.eqb f) l = true <-> In f l.
Proof. rewrite existsb_exists. split; [intros (x & A & B); apply Nat.eqb_eq in B; now subst x|intros A; exists f; split; [exact A|apply Nat.eqb_refl]]. Qed.
Lemma NoDup_filter' (p : nat -> bool) l : NoDup l -> NoDup (filter p l).
Proof. induction 1 as [|x l N H IH]; cbn; [constructor|]. destruct (p x); [constructor; auto; rewrite filter_In; tauto|exact IH]. Qed.
Lemma Inv_step s e s' : Inv s -> sync = true \/ quiet s e -> step s e = Some s' -> Inv s'.
Proof.
  intros H Q Hs. destruct s as [a o t g k c st en]. destruct e as [f|w f|w f|w f n|w f|f|w f|w|w|w f|w f]; cbn [step] in Hs.
  - destruct (a f) eqn:E; try discriminate. injection Hs as <-. apply Inv_move; [exact H|congruence|discriminate].
  - destruct (a f) eqn:E; try discriminate. destruct (en w); [discriminate|]. injection Hs as <-. apply Inv_move; [exact H|congruence|discriminate].
  - destruct (a f) eqn:E; try discriminate. destruct (w0 =? w); [|discriminate]. injection Hs as <-. apply Inv_move; [exact H|congruence|discriminate].
  - destruct (a f) as [| |v| |] eqn:E; try discriminate. destruct (Nat.eqb_spec v w) as [EE|]; [subst v|discriminate]. destruct (Nat.leb_spec 1 n) as [L1|]; [|discriminate].
    destruct (Nat.leb_spec n 1024) as [L2|]; [|discriminate]. cbn [andb] in Hs. destruct (en w) eqn:Ew; [discriminate|]. cbn [negb] in Hs.
    destruct (st w); injection Hs as <-; [apply Inv_move; [exact H|congruence|discriminate]|].
    destruct H as [H1 H2 H3 H4 H5 H6]. cbn in *. destruct (H4 w f) as [K C]; [congruence|exact Ew|].
    split; cbn.
    + intros v x. destruct (Nat.eq_dec v w) as [->|Nv].
      * rewrite upd_same. cbn. destruct (Nat.eq_dec x f) as [->|Nx]; [rewrite upd_same; tauto|rewrite upd_other by exact Nx; rewrite H1; split; [intros [B|B]; [congruence|exact B]|tauto]].
      * rewrite upd_other by exact Nv. rewrite H1. destruct (Nat.eq_dec x f) as [->|Nx]; [rewrite upd_same; split; congruence|now rewrite upd_other by exact Nx].
    + intros v. destruct (Nat.eq_dec v w) as [->|Nv]; [rewrite upd_same; constructor; [rewrite H1; congruence|apply H2]|rewrite upd_other by exact Nv; apply H2].
    + intros v x. destruct (Nat.eq_dec x f) as [->|Nx].
      * rewrite !upd_same. intros [= <-]. rewrite upd2_same. lia.
      * rewrite !(upd_other _ f x) by exact Nx. rewrite upd2_other by auto. apply H3.
    + intros v x. destruct (Nat.eq_dec x f) as [->|Nx].
      * rewrite upd_same. intros B D. assert (v <> w) by congruence. rewrite upd2_other by auto. apply H4; [congruence|exact D].
      * rewrite (upd_other _ f x) by exact Nx. rewrite upd2_other by auto. apply H4.
    + intros v B. rewrite upd_other by congruence. now apply H5.
    + intros v x B. rewrite upd2_other by (left; congruence). now apply H6.
  - destruct (a f) eqn:E; try discriminate. destruct (w0 =? w); [|discriminate]. injection Hs as <-. apply Inv_move; [exact H|congruence|discriminate].
  - destruct (a f) eqn:E; try discriminate. injection Hs as <-. apply Inv_move; [exact H|congruence|discriminate].
  - destruct (st w) eqn:Est, (en w) eqn:Ew; try discriminate. cbn [orb] in Hs. destruct (c w f) as [|m] eqn:Ec; [discriminate|]. injection Hs as <-.
    destruct H as [H1 H2 H3 H4 H5 H6]. cbn in *.
    assert (A : a f = Waits w). { destruct (a f) as [| | |v|] eqn:E; try (destruct (H4 w f) as [K C]; [congruence|exact Ew|congruence]). destruct (Nat.eq_dec v w) as [->|N]; [reflexivity|]. destruct (H4 w f) as [K C]; [congruence|exact Ew|congruence]. }
    destruct (H3 w f A) as [S1 S2]. rewrite Ec in S1. destruct (Nat.eqb_spec (S (g f)) (t f)) as [Et|Nt]; cbn [at_ opreps].
    + split; cbn.
      * intros v x. destruct (Nat.eq_dec x f) as [->|Nx].
        -- rewrite upd_same. split; [|discriminate]. destruct (Nat.eq_dec v w) as [->|Nv]; [rewrite upd_same, filter_In, Nat.eqb_refl; cbn; intros [_ B]; discriminate|].
           rewrite upd_other by exact Nv. rewrite H1, A. congruence.
        -- rewrite (upd_other _ f x) by exact Nx. destruct (Nat.eq_dec v w) as [->|Nv]; [rewrite upd_same, filter_In|now rewrite upd_other by exact Nv].
           assert ((x =? f) = false) as -> by now apply Nat.eqb_neq. cbn. rewrite H1. tauto.
      * intros v. destruct (Nat.eq_dec v w) as [->|Nv]; [rewrite upd_same; now apply NoDup_filter'|now rewrite upd_other by exact Nv].
      * intros v x. destruct (Nat.eq_dec x f) as [->|Nx]; [rewrite upd_same; discriminate|]. rewrite !(upd_other _ f x) by exact Nx. rewrite upd2_other by auto. apply H3.
      * intros v x B D. destruct (Nat.eq_dec x f) as [->|Nx].
        -- destruct (Nat.eq_dec v w) as [->|Nv]; [rewrite upd2_same; lia|]. rewrite upd2_other by auto. apply H4; congruence.
        -- rewrite upd_other in B by exact Nx. rewrite upd2_other by auto. now apply H4.
      * intros v B. rewrite upd_other by congruence. now apply H5.
      * exact H6.
    + split; cbn; auto.
      * intros v x B. destruct (Nat.eq_dec x f) as [->|Nx].
        -- rewrite A in B. injection B as <-. rewrite upd_same, upd2_same. lia.
        -- rewrite upd_other by exact Nx. rewrite upd2_other by auto. now apply H3.
      * intros v x B D. assert (v <> w \/ x <> f) by (destruct (Nat.eq_dec v w), (Nat.eq_dec x f); subst; auto). rewrite upd2_other by assumption. now apply H4.
  - injection Hs as <-. destruct H as [H1 H2 H3 H4 H5 H6]. split; assumption.
  - destruct (en w) eqn:Ew; [discriminate|].
    assert (K : forall v x, (if sync then upd k w (fun _ => 0) else k) v x <> k v x -> v = w). { intros v x B. destruct sync; [|congruence]. destruct (Nat.eq_dec v w) as [->|N]; [reflexivity|]. now rewrite upd_other in B by exact N. }
    assert (Kw : forall x, (if sync then upd k w (fun _ => 0) else k) w x = 0). { intros x. destruct sync; [now rewrite upd_same|]. destruct Q as [Q|Q]; [discriminate|apply (Q x)]. }
    assert (Hs' : s' = St (fun f => if existsb (Nat.eqb f) (o w) then Gone else a f) (upd o w []) t g (if sync then upd k w (fun _ => 0) else k) c st (upd en w true)) by (destruct sync; congruence).
    clear Hs. subst s'. set (k' := if sync then upd k w (fun _ => 0) else k) in *. clearbody k'.
    assert (K' : forall v x, v <> w -> k' v x = k v x). { intros v x N. destruct (Nat.eq_dec (k' v x) (k v x)) as [B|B]; [exact B|]. now apply K in B. }
    destruct H as [H1 H2 H3 H4 H5 H6]. cbn in *.
    assert (A : forall v x, (if existsb (Nat.eqb x) (o w) then Gone else a x) = Waits v <-> a x = Waits v /\ v <> w).
    { intros v x. destruct (existsb (Nat.eqb x) (o w)) eqn:B.
      - apply existsb_In, H1 in B. split; [discriminate|]. intros [C D]. congruence.
      - split; [|tauto]. intros C. split; [exact C|]. intros ->. assert (D : In x (o w)) by now apply H1. apply existsb_In in D. congruence. }
    split; cbn.
    + intros v x. rewrite A. destruct (Nat.eq_dec v w) as [->|Nv]; [rewrite upd_same; cbn; tauto|rewrite upd_other by exact Nv; rewrite H1; tauto].
    + intros v. destruct (Nat.eq_dec v w) as [->|Nv]; [rewrite upd_same; constructor|rewrite upd_other by exact Nv; apply H2].
    + intros v x B. apply A in B as [B N]. rewrite K' by exact N. now apply H3.
    + intros v x B D. destruct (Nat.eq_dec v w) as [->|Nv]; [rewrite upd_same in D; discriminate|]. rewrite upd_other in D by exact Nv. rewrite K' by exact Nv. apply H4; [|exact D]. intros C. apply B, A. tauto.
    + intros v B. destruct (Nat.eq_dec v w) as [->|Nv]; [apply upd_same|]. rewrite upd_other in B by exact Nv. rewrite upd_other by exact Nv. now apply H5.
    + intros v x B. destruct (Nat.eq_dec v w) as [->|Nv]; [apply Kw|]. rewrite upd_other in B by exact Nv. rewrite K' by exact Nv. now apply H6.
  - destruct (k w f); [discriminate|]. injection Hs as <-. exact H.
  - destruct (k w f) as [|m] eqn:Ek; [discriminate|]. injection Hs as <-. destruct H as [H1 H2 H3 H4 H5 H6]. cbn in *.
    assert (Ew : en w = false). { destruct (en w) eqn:Ew; [|reflexivity]. rewrite (H6 w f Ew) in Ek. discriminate. }
    split; cbn; auto.
    + intros v x B. rewrite !upd2_eqn. destruct (Nat.eqb_spec v w) as [EE|N], (Nat.eqb_spec x f) as [EE'|N']; subst; cbn [andb]; try (now apply H3). destruct (H3 w f B). lia.
    + intros v x B D. rewrite !upd2_eqn. destruct (Nat.eqb_spec v w) as [EE|N], (Nat.eqb_spec x f) as [EE'|N']; subst; cbn [andb]; try (now apply H4). destruct (H4 w f B D). congruence.
    + intros v x B. rewrite upd2_eqn. destruct (Nat.eqb_spec v w) as [EE|N]; [subst v; congruence|]. cbn [andb]. now apply H6.
Qed.
(** the frames that were destroyed are gone, and stay so *)
Lemma Gone_stays s e s' f : Inv s -> step s e = Some s' -> at_ s f = Gone -> at_ s' f = Gone.
Proof.
  intros H Hs G. destruct s as [a o t g k c st en]. cbn in G.
  assert (U : forall x p, a x <> Gone -> upd a x p f = Gone) by (intros x p N; rewrite upd_other; [exact G|congruence]).
  destruct e as [x|w x|w x|w x n|w x|x|w x|w|w|w x|w x]; cbn [step] in Hs.
  - destruct (a x) eqn:E; try discriminate. injection Hs as <-. apply U. congruence.
  - destruct (a x) eqn:E; try discriminate. destruct (en w); [discriminate|]. injection Hs as <-. apply U. congruence.
  - destruct (a x) eqn:E; try discriminate. destruct (w0 =? w); [|discriminate]. injection Hs as <-. apply U. congruence.
  - destruct (a x) eqn:E; try discriminate. destruct ((w0 =? w) && (1 <=? n) && (n <=? 1024) && negb (en w)); [|discriminate]. destruct (st w); injection Hs as <-; apply U; congruence.
  - destruct (a x) eqn:E; try discriminate. destruct (w0 =? w); [|discriminate]. injection Hs as <-. apply U. congruence.
  - destruct (a x) eqn:E; try discriminate. injection Hs as <-. apply U. congruence.
  - destruct (st w) eqn:Est, (en w) eqn:Ew; try discriminate. cbn [orb] in Hs. destruct (c w x) as [|m] eqn:Ec; [discriminate|]. injection Hs as <-. cbn.
    destruct (S (g x) =? t x); [|exact G]. apply U. intros B. destruct (i_none _ H w x) as [_ C]; cbn; [congruence|exact Ew|]. cbn in C. congruence.
  - injection Hs as <-. exact G.
  - destruct (en w); [discriminate|]. destruct sync; injection Hs as <-; cbn; (destruct (existsb (Nat.eqb f) (o w)); [reflexivity|exact G]).
  - destruct (k w x); [discriminate|]. injection Hs as <-. exact G.
  - destruct (k w x); [discriminate|]. injection Hs as <-. exact G.
Qed.
Definition fine (h : list obs) : Prop := forall i j x f, i < j -> nth_error h i = Some (Destroyed f) -> nth_error h j = Some x -> about x <> f.
Lemma fine_snoc h x : fine h -> ~ In (Destroyed (about x)) h -> fine (h ++ [x]).
Proof.
  intros H N i j y f L Hi Hj B. assert (Lj : j < length (h ++ [x])) by (apply nth_error_Some; congruence). rewrite app_length in Lj. cbn in Lj.
  rewrite nth_error_app1 in Hi by lia. destruct (Nat.eq_dec j (length h)) as [->|N'].
  - rewrite nth_error_app2, Nat.sub_diag in Hj by lia. injection Hj as <-. apply N. rewrite B. now apply nth_error_In in Hi.
  - rewrite nth_error_app1 in Hj by lia. now apply (H i j y f L Hi Hj).
Qed.
Lemma fine_list l : NoDup l -> forall h, fine h -> (forall f, In f l -> ~ In (Destroyed f) h) -> fine (h ++ map Destroyed l).
Proof.
  induction 1 as [|f l N HN IH]; intros h Hf Hd; cbn; [now rewrite app_nil_r|]. change (Destroyed f :: map Destroyed l) with ([Destroyed f] ++ map Destroyed l). rewrite app_assoc.
  apply IH; [apply fine_snoc; [exact Hf|apply Hd; now left]|]. intros x Hx B. apply in_app_iff in B as [B|[B|[]]]; [apply (Hd x); [now right|exact B]|congruence].
Qed.
Definition J (s : state) (h : list obs) : Prop := Inv s /\ (forall f, In (Destroyed f) h -> at_ s f = Gone) /\ fine h.
Lemma J_step s e s' h : J s h -> sync = true \/ quiet s e -> step s e = Some s' -> J s' (h ++ ops s e s').
Proof.
  intros (HI & HG & HF) Q Hs. pose proof (Inv_step s e s' HI Q Hs) as HI'. split; [exact HI'|].
  assert (Old : forall f, In (Destroyed f) h -> at_ s' f = Gone) by (intros f B; exact (Gone_stays s e s' f HI Hs (HG f B))).
  assert (One : forall x, ops s e s' = [x] -> at_ s (about x) <> Gone -> (forall f, x = Destroyed f -> at_ s' f = Gone) -> (forall f, In (Destroyed f) (h ++ ops s e s') -> at_ s' f = Gone) /\ fine (h ++ ops s e s')).
  { intros x -> N D. split; [intros f B; apply in_app_iff in B as [B|[B|[]]]; auto|apply fine_snoc; [exact HF|]]. intros B. apply N. now apply HG. }
  assert (Nil : ops s e s' = [] -> (forall f, In (Destroyed f) (h ++ ops s e s') -> at_ s' f = Gone) /\ fine (h ++ ops s e s')) by (intros ->; now rewrite app_nil_r).
  destruct s as [a o t g k c st en]. destruct e as [f|w f|w f|w f n|w f|f|w f|w|w|w f|w f]; cbn [step] in Hs; cbn [at_] in *; try (apply Nil; reflexivity).
  - destruct (a f) eqn:E; try discriminate. apply (One (Resumed f w)); [reflexivity|cbn; congruence|discriminate].
  - destruct (a f) eqn:E; try discriminate. destruct ((w0 =? w) && (1 <=? n) && (n <=? 1024) && negb (en w)); [|discriminate]. cbn [ops stopped] in *. destruct (st w); [|now apply Nil].
    apply (One (Destroyed f)); [reflexivity|cbn; congruence|]. intros x [= <-]. injection Hs as <-. cbn. apply upd_same.
  - destruct (a f) eqn:E; try discriminate. destruct (w0 =? w); [|discriminate]. apply (One (Destroyed f)); [reflexivity|cbn; congruence|]. intros x [= <-]. injection Hs as <-. cbn. apply upd_same.
  - destruct (a f) eqn:E; try discriminate. apply (One (Destroyed f)); [reflexivity|cbn; congruence|]. intros x [= <-]. injection Hs as <-. cbn. apply upd_same.
  - cbn [ops opreps]. assert (D : forall f, In f (o w) -> a f = Waits w) by (intros f B; now apply (i_waits _ HI w f)).
    split; [|apply fine_list; [apply (i_nodup _ HI w)|exact HF|intros f B C; specialize (HG f C); specialize (D f B); congruence]].
    intros f B. apply in_app_iff in B as [B|B]; [auto|]. apply in_map_iff in B as (x & [= ->] & B). apply existsb_In in B. destruct (en w); [discriminate|]. destruct sync; injection Hs as <-; cbn; now rewrite B.
  - destruct (k w f) eqn:Ek; [discriminate|]. apply (One (Touch f)); [reflexivity| |discriminate]. cbn. intros B. destruct (en w) eqn:Ew; [pose proof (i_endk _ HI w f Ew) as C; cbn in C; congruence|].
    destruct (i_none _ HI w f) as [C _]; [cbn; congruence|exact Ew|]. cbn in C. congruence.
Qed.
Lemma J_run : forall l s h s', J s h -> sync = true \/ run_all step quiet s l -> run step s l = Some s' -> J s' (h ++ trace step ops s l).
Proof.
  induction l as [|e l IH]; intros s h s' HJ HQ Hr; cbn [run trace run_all] in *; [injection Hr as <-; now rewrite app_nil_r|].
  destruct (step s e) as [s1|] eqn:E; [|discriminate]. rewrite app_assoc. apply (IH s1); [apply J_step; auto|..|exact Hr]; destruct HQ as [HQ|[HA HB]]; auto.
Qed.
End P.

(** C161: if no worker ends while the kernel works on one of its operations, or if the ring's teardown waits for the kernel, then the kernel touches no memory of a coroutine whose frame was destroyed;
    nor is such a coroutine resumed or destroyed again. Missing: workers that end with operations in the kernel, on a kernel whose teardown is asynchronous. *)
Theorem C161_kernel_touches_living_frames_partial : forall sync l s, run (step sync) init l = Some s -> sync = true \/ run_all (step sync) quiet init l ->
  forall i j f x, i < j -> nth_error (observed sync l) i = Some (Destroyed f) -> nth_error (observed sync l) j = Some x -> x <> Touch f /\ (forall w, x <> Resumed f w) /\ x <> Destroyed f.
Proof.
  intros sync l s Hr HQ i j f x L Hi Hj. destruct (J_run sync l init [] s) as (_ & _ & HF); [|exact HQ|exact Hr|].
  - split; [apply Inv_init|]. split; [intros y []|]. intros i' j' x' f' _ B. destruct i'; discriminate.
  - pose proof (HF i j x f L Hi Hj) as N. repeat split; [..|intros w|]; intros ->; now apply N.
Qed.
Print Assumptions C161_kernel_touches_living_frames_partial.
(** C161 refuted: a worker is stopped and ends while a read is in the kernel; the kernel then writes into the buffer of the destroyed coroutine. *)
Theorem C161_stop_refuted : exists l s i j f, run (step false) init l = Some s /\ i < j /\ nth_error (observed false l) i = Some (Destroyed f) /\ nth_error (observed false l) j = Some (Touch f).
Proof. exists [ECreate 0; ETake 0 0; EExecute 0 0 1; EStop 0; EExit 0; KTouch 0 0]. eexists. exists 1, 2, 0. split; [vm_compute; reflexivity|split; [lia|split; vm_compute; reflexivity]]. Qed.
Print Assumptions C161_stop_refuted.
(** Two coroutines, one with two operations, on two workers; the first ends after its operations, the second's completes while the worker still runs; then both workers end. *)
Definition l161 := [ECreate 0; ECreate 1; ETake 0 0; EExecute 0 0 2; ETake 1 1; EExecute 1 1 1; KTouch 0 0; KDone 0 0; EPoll 0 0; KTouch 0 0; KDone 0 0; EPoll 0 0; ETake 1 0; EFinish 1 0; KTouch 1 1; KDone 1 1; EStop 1; EExit 1; EStop 0; EExit 0].
Example C161_case : (exists s, run (step false) init l161 = Some s) /\ run_all (step false) quiet init l161 /\
  nth_error (observed false l161) 5 = Some (Destroyed 0) /\ nth_error (observed false l161) 6 = Some (Touch 1) /\ nth_error (observed false l161) 7 = Some (Destroyed 1).
Proof.
  split; [eexists; vm_compute; reflexivity|]. split; [|repeat split; vm_compute; reflexivity].
  unfold l161. cbn [run_all]. repeat (split; [first [exact I|cbn; intros [|[|f]]; reflexivity]|intros s' Hs'; vm_compute in Hs'; injection Hs' as <-]). exact I.
Qed.
