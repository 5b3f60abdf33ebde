(** C141: futures under the C++ memory model: what a task did before its result was stored is visible to whoever obtains the result.

    future.h 30-72 (shared_state: every access under a std::mutex), 76-172 (future), future_aw.h 18-48; waiting_handle.cc 12-23 (wake_up: enqueue into the scheduler).

    The steps are those of Future/Model.v. The result itself is moved into the shared state under the lock and read without it afterwards, by the consumer that took it out (future.h 124-133). As in Weak/Generator.v the only program order is that of segments, from one resumption to the next suspension; a blocking thread is one segment. Trusted: std::mutex (an unlock synchronizes with every later lock). The edge through the scheduler is not needed, nor the lock that m_cond.wait() takes again. *)
From Coq Require Import List Arith Bool Lia.
From Verif.Common Require Import TS.
From Verif.Future Require Import Model Spec Proofs.
From Verif.Weak Require Import HB.
Import ListNotations.

(** ** the operations on memory *)
Inductive op :=
| PData (t : nat)              (* code of the task that makes the result *)
| FSet (t : nat)               (* the result is stored, future.h 45 *)
| CData (i t : nat)            (* code of consumer i *)
| FGet (i t : nat)             (* consumer i obtains the result, future.h 124-133 *)
| Lock (t : nat) | Unlock (t : nat).   (* shared_state::m_lock *)
(** the segment an operation belongs to *)
(* C++ memory model, environment, not code of /repo *)
Definition who (o : op) : nat := match o with PData t | FSet t | CData _ t | FGet _ t | Lock t | Unlock t => t end.
(** synchronizes-with: through the lock *)
(* C++ memory model, environment, not code of /repo (std::mutex, future.h 30-72) *)
Definition sw (t : list op) (m n : nat) : Prop := m < n /\ exists i j, nth_error t m = Some (Unlock i) /\ nth_error t n = Some (Lock j).
(* C++ memory model, environment, not code of /repo *)
Definition happens_before := hb who sw.
Lemma sw_lt t m n : sw t m n -> m < n /\ n < length t.
Proof. intros (H & i & j & _ & Hb). split; auto. apply nth_error_Some; congruence. Qed.
Lemma sw_ext t x m n : sw t m n -> sw (t ++ x) m n.
Proof. intros (H & i & j & Ha & Hb). split; auto. exists i, j. split; now apply nth_ext. Qed.

(** ** the client: segment 0 makes the result; consumer i begins in segment 2i+1; resumed coroutines get the even numbers *)
(* what the state keeps of future.h 30-172, future_aw.h 18-48 (Future/Model.v), with the segments of the coroutines *)
Record wstate := WSt { base : state; seg : nat -> nat; fresh : nat }.
(* before anything has happened; future.h 30-172, future_aw.h 18-48 (Future/Model.v), with the segments of the coroutines *)
Definition winit : wstate := WSt init (fun i => 2 * i + 1) 2.
(* the steps of future.h 30-172, future_aw.h 18-48 (Future/Model.v), with the segments of the coroutines *)
Inductive wevent := Fu (e : event) | PWork | CWork (i : nat).
(* what each step does: future.h 30-172, future_aw.h 18-48 (Future/Model.v), with the segments of the coroutines *)
Definition wstep (n : nat) (sp : bool) (s : wstate) (e : wevent) : option wstate :=
  match e with
  | Fu e => match step n sp (base s) e with
            | Some b => Some (match e with EResume i => WSt b (upd (seg s) i (fresh s)) (2 + fresh s) | _ => WSt b (seg s) (fresh s) end)
            | None => None end
  | PWork => Some s
  | CWork i => match at_ (futs (base s) i) with Idle => Some s | _ => None end
  end.
(** if (!m_ff) m_ff = m_ss->get_future_frame_ptr() *)
(* the lock of get_result, future.h 30-72, 106-133 *)
Definition fetch_ops (s : state) (i t : nat) : list op := match m_ff (futs s i) with None => [Lock t; Unlock t] | Some _ => [] end.
(* the result is read without the lock, future.h 124-133 *)
Definition got_ops (s : wstate) (o : obs) : list op := match o with Got i (Returns _ | Rethrows _) => [FGet i (seg s i)] | _ => [] end.
(* the memory operations of each step: future.h 30-172 *)
Definition ops (s : wstate) (e : wevent) (s' : wstate) : list op :=
  match e with
  | PWork => [PData 0]
  | CWork i => [CData i (seg s i)]
  | Fu e =>
    match e with
    | ESet _ _ => [Lock 0; FSet 0; Unlock 0]
    | EReady i | EGetNonblk i | EGetRest i | EAwait i | EResume i => fetch_ops (base s) i (seg s' i)
    | EGet i => if m_has_got (futs (base s) i) then [] else [Lock (seg s i); Unlock (seg s i)]
    | ESuspend i => [Lock (seg s i); Unlock (seg s i)]
    | ESpurious _ => []
    end ++ flat_map (got_ops s') (observe (base s) e (base s'))
  end.
(* specification, no counterpart in /repo *)
Definition history (n : nat) (sp : bool) (l : list wevent) : list op := trace (wstep n sp) ops winit l.
(** made before the result was stored: [m] is the position of an operation of the task that comes no later than the store *)
Definition made_before (t : list op) (m : nat) : Prop := exists k, m <= k /\ nth_error t k = Some (FSet 0) /\ exists a, nth_error t m = Some a /\ (a = PData 0 \/ a = FSet 0).

Notation kn := (knows who sw).
Notation hbeq := (hbe who sw).
Definition public (t : list op) (m : nat) : Prop := exists n i, nth_error t n = Some (Unlock i) /\ hbeq t m n.
Lemma public_ext t x m : public t m -> public (t ++ x) m.
Proof. intros (n & i & A & B). exists n, i. split; [now apply nth_ext|apply hbe_ext; auto; apply sw_ext]. Qed.
Lemma kn_ext t x i m : kn t i m -> kn (t ++ x) i m.
Proof. apply knows_ext, sw_ext. Qed.
Lemma lock_knows t j m : public t m -> kn (t ++ [Lock j]) j m.
Proof.
  intros (n & i & A & B). assert (L : n < length t) by (apply nth_error_Some; congruence).
  change j with (who (Lock j)) at 2. apply knows_now. eapply sync_next; [apply sw_ext| |exact B].
  split; [exact L|]. exists i, j. split; [now apply nth_ext|apply nth_snoc].
Qed.
Lemma section_knows t j m : public t m -> kn (t ++ [Lock j; Unlock j]) j m.
Proof. intros H. change [Lock j; Unlock j] with ([Lock j] ++ [Unlock j]). rewrite app_assoc. apply kn_ext. now apply lock_knows. Qed.
Lemma nth_app_new (t x : list op) m a : nth_error (t ++ x) m = Some a -> nth_error t m = Some a \/ (length t <= m /\ nth_error x (m - length t) = Some a).
Proof. intros H. destruct (Nat.lt_ge_cases m (length t)) as [L|L]; [rewrite nth_error_app1 in H; auto|rewrite nth_error_app2 in H; auto]. Qed.
Definition has_set (t : list op) : Prop := exists k, nth_error t k = Some (FSet 0).

Section P.
  Variables (n : nat) (sp : bool).
  Record J (s : wstate) (t : list op) : Prop := {
    j_inv : Inv (base s);
    j_pc : forall i, (at_ (futs (base s) i) = Suspending \/ at_ (futs (base s) i) = Waiting \/ at_ (futs (base s) i) = Woken) -> m_ff (futs (base s) i) = None;
    j_set : has_set t <-> fulfilled (base s) <> None;
    j_pub : forall m, made_before t m -> public t m;
    j_fut : forall i m, m_ff (futs (base s) i) <> None -> made_before t m -> kn t (seg s i) m;
    j_none_got : fulfilled (base s) = None -> forall k i x, nth_error t k <> Some (FGet i x);
    j_hb : forall m k i x, made_before t m -> nth_error t k = Some (FGet i x) -> happens_before t m k }.
  (** no store among new operations *)
  Definition quiet (x : list op) : Prop := ~ In (FSet 0) x.
  Lemma made_old t x m : quiet x -> made_before (t ++ x) m -> made_before t m.
  Proof.
    intros Q (k & L & Hk & a & Ha & C). assert (Hk' : nth_error t k = Some (FSet 0)).
    { apply nth_app_new in Hk as [Hk|[_ Hk]]; auto. exfalso. apply Q. eapply nth_error_In; eauto. }
    exists k. split; auto. split; auto. exists a. split; auto. assert (k < length t) by (apply nth_error_Some; congruence). rewrite nth_error_app1 in Ha by lia. exact Ha.
  Qed.
  Lemma has_old t x : quiet x -> has_set (t ++ x) <-> has_set t.
  Proof. intros Q. split; intros (k & Hk); [|exists k; now apply nth_ext]. apply nth_app_new in Hk as [Hk|[_ Hk]]; [now exists k|]. exfalso. apply Q. eapply nth_error_In; eauto. Qed.
  (** new operations of which only the last may be a FGet *)
  Lemma J_ext s s' t x g : J s t -> Inv (base s') -> quiet (x ++ g) -> (forall i y, ~ In (FGet i y) x) ->
    (fulfilled (base s') = fulfilled (base s)) ->
    (forall i, (at_ (futs (base s') i) = Suspending \/ at_ (futs (base s') i) = Waiting \/ at_ (futs (base s') i) = Woken) -> m_ff (futs (base s') i) = None) ->
    (forall i m, m_ff (futs (base s') i) <> None -> public t m -> (m_ff (futs (base s) i) <> None -> kn t (seg s i) m) -> kn (t ++ x) (seg s' i) m) ->
    (g = [] \/ exists i, g = [FGet i (seg s' i)] /\ m_ff (futs (base s') i) <> None) ->
    J s' (t ++ x ++ g).
  Proof.
    intros HJ HI Q NG Ef Hpc Hk Hg.
    assert (K : forall i m, m_ff (futs (base s') i) <> None -> made_before (t ++ x ++ g) m -> kn (t ++ x) (seg s' i) m).
    { intros i m Hm Mb. apply (made_old _ _ _ Q) in Mb. apply Hk; auto; [now apply (j_pub _ _ HJ)|]. intros H. now apply (j_fut _ _ HJ). }
    split; auto.
    - rewrite (has_old _ _ Q), Ef. apply (j_set _ _ HJ).
    - intros m Mb. apply (made_old _ _ _ Q) in Mb. apply public_ext. now apply (j_pub _ _ HJ).
    - intros i m Hm Mb. rewrite app_assoc. apply kn_ext. eauto.
    - intros E k i y Hf. apply nth_app_new in Hf as [Hf|[L Hf]]; [rewrite Ef in E; now apply (j_none_got _ _ HJ E) in Hf|].
      apply nth_app_new in Hf as [Hf|[L2 Hf]]; [eapply NG; eapply nth_error_In; eauto|]. destruct Hg as [->|(j & -> & Hj)]; [destruct (k - length t - length x); discriminate|].
      destruct (i_none _ HI E) as [_ X]. now rewrite X in Hj.
    - intros m k i y Mb Hf. destruct (nth_app_new _ _ _ _ Hf) as [Hf'|[L Hf']].
      + apply (made_old _ _ _ Q) in Mb. apply hb_ext; [apply sw_ext|]. eapply (j_hb _ _ HJ); eauto.
      + apply nth_app_new in Hf' as [Hf'|[L2 Hf']]; [exfalso; eapply NG; eapply nth_error_In; eauto|].
        destruct Hg as [->|(j & -> & Hj)]; [destruct (k - length t - length x); discriminate|]. destruct (k - length t - length x) as [|z] eqn:Ek; [|destruct z; discriminate]. cbn in Hf'. injection Hf' as <- <-.
        assert (k = length (t ++ x)) as -> by (rewrite app_length; lia). rewrite app_assoc. change (seg s' j) with (who (FGet j (seg s' j))) in K. apply knows_next; [apply sw_ext|]. apply (K j m Hj). exact Mb.
  Qed.

  Lemma fetch_ff s i j : m_ff (futs (fetch s i) j) = if j =? i then match m_ff (futs s i) with Some r => Some r | None => ss_ff s end else m_ff (futs s j).
  Proof. unfold fetch. destruct (Nat.eqb_spec j i) as [->|N]; destruct (m_ff (futs s i)) eqn:E; cbn; auto; [now rewrite upd_same|now rewrite upd_other]. Qed.
  Lemma nonblk_ff s i j : m_ff (futs (fst (get_nonblk s i)) j) = m_ff (futs (fetch s i) j).
  Proof. unfold get_nonblk. destruct (m_ff (futs (fetch s i) i)) eqn:E; [|reflexivity]. destruct (m_has_got (futs (fetch s i) i)); [reflexivity|]. cbn. destruct (Nat.eq_dec j i) as [->|N]; [rewrite upd_same; cbn; congruence|now rewrite upd_other]. Qed.
  Lemma nonblk_at s i j : at_ (futs (fst (get_nonblk s i)) j) = at_ (futs s j).
  Proof. unfold get_nonblk. destruct (m_ff (futs (fetch s i) i)) eqn:E; [|apply fetch_at]. destruct (m_has_got (futs (fetch s i) i)); [apply fetch_at|]. cbn. destruct (Nat.eq_dec j i) as [->|N]; [rewrite upd_same; cbn; apply fetch_at|rewrite upd_other by auto; apply fetch_at]. Qed.
  Lemma goto_ff s i p j : m_ff (futs (goto s i p) j) = m_ff (futs s j).
  Proof. cbn. destruct (Nat.eq_dec j i) as [->|N]; [now rewrite upd_same|now rewrite upd_other]. Qed.
  Lemma goto_at s i p j : at_ (futs (goto s i p) j) = if j =? i then p else at_ (futs s j).
  Proof. cbn. destruct (Nat.eqb_spec j i) as [->|N]; [now rewrite upd_same|now rewrite upd_other]. Qed.
  Lemma nonblk_out s i : (exists r, m_ff (futs (fetch s i) i) = Some r) \/ snd (get_nonblk s i) = NotReady.
  Proof. unfold get_nonblk. destruct (m_ff (futs (fetch s i) i)); [left; eauto|right; reflexivity]. Qed.
  Lemma got_list s o i : flat_map (got_ops s) [Got i o] = [] \/ (flat_map (got_ops s) [Got i o] = [FGet i (seg s i)] /\ o <> NotReady).
  Proof. destruct o; cbn; [right|right|left|left]; repeat split; discriminate. Qed.
  Lemma quiet_got s o : quiet (flat_map (got_ops s) o).
  Proof. intros H. apply in_flat_map in H as (x & _ & H). destruct x as [r|i [v|e| |]|i b]; cbn in H; try contradiction; destruct H; try discriminate; contradiction. Qed.
  Lemma quiet_app x y : quiet x -> quiet y -> quiet (x ++ y).
  Proof. intros A B H. apply in_app_or in H as [H|H]; [now apply A|now apply B]. Qed.
  Lemma quiet_fetch s i t : quiet (fetch_ops s i t) /\ forall j y, ~ In (FGet j y) (fetch_ops s i t).
  Proof. unfold fetch_ops, quiet. destruct (m_ff (futs s i)); cbn; split; intuition discriminate. Qed.
  Lemma knows_fetched s t i j m s' : seg s' i = seg s i -> m_ff (futs (fetch (base s) i) j) <> None -> public t m -> (m_ff (futs (base s) j) <> None -> kn t (seg s j) m) -> (j <> i -> seg s' j = seg s j) ->
    kn (t ++ fetch_ops (base s) i (seg s' i)) (seg s' j) m.
  Proof.
    intros Es Hm Hp Hk Eo. rewrite fetch_ff in Hm. unfold fetch_ops. destruct (Nat.eqb_spec j i) as [->|N].
    - rewrite Es. destruct (m_ff (futs (base s) i)) eqn:E; [apply kn_ext, Hk; discriminate|now apply section_knows].
    - rewrite Eo by auto. apply kn_ext. auto.
  Qed.
  Lemma J_step s e s' t : J s t -> wstep n sp s e = Some s' -> J s' (t ++ ops s e s').
  Proof.
    intros HJ Hs. destruct e as [e| |i]; unfold wstep in Hs.
    3:{ destruct (at_ (futs (base s) i)) eqn:Ei; try discriminate. injection Hs as <-. cbn [ops]. change [CData i (seg s i)] with ([CData i (seg s i)] ++ []).
        apply (J_ext s); auto; try apply HJ; try solve [cbn; unfold quiet; cbn; intuition discriminate]. intros j m Hm Hp Hk. apply kn_ext. auto. }
    2:{ injection Hs as <-. cbn [ops]. change [PData 0] with ([PData 0] ++ []).
        apply (J_ext s); auto; try apply HJ; try solve [cbn; unfold quiet; cbn; intuition discriminate]. intros j m Hm Hp Hk. apply kn_ext. auto. }
    destruct (step n sp (base s) e) as [b'|] eqn:En; [|discriminate]. pose proof (Inv_step _ _ _ _ _ (j_inv _ _ HJ) En) as HI'. injection Hs as Hs.
    pose proof (j_pc _ _ HJ) as Hpc. unfold step in En. destruct (asserted (base s)); [discriminate|].
    destruct e as [r w|i|i|i|i|i|i|i|i].
    - (* ESet *) destruct (fulfilled (base s)) eqn:Ef; [discriminate|].
      destruct (i_none _ (j_inv _ _ HJ) Ef) as [_ Nf].
      assert (Eb : b' = set_value (base s) r w) by (destruct (none_blocked n (base s) || match at_ (futs (base s) w) with Blocked => true | _ => false end); congruence). subst b' s'. clear En. cbn [ops base observe flat_map got_ops]. rewrite !app_nil_r.
      assert (NS : ~ has_set t) by (intros X; apply (j_set _ _ HJ) in X; contradiction).
      assert (E1 : fulfilled (set_value (base s) r w) = Some r) by (unfold set_value; destruct (ss_waiting (base s)); cbn; repeat match goal with |- context[match ?x with _ => _ end] => destruct x end; reflexivity).
      assert (E2 : forall j, m_ff (futs (set_value (base s) r w) j) = None).
      { intros j. rewrite <- (Nf j). unfold set_value. set (s2 := match ss_waiting (base s) with Some i => _ | None => _ end).
        assert (X : m_ff (futs s2 j) = m_ff (futs (base s) j)) by (subst s2; destruct (ss_waiting (base s)); [unfold wake; rewrite goto_ff|]; reflexivity).
        destruct (at_ (futs s2 w)); rewrite ?goto_ff; exact X. }
      assert (Mb : forall m, made_before (t ++ [Lock 0; FSet 0; Unlock 0]) m -> exists a, nth_error (t ++ [Lock 0; FSet 0; Unlock 0]) m = Some a /\ who a = 0 /\ m <= S (length t)).
      { intros m (k & L & Hk & a & Ha & C). exists a. split; auto. split; [destruct C; subst a; reflexivity|].
        apply nth_app_new in Hk as [Hk|[L2 Hk]]; [exfalso; apply NS; now exists k|]. destruct (k - length t) as [|[|[|z]]] eqn:Ek; cbn in Hk; try discriminate; [lia|destruct z; discriminate]. }
      split; cbn [base].
      + exact HI'.
      + auto.
      + rewrite E1. split; [discriminate|]. intros _. exists (S (length t)). rewrite nth_error_app2 by lia. replace (S (length t) - length t) with 1 by lia. reflexivity.
      + intros m H. destruct (Mb m H) as (a & Ha & Wa & L). exists (S (S (length t))), 0. assert (U : nth_error (t ++ [Lock 0; FSet 0; Unlock 0]) (S (S (length t))) = Some (Unlock 0)) by (rewrite nth_error_app2 by lia; replace (S (S (length t)) - length t) with 2 by lia; reflexivity).
        split; [exact U|]. right. eapply hb_po; [|exact Ha|exact U|exact Wa]. lia.
      + intros j m H. now rewrite E2 in H.
      + rewrite E1. discriminate.
      + intros m k i y H Hf. exfalso. apply nth_app_new in Hf as [Hf|[L Hf]]; [|destruct (k - length t) as [|[|[|z]]]; cbn in Hf; try discriminate; destruct z; discriminate].
        apply (j_none_got _ _ HJ Ef _ _ _ Hf).
    - (* EReady *) destruct (i <? n); [|discriminate]. destruct (at_ (futs (base s) i)) eqn:Ei; try discriminate. injection En as <-. subst s'. cbn [ops base seg]. cbn [observe flat_map got_ops]. 
      apply (J_ext s); auto; cbn [base seg].
      + apply quiet_app; [apply quiet_fetch|cbn; unfold quiet; cbn; tauto].
      + apply quiet_fetch.
      + apply fetch_fulfilled.
      + intros j Hj. rewrite fetch_at in Hj. rewrite fetch_ff. destruct (Nat.eqb_spec j i) as [->|N]; [|auto]. rewrite Ei in Hj. destruct Hj as [Hj|[Hj|Hj]]; discriminate.
      + intros j m Hm Hp Hk. now apply (knows_fetched s t i j m s).
    - (* EGetNonblk *) destruct (i <? n); [|discriminate]. destruct (at_ (futs (base s) i)) eqn:Ei; try discriminate. injection En as <-. subst s'. cbn [ops base seg]. cbn [observe].
      apply (J_ext s); auto; cbn [base seg].
      + apply quiet_app; [apply quiet_fetch|apply quiet_got].
      + apply quiet_fetch.
      + apply fetch_stored.
      + intros j Hj. rewrite nonblk_at in Hj. rewrite nonblk_ff, fetch_ff. destruct (Nat.eqb_spec j i) as [->|N]; [|auto]. rewrite Ei in Hj. destruct Hj as [Hj|[Hj|Hj]]; discriminate.
      + intros j m Hm Hp Hk. rewrite nonblk_ff in Hm. now apply (knows_fetched s t i j m s).
      + match goal with |- context[got_ops ?w] => destruct (got_list w (snd (get_nonblk (base s) i)) i) as [G|[G NG]] end; [now left|right; exists i; split; [exact G|]]. cbn [base]. rewrite nonblk_ff. destruct (nonblk_out (base s) i) as [(r & Er)|Er]; congruence.
    - (* EGet *) destruct (i <? n); [|discriminate]. destruct (at_ (futs (base s) i)) eqn:Ei; try discriminate. destruct (m_has_got (futs (base s) i)) eqn:Eh.
      + injection En as <-. subst s'. cbn [ops base seg observe]. rewrite Eh. cbn [app flat_map got_ops]. rewrite app_nil_r. destruct s; exact HJ.
      + injection En as <-. subst s'. cbn [ops base seg observe]. rewrite Eh. cbn [flat_map]. apply (J_ext s); auto; cbn [base seg]; try solve [unfold quiet; cbn; intuition discriminate].
        * intros j Hj. rewrite goto_ff. rewrite !goto_at in Hj. revert Hj. destruct (Nat.eqb_spec j i) as [E|N]; [|auto]. intros Hj. destruct (ss_ff (base s)); destruct Hj as [Hj|[Hj|Hj]]; discriminate.
        * intros j m Hm Hp Hk. rewrite goto_ff in Hm. apply kn_ext. auto.
    - (* ESpurious *) destruct sp; [|discriminate]. destruct (at_ (futs (base s) i)) eqn:Ei; try discriminate. injection En as <-. subst s'. cbn [ops observe flat_map]. apply (J_ext s); auto; cbn [base seg]; try solve [unfold quiet; cbn; intuition discriminate].
      + intros j Hj. rewrite goto_ff. rewrite !goto_at in Hj. revert Hj. destruct (Nat.eqb_spec j i) as [E|N]; [|auto]. intros Hj. destruct Hj as [Hj|[Hj|Hj]]; discriminate.
      + intros j m Hm Hp Hk. rewrite goto_ff in Hm. apply kn_ext. auto.
    - (* EGetRest *) destruct (at_ (futs (base s) i)) eqn:Ei; try discriminate. injection En as <-. subst s'. cbn [ops base seg]. cbn [observe].
      assert (FF : forall j, m_ff (futs (fetch (fetch (base s) i) i) j) = m_ff (futs (fetch (base s) i) j)).
      { intros j. rewrite !fetch_ff. rewrite Nat.eqb_refl. destruct (Nat.eqb_spec j i) as [->|N]; [|reflexivity]. destruct (m_ff (futs (base s) i)) eqn:E1; [reflexivity|]. destruct (ss_ff (base s)) eqn:E2; [reflexivity|]. unfold fetch. rewrite E1. reflexivity. }
      apply (J_ext s); auto; cbn [base seg].
      + apply quiet_app; [apply quiet_fetch|apply quiet_got].
      + apply quiet_fetch.
      + change (fulfilled (fst (get_nonblk (fetch (base s) i) i)) = fulfilled (base s)). rewrite fetch_stored. apply fetch_fulfilled.
      + intros j Hj. rewrite goto_at in Hj. rewrite goto_ff, nonblk_ff, FF, fetch_ff. rewrite nonblk_at, fetch_at in Hj. revert Hj. destruct (Nat.eqb_spec j i) as [E|N]; [|auto]. intros Hj. destruct Hj as [Hj|[Hj|Hj]]; discriminate.
      + intros j m Hm Hp Hk. rewrite goto_ff, nonblk_ff, FF in Hm. now apply (knows_fetched s t i j m s).
      + match goal with |- context[got_ops ?w] => destruct (got_list w (snd (get_nonblk (fetch (base s) i) i)) i) as [G|[G NG]] end; [now left|right; exists i; split; [exact G|]]. rewrite goto_ff, nonblk_ff. destruct (nonblk_out (fetch (base s) i) i) as [(r & Er)|Er]; congruence.
    - (* EAwait *) destruct (i <? n); [|discriminate]. destruct (at_ (futs (base s) i)) eqn:Ei; try discriminate. destruct (m_ff (futs (fetch (base s) i) i)) as [r|] eqn:Em.
      + injection En as <-. subst s'. cbn [ops base seg]. cbn [observe].
        assert (FF : forall j, m_ff (futs (fetch (fetch (base s) i) i) j) = m_ff (futs (fetch (base s) i) j)).
        { intros j. rewrite (fetch_ff (fetch (base s) i)). destruct (Nat.eqb_spec j i) as [->|N]; [|reflexivity]. rewrite Em. reflexivity. }
        rewrite nonblk_at, fetch_at, Ei.
        apply (J_ext s); auto; cbn [base seg].
        * apply quiet_app; [apply quiet_fetch|apply quiet_got].
        * apply quiet_fetch.
        * rewrite fetch_stored. apply fetch_fulfilled.
        * intros j Hj. rewrite nonblk_ff, FF, fetch_ff. rewrite nonblk_at, fetch_at in Hj. destruct (Nat.eqb_spec j i) as [->|N]; [|auto]. rewrite Ei in Hj. destruct Hj as [Hj|[Hj|Hj]]; discriminate.
        * intros j m Hm Hp Hk. rewrite nonblk_ff, FF in Hm. now apply (knows_fetched s t i j m s).
        * match goal with |- context[got_ops ?w] => destruct (got_list w (snd (get_nonblk (fetch (base s) i) i)) i) as [G|[G NG]] end; [now left|right; exists i; split; [exact G|]]. rewrite nonblk_ff, FF. congruence.
      + injection En as <-. subst s'. cbn [ops base seg]. cbn [observe]. rewrite goto_at, Nat.eqb_refl. cbn [flat_map].
        apply (J_ext s); auto; cbn [base seg].
        * apply quiet_app; [apply quiet_fetch|unfold quiet; cbn; tauto].
        * apply quiet_fetch.
        * apply fetch_fulfilled.
        * intros j Hj. rewrite goto_at in Hj. rewrite goto_ff. rewrite fetch_at in Hj. revert Hj. destruct (Nat.eqb_spec j i) as [E|N]; [subst j; intros _; exact Em|]. intros Hj. rewrite fetch_ff. destruct (Nat.eqb_spec j i); [contradiction|auto].
        * intros j m Hm Hp Hk. rewrite goto_ff in Hm. now apply (knows_fetched s t i j m s).
    - (* ESuspend *) destruct (at_ (futs (base s) i)) eqn:Ei; try discriminate. injection En as <-. subst s'. cbn [ops observe flat_map].
      assert (Ni : m_ff (futs (base s) i) = None) by (apply Hpc; now left).
      assert (FF : forall j, m_ff (futs (set_waiting (base s) i) j) = m_ff (futs (base s) j)).
      { intros j. unfold set_waiting. destruct (ss_waiting (base s)); [reflexivity|]. destruct (ss_ff (base s)); [apply goto_ff|]. cbn [futs]. apply goto_ff. }
      assert (FA : forall j, j <> i -> at_ (futs (set_waiting (base s) i) j) = at_ (futs (base s) j)).
      { intros j N. unfold set_waiting. destruct (ss_waiting (base s)); [reflexivity|]. destruct (ss_ff (base s)); [unfold wake|cbn [futs]]; rewrite goto_at; destruct (Nat.eqb_spec j i); congruence. }
      apply (J_ext s); auto; cbn [base seg]; try solve [unfold quiet; cbn; intuition discriminate].
      + unfold set_waiting. destruct (ss_waiting (base s)); [reflexivity|]. destruct (ss_ff (base s)); reflexivity.
      + intros j Hj. rewrite FF. destruct (Nat.eq_dec j i) as [->|N]; [exact Ni|]. rewrite FA in Hj by auto. auto.
      + intros j m Hm Hp Hk. rewrite FF in Hm. apply kn_ext. auto.
    - (* EResume *) destruct (at_ (futs (base s) i)) eqn:Ei; try discriminate. injection En as <-. subst s'. cbn [ops base seg]. cbn [observe].
      assert (Ni : m_ff (futs (base s) i) = None) by (apply Hpc; tauto).
      apply (J_ext s); auto; cbn [base seg].
      + apply quiet_app; [apply quiet_fetch|apply quiet_got].
      + apply quiet_fetch.
      + change (fulfilled (fst (get_nonblk (base s) i)) = fulfilled (base s)). apply fetch_stored.
      + intros j Hj. rewrite goto_at in Hj. rewrite goto_ff, nonblk_ff, fetch_ff. rewrite nonblk_at in Hj. revert Hj. destruct (Nat.eqb_spec j i) as [E|N]; [|auto]. intros Hj. destruct Hj as [Hj|[Hj|Hj]]; discriminate.
      + intros j m Hm Hp Hk. rewrite goto_ff, nonblk_ff, fetch_ff in Hm. unfold fetch_ops. rewrite Ni. destruct (Nat.eqb_spec j i) as [->|N]; [rewrite upd_same; now apply section_knows|]. assert (U : upd (seg s) i (fresh s) j = seg s j) by (now apply upd_other); rewrite U. apply kn_ext. auto.
      + match goal with |- context[got_ops ?w] => destruct (got_list w (snd (get_nonblk (base s) i)) i) as [G|[G NG]] end; [now left|right; exists i; split; [exact G|]]. rewrite goto_ff, nonblk_ff. destruct (nonblk_out (base s) i) as [(r & Er)|Er]; congruence.
  Qed.
End P.
Lemma J_init : J winit [].
Proof.
  split; try apply Inv_init.
  - reflexivity.
  - split; [intros ([|k] & H); discriminate|intros H; now contradiction H].
  - intros m (k & _ & H & _). destruct k; discriminate.
  - intros i m H. now contradiction H.
  - intros _ [|k] i x; discriminate.
  - intros m k i x _ H. destruct k; discriminate.
Qed.
Lemma J_run n sp : forall l s t s', J s t -> run (wstep n sp) s l = Some s' -> J s' (t ++ trace (wstep n sp) ops s l).
Proof.
  induction l as [|e l IH]; intros s t s' HJ Hr; cbn [run trace] in *; [injection Hr as <-; now rewrite app_nil_r|].
  destruct (wstep n sp s e) as [s1|] eqn:E; [|discriminate]. rewrite app_assoc. eapply IH; [now apply (J_step n sp s e)|exact Hr].
Qed.

(** C141: everything the task did up to the storing of its result, and the storing, happens before the result is obtained: by co_await (whether it had to suspend or not), get_nonblk() or a blocking get(), on whatever threads. *)
Theorem C141_result_is_visible : forall n sp l s m k i x, run (wstep n sp) winit l = Some s ->
  made_before (history n sp l) m -> nth_error (history n sp l) k = Some (FGet i x) -> happens_before (history n sp l) m k.
Proof. intros n sp l s m k i x Hr Mb Hk. exact (j_hb _ _ (J_run n sp l _ [] s J_init Hr) m k i x Mb Hk). Qed.
Print Assumptions C141_result_is_visible.
(** What the task does after the result was stored (the destruction of its local variables after co_return, C97) is not ordered with the consumer. *)
Theorem C141_locals_race_refuted : let l := [PWork; Fu (EAwait 0); Fu (ESuspend 0); Fu (ESet (Value 7) 0); Fu (EResume 0); CWork 0; PWork] in
  exists s, run (wstep 1 false) winit l = Some s /\ history 1 false l = [PData 0; Lock 1; Unlock 1; Lock 1; Unlock 1; Lock 0; FSet 0; Unlock 0; Lock 2; Unlock 2; FGet 0 2; CData 0 2; PData 0]
  /\ happens_before (history 1 false l) 0 10 /\ ~ happens_before (history 1 false l) 11 12 /\ ~ happens_before (history 1 false l) 12 11.
Proof.
  cbv zeta. match goal with |- exists s, run _ _ ?l' = Some s /\ _ => set (l := l') end.
  assert (R : exists s, run (wstep 1 false) winit l = Some s) by (eexists; vm_compute; reflexivity). destruct R as (s & R). exists s. split; [exact R|].
  assert (E : history 1 false l = [PData 0; Lock 1; Unlock 1; Lock 1; Unlock 1; Lock 0; FSet 0; Unlock 0; Lock 2; Unlock 2; FGet 0 2; CData 0 2; PData 0]) by (vm_compute; reflexivity).
  split; [exact E|]. split; [|split].
  - eapply C141_result_is_visible; [exact R| |rewrite E; reflexivity]. exists 6. rewrite E. split; [lia|]. split; [reflexivity|]. exists (PData 0). split; [reflexivity|now left].
  - rewrite E. clear. intros H. match type of H with happens_before ?t _ _ => assert (K : forall m n, happens_before t m n -> m = 11 -> False) end; [|exact (K _ _ H eq_refl)].
    clear H. intros m n H. induction H as [m n a b L Ha Hb E|m n (L & i & j & Ha & _)|m k n _ IH1 _ _]; intros X; [subst m| |auto].
    + cbn in Ha. injection Ha as <-. do 12 (destruct n as [|n]; [lia|]). destruct n as [|n]; [cbn in Hb; injection Hb as <-; discriminate|destruct n; discriminate Hb].
    + subst m. discriminate Ha.
  - rewrite E. intros H. apply (hb_lt who sw sw_lt) in H. lia.
Qed.
Print Assumptions C141_locals_race_refuted.
(** All the ways of obtaining a result. *)
Example C141_case : forall e, In e [[Fu (EGetNonblk 0)]; [Fu (EGet 0); Fu (EGetRest 0)]; [Fu (EAwait 0)]; [Fu (EReady 0); CWork 0; Fu (EGetNonblk 0)]] ->
  let l := [PWork; Fu (ESet (Value 7) 0)] ++ e in exists s k x, run (wstep 1 false) winit l = Some s /\ nth_error (history 1 false l) k = Some (FGet 0 x) /\ made_before (history 1 false l) 0 /\ happens_before (history 1 false l) 0 k.
Proof.
  assert (G : forall e k x, (exists s, run (wstep 1 false) winit ([PWork; Fu (ESet (Value 7) 0)] ++ e) = Some s) -> nth_error (history 1 false ([PWork; Fu (ESet (Value 7) 0)] ++ e)) k = Some (FGet 0 x) -> nth_error (history 1 false ([PWork; Fu (ESet (Value 7) 0)] ++ e)) 2 = Some (FSet 0) ->
     nth_error (history 1 false ([PWork; Fu (ESet (Value 7) 0)] ++ e)) 0 = Some (PData 0) ->
     exists s k x, run (wstep 1 false) winit ([PWork; Fu (ESet (Value 7) 0)] ++ e) = Some s /\ nth_error (history 1 false ([PWork; Fu (ESet (Value 7) 0)] ++ e)) k = Some (FGet 0 x) /\ made_before (history 1 false ([PWork; Fu (ESet (Value 7) 0)] ++ e)) 0 /\ happens_before (history 1 false ([PWork; Fu (ESet (Value 7) 0)] ++ e)) 0 k).
  { intros e k x (s & R) Hk H2 H0. exists s, k, x. split; [exact R|]. split; [exact Hk|]. assert (Mb : made_before (history 1 false ([PWork; Fu (ESet (Value 7) 0)] ++ e)) 0) by (exists 2; split; [lia|]; split; [exact H2|]; exists (PData 0); auto).
    split; [exact Mb|]. eapply C141_result_is_visible; eauto. }
  intros e H. cbv zeta. destruct H as [<-|[<-|[<-|[<-|[]]]]].
  - apply (G _ 6 1); [eexists|..]; vm_compute; reflexivity.
  - apply (G _ 8 1); [eexists|..]; vm_compute; reflexivity.
  - apply (G _ 6 1); [eexists|..]; vm_compute; reflexivity.
  - apply (G _ 7 1); [eexists|..]; vm_compute; reflexivity.
Qed.
