(** Model and properties of koios::tcp_server (C37, C63, C64).

    include/koios/tcp_server.h 28-104, src/tcp_server.cc 36-86, with wait_group (include/koios/wait_group.h 12-68) through its counter
    and its list of suspended coroutines.
    Any number of accept loops ([t] = number of consumers, tcp_server.h 58-62), any number of coroutines calling until_done.
    Simplifications: start() is one event (its socket was bound and is listening; a failure there throws and starts nothing);
    waking all waiters (wait_group.h 56-63) is one step; the kernel's answers to accept are arbitrary. That accept's result is that of
    its own operation is C22/C24. *)
From Coq Require Import List Arith Bool Lia Permutation.
From Verif.Common Require Import TS ListX.
Import ListNotations.
#[local] Arguments upd : simpl never.

(** where an accept loop is, tcp_server.h 65-95 *)
Inductive lph :=
| Spawned             (* tcp_loop(...).run(attr) done, not begun *)
| Testing             (* holds its wait_group_guard (71), before the test of the stop flag (72) *)
| Accepting           (* in co_await uring::accept(m_sockfd, 50ms) (75) *)
| Got (fd : nat)      (* a client, before make_lazy(userdefined, client).run() (88-89) *)
| Ended.              (* left the loop, guard destroyed *)

(** where a caller of until_done_async() is, tcp_server.cc 75-80 *)
Inductive uph :=
| UIdle
| UChecked            (* is_stop() was false (77), before await_ready *)
| UNotReady           (* await_ready was false, before the enqueue (wait_group.h 44-47) *)
| USuspended
| UDone.

(* what the state keeps of tcp_server.h 28-104, tcp_server.cc 36-86, wait_group.h 12-68 *)
Record state := St {
  started : bool;
  loops : list lph;
  req : bool;                  (* m_stop_src.stop_requested() *)
  count : nat;                 (* m_wait_stop's counter, of the object the loops refer to *)
  detached : bool;             (* the server object was moved after start(): the user's object has a wait_group of its own *)
  untils : nat -> uph;
  accepted : list nat;         (* ghost: clients accepted, in order *)
  handed : list nat            (* ghost: clients passed to the callback, in order *)
}.
(* before anything has happened; tcp_server.h 28-104, tcp_server.cc 36-86, wait_group.h 12-68 *)
Definition init : state := St false [] false 0 false (fun _ => UIdle) [] [].

(* the kernel's answer to accept: tcp_server.h 69-104 *)
Inductive answer := ATimeout | AError | AClient (fd : nat).
Inductive event :=
| EStart                       (* tcp_server.h 52-63 *)
| EBegin (i : nat)             (* loop i starts running: wait_group_guard, 71 *)
| ETest (i : nat)              (* 72 *)
| EAnswer (i : nat) (a : answer)  (* 75-87 *)
| EHand (i : nat)              (* 89 *)
| EStop                        (* tcp_server.cc 70-73 *)
| EUntil (u : nat)             (* until_done_async() called: is_stop(), 61-68, 77 *)
| EUntilReady (u : nat)        (* wait()'s await_ready *)
| EUntilEnqueue (u : nat)      (* wait()'s await_suspend *)
| EMove.                       (* tcp_server(tcp_server&&), 44-51: m_wait_stop is not moved, and the loops keep the old [this] *)

(** m_wait_stop.ready() on the object the user has *)
(* wait_aw::await_ready in until_done(): wait_group.h 33-42, tcp_server.cc 74-86 *)
Definition user_ready (s : state) : bool := detached s || (count s =? 0).
(* bookkeeping of the model, no counterpart in /repo *)
Definition set_loop (s : state) (i : nat) (x : lph) : state :=
  St (started s) (set_nth i x (loops s)) (req s) (count s) (detached s) (untils s) (accepted s) (handed s).
(* bookkeeping of the model, no counterpart in /repo *)
Definition set_until (s : state) (u : nat) (x : uph) : state :=
  St (started s) (loops s) (req s) (count s) (detached s) (upd (untils s) u x) (accepted s) (handed s).
(* wake_up_all, wait_group.h 56-63 *)
Definition wake_all (f : nat -> uph) : nat -> uph := fun u => match f u with USuspended => UDone | x => x end.

(* what each step does: tcp_server.h 28-104, tcp_server.cc 36-86, wait_group.h 12-68 *)
Definition next (t : nat) (s : state) (ev : event) : option state :=
  match ev with
  | EStart => if started s then None   (* "could be called only once" *)
              else Some (St true (repeat Spawned t) (req s) (count s) (detached s) (untils s) (accepted s) (handed s))
  | EBegin i =>
      match nth_error (loops s) i with
      | Some Spawned => Some (St (started s) (set_nth i Testing (loops s)) (req s) (count s + 1) (detached s) (untils s) (accepted s) (handed s))
      | _ => None
      end
  | ETest i =>
      match nth_error (loops s) i with
      | Some Testing =>
          if req s then
            (* co_return: ~wait_group_guard, done(1) *)
            Some (St (started s) (set_nth i Ended (loops s)) (req s) (count s - 1) (detached s)
                     (if count s =? 1 then wake_all (untils s) else untils s) (accepted s) (handed s))
          else Some (set_loop s i Accepting)
      | _ => None
      end
  | EAnswer i a =>
      match nth_error (loops s) i with
      | Some Accepting =>
          match a with
          | ATimeout | AError => Some (set_loop s i Testing)
          | AClient fd => Some (St (started s) (set_nth i (Got fd) (loops s)) (req s) (count s) (detached s) (untils s) (accepted s ++ [fd]) (handed s))
          end
      | _ => None
      end
  | EHand i =>
      match nth_error (loops s) i with
      | Some (Got fd) => Some (St (started s) (set_nth i Testing (loops s)) (req s) (count s) (detached s) (untils s) (accepted s) (handed s ++ [fd]))
      | _ => None
      end
  | EStop => Some (St (started s) (loops s) true (count s) (detached s) (untils s) (accepted s) (handed s))
  | EUntil u =>
      match untils s u with
      | UIdle => Some (set_until s u (if req s && user_ready s then UDone else UChecked))
      | _ => None
      end
  | EUntilReady u =>
      match untils s u with
      | UChecked => Some (set_until s u (if user_ready s then UDone else UNotReady))
      | _ => None
      end
  | EUntilEnqueue u => match untils s u with UNotReady => Some (set_until s u USuspended) | _ => None end
  | EMove => Some (St (started s) (loops s) (req s) (count s) (detached s || started s) (untils s) (accepted s) (handed s))
  end.

(** ** Specification vocabulary *)
Definition all_ended (s : state) : Prop := forall i x, nth_error (loops s) i = Some x -> x = Ended.
Definition all_begun (s : state) : Prop := started s = true /\ forall i, nth_error (loops s) i <> Some Spawned.
(** the uses for which C37 holds: until_done is called after every loop has begun, on an object that was not moved after start() *)
Definition late_until (s : state) (ev : event) : Prop :=
  match ev with EUntil _ => all_begun s | EMove => started s = false | _ => True end.
Definition is_loop_event (ev : event) : bool := match ev with EBegin _ | ETest _ | EAnswer _ _ | EHand _ => true | _ => false end.
(** no accept loop can take a step (when the kernel answers every accept) *)
Definition loops_idle (t : nat) (s : state) : Prop := forall ev, is_loop_event ev = true -> next t s ev = None.
(** clients accepted and about to be handed over *)
Definition pending1 (x : lph) : list nat := match x with Got fd => [fd] | _ => [] end.
Definition pending (s : state) : list nat := flat_map pending1 (loops s).

(** ** Invariants *)
Definition act1 (x : lph) : nat := match x with Testing | Accepting | Got _ => 1 | _ => 0 end.
Record inv (t : nat) (s : state) : Prop := {
  i_len : length (loops s) = if started s then t else 0;
  i_count : count s = sumf act1 (loops s);
  i_end : (exists i, nth_error (loops s) i = Some Ended) -> req s = true;
  i_hand : Permutation (accepted s) (handed s ++ pending s)
}.
Lemma act_set l i x y : nth_error l i = Some y -> sumf act1 (set_nth i x l) + act1 y = sumf act1 l + act1 x.
Proof. apply sumf_set. Qed.

Lemma pend_set (l : list lph) i x y : nth_error l i = Some y -> exists l1 l2, l = l1 ++ y :: l2 /\ set_nth i x l = l1 ++ x :: l2.
Proof.
  revert i. induction l as [|z l IH]; intros [|i] H; cbn in *; try discriminate.
  - inversion H; subst. exists [], l. auto.
  - destruct (IH i H) as (l1 & l2 & -> & E). exists (z :: l1), l2. cbn. now rewrite E.
Qed.
Lemma pend_same l i x y : nth_error l i = Some y -> pending1 x = pending1 y -> flat_map pending1 (set_nth i x l) = flat_map pending1 l.
Proof. intros H E. destruct (pend_set l i x y H) as (l1 & l2 & -> & ->). rewrite !flat_map_app. cbn. now rewrite E. Qed.

Lemma ended_set l i x y : nth_error l i = Some y -> x <> Ended -> (exists j, nth_error (set_nth i x l) j = Some Ended) -> exists j, nth_error l j = Some Ended.
Proof.
  intros H Hx (j & Hj). destruct (Nat.eq_dec j i) as [->|Hne].
  - rewrite nth_error_set_same in Hj by (eapply nth_error_lt; exact H). congruence.
  - rewrite nth_error_set_other in Hj by easy. eauto.
Qed.

Lemma inv_init t : inv t init.
Proof. split; cbn; try easy. intros (i & H). now destruct i. Qed.

Lemma pend_repeat t : flat_map pending1 (repeat Spawned t) = [].
Proof. induction t; cbn; auto. Qed.
Lemma act_repeat t : sumf act1 (repeat Spawned t) = 0.
Proof. induction t; cbn; auto. Qed.

Lemma loops_nil (l : list lph) (b : bool) t : length l = (if b then t else 0) -> b = false -> l = [].
Proof. intros H ->. now destruct l. Qed.

Lemma inv_step t s ev s' : inv t s -> next t s ev = Some s' -> inv t s'.
Proof.
  intros [Il Ic Ie Ih] Hn. destruct ev as [|i|i|i a|i| |u|u|u|]; cbn [next] in Hn.
  - destruct (started s) eqn:Es; [discriminate|]. inversion Hn; subst; clear Hn. destruct (loops s) eqn:El; [|discriminate].
    split; cbn [loops started count req accepted handed]; unfold pending in *; cbn [loops].
    + apply repeat_length.
    + now rewrite Ic, act_repeat.
    + intros (j & Hj). apply nth_error_In in Hj. apply repeat_spec in Hj. discriminate.
    + rewrite pend_repeat. rewrite El in Ih. exact Ih.
  - destruct (nth_error (loops s) i) as [[]|] eqn:E; try discriminate. inversion Hn; subst; clear Hn.
    split; cbn [loops started count req accepted handed]; unfold pending in *; cbn [loops].
    + rewrite set_nth_length. exact Il.
    + pose proof (act_set _ _ Testing _ E). cbn in H. lia.
    + intros H. apply Ie. eapply ended_set; [exact E| |exact H]. discriminate.
    + erewrite pend_same; [exact Ih|exact E|reflexivity].
  - destruct (nth_error (loops s) i) as [[]|] eqn:E; try discriminate. destruct (req s) eqn:Er; inversion Hn; subst; clear Hn;
    (split; cbn [set_loop loops started count req accepted handed]; unfold pending in *; cbn [set_loop loops]).
    + rewrite set_nth_length. exact Il.
    + pose proof (act_set _ _ Ended _ E). cbn in H. lia.
    + auto.
    + erewrite pend_same; [exact Ih|exact E|reflexivity].
    + rewrite set_nth_length. exact Il.
    + pose proof (act_set _ _ Accepting _ E). cbn in H. lia.
    + intros H. rewrite Er. apply Ie. eapply ended_set; [exact E| |exact H]. discriminate.
    + erewrite pend_same; [exact Ih|exact E|reflexivity].
  - destruct (nth_error (loops s) i) as [[]|] eqn:E; try discriminate.
    assert (G : inv t (set_loop s i Testing)).
    { split; cbn [set_loop loops started count req accepted handed]; unfold pending in *; cbn [set_loop loops].
      + rewrite set_nth_length. exact Il.
      + pose proof (act_set _ _ Testing _ E). cbn in H. lia.
      + intros H. apply Ie. eapply ended_set; [exact E| |exact H]. discriminate.
      + erewrite pend_same; [exact Ih|exact E|reflexivity]. }
    destruct a as [| |fd]; inversion Hn; subst; clear Hn; try exact G.
    split; cbn [loops started count req accepted handed]; unfold pending in *; cbn [loops].
    + rewrite set_nth_length. exact Il.
    + pose proof (act_set _ _ (Got fd) _ E). cbn in H. lia.
    + intros H. apply Ie. eapply ended_set; [exact E| |exact H]. discriminate.
    + destruct (pend_set _ _ (Got fd) _ E) as (l1 & l2 & E1 & ->). rewrite E1 in Ih. rewrite flat_map_app in *. cbn in *.
      rewrite Ih. rewrite <- !app_assoc. apply Permutation_app_head, Permutation_app_head. apply Permutation_sym, Permutation_cons_append.
  - destruct (nth_error (loops s) i) as [[| | |fd|]|] eqn:E; try discriminate. inversion Hn; subst; clear Hn.
    split; cbn [loops started count req accepted handed]; unfold pending in *; cbn [loops].
    + rewrite set_nth_length. exact Il.
    + pose proof (act_set _ _ Testing _ E). cbn in H. lia.
    + intros H. apply Ie. eapply ended_set; [exact E| |exact H]. discriminate.
    + destruct (pend_set _ _ Testing _ E) as (l1 & l2 & E1 & ->). rewrite E1 in Ih. rewrite flat_map_app in *. cbn in *.
      rewrite Ih. rewrite <- !app_assoc. apply Permutation_app_head. cbn. apply Permutation_sym, Permutation_middle.
  - inversion Hn; subst; clear Hn. split; auto.
  - destruct (untils s u); inversion Hn; subst; clear Hn; split; auto.
  - destruct (untils s u); inversion Hn; subst; clear Hn; split; auto.
  - destruct (untils s u); inversion Hn; subst; clear Hn; split; auto.
  - inversion Hn; subst; clear Hn. split; auto.
Qed.
Lemma inv_run t l s : run (next t) init l = Some s -> inv t s.
Proof. apply (run_inv (next t) (inv t)); [intros; eapply inv_step; eassumption|apply inv_init]. Qed.

(** under the restriction *)
Record inv2 (t : nat) (s : state) : Prop := {
  j_inv : inv t s;
  j_det : detached s = false;
  j_u : (exists u, untils s u <> UIdle) -> all_begun s;
  j_done : (exists u, untils s u = UDone) -> count s = 0
}.
Lemma begun_step t s ev s' : all_begun s -> next t s ev = Some s' -> all_begun s'.
Proof.
  intros [Hs Hb] Hn.
  assert (G : forall i x, x <> Spawned -> forall j, nth_error (set_nth i x (loops s)) j <> Some Spawned).
  { intros i x Hx j. rewrite nth_error_set. destruct (j =? i); [destruct (i <? length (loops s)); congruence|apply Hb]. }
  destruct ev as [|i|i|i a|i| |u|u|u|]; cbn [next] in Hn.
  - rewrite Hs in Hn. discriminate.
  - destruct (nth_error (loops s) i) as [[]|]; inversion Hn; subst; clear Hn. split; [exact Hs|]. cbn [loops]. apply G. discriminate.
  - destruct (nth_error (loops s) i) as [[]|]; try discriminate. destruct (req s); inversion Hn; subst; clear Hn; (split; [exact Hs|]; cbn [set_loop loops]; apply G; discriminate).
  - destruct (nth_error (loops s) i) as [[]|]; try discriminate. destruct a; inversion Hn; subst; clear Hn; (split; [exact Hs|]; cbn [set_loop loops]; apply G; discriminate).
  - destruct (nth_error (loops s) i) as [[]|]; inversion Hn; subst; clear Hn. split; [exact Hs|]. cbn [loops]. apply G. discriminate.
  - inversion Hn; subst; split; auto.
  - destruct (untils s u); inversion Hn; subst; split; auto.
  - destruct (untils s u); inversion Hn; subst; split; auto.
  - destruct (untils s u); inversion Hn; subst; split; auto.
  - inversion Hn; subst; split; auto.
Qed.

Lemma loop_untils t s ev s' u : is_loop_event ev = true -> next t s ev = Some s' -> untils s' u <> UIdle -> untils s u <> UIdle.
Proof.
  intros El Hn. destruct ev as [|i|i|i a|i| |v|v|v|]; cbn [next is_loop_event] in *; try discriminate;
    (destruct (nth_error (loops s) i) as [[]|]; try discriminate).
  - inversion Hn; subst. easy.
  - destruct (req s); inversion Hn; subst; cbn [set_loop untils]; [|easy]. destruct (count s =? 1); [|easy]. unfold wake_all. destruct (untils s u); easy.
  - destruct a; inversion Hn; subst; easy.
  - inversion Hn; subst. easy.
Qed.

Lemma inv2_step t s ev s' : inv2 t s -> late_until s ev -> next t s ev = Some s' -> inv2 t s'.
Proof.
  intros [HI Hd Hu Hdn] HP Hn. pose proof (inv_step t s ev s' HI Hn) as HI'.
  assert (Hbu : (exists u, untils s' u <> UIdle) -> all_begun s').
  { intros (u & Hnu). destruct (is_loop_event ev) eqn:El.
    { eapply begun_step; [apply Hu; exists u; eapply loop_untils; eassumption|exact Hn]. }
    destruct ev as [|i|i|i a|i| |v|v|v|]; cbn [next is_loop_event late_until] in *; try discriminate.
    - destruct (started s) eqn:Es; [discriminate|]. inversion Hn; subst. cbn [untils] in Hnu. destruct Hu as [Hx _]; [eauto|]. congruence.
    - inversion Hn; subst. apply Hu. exists u. exact Hnu.
    - destruct (untils s v); inversion Hn; subst. exact HP.
    - destruct (untils s v) eqn:E; inversion Hn; subst. apply Hu. exists v. congruence.
    - destruct (untils s v) eqn:E; inversion Hn; subst. apply Hu. exists v. congruence.
    - inversion Hn; subst. apply Hu. exists u. exact Hnu. }
  split; [exact HI'| |exact Hbu|].
  - destruct ev as [|i|i|i a|i| |v|v|v|]; cbn [next late_until] in *.
    + destruct (started s); inversion Hn; subst; exact Hd.
    + destruct (nth_error (loops s) i) as [[]|]; inversion Hn; subst; exact Hd.
    + destruct (nth_error (loops s) i) as [[]|]; try discriminate. destruct (req s); inversion Hn; subst; exact Hd.
    + destruct (nth_error (loops s) i) as [[]|]; try discriminate. destruct a; inversion Hn; subst; exact Hd.
    + destruct (nth_error (loops s) i) as [[]|]; inversion Hn; subst; exact Hd.
    + inversion Hn; subst; exact Hd.
    + destruct (untils s v); inversion Hn; subst; exact Hd.
    + destruct (untils s v); inversion Hn; subst; exact Hd.
    + destruct (untils s v); inversion Hn; subst; exact Hd.
    + inversion Hn; subst. cbn. now rewrite Hd, HP.
  - intros (u & Hud). destruct HI as [Il Ic Ie Ih].
    assert (Hur : user_ready s = (count s =? 0)) by (unfold user_ready; now rewrite Hd).
    destruct ev as [|i|i|i a|i| |v|v|v|]; cbn [next] in Hn.
    + destruct (started s); inversion Hn; subst. apply Hdn. eauto.
    + destruct (nth_error (loops s) i) as [[]|] eqn:E; inversion Hn; subst. cbn [untils] in Hud. destruct Hu as [_ Hb]; [exists u; congruence|]. exfalso. eapply Hb; exact E.
    + destruct (nth_error (loops s) i) as [[]|] eqn:E; try discriminate. pose proof (act_set _ _ Ended _ E) as Ha. cbn in Ha. destruct (req s); inversion Hn; subst; cbn [set_loop untils count] in *.
      * destruct (Nat.eqb_spec (count s) 1) as [H1|H1]; [lia|]. rewrite (Hdn (ex_intro _ u Hud)). reflexivity.
      * apply Hdn. eauto.
    + destruct (nth_error (loops s) i) as [[]|]; try discriminate. destruct a; inversion Hn; subst; apply Hdn; eauto.
    + destruct (nth_error (loops s) i) as [[]|]; inversion Hn; subst. apply Hdn; eauto.
    + inversion Hn; subst. apply Hdn; eauto.
    + destruct (untils s v) eqn:E; inversion Hn; subst. cbn [set_until untils count] in *. destruct (Nat.eq_dec u v) as [->|Hne]; [|rewrite upd_other in Hud by easy; eauto].
      rewrite upd_same in Hud. rewrite Hur in Hud. destruct (Nat.eqb_spec (count s) 0); [easy|]. rewrite andb_false_r in Hud. discriminate.
    + destruct (untils s v) eqn:E; inversion Hn; subst. cbn [set_until untils count] in *. destruct (Nat.eq_dec u v) as [->|Hne]; [|rewrite upd_other in Hud by easy; eauto].
      rewrite upd_same in Hud. rewrite Hur in Hud. destruct (Nat.eqb_spec (count s) 0); [easy|]. discriminate.
    + destruct (untils s v) eqn:E; inversion Hn; subst. cbn [set_until untils count] in *. destruct (Nat.eq_dec u v) as [->|Hne]; [|rewrite upd_other in Hud by easy; eauto].
      rewrite upd_same in Hud. discriminate.
    + inversion Hn; subst. apply Hdn; eauto.
Qed.
Lemma inv2_init t : inv2 t init.
Proof. split; [apply inv_init|reflexivity| |]; intros (u & H); cbn in H; congruence. Qed.
Lemma inv2_run t l s : run_all (next t) late_until init l -> run (next t) init l = Some s -> inv2 t s.
Proof. intros HP HR. eapply run_inv_cond; [|apply inv2_init|exact HP|exact HR]. intros; eapply inv2_step; eassumption. Qed.

Lemma act_zero l : sumf act1 l = 0 -> (forall i, nth_error l i <> Some Spawned) -> forall i x, nth_error l i = Some x -> x = Ended.
Proof.
  induction l as [|y l IH]; intros H Hb [|i] x Hx; cbn in *; try discriminate.
  - inversion Hx; subst. pose proof (Hb 0) as H0. cbn in H0. destruct x; cbn in H; congruence || lia.
  - apply (IH ltac:(lia) (fun j => Hb (S j)) i). exact Hx.
Qed.
