(** What holds of C94: undefined behaviour comes from misuse only, and everything else goes through. *)
From Coq Require Import List Arith Bool Lia.
From Verif.Common Require Import TS.
From Verif.WSQueue Require Import Model Spec Proofs.
Import ListNotations.

(** somewhere in the execution a task was enqueued before any consumer registered, or a thread that never registered dequeued *)
Definition misused (l : list event) : Prop :=
  exists l1 e l2 s, l = l1 ++ e :: l2 /\ run next init l1 = Some s /\ ~ proper_use s e.

(** Undefined behaviour happens exactly in executions with such a misuse. *)
Theorem C94_exactly_misuse_partial : forall l s, run next init l = Some s -> (ub s = true <-> misused l).
Proof.
  induction l as [|e l IH] using rev_ind; intros s Hr.
  - injection Hr as <-. split; [discriminate|]. intros (l1 & e & l2 & s & E & _). destruct l1; discriminate.
  - destruct (run_app_inv _ _ _ _ _ Hr) as (s1 & R1 & R2). cbn [run] in R2. destruct (next s1 e) as [s2|] eqn:En; [|discriminate]. injection R2 as <-.
    assert (U1 : ub s1 = false) by (unfold next, step in En; destruct (ub s1); [discriminate|reflexivity]).
    pose proof (IH s1 R1) as IH1. rewrite U1 in IH1.
    assert (N : ~ misused l) by (intros M; apply IH1 in M; discriminate).
    assert (P : run_all next proper_use init l).
    { clear -N. assert (G : forall k p s, run next init p = Some s -> l = p ++ k -> run_all next proper_use s k).
      { induction k as [|e k IHk]; cbn [run_all]; intros p s Hp E; [exact I|]. split.
        - destruct e as [t|a b x|t kk o|t kk]; cbn; try exact I.
          + intros K. apply N. exists p, (EEnqueue a b x), k, s. cbn. auto.
          + destruct (memb t (keys s)) eqn:M; [now apply memb_In|]. exfalso. apply N. exists p, (EDeqOwn t kk o), k, s.
            repeat split; auto. cbn. apply memb_nIn. exact M.
        - intros s' Hs'. apply (IHk (p ++ [e])); [rewrite (run_app next init p [e] s Hp); cbn [run]; now rewrite Hs'|rewrite E, <- app_assoc; reflexivity]. }
      exact (G l [] init eq_refl eq_refl). }
    split.
    + intros U. exists l, e, [], s1. split; [reflexivity|]. split; [exact R1|]. intros PU.
      assert (run_all next proper_use init (l ++ [e])) as PA.
      { clear -P R1 PU. revert P R1. generalize init as z. induction l as [|x l IHl]; cbn [run_all run app]; intros z P R1.
        - injection R1 as ->. split; [exact PU|]. auto.
        - destruct P as [Px P]. split; [exact Px|]. intros s' Hs'. rewrite Hs' in R1. apply IHl; auto. }
      rewrite (no_ub _ _ PA Hr) in U. discriminate.
    + intros (l1 & x & l2 & s0 & E & R0 & NP). destruct l2 as [|y l2] using rev_ind.
      * apply app_inj_tail in E. destruct E as [-> ->]. assert (s0 = s1) by congruence. subst s0.
        unfold next, step in En. rewrite U1 in En. destruct x as [t|a b v|t k o|t k]; cbn in NP; try (exfalso; now apply NP).
        -- destruct (keys s1) as [|k0 ks] eqn:K; [|exfalso; apply NP; discriminate].
           cbn in En. injection En as <-. reflexivity.
        -- apply memb_nIn in NP. rewrite NP in En. destruct (at_ s1 t); [|discriminate]. injection En as <-. reflexivity.
      * exfalso. apply N. rewrite app_comm_cons, app_assoc in E. apply app_inj_tail in E. destruct E as [-> _].
        exists l1, x, l2, s0. auto.
Qed.
Print Assumptions C94_exactly_misuse_partial.

(** A thread that is not a registered consumer may enqueue as soon as some consumer registered: the task enters the queue. *)
Theorem C94_any_thread_may_enqueue_partial : forall l s a b x, run next init l = Some s -> ub s = false -> In b (keys s) ->
  exists s', next s (EEnqueue a b x) = Some s' /\ ub s' = false /\ size s' = S (size s) /\
    trace next observe s [EEnqueue a b x] = [In_ x].
Proof.
  intros l s a b x Hr U Hb. assert (K : keys s <> []) by (intros K; rewrite K in Hb; destruct Hb).
  assert (ND : NoDup (keys s)).
  { clear -Hr. refine (run_inv next (fun s => NoDup (keys s)) _ l init s _ Hr); [|constructor].
    intros s0 e s1 H Hn. unfold next, step in Hn. destruct (ub s0); [discriminate|].
    assert (T : forall j k r s', try_dequeue s0 j k = Some (r, s') -> keys s' = keys s0).
    { intros j k r s' E. unfold try_dequeue in E. destruct (q s0 j); [injection E as <- <-; reflexivity|].
      destruct (take_nth k _) as [[? ?]|]; [injection E as <- <-; reflexivity|discriminate]. }
    destruct e as [t|a b x|t k o|t k].
    - destruct (memb t (keys s0)) eqn:M; cbn in Hn; injection Hn as <-; [exact H|]. cbn. constructor; [now apply memb_nIn|exact H].
    - destruct (memb a (keys s0)); cbn in Hn; [injection Hn as <-; exact H|].
      destruct (keys s0) as [|n l0] eqn:E; cbn in Hn; [injection Hn as <-; cbn; rewrite E; constructor|].
      destruct ((b =? n) || existsb (Nat.eqb b) l0); cbn in Hn; [|discriminate]. injection Hn as <-. cbn. exact H.
    - destruct (at_ s0 t); [|discriminate]. destruct (memb t (keys s0)); cbn in Hn; [|injection Hn as <-; exact H].
      destruct (same_keys (keys s0) o); [|discriminate]. destruct (try_dequeue s0 t k) as [[[y|] s2]|] eqn:E; cbn in Hn; try discriminate; injection Hn as <-; cbn; rewrite (T _ _ _ _ E); exact H.
    - destruct (at_ s0 t) as [|[|j rest]]; try discriminate; cbn in Hn; [injection Hn as <-; exact H|].
      destruct (try_dequeue s0 j k) as [[[y|] s2]|] eqn:E; cbn in Hn; try discriminate; injection Hn as <-; cbn; rewrite (T _ _ _ _ E); exact H. }
  assert (TT : forall j f ks, NoDup ks -> In j ks -> total ks (upd f j (f j ++ [x])) = S (total ks f)).
  { intros j f ks. assert (Z : forall zs, ~ In j zs -> total zs (upd f j (f j ++ [x])) = total zs f).
    { induction zs as [|y ys IHy]; cbn; intros Hi; [reflexivity|]. rewrite IHy by tauto. rewrite upd_other by intuition. reflexivity. }
    induction ks as [|y ys IHy]; cbn; intros Hn Hi; [easy|]. inversion Hn; subst. destruct (Nat.eq_dec y j) as [->|Hd].
    - rewrite upd_same, Z by assumption. rewrite app_length; cbn. lia.
    - rewrite upd_other by auto. destruct Hi as [Hi|Hi]; [easy|]. rewrite IHy by assumption. lia. }
  cbn [trace]. unfold next, observe, step. rewrite U. destruct (memb a (keys s)) eqn:M.
  - cbn. eexists. split; [reflexivity|]. cbn [ub]. split; [first [exact U|reflexivity]|]. split; [|reflexivity]. unfold size. cbn [keys q]. apply TT; [exact ND|now apply memb_In].
  - destruct (keys s) as [|k0 ks] eqn:EK; [easy|]. rewrite (proj2 (memb_In b (k0 :: ks)) Hb). cbn [option_map fst].
    eexists. split; [reflexivity|]. cbn [ub]. split; [first [exact U|reflexivity]|]. split; [|reflexivity].
    unfold size. cbn [keys q]. rewrite EK. apply TT; [exact ND|exact Hb].
Qed.
Print Assumptions C94_any_thread_may_enqueue_partial.
Example C94_case : exists s, run next init [ERegister 1; ERegister 2; EEnqueue 9 2 5] = Some s /\ ub s = false /\ size s = 1 /\ In 2 (keys s) /\ ~ In 9 (keys s).
Proof. eexists. split; [reflexivity|]. cbn. intuition congruence. Qed.
