(** C119: what the tasks of a program do, in the model of Model.v: each executes its own code, from the beginning and in order, nothing twice and nothing left out. *)
From Coq Require Import List Arith Bool Lia.
From Verif.Common Require Import TS Sum.
From Verif.Blocking Require Import Model Props.
Import ListNotations.
#[local] Arguments upd : simpl never.

(** ** specification *)
Inductive act := AYield | ASleep | AStart (eager : bool) (p : prog) | AGet (i : nat) | AAwait (i : nat).
(** the actions of a piece of code (not of the tasks it starts) *)
Fixpoint actions (p : prog) : list act :=
  match p with Ret => [] | Yield k => AYield :: actions k | Sleep k => ASleep :: actions k | Spawn e q k => AStart e q :: actions k | Get i k => AGet i :: actions k | Await i k => AAwait i :: actions k end.
(** the log: which task begins which action *)
Definition did (s : state) (e : event) (s' : state) : list (nat * act) :=
  match e with Act w => match stacks s w with t :: _ => map (pair t) (firstn 1 (actions (rest (tasks s t)))) | [] => [] end | _ => [] end.
Definition log (n : nat) (main : prog) (l : list event) : list (nat * act) := trace (step n) did (init n main) l.
(** what task [t] has done *)
Definition done_by (t : nat) (lg : list (nat * act)) : list act := map snd (filter (fun x => fst x =? t) lg).
(** the code of task [t]: main() is task 0, the others are numbered as they are started *)
Definition starts (lg : list (nat * act)) : list prog := flat_map (fun x => match snd x with AStart _ p => [p] | _ => [] end) lg.
Definition code (main : prog) (lg : list (nat * act)) (t : nat) : option prog := nth_error (main :: starts lg) t.

(** ** proof *)
Definition K (main : prog) (lg : list (nat * act)) (s : state) : Prop :=
  count s = S (length (starts lg)) /\ (forall t, t < count s -> exists p, code main lg t = Some p /\ actions p = done_by t lg ++ actions (rest (tasks s t))) /\ forall t, count s <= t -> done_by t lg = [].
Lemma code_more main lg lg' t p : code main lg t = Some p -> code main (lg ++ lg') t = Some p.
Proof.
  unfold code. intros H. unfold starts. rewrite flat_map_app. fold (starts lg) (starts lg'). change (nth_error ((main :: starts lg) ++ starts lg') t = Some p). rewrite nth_error_app1; [exact H|]. apply nth_error_Some. congruence.
Qed.
Lemma done_app t lg lg' : done_by t (lg ++ lg') = done_by t lg ++ done_by t lg'.
Proof. unfold done_by. now rewrite filter_app, map_app. Qed.
Lemma starts_app lg lg' : starts (lg ++ lg') = starts lg ++ starts lg'.
Proof. apply flat_map_app. Qed.
(** a step that changes no code *)
Lemma K_same main lg s s' : K main lg s -> count s' = count s -> (forall t, rest (tasks s' t) = rest (tasks s t)) -> K main (lg ++ []) s'.
Proof. intros (H1 & H2 & H3) C R. rewrite app_nil_r. split; [congruence|]. split; [intros t Ht; rewrite R; apply H2; congruence|intros t Ht; apply H3; congruence]. Qed.
(** task [t] does [a] *)
Lemma K_act main lg s s' t a k : K main lg s -> t < count s -> actions (rest (tasks s t)) = a :: actions k -> match a with AStart _ _ => False | _ => True end ->
  count s' = count s -> rest (tasks s' t) = k -> (forall u, u <> t -> rest (tasks s' u) = rest (tasks s u)) -> K main (lg ++ [(t, a)]) s'.
Proof.
  intros (H1 & H2 & H3) Ht Ha Hn C R1 R2. split; [|split].
  - rewrite C, starts_app, H1. destruct a; try contradiction; cbn; now rewrite app_nil_r.
  - intros u Hu. destruct (H2 u ltac:(congruence)) as (p & P1 & P2). exists p. split; [now apply code_more|]. rewrite done_app, P2. unfold done_by at 3. cbn. destruct (Nat.eqb_spec t u) as [<-|N]; cbn.
    + rewrite Ha, R1, <- app_assoc. reflexivity.
    + now rewrite app_nil_r, R2 by congruence.
  - intros u Hu. rewrite done_app, H3 by congruence. unfold done_by. cbn. rewrite (proj2 (Nat.eqb_neq t u)) by lia. reflexivity.
Qed.
Lemma K_step n main lg s e s' : Inv n s -> K main lg s -> step n s e = Some s' -> K main (lg ++ did s e s') s'.
Proof.
  intros HI HK Hs. unfold step in Hs. destruct e as [w t|w|w|t|t]; cbn [did].
  - destruct ((w <? n) && (t <? count s)); [|discriminate]. destruct (stacks s w); [|discriminate]. destruct (st (tasks s t)); try discriminate. injection Hs as <-. apply (K_same _ _ s); [exact HK|reflexivity|]. intros u. cbn. unfold upd. destruct (Nat.eqb_spec u t) as [->|]; reflexivity.
  - destruct (stacks s w) as [|t r] eqn:Ew; [discriminate|]. destruct (i_in _ _ HI w t) as (_ & Ht & _); [rewrite Ew; left; reflexivity|].
    assert (O : forall x stk u, u <> t -> rest (tasks (set s t x w stk) u) = rest (tasks s u)) by (intros x stk u N; cbn; now rewrite upd_other).
    assert (S1 : forall x stk, rest (tasks (set s t x w stk) t) = rest x) by (intros; cbn; now rewrite upd_same).
    destruct (st (tasks s t)); try discriminate. destruct (rest (tasks s t)) as [|k|k|e p k|i k|i k] eqn:Er; cbn [actions firstn map].
    + injection Hs as <-. apply (K_same _ _ s); [exact HK|reflexivity|]. intros u. cbn. unfold upd. destruct (Nat.eqb_spec u t) as [->|]; [now rewrite Er|reflexivity].
    + injection Hs as <-. apply (K_act _ _ s _ _ _ k); auto; try now rewrite Er. apply S1.
    + destruct (w <? n); [|discriminate]. injection Hs as <-. apply (K_act _ _ s _ _ _ k); auto; try now rewrite Er. apply S1.
    + injection Hs as <-. destruct HK as (H1 & H2 & H3). split; [|split].
      * cbn [count]. rewrite starts_app, app_length. cbn. lia.
      * cbn [count tasks]. intros u Hu. destruct (Nat.eq_dec u (count s)) as [->|N].
        -- exists p. rewrite upd_same. cbn [rest]. split.
           ++ unfold code. rewrite starts_app, H1. cbn [nth_error]. rewrite nth_error_app2, Nat.sub_diag by lia. reflexivity.
           ++ rewrite done_app. unfold done_by at 2. cbn. rewrite (proj2 (Nat.eqb_neq t (count s))) by lia. cbn. rewrite app_nil_r.
              now rewrite H3 by lia.
        -- destruct (H2 u ltac:(lia)) as (q & P1 & P2). exists q. split; [now apply code_more|]. rewrite upd_other by assumption. rewrite done_app, P2. unfold done_by at 3. cbn. unfold upd. rewrite (Nat.eqb_sym u t). destruct (Nat.eqb_spec t u) as [<-|N']; cbn.
           ++ rewrite Er, <- app_assoc. reflexivity.
           ++ now rewrite app_nil_r.
      * cbn [count]. intros u Hu. rewrite done_app, H3 by lia. unfold done_by. cbn. rewrite (proj2 (Nat.eqb_neq t u)) by lia. reflexivity.
    + destruct (nth_error (kids (tasks s t)) i) as [c|]; [|discriminate]. injection Hs as <-. apply (K_act _ _ s _ _ _ k); auto; try now rewrite Er. apply S1.
    + destruct (nth_error (kids (tasks s t)) i) as [c|]; [|discriminate]. injection Hs as <-. destruct (is_done s c); (apply (K_act _ _ s _ _ _ k); [exact HK|exact Ht|now rewrite Er|exact I|reflexivity|apply S1|apply O]).
  - destruct (stacks s w) as [|t r]; [discriminate|]. destruct (st (tasks s t)); try discriminate. destruct (is_done s c); [|discriminate]. injection Hs as <-. apply (K_same _ _ s); [exact HK|reflexivity|]. intros u. cbn. unfold upd. destruct (Nat.eqb_spec u t) as [->|]; reflexivity.
  - destruct (st (tasks s t)); try discriminate. destruct (is_done s c); [|discriminate]. injection Hs as <-. apply (K_same _ _ s); [exact HK|reflexivity|]. intros u. cbn. unfold upd. destruct (Nat.eqb_spec u t) as [->|]; reflexivity.
  - destruct (st (tasks s t)); try discriminate. destruct (stacks s w); [|discriminate]. injection Hs as <-. apply (K_same _ _ s); [exact HK|reflexivity|]. intros u. cbn. unfold upd. destruct (Nat.eqb_spec u t) as [->|]; reflexivity.
Qed.
(** Each task has done a beginning of its code, and what is left is what it has not done; when the program is finished each task has done all its code. *)
Theorem C119_each_task_runs_its_code : forall n main l s, wf 0 main -> run (step n) (init n main) l = Some s ->
  forall t, t < count s -> exists p, code main (log n main l) t = Some p /\ actions p = done_by t (log n main l) ++ actions (rest (tasks s t)) /\ (finished s -> done_by t (log n main l) = actions p).
Proof.
  intros n main l s Hwf Hr. assert (H : K main (log n main l) s).
  { revert s Hr. unfold log. induction l as [|e l IH] using rev_ind; intros s Hr.
    - cbn in Hr. injection Hr as <-. split; [reflexivity|]. split; [|reflexivity]. cbn. intros t Ht. assert (t = 0) by lia. subst. exists main. auto.
    - apply run_app_inv in Hr. destruct Hr as (s1 & R1 & R2). cbn in R2. destruct (step n s1 e) as [s2|] eqn:E; [|discriminate]. injection R2 as <-.
      rewrite (trace_app _ _ _ _ _ _ R1). cbn. rewrite E, app_nil_r. apply (K_step n); [eapply Inv_run; eauto|auto|exact E]. }
  intros t Ht. destruct H as (_ & H & _). destruct (H t Ht) as (p & P1 & P2). exists p. split; [exact P1|]. split; [exact P2|]. intros F. rewrite P2. destruct (F t Ht) as (_ & ->). cbn. now rewrite app_nil_r.
Qed.
Print Assumptions C119_each_task_runs_its_code.
Example C119_code_case : exists s, run (step 2) (init 2 (Spawn false (Yield (Sleep Ret)) (Get 0 Ret))) [Act 2; Take 0 1; Act 0; Act 2; Take 1 1; Act 1; Due 1; Take 1 1; Act 1; Unblock 2; Act 2] = Some s /\ count s = 2 /\
  log 2 (Spawn false (Yield (Sleep Ret)) (Get 0 Ret)) [Act 2; Take 0 1; Act 0; Act 2; Take 1 1; Act 1; Due 1; Take 1 1; Act 1; Unblock 2; Act 2] = [(0, AStart false (Yield (Sleep Ret))); (1, AYield); (0, AGet 0); (1, ASleep)].
Proof. eexists. split; [reflexivity|]. split; reflexivity. Qed.
