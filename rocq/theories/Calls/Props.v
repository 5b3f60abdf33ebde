(** C146: [co_await f(...)] means what the call [f(...)] of an ordinary function means. The programs, and what they mean as function calls, are in Spec.v. *)
From Coq Require Import List Arith Bool Lia Permutation.
From Verif.Common Require Import TS Sum.
From Verif.Calls Require Import Spec Model Proofs Steps Steps2 Runs.
Import ListNotations.

(** Every execution, on any number of workers: what happened so far, with what is still to come, is what the program does as function calls, but for destructors of locals that come late;
    the effects of the bodies are exactly in the order of the calls. What result() returns or throws is the result of the calls, and by then every effect of a body has happened. *)
Theorem C146_like_calls n eager c ds l s : run (step n) (init n eager c ds) l = Some s ->
  (exists u, delayed (program c ds) (out s ++ u)) /\
  prefix (filter is_eff (out s)) (filter is_eff (program c ds)) /\
  (forall r, ret s = Some r -> r = snd (meaning c) /\ filter is_eff (out s) = filter is_eff (program c ds)).
Proof.
  intros R. destruct (run_good n l _ s (Inv_init n eager c ds) R) as (HI & W & Sn & _). rewrite whole_init in W. unfold whole in W. rewrite rest_init in Sn. cbn [snd] in Sn.
  split; [eexists; exact W|]. destruct (d_filter _ _ W) as [F _]. rewrite !filter_app in F. split; [eexists; symmetry; exact F|].
  intros r Hr. destruct (done_empty n s r HI Hr) as [_ E]. rewrite E in *. cbn [fst snd filter] in *. split; [exact Sn|]. rewrite app_nil_r in F. rewrite <- F.
  assert (Z : forall m, filter is_eff (map Dtor m) = []) by (induction m; cbn; auto). now rewrite Z, app_nil_r.
Qed.
(** It always gets there: however the threads are scheduled an execution has at most so many steps, something can happen until runtime_exit() has returned,
    and then result() has returned, everything the program does has happened, and nothing is left behind. *)
Theorem C146_completes n eager c ds l s : 0 < n -> run (step n) (init n eager c ds) l = Some s ->
  length l <= cost c + length ds + 5 /\
  ((forall e, step n s e = None) -> exited s = true) /\
  (exited s = true -> ret s = Some (snd (meaning c)) /\ delayed (program c ds) (out s) /\ Permutation (out s) (program c ds) /\ depth s = 0 /\ forall t, thr s t = []).
Proof.
  intros Hn R. destruct (run_good n l _ s (Inv_init n eager c ds) R) as (HI & W & Sn & Wt). pose proof (weight_init n eager c ds). split; [lia|]. split.
  - intros Stuck. destruct (exited s) eqn:Ex; [reflexivity|]. destruct (progress n s Hn HI Ex) as (e & s' & E). rewrite Stuck in E. discriminate.
  - intros Ex. destruct (i_exit _ _ HI Ex) as [Hr Ht]. destruct (ret s) as [r|] eqn:Er; [|congruence]. destruct (done_empty n s r HI Er) as [D E]. rewrite whole_init in W. unfold whole in W. rewrite rest_init in Sn. rewrite E in *. cbn [fst snd] in *.
    rewrite (pending_empty n _ Ht) in W. cbn [map app] in W. rewrite app_nil_r in W. split; [congruence|]. split; [exact W|]. split; [exact (proj2 (d_filter _ _ W))|]. split; [exact D|exact Ht].
Qed.
(** With one worker, and a first coroutine that is not run by the caller of result() itself, destructors too run exactly when those of a function call do. *)
Theorem C146_one_worker c ds l s : run (step 1) (init 1 false c ds) l = Some s -> prefix (out s) (program c ds) /\ (exited s = true -> out s = program c ds).
Proof.
  intros R. assert (X : Inv 1 s /\ thr s 1 = [] /\ out s ++ map Dtor (pd (thr s 0)) ++ fst (rest s) = program c ds).
  { assert (G : forall l s0 s, Inv 1 s0 -> thr s0 1 = [] -> run (step 1) s0 l = Some s -> Inv 1 s /\ thr s 1 = [] /\ out s ++ map Dtor (pd (thr s 0)) ++ fst (rest s) = out s0 ++ map Dtor (pd (thr s0 0)) ++ fst (rest s0)).
    { clear. induction l as [|e l IH]; cbn [run]; intros s0 s A B R; [injection R as <-; auto|]. destruct (step 1 s0 e) as [s1|] eqn:E; [|discriminate]. rewrite <- (one_step s0 e s1 A B E).
      apply (IH s1 s); [exact (proj1 (step_good 1 s0 e s1 A E))|exact (outside_idle 1 s0 e s1 B E)|exact R]. }
    destruct (G l _ s (Inv_init 1 false c ds) eq_refl R) as (A & B & C). split; [exact A|]. split; [exact B|]. rewrite C, rest_init. reflexivity. }
  destruct X as (A & B & C). split; [eexists; symmetry; exact C|]. intros Ex. destruct (i_exit _ _ A Ex) as [Hr Ht]. rewrite (Ht 0) in C. destruct (ret s) as [r|] eqn:Er; [|congruence]. destruct (done_empty 1 s r A Er) as [_ E]. rewrite E in C. cbn in C. now rewrite app_nil_r in C.
Qed.

(** With two workers they do not: the value is delivered before the locals of the callee are destroyed (C97), so another worker goes on with the caller while they still exist. *)
Definition late : code := Call false (Emit 1 (Ret 7)) [5] (fun _ => Emit 2 (Ret 0)).
Theorem C146_destructors_late_refuted : exists l s, run (step 2) (init 2 false late []) l = Some s /\ exited s = true /\ program late [] = [Eff 1; Dtor 5; Eff 2] /\ out s = [Eff 1; Eff 2; Dtor 5].
Proof.
  assert (X : option_map (fun s => (exited s, out s)) (run (step 2) (init 2 false late []) [Take 0 0; Go 0; Go 0; Go 0; Take 0 1; Go 0; Go 0; Take 1 0; Go 1; Go 1; Go 1; Go 0; Go 0; Get; Exit]) = Some (true, [Eff 1; Eff 2; Dtor 5])) by (vm_compute; reflexivity).
  apply run_proj_ok in X. destruct X as (s & R & E). injection E as E1 E2. eexists _, s. split; [exact R|]. split; [exact E1|]. split; [reflexivity|exact E2].
Qed.

(** The quick start (README.md 11-38): "hello ", "koios' ", "world!", and 1 for main(), whatever the schedule, in at most 27 steps. *)
Definition task3 : code := Emit 3 (Ret 0).
Definition task2 : code := Emit 2 (Call true task3 [] (fun r => match r with Val _ => Ret 1 | Exn x => Throw x end)).
Definition task1 : code := Emit 1 (Call true task2 [] (fun r => match r with Val v => Ret v | Exn x => Throw x end)).
Theorem C146_quick_start l s : run (step 12) (init 12 true task1 []) l = Some s -> length l <= 27 /\ prefix (out s) [Eff 1; Eff 2; Eff 3] /\ ((forall e, step 12 s e = None) -> out s = [Eff 1; Eff 2; Eff 3] /\ ret s = Some (Val 1)).
Proof.
  intros R. destruct (C146_completes 12 true task1 [] l s ltac:(lia) R) as (A & B & C). destruct (C146_like_calls 12 true task1 [] l s R) as ((u & D) & _ & _). split; [cbn in A; lia|].
  assert (X : forall q, delayed [Eff 1; Eff 2; Eff 3] q -> q = [Eff 1; Eff 2; Eff 3]). { intros q H. destruct (d_filter _ _ H) as [F P]. cbn in F. assert (E : filter is_eff q = q); [|congruence]. assert (Y : forall x, In x q -> is_eff x = true). { intros x Hx. apply (Permutation_in _ P) in Hx. cbn in Hx. intuition (subst; reflexivity). } clear - Y. induction q as [|x q IH]; cbn; [reflexivity|]. rewrite Y by now left. f_equal. apply IH. intros y Hy. apply Y. now right. }
  change (program task1 []) with [Eff 1; Eff 2; Eff 3] in *. split; [exists u; symmetry; now apply X|]. intros St. destruct (C (B St)) as (P & Q & _). split; [now apply X|exact P].
Qed.
(** example/main.cc 41-63, with any number [k] of iterations (10 there) and any number of workers (2 there): main_body() awaits func1(i) for each i; it ends, after at most 9k + 6 steps, and so does main(). *)
Definition func1 (i : nat) : code := Ret (1 + i).
Fixpoint main_body_from (i k : nat) : code :=
  match k with 0 => Ret 0 | S k => Call false (func1 i) [] (fun r => match r with Val _ => main_body_from (S i) k | Exn x => Throw x end) end.
Theorem C146_example_main n k l s : 0 < n -> run (step n) (init n false (main_body_from 0 k) []) l = Some s ->
  length l <= 9 * k + 6 /\ out s = [] /\ ((forall e, step n s e = None) -> exited s = true /\ ret s = Some (Val 0) /\ depth s = 0 /\ forall t, thr s t = []).
Proof.
  intros Hn R. destruct (C146_completes n false _ [] l s Hn R) as (A & B & C). destruct (C146_like_calls n false _ [] l s R) as ((u & D) & _ & _).
  assert (M : forall k i, meaning (main_body_from i k) = ([], Val 0) /\ cost (main_body_from i k) = 9 * k + 1). { induction k0 as [|k0 IH]; intros i; cbn; [auto|]. destruct (IH (S i)) as [-> ->]. cbn. split; [reflexivity|lia]. }
  destruct (M k 0) as [M1 M2]. rewrite M2 in A. rewrite M1 in C. split; [cbn in A; lia|]. split.
  - destruct (d_filter _ _ D) as [_ P]. unfold program in P. rewrite M1 in P. cbn in P. apply Permutation_sym, Permutation_nil, app_eq_nil in P. tauto.
  - intros St. destruct (C (B St)) as (P & _ & _ & Q & T). auto.
Qed.
(** Something with everything: a lazy coroutine that suspends and throws, with locals; its caller catches what it threw and calls again; and an execution of it. *)
Definition demo : code :=
  Emit 1 (Call false (Emit 2 (Suspend (Emit 3 (Throw 9)))) [5; 6]
    (fun r => match r with Exn x => Call true (Emit x (Suspend (Ret 4))) [7] (fun r => match r with Val v => Emit v (Ret v) | Exn x => Throw x end) | Val v => Ret v end)).
Example C146_case : exists l s, run (step 2) (init 2 false demo [8]) l = Some s /\ exited s = true /\ ret s = Some (Val 4) /\ out s = [Eff 1; Eff 2; Eff 3; Dtor 5; Dtor 6; Eff 9; Eff 4; Dtor 8; Dtor 7] /\
  program demo [8] = [Eff 1; Eff 2; Eff 3; Dtor 5; Dtor 6; Eff 9; Dtor 7; Eff 4; Dtor 8] /\ cost demo + 1 + 5 = 39.
Proof.
  assert (X : option_map (fun s => (exited s, ret s, out s)) (run (step 2) (init 2 false demo [8])
    [Take 0 0; Go 0; Go 0; Go 0; Take 1 1; Go 1; Go 1; Go 0; Wake 1; Take 1 1; Go 1; Go 1; Go 1; Go 1; Go 1; Take 0 0; Go 0; Go 0; Go 0; Go 0; Go 0; Wake 1; Take 0 1; Go 0; Take 1 0; Go 1; Go 1; Go 1; Go 1; Go 0; Go 0; Get; Exit])
    = Some (true, Some (Val 4), [Eff 1; Eff 2; Eff 3; Dtor 5; Dtor 6; Eff 9; Eff 4; Dtor 8; Dtor 7])) by (vm_compute; reflexivity).
  apply run_proj_ok in X. destruct X as (s & R & E). injection E as E1 E2 E3. eexists _, s. split; [exact R|]. split; [exact E1|]. split; [exact E2|]. split; [exact E3|]. split; reflexivity.
Qed.
Print Assumptions C146_example_main. Print Assumptions C146_like_calls.
Print Assumptions C146_completes.
Print Assumptions C146_one_worker.
Print Assumptions C146_destructors_late_refuted.
Print Assumptions C146_quick_start.
