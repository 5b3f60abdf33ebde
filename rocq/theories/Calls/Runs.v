(** Proofs for C146: whole executions. *)
From Coq Require Import List Arith Bool Lia Permutation.
From Verif.Common Require Import TS Sum.
From Verif.Calls Require Import Spec Model Proofs Steps Steps2.
Import ListNotations.

(** ** [delayed] *)
Lemma d_trans p q r : delayed p q -> delayed q r -> delayed p r.
Proof. intros H H'. induction H'; auto. now apply d_late. Qed.
Lemma d_ctx a b p q : delayed p q -> delayed (a ++ p ++ b) (a ++ q ++ b).
Proof.
  induction 1 as [|l1 d x l2 H IH]; [apply d_same|].
  replace (a ++ (l1 ++ x :: Dtor d :: l2) ++ b) with ((a ++ l1) ++ x :: Dtor d :: (l2 ++ b)) by (rewrite <- !app_assoc; reflexivity). apply d_late.
  replace ((a ++ l1) ++ Dtor d :: x :: (l2 ++ b)) with (a ++ (l1 ++ Dtor d :: x :: l2) ++ b) by (rewrite <- !app_assoc; reflexivity). exact IH.
Qed.
Lemma d_past : forall ds x, delayed (map Dtor ds ++ [x]) (x :: map Dtor ds).
Proof.
  induction ds as [|d ds IH]; intros x; cbn; [apply d_same|]. apply (d_late _ [] d x). cbn.
  pose proof (d_ctx [Dtor d] [] _ _ (IH x)) as H. rewrite !app_nil_r in H. exact H.
Qed.
Lemma d_perm ds es : Permutation ds es -> delayed (map Dtor ds) (map Dtor es).
Proof.
  induction 1 as [|x l l' _ IH|x y l|l l' l'' _ IH1 _ IH2]; cbn.
  - apply d_same.
  - pose proof (d_ctx [Dtor x] [] _ _ IH) as H. rewrite !app_nil_r in H. exact H.
  - apply (d_late _ [] y (Dtor x)). apply d_same.
  - now apply d_trans with (map Dtor l').
Qed.
Lemma d_filter p q : delayed p q -> filter is_eff q = filter is_eff p /\ Permutation q p.
Proof.
  induction 1 as [|l1 d x l2 H [IH1 IH2]]; [split; auto|]. split.
  - rewrite <- IH1. rewrite !filter_app. cbn. destruct (is_eff x); reflexivity.
  - rewrite <- IH2. apply Permutation_app_head, perm_swap.
Qed.

Section R.
  Variable n : nat.
  Notation Inv := (Inv n). Notation Thr := (Thr n). Notation weight := (weight n). Notation moved := (moved n).
  Definition pending (th : nat -> list act) : list nat := flat_map (fun t => pd (th t)) (seq 0 (S n)).
  Lemma flat_one (th th' : nat -> list act) (ds : list nat) t : (forall u, u <> t -> th' u = th u) -> pd (th' t) = ds ++ pd (th t) -> forall m a, a <= t < a + m ->
    Permutation (flat_map (fun t => pd (th' t)) (seq a m)) (ds ++ flat_map (fun t => pd (th t)) (seq a m)).
  Proof.
    intros H E. induction m as [|m IH]; intros a Ha; [lia|]. cbn [seq flat_map]. destruct (Nat.eq_dec a t) as [->|N].
    - rewrite E, <- app_assoc. apply Permutation_app_head, Permutation_app_head. assert (X : flat_map (fun t => pd (th' t)) (seq (S t) m) = flat_map (fun t => pd (th t)) (seq (S t) m)); [|now rewrite X].
      rewrite !flat_map_concat_map. f_equal. apply map_ext_in. intros u Hu. apply in_seq in Hu. rewrite H by lia. reflexivity.
    - rewrite (H a N). rewrite (IH (S a) ltac:(lia)). apply Permutation_app_swap_app.
  Qed.
  Lemma pending_one th th' ds t : t <= n -> (forall u, u <> t -> th' u = th u) -> pd (th' t) = ds ++ pd (th t) -> Permutation (pending th') (ds ++ pending th).
  Proof. intros Ht H E. apply (flat_one th th' ds t H E). lia. Qed.
  Lemma pending_none th th' : (forall t, th' t = th t) -> pending th' = pending th.
  Proof. intros H. unfold pending. rewrite !flat_map_concat_map. f_equal. apply map_ext. intros t. now rewrite H. Qed.
  (** what has happened, what threads are about to destroy, what is left to do *)
  Definition whole (s : state) : list obs := out s ++ map Dtor (pending (thr s)) ++ fst (rest s).
  Lemma moved_whole s s' : moved s s' -> delayed (whole s) (whole s') /\ snd (rest s') = snd (rest s).
  Proof.
    unfold whole. intros [x t i l A _ B C|t d A B Ht C D|t ds A Q B Ht C D].
    - rewrite A, B, (pending_none _ _ C). cbn [fst snd]. split; [|reflexivity]. rewrite <- app_assoc. cbn [app].
      pose proof (d_ctx (out s) (fst (rest s')) _ _ (d_past (pending (thr s)) x)) as H. rewrite <- app_assoc in H. cbn [app] in H. exact H.
    - rewrite A, B. split; [|reflexivity]. rewrite <- app_assoc. cbn [app]. assert (P : Permutation (pending (thr s)) (d :: pending (thr s'))).
      { apply (pending_one (thr s') (thr s) [d] t Ht); [intros u Hu; symmetry; now apply D|exact C]. }
      exact (d_ctx (out s) (fst (rest s)) _ _ (d_perm _ _ P)).
    - rewrite A, B. cbn [fst snd]. split; [|reflexivity]. assert (P : Permutation (pending (thr s) ++ ds) (pending (thr s'))).
      { rewrite (pending_one (thr s) (thr s') ds t Ht D C). apply Permutation_app_comm. }
      pose proof (d_ctx (out s) (fst (rest s')) _ _ (d_perm _ _ P)) as H. rewrite map_app, <- app_assoc in H. exact H.
  Qed.
  Lemma Inv_init e c ds : Inv (init n e c ds).
  Proof.
    unfold init. split; cbn [frames depth thr got ret exited out].
    - split.
      + intros t j. destruct e; cbn; [|contradiction]. destruct (t =? n); cbn; [|contradiction]. intros [X|[]]. injection X as <-. split; [lia|reflexivity].
      + intros j Hj. destruct e; cbn; [|discriminate]. intros _. exists n. split; [lia|]. rewrite Nat.eqb_refl. left. f_equal. lia.
      + intros t. destruct e; cbn; [|exact I]. destruct (t =? n); cbn; auto.
      + intros t t' j. destruct e; cbn; [|contradiction]. destruct (Nat.eqb_spec t n), (Nat.eqb_spec t' n); cbn; try contradiction. congruence.
      + intros t. destruct (e && (t =? n)); [|constructor]. repeat constructor. intros [].
      + intros t Ht. destruct (Nat.eqb_spec t n); [lia|]. now rewrite andb_false_r.
    - lia.
    - intros d _. destruct e; reflexivity.
    - split; [discriminate|congruence].
    - discriminate.
    - discriminate.
  Qed.
  Lemma weight_init e c ds : weight (init n e c ds) <= cost c + length ds + 5.
  Proof.
    unfold weight, levels, rest_cost, init. cbn [frames depth thr got ret exited out]. cbn [sum_to st locals slot].
    assert (Z : forall t, pw (if e && (t =? n) then [Run 0] else []) = 0) by (intros t; destruct (e && (t =? n)); reflexivity).
    rewrite Z. assert (X : forall m, sum_to m (fun t => pw (if e && (t =? n) then [Run 0] else [])) = 0). { induction m as [|m IH]; cbn [sum_to]; [reflexivity|]. now rewrite IH, Z. }
    rewrite X. unfold body_cost. cbn [locals after_cost]. destruct e; cbn; lia.
  Qed.
  Lemma rest_init e c ds : rest (init n e c ds) = (program c ds, snd (meaning c)).
  Proof. unfold rest, init. cbn [frames depth]. unfold body, code_of. cbn [st locals after fst snd]. unfold program. rewrite app_nil_r. destruct e; reflexivity. Qed.
  Lemma whole_init e c ds : whole (init n e c ds) = program c ds.
  Proof.
    unfold whole. rewrite rest_init. cbn [fst out init app]. unfold pending. cbn [init thr]. replace (flat_map _ _) with (@nil nat); [reflexivity|].
    symmetry. generalize (seq 0 (S n)). induction l as [|t l IH]; cbn [flat_map]; [reflexivity|]. rewrite IH. destruct (e && (t =? n)); reflexivity.
  Qed.
  Lemma run_good : forall l s s', Inv s -> run (step n) s l = Some s' -> Inv s' /\ delayed (whole s) (whole s') /\ snd (rest s') = snd (rest s) /\ length l + weight s' <= weight s.
  Proof.
    induction l as [|e l IH]; intros s s' HI R; cbn [run length] in *.
    - injection R as <-. split; [exact HI|]. split; [apply d_same|]. split; [reflexivity|lia].
    - destruct (step n s e) as [s1|] eqn:E; [|discriminate]. destruct (step_good n s e s1 HI E) as (A & B & C). destruct (IH s1 s' A R) as (D & F & G & H). destruct (moved_whole s s1 B) as [K L].
      split; [exact D|]. split; [now apply d_trans with (whole s1)|]. split; [congruence|lia].
  Qed.
  Lemma find_busy (th : nat -> list act) : forall m, (exists t, t < m /\ th t <> []) \/ forall t, t < m -> th t = [].
  Proof. induction m as [|m [(t & A & B)|IH]]; [right; lia|left; exists t; split; [lia|exact B]|]. destruct (th m) eqn:E; [|left; exists m; split; [lia|congruence]]. right. intros t Ht. destruct (Nat.eq_dec t m) as [->|]; [exact E|apply IH; lia]. Qed.
  Lemma progress s : 0 < n -> Inv s -> exited s = false -> exists e s', step n s e = Some s'.
  Proof.
    intros Hn HI Ex. destruct (find_busy (thr s) (S n)) as [(t & Ht & B)|Al].
    - exists (Go t). cbn [step]. destruct (thr s t) as [|[i|[|d ds]] l] eqn:E; [congruence| |eauto|eauto]. pose proof (t_shape _ _ _ _ (i_thr _ _ HI) t) as Sh. rewrite E in Sh. destruct Sh as [Sh _].
      destruct (st (frames s i)) as [c|c|c|k|k|k|k|k]; try contradiction.
      + destruct c as [v|x|o c|c|[] c ds k]; eauto. destruct (locals (frames s i)); eauto.
      + destruct (slot (frames s i)); eauto.
      + eauto.
    - assert (Off : forall j, j < depth s -> onthread (st (frames s j)) = true -> False). { intros j Hj X. destruct (t_is _ _ _ _ (i_thr _ _ HI) j Hj X) as (t & Ht & Hi). rewrite (Al t ltac:(lia)) in Hi. contradiction. }
      destruct (depth s) as [|d] eqn:D.
      + destruct (got s) as [r|] eqn:G; [|destruct (proj1 (i_got _ _ HI) D); exact G]. destruct (ret s) as [r'|] eqn:R.
        * exists Exit. cbn [step]. rewrite R, Ex. replace (forallb _ _) with true; [cbn; eauto|]. symmetry. apply forallb_forall. intros t Ht. apply in_seq in Ht. rewrite (Al t) by lia. reflexivity.
        * exists Get. cbn [step]. rewrite (Al n) by lia. rewrite G, R. eauto.
      + pose proof (i_top _ _ HI d D) as T. unfold topstate in T. assert (Bd : d <? depth s = true) by (apply Nat.ltb_lt; lia). assert (B0 : 0 <? n = true) by (apply Nat.ltb_lt; lia).
        specialize (Off d ltac:(lia)). destruct (st (frames s d)) as [c|c|c|k|k|k|k|k] eqn:A; try (destruct (Off eq_refl)); try contradiction.
        * exists (Take 0 d). cbn [step]. rewrite B0, Bd. cbn [andb]. rewrite (Al 0) by lia. rewrite A. eauto.
        * exists (Wake d). cbn [step]. rewrite Bd, A. eauto.
        * exists (Take 0 d). cbn [step]. rewrite B0, Bd. cbn [andb]. rewrite (Al 0) by lia. rewrite A. destruct (slot (frames s d)); [eauto|congruence].
  Qed.
  Lemma done_empty s r : Inv s -> ret s = Some r -> depth s = 0 /\ rest s = ([], r).
  Proof. intros HI R. destruct (i_ret _ _ HI r R) as [G _]. assert (D : depth s = 0) by (apply (i_got _ _ HI); congruence). split; [exact D|]. unfold rest. now rewrite D, G. Qed.
  Lemma pending_empty th : (forall t, th t = []) -> pending th = [].
  Proof. intros H. unfold pending. generalize (seq 0 (S n)). induction l as [|t l IH]; cbn [flat_map]; [reflexivity|]. now rewrite H, IH. Qed.
  (** the thread outside the pool, when it does not start anything itself *)
  Lemma outside_idle s e s' : thr s n = [] -> step n s e = Some s' -> thr s' n = [].
  Proof.
    intros H E. assert (U : forall t x, t <> n -> upd (thr s) t x n = []) by (intros t x N; rewrite upd_other by congruence; exact H).
    destruct e as [t|t i|i| |]; cbn [step] in E.
    - destruct (Nat.eq_dec t n) as [->|N]; [rewrite H in E; discriminate|]. destruct (thr s t) as [|[i|[|d ds]] l]; [discriminate| |injection E as <-; now apply U|injection E as <-; now apply U].
      destruct (st (frames s i)) as [c|c|c|k|k|k|k|k]; try discriminate.
      + destruct c as [v|x|o c|c|[] c ds k].
        * injection E as <-. unfold finish. destruct i; now apply U.
        * destruct (locals (frames s i)); injection E as <-; [unfold finish; destruct i; now apply U|exact H].
        * injection E as <-. exact H.
        * injection E as <-. now apply U.
        * injection E as <-. now apply U.
        * injection E as <-. exact H.
      + destruct (slot (frames s i)); injection E as <-; exact H.
      + injection E as <-. now apply U.
    - destruct ((t <? n) && (i <? depth s)) eqn:B; [|discriminate]. apply andb_prop in B as [B _]. apply Nat.ltb_lt in B. destruct (thr s t); [|discriminate]. destruct (st (frames s i)); try discriminate; [|destruct (slot (frames s i)); [|discriminate]]; injection E as <-; apply U; lia.
    - destruct (i <? depth s); [|discriminate]. destruct (st (frames s i)); try discriminate. injection E as <-. exact H.
    - rewrite H in E. destruct (got s); [|discriminate]. destruct (ret s); [discriminate|]. injection E as <-. exact H.
    - destruct (_ && _); [|discriminate]. destruct (ret s); [|discriminate]. injection E as <-. exact H.
  Qed.
End R.
(** ** one worker *)
Lemma one_step s e s' : Inv 1 s -> thr s 1 = [] -> step 1 s e = Some s' -> out s' ++ map Dtor (pd (thr s' 0)) ++ fst (rest s') = out s ++ map Dtor (pd (thr s 0)) ++ fst (rest s).
Proof.
  intros HI H1 E. destruct (step_good 1 s e s' HI E) as (HI' & M & _). pose proof (outside_idle 1 s e s' H1 E) as H1'.
  assert (Z : forall t a l, thr s t = a :: l -> t = 0). { intros t a l X. destruct t as [|[|t]]; [reflexivity|congruence|]. rewrite (t_out _ _ _ _ (i_thr _ _ HI) (S (S t)) ltac:(lia)) in X. discriminate. }
  destruct M as [x t i l A B C D|t d A B Ht C D|t ds A Q B Ht C D].
  - pose proof (Z t _ _ B) as ->. rewrite A, C, (D 0), B. pose proof (t_shape _ _ _ _ (i_thr _ _ HI) 0) as Sh. rewrite B in Sh. destruct Sh as [_ Sh]. cbn [pd]. rewrite (proj1 (inside_pd _ _ Sh)). cbn. now rewrite <- app_assoc.
  - assert (t = 0) as ->. { destruct (thr s t) as [|a l] eqn:X; [discriminate|exact (Z t a l X)]. } rewrite A, B, C. cbn. now rewrite <- app_assoc.
  - destruct t as [|[|t]]; [|destruct ds as [|d ds]|lia].
    + rewrite A, B, C. cbn [fst]. destruct (thr s 0) as [|[i|ds0] l] eqn:X.
      * cbn [pd]. rewrite app_nil_r. reflexivity.
      * pose proof (t_shape _ _ _ _ (i_thr _ _ HI) 0) as Sh. rewrite X in Sh. destruct Sh as [_ Sh]. cbn [pd]. rewrite (proj1 (inside_pd _ _ Sh)), app_nil_r. reflexivity.
      * destruct Q as [->|(i & l' & Q)]; [reflexivity|congruence].
    + rewrite A, B, (D 0) by lia. reflexivity.
    + rewrite H1, H1' in C. cbn in C. destruct ds; discriminate.
Qed.
