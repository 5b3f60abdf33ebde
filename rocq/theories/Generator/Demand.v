(** C124, C125: merge() and unique() on demand, also over infinite generators: what a pipeline has read from its inputs after any number of next_value_async() calls. Model: Pipeline.v. *)
From Coq Require Import List Arith Bool Lia Permutation.
From Verif.Generator Require Import Model Spec Proofs Pipeline.
Import ListNotations.

(** successive calls of next_value_async() and their results *)
Inductive pulls {V} : gen V -> list (option V) -> gen V -> Prop :=
| Pz g : pulls g [] g
| Ps g rs g' r g'' : pulls g rs g' -> pull g' r g'' -> pulls g (rs ++ [r]) g''.
(** the values among the results *)
Definition vals {V} (rs : list (option V)) : list V := flat_map (fun r => match r with Some v => [v] | None => [] end) rs.
Definition opt {V} (r : option V) : list V := match r with Some v => [v] | None => [] end.
(** every number of calls is answered *)
Definition productive {V} (g : gen V) : Prop := forall n, exists rs g', pulls g rs g' /\ length rs = n.

Lemma vals_snoc {V} (rs : list (option V)) r : vals (rs ++ [r]) = vals rs ++ opt r.
Proof. unfold vals, opt. rewrite flat_map_app. cbn. now rewrite app_nil_r. Qed.
Lemma merge_top_cases {V} (cmp : V -> V -> bool) l r o m : merge_top cmp l r = (o, m) ->
  (exists x, l = Some x /\ o = Some x /\ m = MReadL r /\ (forall y, r = Some y -> cmp x y = true)) \/
  (exists y, r = Some y /\ o = Some y /\ m = MReadR l /\ (forall x, l = Some x -> cmp x y = false)) \/
  (l = None /\ r = None /\ o = None /\ m = MDone).
Proof.
  unfold merge_top. destruct l as [x|], r as [y|]; try destruct (cmp x y) eqn:E; intros H; inversion H; subst; clear H.
  - left. exists x. repeat split. intros z Hz. injection Hz as <-. exact E.
  - right; left. exists y. repeat split. intros z Hz. injection Hz as <-. exact E.
  - left. exists x. repeat split. discriminate.
  - right; left. exists y. repeat split. discriminate.
  - right; right. auto.
Qed.
(** what the merge still owes, given what it holds *)
Definition minv {V} (cmp : V -> V -> bool) (m : mstate (V := V)) (L R o : list V) : Prop :=
  match m with
  | MStart => L = [] /\ R = [] /\ o = []
  | MReadL r => forall a b, (r = None -> b = []) -> merge cmp (L ++ a) (R ++ b) = o ++ merge cmp a (opt r ++ b)
  | MReadR l => forall a b, (l = None -> a = []) -> merge cmp (L ++ a) (R ++ b) = o ++ merge cmp (opt l ++ a) b
  | MDone => merge cmp L R = o
  end.
Lemma minv_top {V} (cmp : V -> V -> bool) l r o m L R out : merge_top cmp l r = (o, m) ->
  (forall a b, (l = None -> a = []) -> (r = None -> b = []) -> merge cmp (L ++ a) (R ++ b) = out ++ merge cmp (opt l ++ a) (opt r ++ b)) ->
  minv cmp m L R (out ++ opt o).
Proof.
  intros Ht H. apply merge_top_cases in Ht. destruct Ht as [(x & -> & -> & -> & C)|[(y & -> & -> & -> & C)|(-> & -> & -> & ->)]]; cbn [minv opt].
  - intros a b Hb. rewrite H; [|discriminate|auto]. cbn [opt app]. rewrite <- app_assoc. f_equal. destruct r as [y|]; cbn [opt app].
    + cbn [merge]. rewrite (C y eq_refl). reflexivity.
    + rewrite (Hb eq_refl). rewrite !merge_nil_right. reflexivity.
  - intros a b Ha. rewrite H; [|auto|discriminate]. cbn [opt app]. rewrite <- app_assoc. f_equal. destruct l as [x|]; cbn [opt app].
    + cbn [merge]. rewrite (C x eq_refl). reflexivity.
    + rewrite (Ha eq_refl). rewrite !merge_nil_left. reflexivity.
  - specialize (H [] [] (fun _ => eq_refl) (fun _ => eq_refl)). rewrite !app_nil_r in H. rewrite app_nil_r. exact H.
Qed.
Lemma start_only_first {V} (g0 : gen V) rs w : pulls g0 rs w -> forall cmp g h, w = Merge cmp MStart g h -> rs = [].
Proof.
  assert (K : forall a r w, pull a r w -> forall cmp g h, w <> Merge (V := V) cmp MStart g h).
  { induction 1; intros c1 g1 h1 Ew; try discriminate; try (eapply IHpull2; eassumption); injection Ew as -> -> -> ->;
    match goal with H : merge_top _ _ _ = _ |- _ => apply merge_top_cases in H; destruct H as [(? & _ & _ & ? & _)|[(? & _ & _ & ? & _)|(_ & _ & _ & ?)]]; discriminate end. }
  intros H cmp g h E. destruct H as [g1|g1 rs g2 r g3 _ Q]; [reflexivity|]. exfalso. eapply K; eauto.
Qed.
Lemma merge_pulls {V} (cmp : V -> V -> bool) g h rs w : pulls (Merge cmp MStart g h) rs w ->
  exists m g' h' rl rr, w = Merge cmp m g' h' /\ pulls g rl g' /\ pulls h rr h' /\ minv cmp m (vals rl) (vals rr) (vals rs) /\
    length rl + length rr <= length rs + (match rs with [] => 0 | _ => 1 end).
Proof.
  remember (Merge cmp MStart g h) as g0 eqn:E0. induction 1 as [g1|g1 rs g2 r g3 Hp IH P].
  - subst. exists MStart, g, h, [], []. repeat split; try constructor; cbn; auto.
  - specialize (IH E0). destruct IH as (m & g' & h' & rl & rr & -> & Pl & Pr & I & C). clear E0. rewrite vals_snoc. rewrite app_length. cbn [length].
    assert (C2 : length rl + length rr <= length rs + 1) by (destruct rs; lia). assert (K : forall x, match rs ++ [x] with [] => 0 | _ => 1 end = 1) by (intros; now destruct rs). rewrite K.
    inversion P; subst.
    + destruct I as (E1 & E2 & E3). rewrite E3. exists m0, g'0, h'0, (rl ++ [l]), (rr ++ [r0]). repeat split; try (econstructor; eauto).
      * eapply minv_top; eauto. intros a b _ _. rewrite !vals_snoc, E1, E2. reflexivity.
      * (* first call *) rewrite (start_only_first _ _ _ Hp cmp _ _ eq_refl) in *.
        cbn in C. rewrite !app_length. cbn. lia.
    + exists m0, g'0, h', (rl ++ [l]), rr. repeat split; auto; try (econstructor; eauto).
      * eapply minv_top; eauto. intros a b Ha Hb. rewrite vals_snoc, <- app_assoc. rewrite I; auto.
      * rewrite app_length. cbn. lia.
    + exists m0, g', h'0, rl, (rr ++ [r0]). repeat split; auto; try (econstructor; eauto).
      * eapply minv_top; eauto. intros a b Ha Hb. rewrite vals_snoc, <- app_assoc. rewrite I; auto.
      * rewrite app_length. cbn. lia.
    + exists MDone, g', h', rl, rr. cbn [opt]. rewrite app_nil_r. repeat split; auto. lia.
Qed.

(** C124: merge() works on demand over any generators, infinite ones too: after n calls it has made at most n + 1 calls on its inputs together, and what it has delivered is std::merge's result on what it has read, except for at most one value that it still holds. *)
Theorem C124_merge_on_demand : forall V (cmp : V -> V -> bool) g h rs w, pulls (Merge cmp MStart g h) rs w ->
  exists rl rr g' h' held, pulls g rl g' /\ pulls h rr h' /\ length rl + length rr <= S (length rs) /\
    std_merge cmp (vals rr) (vals rl) = vals rs ++ held /\ length held <= 1.
Proof.
  intros V cmp g h rs w H. destruct (merge_pulls cmp g h rs w H) as (m & g' & h' & rl & rr & -> & Pl & Pr & I & C).
  assert (C2 : length rl + length rr <= S (length rs)) by (destruct rs; lia).
  enough (exists rl rr g' h' held, pulls g rl g' /\ pulls h rr h' /\ length rl + length rr <= S (length rs) /\ merge cmp (vals rl) (vals rr) = vals rs ++ held /\ length held <= 1) as (rl0 & rr0 & g0 & h0 & held & A) by (exists rl0, rr0, g0, h0, held; rewrite <- (merge_std cmp); exact A).
  destruct m as [|r|l|]; cbn [minv] in I.
  - destruct I as (E1 & E2 & E3). exists rl, rr, g', h', []. rewrite E1, E2, E3. cbn. repeat split; auto; lia.
  - specialize (I [] [] (fun _ => eq_refl)). rewrite !app_nil_r, merge_nil_left in I. exists rl, rr, g', h', (opt r). destruct r; cbn in *; repeat split; auto; lia.
  - specialize (I [] [] (fun _ => eq_refl)). rewrite !app_nil_r, merge_nil_right in I. exists rl, rr, g', h', (opt l). destruct l; cbn in *; repeat split; auto; lia.
  - exists rl, rr, g', h', []. rewrite app_nil_r. cbn. repeat split; auto; lia.
Qed.
Print Assumptions C124_merge_on_demand.
(** ... and every call returns if the inputs' calls do: *)
Lemma pulls_front {V} (g : gen V) r g1 rs g2 : pull g r g1 -> pulls g1 rs g2 -> pulls g (r :: rs) g2.
Proof. intros P H. induction H as [g1|g1 rs g2 r2 g3 H IH P2]; [apply (Ps g [] g r g1); [constructor|auto]|]. change (r :: rs ++ [r2]) with ((r :: rs) ++ [r2]). econstructor; eauto. Qed.
Lemma pulls_det {V} (g : gen V) rs1 g1 : pulls g rs1 g1 -> forall rs2 g2, pulls g rs2 g2 -> length rs1 = length rs2 -> rs1 = rs2 /\ g1 = g2.
Proof.
  induction 1 as [g|g rs g' r g'' H IH P]; intros rs2 g2 H2 L.
  - destruct H2 as [|? rs2 ? ? ? ? ?]; auto. rewrite app_length in L. cbn in L. lia.
  - destruct H2 as [|g rs2 g3 r2 g4 H2 P2]; [rewrite app_length in L; cbn in L; lia|]. rewrite !app_length in L. cbn in L.
    destruct (IH _ _ H2 ltac:(lia)) as [-> ->]. destruct (pull_det _ _ _ P _ _ P2) as [-> ->]. auto.
Qed.
Lemma productive_next {V} (g : gen V) rs g' : productive g -> pulls g rs g' -> exists r g'', pull g' r g''.
Proof.
  intros Hp H. destruct (Hp (S (length rs))) as (rs2 & g2 & H2 & L). destruct H2 as [|g rs2 g3 r g4 H2 P]; [discriminate|]. rewrite app_length in L. cbn in L.
  destruct (pulls_det g rs2 g3 H2 rs g' H ltac:(lia)) as [-> ->]. eauto.
Qed.
Theorem C124_merge_answers : forall V (cmp : V -> V -> bool) g h, productive g -> productive h -> productive (Merge cmp MStart g h).
Proof.
  intros V cmp g h Hg Hh n. induction n as [|n (rs & w & H & L)]; [exists [], (Merge cmp MStart g h); split; [constructor|reflexivity]|].
  destruct (merge_pulls cmp g h rs w H) as (m & g' & h' & rl & rr & -> & Pl & Pr & _).
  destruct (productive_next _ _ _ Hg Pl) as (l & gl & Ql). destruct (productive_next _ _ _ Hh Pr) as (r & hr & Qr).
  assert (exists o w', pull (Merge cmp m g' h') o w') as (o & w' & P).
  { destruct m as [|r0|l0|].
    - destruct (merge_top cmp l r) as [o m] eqn:E. eexists _, _. eapply P_m_start; eauto.
    - destruct (merge_top cmp l r0) as [o m] eqn:E. eexists _, _. eapply P_m_left; eauto.
    - destruct (merge_top cmp l0 r) as [o m] eqn:E. eexists _, _. eapply P_m_right; eauto.
    - eexists _, _. apply P_m_done. }
  exists (rs ++ [o]), w'. split; [econstructor; eauto|]. rewrite app_length. cbn. lia.
Qed.
Print Assumptions C124_merge_answers.
Lemma src_productive {V} (f : nat -> option V) k : productive (Src f k).
Proof.
  intros n. revert k. induction n as [|n IH]; intros k; [exists [], (Src f k); split; [constructor|reflexivity]|].
  assert (exists r k', pull (Src f k) r (Src f k')) as (r & k' & P). { destruct (f k) eqn:E; [exists (Some v), (S k); now constructor|exists None, k; now constructor]. }
  destruct (IH k') as (rs & g' & H & L). exists (r :: rs), g'. split; [eapply pulls_front; eauto|cbn; lia].
Qed.
(** the even and the odd numbers: infinitely many calls are answered *)
Example C124_case : productive (Merge Nat.ltb MStart (Src (fun n => Some (2 * n)) 0) (Src (fun n => Some (2 * n + 1)) 0)) /\
  exists w, pulls (Merge Nat.ltb MStart (Src (fun n => Some (2 * n)) 0) (Src (fun n => Some (2 * n + 1)) 0)) [Some 0; Some 1; Some 2] w.
Proof.
  split; [apply C124_merge_answers; apply src_productive|]. eexists.
  eapply pulls_front; [eapply P_m_start; [apply P_src; reflexivity|apply P_src; reflexivity|reflexivity]|].
  eapply pulls_front; [eapply P_m_left; [apply P_src; reflexivity|reflexivity]|].
  eapply pulls_front; [eapply P_m_right; [apply P_src; reflexivity|reflexivity]|]. constructor.
Qed.

(** C125: unique(). What has been delivered is what unique means on the values read, except for at most one value held ... *)
Definition uheld {V} (u : ustate (V := V)) : list V := match u with ULoop c => [c] | _ => [] end.
Definition uinv {V} (eq : V -> V -> bool) (u : ustate (V := V)) (L o : list V) (ended : Prop) : Prop :=
  match u with
  | UStart => L = [] /\ o = []
  | ULoop c => forall a, unique_impl eq (L ++ a) = o ++ unique_loop eq c a
  | ULast | UDone => unique_impl eq L = o /\ ended
  end.
Lemma uniq_pull {V} (eq : V -> V -> bool) g0 : forall w r w', pull w r w' -> forall u g rs o, w = Uniq eq u g -> pulls g0 rs g -> uinv eq u (vals rs) o (In None rs) ->
  exists u' g' rs', w' = Uniq eq u' g' /\ pulls g0 rs' g' /\ uinv eq u' (vals rs') (o ++ opt r) (In None rs') /\ (u' = UStart -> False).
Proof.
  induction 1; intros u g1 rs1 o1 E Hp I; try discriminate; injection E as -> <- <-.
  - (* empty *) destruct I as (E1 & E2). exists UDone, g', (rs1 ++ [None]). split; [reflexivity|]. split; [econstructor; eauto|]. split; [|discriminate]. cbn. rewrite vals_snoc. cbn. rewrite E1, E2. split; [reflexivity|]. apply in_or_app; cbn; auto.
  - destruct I as (E1 & E2). apply (IHpull2 (ULoop c) g' (rs1 ++ [Some c]) o1 eq_refl); [econstructor; eauto|]. cbn. intros a. rewrite vals_snoc, E1, E2. reflexivity.
  - exists ULast, g', (rs1 ++ [None]). split; [reflexivity|]. split; [econstructor; eauto|]. split; [|discriminate]. cbn. rewrite vals_snoc. cbn. cbn in I. specialize (I []). split; [exact I|]. apply in_or_app; cbn; auto.
  - apply (IHpull2 (ULoop c) g' (rs1 ++ [Some x]) o1 eq_refl); [econstructor; eauto|]. cbn in *. intros a. rewrite vals_snoc. cbn. rewrite <- app_assoc, I. cbn. now rewrite H0.
  - exists (ULoop x), g', (rs1 ++ [Some x]). split; [reflexivity|]. split; [econstructor; eauto|]. split; [|discriminate]. cbn in *. intros a. rewrite vals_snoc. cbn. rewrite <- !app_assoc, I. cbn. now rewrite H0.
  - exists UDone, g, rs1. cbn in *. rewrite app_nil_r. repeat split; auto; try tauto. discriminate.
  - exists UDone, g, rs1. cbn in *. rewrite app_nil_r. repeat split; auto; try tauto. discriminate.
Qed.
Lemma uniq_pulls {V} (eq : V -> V -> bool) g rs w : pulls (Uniq eq UStart g) rs w ->
  exists u g' rd, w = Uniq eq u g' /\ pulls g rd g' /\ uinv eq u (vals rd) (vals rs) (In None rd) /\ (u = UStart -> rs = []).
Proof.
  remember (Uniq eq UStart g) as g0 eqn:E0. induction 1 as [g1|g1 rs g2 r g3 Hp IH P].
  - subst. exists UStart, g, []. repeat split; try constructor.
  - destruct (IH E0) as (u & g' & rd & -> & Pd & I & _). destruct (uniq_pull eq g _ _ _ P u g' rd (vals rs) eq_refl Pd I) as (u' & g'' & rd' & -> & Pd' & I' & N).
    exists u', g'', rd'. rewrite vals_snoc. repeat split; auto. intros E. now apply N in E.
Qed.
Theorem C125_unique_on_demand_partial : forall V (eq : V -> V -> bool) g rs w, pulls (Uniq eq UStart g) rs w ->
  exists rd g' held, pulls g rd g' /\ unique_impl eq (vals rd) = vals rs ++ held /\ length held <= 1 /\
    (* ... and exactly one is held until the input has ended *) (rs <> [] -> ~ In None rd -> length held = 1).
Proof.
  intros V eq g rs w H. destruct (uniq_pulls eq g rs w H) as (u & g' & rd & -> & Pd & I & N). destruct u as [|c| |]; cbn in I.
  - exists rd, g', []. destruct I as [E1 E2]. rewrite E1, E2. cbn. repeat split; auto. intros Hn. exfalso. auto.
  - exists rd, g', [c]. specialize (I []). rewrite app_nil_r in I. cbn in I. auto.
  - exists rd, g', []. destruct I as [E1 E2]. rewrite app_nil_r. cbn. repeat split; auto. tauto.
  - exists rd, g', []. destruct I as [E1 E2]. rewrite app_nil_r. cbn. repeat split; auto. tauto.
Qed.
Print Assumptions C125_unique_on_demand_partial.
Example C125_case : exists w, pulls (Uniq Nat.eqb UStart (Src (fun n => Some (Nat.div2 n)) 0)) [Some 0; Some 1] w.
Proof.
  eexists. eapply pulls_front.
  - eapply P_u_first; [apply P_src; reflexivity|]. eapply P_u_same; [apply P_src; reflexivity|reflexivity|]. eapply P_u_diff; [apply P_src; reflexivity|reflexivity].
  - eapply pulls_front; [|constructor]. eapply P_u_same; [apply P_src; reflexivity|reflexivity|]. eapply P_u_diff; [apply P_src; reflexivity|reflexivity].
Qed.
(** C125 refuted: that value is not delivered when it is read, but when a different one or the end arrives: of a generator whose values are all equivalent from some point on, the last value is never delivered although the input always answers ... *)
Theorem C125_value_withheld_refuted : forall V (eq : V -> V -> bool) (f : nat -> option V) c, forall k, (forall n, k <= n -> exists x, f n = Some x /\ eq c x = true) ->
  forall r w, ~ pull (Uniq eq (ULoop c) (Src f k)) r w.
Proof.
  intros V eq f c k Hf r w P. remember (Uniq eq (ULoop c) (Src f k)) as g eqn:E. revert k Hf E.
  induction P; intros k Hf Ek; try discriminate; injection Ek as -> -> ->.
  - inversion P; subst. destruct (Hf k (le_n k)) as (x & Hx & _). congruence.
  - inversion P1; subst. apply (IHP2 (S k)); [|reflexivity]. intros n Hn. apply Hf. lia.
  - destruct (Hf k (le_n k)) as (y & Hy & Ey). inversion P; subst. congruence.
Qed.
Print Assumptions C125_value_withheld_refuted.
(** ... so not even the first value of a constant generator is delivered. *)
Theorem C125_first_value_withheld_refuted : forall V (eq : V -> V -> bool) (x : V), (eq x x = true) -> forall r w, ~ pull (Uniq eq UStart (Src (fun _ => Some x) 0)) r w.
Proof.
  intros V eq x Hx r w P. remember (Uniq eq UStart (Src (fun _ => Some x) 0)) as g eqn:E. destruct P; try discriminate; injection E as -> ->.
  - inversion P; subst; discriminate.
  - inversion P1; subst. match goal with H : Some _ = Some _ |- _ => injection H as <- end.
    apply (C125_value_withheld_refuted V eq (fun _ => Some x) x) in P2; [exact P2|]. intros n _. exists x. auto.
Qed.
Print Assumptions C125_first_value_withheld_refuted.
