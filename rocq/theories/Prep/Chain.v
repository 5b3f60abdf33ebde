(** Environment for C104: when the kernel finishes a chain of linked operations (io_uring_enter(2), IOSQE_IO_LINK and
    IORING_OP_LINK_TIMEOUT). A linked operation starts when the one before it has succeeded; if it fails, the rest of the chain is
    cancelled. A link timeout is armed when the operation in front of it starts, and cancels that operation when it expires.
    The behaviour [(how long, success)] of the operations is arbitrary; [None]: the operation never finishes by itself.
    Simplification: cancelling takes no time. *)
From Coq Require Import List ZArith Bool Lia.
From Verif.Prep Require Import Spec Model Proofs.
Import ListNotations.
Open Scope Z_scope.

(* environment, not code of /repo *)
Definition behaviour := (option Z * bool)%type.
(* environment, not code of /repo *)
Definition omax (a b : option Z) : option Z := match a, b with Some x, Some y => Some (Z.max x y) | _, _ => None end.
(** end of one operation started at [t], with the deadline of the timeout linked to it *)
(* environment, not code of /repo *)
Definition op_end (t : Z) (b : behaviour) (dl : option Z) : option Z * bool :=
  match fst b, dl with
  | Some d, None => (Some (t + d), snd b)
  | None, None => (None, false)
  | Some d, Some x => if t + d <=? Z.max t x then (Some (t + d), snd b) else (Some (Z.max t x), false)
  | None, Some x => (Some (Z.max t x), false)
  end.
(** the timeout linked to the operation in front of [qs] *)
(* environment, not code of /repo *)
Definition head_deadline (qs : list (request * bool)) : option Z := match qs with (RTimeout x, _) :: _ => Some x | _ => None end.
(** time at which the last completion of the entries exists; None: never *)
(* environment, not code of /repo *)
Fixpoint chain_end (t : Z) (qs : list (request * bool)) (beh : list behaviour) {struct qs} : option Z :=
  match qs with
  | [] => Some t
  | (RTimeout _, _) :: qs' => chain_end t qs' beh                          (* a timeout with nothing in front of it: refused *)
  | (_, l) :: qs' =>
      let b := hd (Some 0, true) beh in
      let dl := if l then head_deadline qs' else None in
      let (e, good) := op_end t b dl in
      match e with
      | None => None
      | Some te => if l then if good then chain_end te qs' (tl beh) else Some te
                   else omax (Some te) (chain_end t qs' (tl beh))
      end
  end.
(** the batch built by [cs], executed at [t] *)
(* environment, not code of /repo *)
Definition batch_end (cs : list call) (t : Z) (beh : list behaviour) : option Z :=
  match submitted cs with Some (rs, ls) => chain_end t (combine rs ls) beh | None => None end.
(* specification, no counterpart in /repo *)
Definition nonneg (beh : list behaviour) : Prop := Forall (fun b => match fst b with Some d => 0 <= d | None => True end) beh.

(* specification, no counterpart in /repo *)
Definition is_op (r : request) : Prop := match r with RTimeout _ => False | _ => True end.
Lemma operations_ops cs : Forall is_op (operations cs).
Proof.
  induction cs as [|c cs IH]; [constructor|]. unfold operations in *. cbn. apply Forall_app. split; [|exact IH].
  destruct c; cbn; repeat constructor.
Qed.
Lemma op_end_dl t b x : 0 <= match fst b with Some d => d | None => 0 end ->
  exists e good, op_end t b (Some x) = (Some e, good) /\ e <= Z.max t x.
Proof.
  intros H. unfold op_end. destruct (fst b) as [d|].
  - destruct (Z.leb_spec (t + d) (Z.max t x)); do 2 eexists; split; try reflexivity; lia.
  - do 2 eexists; split; [reflexivity|lia].
Qed.
(** total time of the first [n] operations *)
(* specification, no counterpart in /repo *)
Fixpoint total (n : nat) (beh : list behaviour) : option Z :=
  match n, beh with
  | O, _ => Some 0
  | S n', [] => Some 0
  | S n', (Some d, _) :: beh' => match total n' beh' with Some s => Some (d + s) | None => None end
  | S n', (None, _) :: _ => None
  end.
Lemma total_nonneg n : forall beh s, nonneg beh -> total n beh = Some s -> 0 <= s.
Proof.
  induction n; intros beh s Hn H; cbn in H.
  - inversion H; lia.
  - destruct beh as [|[[d|] g] beh]; [inversion H; lia| |discriminate].
    inversion Hn as [|? ? Hd Hr]; subst. cbn in Hd. destruct (total n beh) eqn:E; [|discriminate]. inversion H; subst.
    specialize (IHn _ _ Hr E). lia.
Qed.

Lemma chain_op t r l qs beh : is_op r ->
  chain_end t ((r, l) :: qs) beh =
  (let b := hd (Some 0, true) beh in
   let dl := if l then head_deadline qs else None in
   let (e, good) := op_end t b dl in
   match e with
   | None => None
   | Some te => if l then if good then chain_end te qs (tl beh) else Some te else omax (Some te) (chain_end t qs (tl beh))
   end).
Proof. destruct r; cbn; try reflexivity; contradiction. Qed.

(** all operations but the last, then the last with the deadline *)
Lemma chain_deadline d : forall pre lst t beh s, Forall is_op pre -> is_op lst -> nonneg beh -> total (length pre) beh = Some s ->
  exists e, chain_end t (map (fun r => (r, true)) (pre ++ [lst]) ++ [(RTimeout d, false)]) beh = Some e /\ e <= Z.max d (t + s).
Proof.
  induction pre as [|r pre IH]; intros lst t beh s Hpre Hl Hn Ht.
  - cbn [length total] in Ht. inversion Ht; subst. cbn [map app]. rewrite chain_op by auto. cbn zeta.
    destruct (op_end_dl t (hd (Some 0, true) beh) d) as (e & good & E & He).
    { destruct beh as [|b beh]; cbn; [lia|]. inversion Hn; subst. destruct (fst b); lia. }
    cbn [head_deadline]. rewrite E. cbn. exists e. destruct good; split; try reflexivity; lia.
  - inversion Hpre; subst. cbn [map app]. rewrite chain_op by auto. cbn zeta.
    assert (Hdl : head_deadline (map (fun r : request => (r, true)) (pre ++ [lst]) ++ [(RTimeout d, false)]) = None).
    { destruct pre as [|r' pre]; cbn; [destruct lst|inversion H2; subst; destruct r']; cbn in *; try contradiction; reflexivity. }
    rewrite Hdl.
    cbn [length total] in Ht. destruct beh as [|[[dd|] g] beh].
    + cbn [hd op_end fst snd]. cbn [tl]. inversion Ht; subst. replace (t + 0) with t by lia.
      destruct (IH lst t [] 0) as (e & E & He); auto; [|exists e; split; [exact E|lia]].
      destruct (length pre); reflexivity.
    + cbn [hd op_end fst snd tl]. destruct (total (length pre) beh) as [s'|] eqn:Es; [|discriminate]. inversion Ht; subst.
      inversion Hn as [|? ? Hd Hr]; subst. cbn in Hd. pose proof (total_nonneg _ _ _ Hr Es).
      destruct g.
      * destruct (IH lst (t + dd) beh s') as (e & E & He); auto. exists e. split; [exact E|lia].
      * exists (t + dd). split; [reflexivity|lia].
    + discriminate.
Qed.
Lemma combine_links (rs : list request) x : combine (rs ++ [x]) (repeat true (length rs) ++ [false]) = map (fun r => (r, true)) rs ++ [(x, false)].
Proof. induction rs as [|r rs IH]; [reflexivity|]. cbn. rewrite IH. reflexivity. Qed.

Lemma batch_end_deadline cs t beh d s : Forall valid cs -> deadline cs = Some d -> operations cs <> [] -> nonneg beh ->
  total (length (operations cs) - 1) beh = Some s ->
  exists e, batch_end cs t beh = Some e /\ e <= Z.max d (t + s).
Proof.
  intros Hv Hd Ho Hn Ht. unfold batch_end. rewrite submitted_ok by auto. unfold asked. rewrite Hd.
  destruct (operations cs ++ [RTimeout d]) as [|r0 rs0] eqn:E; [destruct (operations cs); discriminate|]. rewrite <- E. clear E r0 rs0.
  rewrite app_length. cbn [length]. replace (length (operations cs) + 1 - 1)%nat with (length (operations cs)) by lia.
  rewrite combine_links. pose proof (operations_ops cs) as Hop.
  destruct (exists_last Ho) as (pre & lst & E). rewrite E in *. apply Forall_app in Hop as [H1 H2]. inversion H2; subst.
  rewrite app_length in Ht. cbn [length] in Ht. replace (length pre + 1 - 1)%nat with (length pre) in Ht by lia.
  apply chain_deadline; auto.
Qed.
