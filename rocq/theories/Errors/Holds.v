(** What holds of C90: how often a descriptor of a result object is closed. *)
From Coq Require Import ZArith List Bool Lia.
From Verif.Common Require Import TS.
From Verif.Errors Require Import Model Props.
Import ListNotations.

(** Every program: once the owners made by get_fd() are gone, the descriptor was closed exactly as often as get_fd() was called; so
    exactly once iff the program took it exactly once. *)
Theorem C90_closed_as_often_as_taken_partial : forall l s, run fdstep (Fd 0 0) l = Some s -> open_owners s = 0%nat ->
  closes s = length (filter (fun e => match e with GetFd => true | DropOwner => false end) l) /\
  (closes s = 1%nat <-> exists l1 l2, l = l1 ++ GetFd :: l2 /\ ~ In GetFd (l1 ++ l2)).
Proof.
  intros l s Hr Ho. pose proof (fd_balance _ _ _ Hr) as B. unfold gets in B. cbn [open_owners closes] in B. rewrite Ho in B. cbn in B.
  assert (E : closes s = length (filter (fun e => match e with GetFd => true | DropOwner => false end) l)) by lia. split; [exact E|]. rewrite E. clear. induction l as [|e l IH].
  - cbn. split; [discriminate|]. intros (l1 & l2 & E & _). destruct l1; discriminate.
  - destruct e; cbn [filter length].
    + split.
      * intros K. injection K as K. exists [], l. split; [reflexivity|]. cbn. intros Hin. apply length_zero_iff_nil in K.
        assert (G : In GetFd (filter (fun e => match e with GetFd => true | DropOwner => false end) l)) by (apply filter_In; auto). rewrite K in G. destruct G.
      * intros (l1 & l2 & E & N). assert (NI : ~ In GetFd l).
        { destruct l1 as [|x l1]; cbn in E; inversion E; subst; [exact N|]. exfalso. apply N. now left. }
        f_equal. destruct (filter _ l) as [|x f] eqn:F; [reflexivity|]. exfalso. assert (G : In x (x :: f)) by now left. rewrite <- F in G.
        apply filter_In in G. destruct G as [G1 G2]. destruct x; [auto|discriminate].
    + rewrite IH. split; intros (l1 & l2 & E & N).
      * exists (DropOwner :: l1), l2. split; [cbn; now rewrite E|]. cbn. intros [K|K]; [discriminate|auto].
      * destruct l1 as [|x l1]; [discriminate|]. cbn in E. inversion E; subst x. exists l1, l2. split; [reflexivity|]. cbn in N. tauto.
Qed.
Print Assumptions C90_closed_as_often_as_taken_partial.
Example C90_case : exists s, run fdstep (Fd 0 0) [GetFd; DropOwner] = Some s /\ open_owners s = 0%nat /\ closes s = 1%nat.
Proof. eexists. split; [reflexivity|]. split; reflexivity. Qed.
