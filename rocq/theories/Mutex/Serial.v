(** C128: what mutual exclusion is for: shared data accessed only under a koios::mutex behaves as if the critical sections were executed one after the other.

    Clients of the mutex of Model.v: coroutine [i] may, between obtaining the lock and unlock(), execute any actions on the shared data [M] and its own local variables [L]; actions of different coroutines, and steps of the mutex, interleave in any order (a coroutine may be suspended and moved to another thread in the middle of its section). The discipline "only while holding the lock" is the client's. Memory is sequentially consistent (as in Model.v). *)
From Coq Require Import List Arith Bool Lia.
From Verif.Common Require Import TS.
From Verif.Mutex Require Import Model Spec Proofs.
Import ListNotations.

Section S.
  Context {M L : Type}.
  (* client code in a critical section: environment, not code of /repo *)
  Definition action := L -> M -> L * M.
  (* the client's data: environment, not code of /repo *)
  Definition data := ((nat -> L) * M)%type.
  (* what the state keeps of coroutine_mutex.h 69-90 (the mutex, Model.v) and client code *)
  Record cstate := CSt { mx : state; dat : data }.
  (* the steps of coroutine_mutex.h 69-90 (the mutex, Model.v) and client code *)
  Inductive cevent := Mx (e : event) | Act (i : nat) (f : action).
  (** coroutine [i] executes [f] *)
  (* client code: environment, not code of /repo *)
  Definition exec (i : nat) (f : action) (d : data) : data := let '(x, m) := f (fst d i) (snd d) in (upd (fst d) i x, m).
  (* what each step does: coroutine_mutex.h 69-90 (the mutex, Model.v) and client code *)
  Definition cstep (sp : bool) (s : cstate) (e : cevent) : option cstate :=
    match e with
    | Mx e => match step sp (mx s) e with Some m => Some (CSt m (dat s)) | None => None end
    | Act i f => match at_ (mx s) i with Owner => Some (CSt (mx s) (exec i f (dat s))) | _ => None end
    end.

  (** ** specification, on what is seen from outside: who obtains and unlocks, who does what *)
  Inductive cobs := Lock (o : obs) | Did (i : nat) (f : action).
  Definition cobserve (s : cstate) (e : cevent) (s' : cstate) : list cobs :=
    match e with Mx e => map Lock (observe (mx s) e (mx s')) | Act i f => [Did i f] end.
  (** the actions of coroutine [i] up to its next unlock(), whatever the others do meanwhile *)
  Fixpoint own (i : nat) (log : list cobs) : list action :=
    match log with
    | [] => []
    | Did j f :: log => if j =? i then f :: own i log else own i log
    | Lock (Unlocks j) :: log => if j =? i then [] else own i log
    | _ :: log => own i log
    end.
  (** the critical sections, in the order in which the lock was obtained *)
  Fixpoint sections (log : list cobs) : list (nat * list action) :=
    match log with
    | [] => []
    | Lock (Obtained i) :: log => (i, own i log) :: sections log
    | _ :: log => sections log
    end.
  (** executing whole sections one after the other *)
  Definition exec_section (d : data) (s : nat * list action) : data := fold_left (fun d f => exec (fst s) f d) (snd s) d.
  Definition serially (d : data) (l : list (nat * list action)) : data := fold_left exec_section l d.

  (** ** proof *)
  Definition owner_is (s : state) (o : option nat) : Prop := forall i, o = Some i <-> at_ s i = Owner.
  Lemma step_owner sp s e s' : Inv s -> step sp s e = Some s' ->
    ((forall i, at_ s' i = Owner <-> at_ s i = Owner) /\ forall x, In x (observe s e s') -> (exists i, x = Suspends i) \/ (exists i, x = Refused i)) \/
    (exists i, observe s e s' = [Obtained i] /\ (forall j, at_ s j <> Owner) /\ at_ s' i = Owner /\ (forall j, at_ s' j = Owner -> j = i)) \/
    (exists i, observe s e s' = [Unlocks i] /\ at_ s i = Owner /\ (forall j, at_ s' j <> Owner)).
  Proof.
    intros HI Hs.
    assert (T : forall i j, at_ s j = Owner -> tok (at_ s i) = true -> j = i) by (intros i j Hj Hi; apply (inv_uniq _ HI); [now rewrite Hj|exact Hi]).
    assert (F : flag s = false -> forall j, at_ s j <> Owner) by (intros Hf j Hj; rewrite (inv_tok _ HI j) in Hf; [discriminate|now rewrite Hj]).
    destruct e as [i|i|i|i|i|i k|i|i|i]; cbn in Hs; destruct (at_ s i) eqn:Ei; try discriminate.
    - injection Hs as <-. cbn [observe goto set_flag at_]. rewrite upd_same. destruct (flag s) eqn:Ef; cbn.
      + left. split; [intros j; upd_cases; split; congruence|]. intros x [<-|[]]. eauto.
      + right; left. exists i. split; [reflexivity|]. split; [auto|]. rewrite upd_same. split; [reflexivity|]. intros j. upd_cases; auto. intros Hj. exfalso. now apply (F eq_refl j).
    - injection Hs as <-. left. cbn. split; [intros j; upd_cases; split; congruence|]. intros x [].
    - injection Hs as <-. cbn [observe goto set_flag at_]. rewrite upd_same. destruct (flag s) eqn:Ef; cbn.
      + left. split; [intros j; upd_cases; split; congruence|]. intros x [<-|[]]. eauto.
      + right; left. exists i. split; [reflexivity|]. split; [auto|]. rewrite upd_same. split; [reflexivity|]. intros j. upd_cases; auto. intros Hj. exfalso. now apply (F eq_refl j).
    - injection Hs as <-. right; right. exists i. cbn. split; [reflexivity|]. split; [exact Ei|]. intros j. upd_cases; [discriminate|]. intros Hj. apply n. apply (T i j Hj). now rewrite Ei.
    - injection Hs as <-. left. cbn. split; [intros j; upd_cases; destruct (flag s); cbn; split; congruence|]. intros x [].
    - destruct (take_nth k (waitings s)) as [[w rest]|] eqn:Et; [|discriminate]. injection Hs as <-. left. cbn. split; [|intros x []].
      apply take_nth_spec in Et. destruct Et as (l1 & l2 & E1 & _ & _). assert (Hw : at_ s w = Waiting) by (apply (inv_wait _ HI); rewrite E1, in_app_iff; right; now left).
      intros j. upd_cases; split; congruence.
    - destruct (sp || _) in Hs; [|discriminate]. injection Hs as <-. left. cbn. split; [intros j; upd_cases; split; congruence|]. intros x [].
    - injection Hs as <-. left. cbn. split; [intros j; upd_cases; split; congruence|]. intros x [].
    - injection Hs as <-. right; left. exists i. cbn. split; [reflexivity|]. rewrite upd_same. split; [|split; [reflexivity|]].
      + intros j Hj. assert (j = i) by (apply (T i j Hj); now rewrite Ei). congruence.
      + intros j. upd_cases; auto. intros Hj. assert (j = i) by (apply (T i j Hj); now rewrite Ei). congruence.
  Qed.
  Lemma quiet (xs : list obs) : (forall x, In x xs -> (exists i, x = Suspends i) \/ (exists i, x = Refused i)) -> forall log,
    sections (map Lock xs ++ log) = sections log /\ forall i, own i (map Lock xs ++ log) = own i log.
  Proof.
    induction xs as [|x xs IH]; intros H log; [auto|]. destruct (IH (fun y Hy => H y (or_intror Hy)) log) as [A B].
    destruct (H x (or_introl eq_refl)) as [(i & ->)|(i & ->)]; cbn; auto.
  Qed.
  Lemma serial_gen sp l : forall s s', Inv (mx s) -> run (cstep sp) s l = Some s' -> let log := trace (cstep sp) cobserve s l in
    ((forall j, at_ (mx s) j <> Owner) -> dat s' = serially (dat s) (sections log)) /\
    (forall i, at_ (mx s) i = Owner -> dat s' = serially (exec_section (dat s) (i, own i log)) (sections log)).
  Proof.
    induction l as [|e l IH]; intros s s' HI Hr; cbn [run] in Hr; cbn [trace].
    - injection Hr as <-. split; reflexivity.
    - destruct (cstep sp s e) as [s1|] eqn:Hs; [|discriminate]. destruct e as [e|i f]; cbn [cstep cobserve] in *.
      + destruct (step sp (mx s) e) as [m|] eqn:Em; [|discriminate]. injection Hs as <-. cbn [mx] in *.
        pose proof (Inv_step _ _ _ _ HI Em) as HI'. specialize (IH (CSt m (dat s)) s' HI' Hr). cbn [mx dat] in IH. destruct IH as [IH1 IH2].
        destruct (step_owner sp _ _ _ HI Em) as [[Hk Hq]|[(i & Ho & Hn & Hi & Hu)|(i & Ho & Hi & Hn)]].
        * destruct (quiet _ Hq (trace (cstep sp) cobserve (CSt m (dat s)) l)) as [Q1 Q2]. cbv zeta. rewrite Q1. split.
          -- intros H. apply IH1. intros j Hj. apply Hk in Hj. now apply (H j).
          -- intros i Hi. rewrite Q2. apply IH2. now apply Hk.
        * rewrite Ho. cbn. split; [intros _; now apply (IH2 i)|]. intros j Hj. exfalso. now apply (Hn j).
        * rewrite Ho. cbn. split; [intros H; exfalso; now apply (H i)|]. intros j Hj.
          assert (j = i) as -> by (apply (inv_uniq _ HI); [now rewrite Hj|now rewrite Hi]). rewrite Nat.eqb_refl. cbn. now apply IH1.
      + destruct (at_ (mx s) i) eqn:Ei; try discriminate. injection Hs as <-. specialize (IH (CSt (mx s) (exec i f (dat s))) s' HI Hr). cbn [mx dat] in IH. destruct IH as [IH1 IH2]. cbn. split.
        * intros H. exfalso. now apply (H i).
        * intros j Hj. assert (j = i) as -> by (apply (inv_uniq _ HI); [now rewrite Hj|now rewrite Ei]). rewrite Nat.eqb_refl. cbn. now apply (IH2 i).
  Qed.

  Definition cinit (d : data) : cstate := CSt init d.
End S.
Arguments action : clear implicits. Arguments cevent : clear implicits. Arguments cobs : clear implicits. Arguments data : clear implicits.

(** C128: under every interleaving the data is what executing the critical sections one after the other, in the order in which the lock was obtained, gives; a section still in progress counts with what it has done so far. *)
Theorem C128_sections_serial : forall M L sp (d : data M L) l s, run (cstep sp) (cinit d) l = Some s ->
  dat s = serially d (sections (trace (cstep sp) cobserve (cinit d) l)).
Proof. intros M L sp d l s Hr. apply (proj1 (serial_gen sp l (cinit d) s Inv_init Hr)). intros j Hj. discriminate. Qed.
Print Assumptions C128_sections_serial.

(** C128, the usual client: every section reads a shared counter and writes back its successor, as two actions with anything in between. No update is lost: while nobody holds the lock the counter is the number of sections. *)
Definition load : action nat nat := fun x m => (m, m).
Definition store_succ : action nat nat := fun x m => (x, S x).
(** each section is a load and then a store *)
Definition increments (log : list (cobs nat nat)) : Prop := forall i a, In (i, a) (sections log) -> a = [load; store_succ].
Theorem C128_no_lost_update : forall sp d l s, run (cstep sp) (cinit d) l = Some s ->
  increments (trace (cstep sp) cobserve (cinit d) l) ->
  snd (dat s) = snd d + length (sections (trace (cstep sp) cobserve (cinit d) l)).
Proof.
  intros sp d l s Hr Hi. rewrite (C128_sections_serial _ _ _ _ _ _ Hr). unfold increments in Hi. revert Hi. generalize (sections (trace (cstep sp) cobserve (cinit d) l)) as ss. clear. intros ss. revert d.
  induction ss as [|[i a] ss IH]; intros d Hi; [cbn; lia|]. change (serially d ((i, a) :: ss)) with (serially (exec_section d (i, a)) ss). rewrite IH by (intros; eapply Hi; right; eauto). rewrite (Hi i a (or_introl eq_refl)). cbn. rewrite upd_same. lia.
Qed.
Print Assumptions C128_no_lost_update.
(** two coroutines, the second waiting in the middle of the first one's section *)
Example C128_case : let l := [Mx (EAcquire 0); Act 0 load; Mx (EAcquire 1); Mx (EEnqueue 1); Act 0 store_succ; Mx (EClear 0); Mx (ERelTAS 0); Mx (ERelDeq 0 0); Mx (EResume 1); Act 1 load; Act 1 store_succ; Mx (EClear 1)] in
  exists s, run (cstep false) (cinit (fun _ => 0, 5)) l = Some s /\ snd (dat s) = 7 /\
    sections (trace (cstep false) cobserve (cinit (fun _ => 0, 5)) l) = [(0, [load; store_succ]); (1, [load; store_succ])].
Proof.
  cbv zeta. edestruct (run_proj_ok (cstep false) (fun s => snd (dat s)) (cinit (fun _ => 0, 5))) as (s & H1 & H2); [|exists s; split; [exact H1|]; split; [exact H2|]]; reflexivity.
Qed.
(** without the lock an update is lost: the interleaving the mutex excludes *)
Example C128_unlocked_loses : snd (exec 1 store_succ (exec 0 store_succ (exec 1 load (exec 0 load ((fun _ => 0, 5) : data nat nat))))) = 6.
Proof. reflexivity. Qed.
