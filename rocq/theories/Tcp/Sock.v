(** C126: connect_get_sock and bind_get_sock_tcp. src/iouring_awaitables.cc 13-58; ioret_for_any_base::error_code, get_fd: src/iouring_ioret.cc 12-47; uring::socket: src/iouring_op_functions.cc 201-207.

    The kernel's side is an arbitrary oracle: what each call returns. The model keeps the table of open descriptors and, per descriptor, what was done to it. unique_posix_fd (toolpex) closes its descriptor when destroyed; errret_thrower (toolpex) throws the error for a negative return value: both are outside the repository and assumed.
    Simplification: one call of each function runs at a time in the model (other descriptors may be open, none is touched); awaiting is a call that returns the kernel's result; the frame is not destroyed in between. *)
From Coq Require Import List Arith ZArith Bool Lia.
From Verif.Common Require Import TS.
Import ListNotations.
Open Scope Z_scope.

(* an open descriptor and what was done to it: environment, not code of /repo *)
Record sock := Sock { family : nat; flags : nat; reuseport : bool; reuseaddr : bool; bound : option (nat * nat); connected : option (nat * nat) }.
(* the descriptor table: environment, not code of /repo *)
Record kernel := K { tab : nat -> option sock }.
(** what the kernel answers: the result of the socket operation (a descriptor that was free, or a negative error number), of connect, of the two setsockopt calls and of bind (0, or the error number) *)
(* what the kernel answers: environment, not code of /repo *)
Record oracle := Or { o_socket : Z; o_connect : Z; o_port : nat; o_addr : nat; o_bind : nat }.
(* the exceptions thrown: iouring_awaitables.cc 13-58 *)
Inductive error := UringExc (e : nat) | PosixExc (e : nat) | ThrowerExc (e : nat).
(* how a call ends: iouring_awaitables.cc 13-58 *)
Inductive result := Ret (fd : nat) | Throw (e : error).

(** ioret_for_any_base::error_code, iouring_ioret.cc 12-29; [errno_] is the calling thread's errno (C73) *)
Definition error_code (errno_ : nat) (ret : Z) : option nat :=
  if 0 <=? ret then None else Some (if (ret =? -1) && negb (errno_ =? 0)%nat then errno_ else Z.to_nat (- ret)).
(* bookkeeping of the model, no counterpart in /repo *)
Definition set (k : kernel) (fd : nat) (s : option sock) : kernel := K (upd (tab k) fd s).
(* a system call on an open descriptor: environment, not code of /repo *)
Definition modify (k : kernel) (fd : nat) (f : sock -> sock) : kernel := match tab k fd with Some s => set k fd (Some (f s)) | None => k end.

(** iouring_awaitables.cc 13-29 *)
Definition connect_get_sock (errno_ : nat) (o : oracle) (fam addr port fl : nat) (k : kernel) : kernel * result :=
  match error_code errno_ (o_socket o) with
  | Some e => (k, Throw (UringExc e))                                         (* 20-21 *)
  | None =>
      let fd := Z.to_nat (o_socket o) in
      let k1 := set k fd (Some (Sock fam fl false false None None)) in        (* 19, 22 *)
      match error_code errno_ (o_connect o) with
      | Some e => (set k1 fd None, Throw (UringExc e))                        (* 24-25: sock is destroyed on the way out *)
      | None => (modify k1 fd (fun s => Sock (family s) (flags s) (reuseport s) (reuseaddr s) (bound s) (Some (addr, port))), Ret fd)   (* 27 *)
      end
  end.
(** 31-58 *)
Definition bind_get_sock_tcp (errno_ : nat) (o : oracle) (fam addr port : nat) (rp ra : bool) (fl : nat) (k : kernel) : kernel * result :=
  match error_code errno_ (o_socket o) with
  | Some e => (k, Throw (PosixExc e))
  | None =>
      let fd := Z.to_nat (o_socket o) in
      let k1 := set k fd (Some (Sock fam 0 false false None None)) in         (* 35: flags is not passed on *)
      let step1 := if rp then if (o_port o =? 0)%nat then (modify k1 fd (fun s => Sock (family s) (flags s) true (reuseaddr s) (bound s) (connected s)), None) else (k1, Some (o_port o)) else (k1, None) in   (* 46 *)
      match step1 with
      | (k2, Some e) => (set k2 fd None, Throw (ThrowerExc e))
      | (k2, None) =>
          let step2 := if ra then if (o_addr o =? 0)%nat then (modify k2 fd (fun s => Sock (family s) (flags s) (reuseport s) true (bound s) (connected s)), None) else (k2, Some (o_addr o)) else (k2, None) in   (* 47 *)
          match step2 with
          | (k3, Some e) => (set k3 fd None, Throw (ThrowerExc e))
          | (k3, None) =>
              if (o_bind o =? 0)%nat then (modify k3 fd (fun s => Sock (family s) (flags s) (reuseport s) (reuseaddr s) (Some (addr, port)) (connected s)), Ret fd)   (* 51-57 *)
              else (set k3 fd None, Throw (ThrowerExc (o_bind o)))
          end
      end
  end.

(** the kernel hands out free descriptors only *)
(* the kernel returns a free descriptor: environment, not code of /repo *)
Definition sane (o : oracle) (k : kernel) : Prop := 0 <= o_socket o -> tab k (Z.to_nat (o_socket o)) = None.
(** specification: a call returns a descriptor that is new, is in the state [want], and nothing else changed; or it throws and nothing changed *)
Definition new_or_nothing (k k' : kernel) (r : result) (want : sock) : Prop :=
  match r with
  | Ret fd => tab k fd = None /\ tab k' fd = Some want /\ forall x, x <> fd -> tab k' x = tab k x
  | Throw _ => forall x, tab k' x = tab k x
  end.

Lemma error_none errno_ z : error_code errno_ z = None <-> 0 <= z.
Proof. unfold error_code. destruct (Z.leb_spec 0 z); split; intros; auto; try discriminate; lia. Qed.
Lemma drop_new k fd s : tab k fd = None -> forall x, tab (set (set k fd s) fd None) x = tab k x.
Proof. intros H x. cbn. destruct (Nat.eq_dec x fd) as [->|N]; [now rewrite upd_same, H|]. now rewrite !upd_other by auto. Qed.

(** C126: connect_get_sock gives a new socket connected to the address asked for, made with the flags asked for; otherwise it throws and no descriptor stays open. *)
Theorem C126_connect : forall errno_ o fam addr port fl k k' r, sane o k -> connect_get_sock errno_ o fam addr port fl k = (k', r) ->
  new_or_nothing k k' r (Sock fam fl false false None (Some (addr, port))) /\ ((exists fd, r = Ret fd) <-> 0 <= o_socket o /\ 0 <= o_connect o).
Proof.
  intros errno_ o fam addr port fl k k' r Hs H. unfold connect_get_sock in H. destruct (error_code errno_ (o_socket o)) as [e|] eqn:E1.
  - injection H as <- <-. split; [intros x; reflexivity|]. split; [intros (fd & F); discriminate|]. intros (A & _). apply error_none with (errno_ := errno_) in A. congruence.
  - apply error_none in E1. specialize (Hs E1). set (fd := Z.to_nat (o_socket o)) in *. destruct (error_code errno_ (o_connect o)) as [e|] eqn:E2.
    + injection H as <- <-. split; [intros x; apply drop_new; exact Hs|]. split; [intros (x & F); discriminate|]. intros (_ & A). apply error_none with (errno_ := errno_) in A. congruence.
    + apply error_none in E2. unfold modify in H. cbn in H. rewrite upd_same in H. cbn in H. injection H as <- <-. split.
      * cbn. split; [exact Hs|]. split; [now rewrite upd_same|]. intros x N. now rewrite !upd_other by auto.
      * split; [auto|]. intros _. eauto.
Qed.
Print Assumptions C126_connect.
Example C126_connect_case : connect_get_sock 0 (Or 5 (-111) 0 0 0) 2 7 80 1 (K (fun _ => None)) = (set (set (K (fun _ => None)) 5 (Some (Sock 2 1 false false None None))) 5 None, Throw (UringExc 111)) /\
  snd (connect_get_sock 0 (Or 5 0 0 0 0) 2 7 80 1 (K (fun _ => None))) = Ret 5 /\ sane (Or 5 0 0 0 0) (K (fun _ => None)).
Proof. split; [reflexivity|]. split; [reflexivity|]. intros _. reflexivity. Qed.

(** C126: bind_get_sock_tcp gives a new socket bound to the address asked for, with the options asked for; otherwise it throws, with the error of the step that failed, and no descriptor stays open. The socket's flags are 0 whatever was asked for. *)
Theorem C126_bind_partial : forall errno_ o fam addr port rp ra fl k k' r, sane o k -> bind_get_sock_tcp errno_ o fam addr port rp ra fl k = (k', r) ->
  new_or_nothing k k' r (Sock fam 0 rp ra (Some (addr, port)) None) /\
  ((exists fd, r = Ret fd) <-> 0 <= o_socket o /\ (rp = true -> o_port o = O) /\ (ra = true -> o_addr o = O) /\ o_bind o = O) /\
  (forall e, r = Throw e -> match e with
     | PosixExc _ => o_socket o < 0 | UringExc _ => False
     | ThrowerExc n => n <> O /\ 0 <= o_socket o /\ (rp = true /\ n = o_port o \/ ra = true /\ n = o_addr o \/ n = o_bind o) end).
Proof.
  intros errno_ o fam addr port rp ra fl k k' r Hs H. unfold bind_get_sock_tcp in H. destruct (error_code errno_ (o_socket o)) as [e|] eqn:E1.
  - injection H as <- <-. assert (o_socket o < 0) as L. { destruct (Z_lt_le_dec (o_socket o) 0) as [L|L]; auto. apply error_none with (errno_ := errno_) in L. congruence. }
    split; [intros x; reflexivity|]. split; [split; [intros (fd & F); discriminate|intros (A & _); lia]|]. intros e0 F. injection F as <-. exact L.
  - apply error_none in E1. specialize (Hs E1). set (fd := Z.to_nat (o_socket o)) in *.
    destruct rp, ra; cbn in H; unfold modify in H; cbn in H; rewrite ?upd_same in H; cbn in H;
      repeat (match type of H with context[(?a =? 0)%nat] => destruct (Nat.eqb_spec a 0) end; cbn in H; rewrite ?upd_same in H; cbn in H);
      injection H as <- <-;
      (split; [cbn; try split; try (exact Hs); try split; try (now rewrite upd_same); try (intros x N; now rewrite !upd_other by auto); try (intros x; destruct (Nat.eq_dec x fd) as [->|N]; [now rewrite upd_same, Hs|now rewrite !upd_other by auto])|]);
      (split; [split; [intros (x & F); try discriminate; repeat split; auto; discriminate|intros (_ & A & B & C); try (rewrite A in * by reflexivity); try (rewrite B in * by reflexivity); try contradiction; eauto]|intros exc F; try discriminate; injection F as <-; tauto]).
Qed.
Print Assumptions C126_bind_partial.
(** C126: the error thrown is the one the kernel gave for the step that failed; except for error number 1 (EPERM), in whose place the thread's own errno is thrown if it is not 0. *)
(* specification, no counterpart in /repo *)
Definition error_of (errno_ : nat) (ret : Z) (n : nat) : Prop := ret < 0 /\ (ret = -1 /\ errno_ <> O -> n = errno_) /\ (ret <> -1 \/ errno_ = O -> Z.of_nat n = - ret).
Lemma error_some errno_ ret n : error_code errno_ ret = Some n -> error_of errno_ ret n.
Proof.
  unfold error_code, error_of. destruct (Z.leb_spec 0 ret); [discriminate|]. intros E. split; [assumption|].
  destruct (Z.eqb_spec ret (-1)), (Nat.eqb_spec errno_ 0); cbn in E; injection E as <-; split; intros; try tauto; try lia.
Qed.
Theorem C126_error : forall errno_ o fam addr port fl rp ra k,
  (forall k' e, connect_get_sock errno_ o fam addr port fl k = (k', Throw e) ->
     exists n, e = UringExc n /\ (error_of errno_ (o_socket o) n \/ 0 <= o_socket o /\ error_of errno_ (o_connect o) n)) /\
  (forall k' n, bind_get_sock_tcp errno_ o fam addr port rp ra fl k = (k', Throw (PosixExc n)) -> error_of errno_ (o_socket o) n).
Proof.
  intros errno_ o fam addr port fl rp ra k. split.
  - intros k' e H. unfold connect_get_sock in H. destruct (error_code errno_ (o_socket o)) as [n|] eqn:E1.
    + injection H as _ <-. exists n. split; [reflexivity|left; now apply error_some].
    + apply error_none in E1. destruct (error_code errno_ (o_connect o)) as [n|] eqn:E2; [|discriminate]. injection H as _ <-. exists n. split; [reflexivity|right; split; [exact E1|now apply error_some]].
  - intros k' n H. unfold bind_get_sock_tcp in H. destruct (error_code errno_ (o_socket o)) as [m|] eqn:E1.
    + injection H as _ <-. now apply error_some.
    + exfalso. destruct rp, ra; cbn in H; repeat match type of H with context [(?a =? 0)%nat] => destruct (a =? 0)%nat; cbn in H end; discriminate.
Qed.
Print Assumptions C126_error.
(** C126 refuted: the other reading, that the error thrown is always the kernel's. *)
Theorem C126_error_is_kernels_refuted : exists k', connect_get_sock 11 (Or (-1) 0 0 0 0) 2 7 80 1 (K (fun _ => None)) = (k', Throw (UringExc 11)).
Proof. eexists. reflexivity. Qed.
Print Assumptions C126_error_is_kernels_refuted.

(** C126 refuted: the flags argument of bind_get_sock_tcp has no effect. *)
Theorem C126_flags_ignored_refuted : forall errno_ o fam addr port rp ra fl fl' k, bind_get_sock_tcp errno_ o fam addr port rp ra fl k = bind_get_sock_tcp errno_ o fam addr port rp ra fl' k.
Proof. reflexivity. Qed.
Print Assumptions C126_flags_ignored_refuted.
Example C126_bind_case : snd (bind_get_sock_tcp 0 (Or 5 0 0 0 98) 2 7 80 true true 0 (K (fun _ => None))) = Throw (ThrowerExc 98) /\ snd (bind_get_sock_tcp 0 (Or 5 0 0 0 0) 2 7 80 true false 3 (K (fun _ => None))) = Ret 5.
Proof. split; reflexivity. Qed.
