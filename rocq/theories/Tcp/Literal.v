(** C36: operator""_tcp_s, src/tcp_server.cc 23-34.

    A string is the list of its bytes. toolpex::ip_address::make is not part of the repository: it is a parameter, an
    arbitrary function from strings to addresses that may throw ([None]). *)
From Coq Require Import ZArith List Bool Lia.
Import ListNotations.
Open Scope Z_scope.

(* bookkeeping of the model, no counterpart in /repo *)
Definition str := list Z.
(* environment, not code of /repo *)
Definition colon : Z := 58.    (* ':' *)
(* environment, not code of /repo *)
Definition minus : Z := 45.    (* '-' *)
(* environment, not code of /repo *)
Definition plus_ : Z := 43.    (* '+' *)
(* environment, not code of /repo *)
Definition zero_ : Z := 48.    (* '0' *)

(** string_view::rfind(':') + the two substr, tcp_server.cc 26-30: [None] is npos, else (before, behind) the last colon *)
Fixpoint rsplit (s : str) : option (str * str) :=
  match s with
  | [] => None
  | c :: s' =>
      match rsplit s' with
      | Some (a, b) => Some (c :: a, b)
      | None => if c =? colon then Some ([], s') else None
      end
  end.

(* C library, environment, not code of /repo *)
Definition isspace (c : Z) : bool := (c =? 32) || ((9 <=? c) && (c <=? 13)).
(* C library, environment, not code of /repo *)
Definition isdigit (c : Z) : bool := (zero_ <=? c) && (c <=? 57).

(** ::atoi (C11 7.22.1.2: (int)strtol(nptr, NULL, 10), undefined if the value is not representable as int). The view's
    data() points into the literal, which ends with a NUL behind its last character. *)
(* C library, environment, not code of /repo *)
Fixpoint skip_space (s : str) : str :=
  match s with c :: s' => if isspace c then skip_space s' else s | [] => [] end.
(* C library, environment, not code of /repo *)
Fixpoint digits (acc : Z) (s : str) : Z :=
  match s with c :: s' => if isdigit c then digits (10 * acc + (c - zero_)) s' else acc | [] => acc end.
(* C library, environment, not code of /repo *)
Definition strtol10 (s : str) : Z :=
  match skip_space s with
  | c :: s' => if c =? minus then - digits 0 s' else if c =? plus_ then digits 0 s' else digits 0 (c :: s')
  | [] => 0
  end.
(* std::atoi as used in tcp_server.cc 23-34: C library, environment, not code of /repo *)
Definition atoi (s : str) : option Z :=
  let v := strtol10 s in if (- 2 ^ 31 <=? v) && (v <=? 2 ^ 31 - 1) then Some v else None.

Section Literal.
Variable addr : Type.
Variable make : str -> option addr.   (* ip_address::make *)

(* how operator"" _tcp_s ends, tcp_server.cc 23-34 *)
Inductive outcome :=
| Server (a : addr) (port : Z)
| Throws           (* "port is required." or make() threw *)
| Undefined.       (* atoi out of range *)

(** tcp_server.cc 32-33: static_cast<::in_port_t> takes the value modulo 2^16. The arguments of the braced return are
    evaluated left to right, after atoi (line 32). *)
Definition tcp_s (s : str) : outcome :=
  match rsplit s with
  | None => Throws
  | Some (ipstr, port) =>
      match atoi port with
      | None => Undefined
      | Some portnum =>
          match make ipstr with
          | None => Throws
          | Some a => Server a (portnum mod 2 ^ 16)
          end
      end
  end.
End Literal.
Arguments Server {addr}. Arguments Throws {addr}. Arguments Undefined {addr}.
Arguments tcp_s {addr}.

(** ** Specification vocabulary *)
(** the number a list of decimal digits denotes, most significant first *)
Fixpoint number (ds : list Z) : Z :=
  match ds with [] => 0 | d :: ds' => d * 10 ^ Z.of_nat (length ds') + number ds' end.
Definition decimal (ds : list Z) : Prop := Forall (fun d => 0 <= d <= 9) ds.
Definition chars (ds : list Z) : str := map (fun d => zero_ + d) ds.
Definition no_colon (s : str) : Prop := ~ In colon s.
(** the blanks of the C locale *)
Definition blanks : list Z := [9; 10; 11; 12; 13; 32].
(** a string that is a port number: non-empty, only digits, at most 65535 *)
Definition is_port (s : str) (p : Z) : Prop := exists ds, ds <> [] /\ decimal ds /\ s = chars ds /\ number ds = p /\ p <= 65535.

(** ** Lemmas *)
Lemma isspace_blank c : isspace c = true <-> In c blanks.
Proof. unfold isspace, blanks. cbn [In]. rewrite orb_true_iff, andb_true_iff, Z.eqb_eq, !Z.leb_le. lia. Qed.
Lemma not_blank c : ~ In c blanks -> isspace c = false.
Proof. intros H. destruct (isspace c) eqn:E; [|reflexivity]. now apply isspace_blank in E. Qed.
Lemma not_digit c : ~ 48 <= c <= 57 -> isdigit c = false.
Proof. unfold isdigit, zero_. destruct (Z.leb_spec 48 c), (Z.leb_spec c 57); cbn; auto; lia. Qed.
Lemma skip_blanks ws rest : (forall c, In c ws -> In c blanks) -> skip_space (ws ++ rest) = skip_space rest.
Proof. induction ws as [|c ws IH]; intros H; [reflexivity|]. cbn [app skip_space]. rewrite (proj2 (isspace_blank c)) by (apply H; now left). apply IH. intros x Hx. apply H. now right. Qed.
Lemma rsplit_none s : rsplit s = None <-> no_colon s.
Proof.
  unfold no_colon. induction s as [|c s IH]; cbn; [easy|]. destruct (rsplit s) as [[a b]|].
  - split; [discriminate|]. intros H. exfalso. destruct IH as [_ IH]. enough (Some (a, b) = None) by discriminate. apply IH. tauto.
  - destruct IH as [IH _]. specialize (IH eq_refl). destruct (Z.eqb_spec c colon); split; intuition; discriminate.
Qed.
Lemma rsplit_app a b : no_colon b -> rsplit (a ++ colon :: b) = Some (a, b).
Proof.
  intros Hb. induction a as [|c a IH]; cbn; [|now rewrite IH].
  apply rsplit_none in Hb. now rewrite Hb.
Qed.
Lemma rsplit_some s a b : rsplit s = Some (a, b) -> s = a ++ colon :: b /\ no_colon b.
Proof.
  revert a. induction s as [|c s IH]; cbn; intros a H; [discriminate|]. destruct (rsplit s) as [[a' b']|] eqn:E.
  - inversion H; subst. destruct (IH a' eq_refl) as [-> Hn]. now split.
  - destruct (Z.eqb_spec c colon) as [->|]; [|discriminate]. inversion H; subst. split; [reflexivity|now apply rsplit_none].
Qed.

Lemma number_snoc ds d : number (ds ++ [d]) = 10 * number ds + d.
Proof.
  induction ds as [|x ds IH]; cbn [number app length]; [lia|]. rewrite IH, app_length. cbn [length].
  replace (Z.of_nat (length ds + 1)) with (Z.succ (Z.of_nat (length ds))) by lia. rewrite Z.pow_succ_r by lia. ring.
Qed.
Lemma digits_chars ds acc rest : decimal ds -> (forall c r, rest = c :: r -> isdigit c = false) ->
  digits acc (chars ds ++ rest) = acc * 10 ^ Z.of_nat (length ds) + number ds.
Proof.
  intros Hd Hr. revert acc. induction Hd as [|d ds Hd0 Hd IH]; intros acc; cbn [chars map app digits number length].
  - cbn [Z.of_nat]. rewrite Z.pow_0_r, Z.mul_1_r, Z.add_0_r. destruct rest as [|c r]; [reflexivity|]. cbn. now rewrite (Hr c r eq_refl).
  - assert (Hi : isdigit (zero_ + d) = true) by (unfold isdigit, zero_; apply andb_true_iff; split; apply Z.leb_le; lia). rewrite Hi.
    fold (chars ds). rewrite IH. rewrite Nat2Z.inj_succ, Z.pow_succ_r by lia. ring.
Qed.
Lemma number_nonneg ds : decimal ds -> 0 <= number ds.
Proof. induction 1; cbn [number]; [lia|]. assert (0 <= 10 ^ Z.of_nat (length l)) by (apply Z.pow_nonneg; lia). nia. Qed.

Lemma strtol_chars ds rest : ds <> [] -> decimal ds -> (forall c r, rest = c :: r -> isdigit c = false) -> strtol10 (chars ds ++ rest) = number ds.
Proof.
  intros Hne Hd Hr. pose proof (digits_chars ds 0 rest Hd Hr) as H. rewrite Z.mul_0_l, Z.add_0_l in H.
  destruct ds as [|d ds]; [easy|]. inversion Hd as [|? ? Hd0 Hd']; subst. unfold strtol10. cbn [chars map app] in *.
  assert (Hs : isspace (zero_ + d) = false) by (unfold isspace, zero_; destruct (Z.eqb_spec (48 + d) 32), (Z.leb_spec 9 (48 + d)), (Z.leb_spec (48 + d) 13); cbn; lia).
  cbn [skip_space]. rewrite Hs.
  destruct (Z.eqb_spec (zero_ + d) minus) as [E|_]; [unfold zero_, minus in E; lia|].
  destruct (Z.eqb_spec (zero_ + d) plus_) as [E|_]; [unfold zero_, plus_ in E; lia|]. exact H.
Qed.
Lemma chars_no_colon ds : decimal ds -> no_colon (chars ds).
Proof. intros Hd Hin. apply in_map_iff in Hin. destruct Hin as (d & E & Hin). apply (proj1 (Forall_forall _ _) Hd) in Hin. unfold colon, zero_ in E. lia. Qed.

(** ** C36 *)
(** Part 1, as wanted: for every address string (colons allowed, IPv6) and every decimal rendering of a port number, leading
    zeros allowed, the server listens on exactly that address and port; it throws exactly when the address is refused. *)
Theorem C36_address_and_port :
  forall (addr : Type) (make : str -> option addr) (ip s : str) (p : Z), is_port s p ->
    tcp_s make (ip ++ colon :: s) = match make ip with Some a => Server a p | None => Throws end.
Proof.
  intros addr make ip s p (ds & Hne & Hd & -> & Hn & Hp). unfold tcp_s. rewrite rsplit_app by now apply chars_no_colon.
  unfold atoi. rewrite <- (app_nil_r (chars ds)). rewrite strtol_chars by (try easy; discriminate).
  pose proof (number_nonneg ds Hd). rewrite Hn in *.
  destruct (Z.leb_spec (- 2 ^ 31) p); [|lia]. destruct (Z.leb_spec p (2 ^ 31 - 1)); [|lia]. cbn [andb].
  destruct (make ip); [|reflexivity]. rewrite Z.mod_small by (change (2 ^ 16) with 65536; lia). reflexivity.
Qed.
Print Assumptions C36_address_and_port.

(** "127.0.0.1:8080" *)
Example C36_is_port : is_port [56; 48; 56; 48] 8080.
Proof. exists [8; 0; 8; 0]. split; [discriminate|]. split; [repeat constructor; lia|]. repeat split; reflexivity || lia. Qed.

(** Part 2: a literal without a colon is rejected, and no server appears without the address having been accepted; the
    address is everything before the last colon. *)
Theorem C36_no_port_rejected :
  forall (addr : Type) (make : str -> option addr) s, no_colon s -> tcp_s make s = Throws.
Proof. intros addr make s H. unfold tcp_s. apply rsplit_none in H. now rewrite H. Qed.
Print Assumptions C36_no_port_rejected.

Theorem C36_address_is_what_precedes_the_last_colon :
  forall (addr : Type) (make : str -> option addr) s a p, tcp_s make s = Server a p ->
    exists ip port, s = ip ++ colon :: port /\ no_colon port /\ make ip = Some a /\ 0 <= p <= 65535.
Proof.
  intros addr make s a p H. unfold tcp_s in H. destruct (rsplit s) as [[ip port]|] eqn:E; [|discriminate].
  destruct (atoi port) as [n|]; [|discriminate]. destruct (make ip) as [a'|] eqn:Em; [|discriminate]. injection H as Ha Hp. subst a'. change (Z.pow_pos 2 16) with 65536 in Hp.
  pose proof (Z.mod_pos_bound n 65536 ltac:(lia)).
  apply rsplit_some in E. destruct E as [-> Hn]. exists ip, port. split; [reflexivity|]. split; [exact Hn|]. split; [exact Em|lia].
Qed.
Print Assumptions C36_address_is_what_precedes_the_last_colon.

(** C62, "a port outside 0..65535 is rejected": false for every such port that fits an int. The server silently gets the
    port modulo 65536. *)
Theorem C62_port_out_of_range_refuted :
  forall (addr : Type) (make : str -> option addr) (ip : str) (a : addr) (ds : list Z),
    ds <> [] -> decimal ds -> 65535 < number ds < 2 ^ 31 -> make ip = Some a ->
    tcp_s make (ip ++ colon :: chars ds) = Server a (number ds mod 65536).
Proof.
  intros addr make ip a ds Hne Hd Hr Hm. unfold tcp_s. rewrite rsplit_app by now apply chars_no_colon.
  unfold atoi. rewrite <- (app_nil_r (chars ds)). rewrite strtol_chars by (try easy; discriminate).
  destruct (Z.leb_spec (- 2 ^ 31) (number ds)); [|lia]. destruct (Z.leb_spec (number ds) (2 ^ 31 - 1)); [|lia]. cbn [andb]. rewrite Hm. reflexivity.
Qed.
Print Assumptions C62_port_out_of_range_refuted.
(** ":65616" is port 80 *)
Example C62_65616 : tcp_s (fun _ => Some tt) (colon :: [54; 53; 54; 49; 54]) = Server tt 80.
Proof. vm_compute. reflexivity. Qed.

(** "... or a malformed literal is rejected": false for every junk behind the digits, for a port without any digit, and for a
    negative one; and beyond the range of int the behaviour is undefined. *)
Theorem C62_malformed_port_refuted :
  forall (addr : Type) (make : str -> option addr) (ip : str) (a : addr), make ip = Some a ->
    (forall ds junk, ds <> [] -> decimal ds -> number ds <= 65535 -> (forall c r, junk = c :: r -> isdigit c = false) -> no_colon junk ->
       tcp_s make (ip ++ colon :: chars ds ++ junk) = Server a (number ds)) /\
    (forall junk, no_colon junk -> (forall c r, junk = c :: r -> ~ 48 <= c <= 57 /\ ~ In c blanks /\ c <> minus /\ c <> plus_) ->
       tcp_s make (ip ++ colon :: junk) = Server a 0) /\
    (forall ds, ds <> [] -> decimal ds -> 0 < number ds <= 65535 -> tcp_s make (ip ++ colon :: minus :: chars ds) = Server a (65536 - number ds)) /\
    (forall ds, ds <> [] -> decimal ds -> 2 ^ 31 <= number ds -> tcp_s make (ip ++ colon :: chars ds) = Undefined).
Proof.
  intros addr make ip a Hm. unfold tcp_s. repeat split.
  - intros ds junk Hne Hd Hp Hj Hc. rewrite rsplit_app.
    2:{ unfold no_colon. rewrite in_app_iff. intros [H|H]; [revert H; now apply chars_no_colon|now apply Hc]. }
    unfold atoi. rewrite strtol_chars by easy. pose proof (number_nonneg ds Hd).
    destruct (Z.leb_spec (- 2 ^ 31) (number ds)); [|lia]. destruct (Z.leb_spec (number ds) (2 ^ 31 - 1)); [|lia]. cbn [andb]. rewrite Hm.
    rewrite Z.mod_small by (change (2 ^ 16) with 65536; lia). reflexivity.
  - intros junk Hc Hj. rewrite rsplit_app by easy. assert (E : strtol10 junk = 0).
    { unfold strtol10. destruct junk as [|c r]; [reflexivity|]. destruct (Hj c r eq_refl) as (H1 & H2 & H3 & H4). apply not_digit in H1. apply not_blank in H2. cbn [skip_space]. rewrite H2.
      destruct (Z.eqb_spec c minus); [easy|]. destruct (Z.eqb_spec c plus_); [easy|]. cbn. now rewrite H1. }
    unfold atoi. rewrite E. cbn. now rewrite Hm.
  - intros ds Hne Hd Hp. rewrite rsplit_app. 2:{ unfold no_colon. cbn. intros [H|H]; [discriminate|revert H; now apply chars_no_colon]. }
    assert (E : strtol10 (minus :: chars ds) = - number ds).
    { change (strtol10 (minus :: chars ds)) with (- digits 0 (chars ds)). f_equal.
      rewrite <- (app_nil_r (chars ds)). rewrite digits_chars by (easy || discriminate). lia. }
    unfold atoi. rewrite E. destruct (Z.leb_spec (- 2 ^ 31) (- number ds)); [|lia]. destruct (Z.leb_spec (- number ds) (2 ^ 31 - 1)); [|lia]. cbn [andb]. rewrite Hm.
    f_equal. change (2 ^ 16) with 65536. symmetry. apply (Z.mod_unique_pos _ _ (-1)); lia.
  - intros ds Hne Hd Hp. rewrite rsplit_app by now apply chars_no_colon. unfold atoi. rewrite <- (app_nil_r (chars ds)). rewrite strtol_chars by (try easy; discriminate).
    destruct (Z.leb_spec (number ds) (2 ^ 31 - 1)); [lia|]. now rewrite andb_false_r.
Qed.
Print Assumptions C62_malformed_port_refuted.

(** C62 refuted: a port with blanks in front of it is accepted (as the number behind them), a sign too, and blanks alone are port 0. *)
Theorem C62_blanks_accepted_refuted : forall (addr : Type) (make : str -> option addr) (ip : str) (a : addr) (ws : str), make ip = Some a -> (forall c, In c ws -> In c blanks) ->
  (forall s p, is_port s p -> tcp_s make (ip ++ colon :: ws ++ s) = Server a p /\ tcp_s make (ip ++ colon :: ws ++ plus_ :: s) = Server a p) /\
  tcp_s make (ip ++ colon :: ws) = Server a 0.
Proof.
  intros addr make ip a ws Hm Hw. assert (Nw : no_colon ws) by (intros H; apply Hw in H; cbn in H; unfold colon in H; lia). unfold tcp_s. split.
  - intros s p (ds & Hne & Hd & -> & Hn & Hp). pose proof (number_nonneg ds Hd). assert (E1 : strtol10 (chars ds) = p) by (rewrite <- (app_nil_r (chars ds)); rewrite strtol_chars by (try easy; discriminate); exact Hn).
    assert (R : forall x, x = p -> (if (- 2 ^ 31 <=? x) && (x <=? 2 ^ 31 - 1) then Some x else None) = Some p).
    { intros x ->. destruct (Z.leb_spec (- 2 ^ 31) p); [|lia]. destruct (Z.leb_spec p (2 ^ 31 - 1)); [|lia]. reflexivity. }
    split; rewrite rsplit_app.
    + unfold atoi. rewrite R by (unfold strtol10; rewrite skip_blanks by exact Hw; exact E1). rewrite Hm. f_equal. rewrite Z.mod_small; [reflexivity|change (2 ^ 16) with 65536; lia].
    + unfold no_colon. rewrite in_app_iff. intros [H1|H1]; [now apply Nw|revert H1; now apply chars_no_colon].
    + unfold atoi. rewrite R.
      * rewrite Hm. f_equal. rewrite Z.mod_small; [reflexivity|change (2 ^ 16) with 65536; lia].
      * unfold strtol10. rewrite skip_blanks by exact Hw. change (digits 0 (chars ds) = p). rewrite <- (app_nil_r (chars ds)), digits_chars by (easy || discriminate). lia.
    + unfold no_colon. rewrite in_app_iff. intros [H1|[H1|H1]]; [now apply Nw|discriminate|revert H1; now apply chars_no_colon].
  - rewrite rsplit_app by exact Nw. unfold atoi, strtol10. rewrite <- (app_nil_r ws), skip_blanks by exact Hw. cbn. now rewrite Hm.
Qed.
Print Assumptions C62_blanks_accepted_refuted.
Example C62_blanks_case : tcp_s (fun _ => Some tt) (colon :: [32; 9; 43; 56; 48]) = Server tt 80.
Proof. vm_compute. reflexivity. Qed.

(** What holds of C62: which literals are rejected (where the behaviour is defined). A missing port and a refused address are the only reasons. *)
Theorem C62_what_is_rejected_partial : forall (addr : Type) (make : str -> option addr) (s : str), tcp_s make s <> Undefined ->
  (tcp_s make s = Throws <-> no_colon s \/ exists ip port, s = ip ++ colon :: port /\ no_colon port /\ make ip = None).
Proof.
  intros addr make s Hu. unfold tcp_s in *. destruct (rsplit s) as [[ip port]|] eqn:E.
  - apply rsplit_some in E. destruct E as [-> Hn]. destruct (atoi port) as [n|]; [|now elim Hu]. split.
    + destruct (make ip) eqn:Em; [discriminate|]. intros _. right. exists ip, port. auto.
    + intros [H|(ip' & port' & H & Hn' & Hm)].
      * exfalso. apply H. apply in_app_iff. right. now left.
      * pose proof (rsplit_app ip port Hn) as R1. rewrite H, (rsplit_app ip' port' Hn') in R1. injection R1 as -> ->. now rewrite Hm.
  - split; [|reflexivity]. intros _. left. now apply rsplit_none.
Qed.
Print Assumptions C62_what_is_rejected_partial.
(** "x:80" where the address "x" is refused, and "80" *)
Example C62_rejected_case : tcp_s (fun _ => @None unit) [120; colon; 56; 48] = Throws /\ tcp_s (fun _ => Some tt) [56; 48] = Throws.
Proof. split; vm_compute; reflexivity. Qed.
