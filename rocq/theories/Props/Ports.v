(** C33, C34, C35, C43, C46: ports, ranges, service names and numeric literals. *)
From Coq Require Import Lia String.
From Verif.Model Require Import Base Ip Hosts Groups Ports.
From Verif.Proofs Require Import GroupOps DictFacts.
Local Open Scope list_scope.

(** ** C33: ports with a number are totally ordered by operator, then number text. *)
Definition numbered (p : port) : Prop := exists s, p_num p = Some s.
(** Ports compare equal: same operator (none counting as the empty text), same number. *)
Definition same_port (p q : port) : Prop := opt_or (p_op p) = opt_or (p_op q) /\ p_num p = p_num q.
(** Code point order of texts. *)
Inductive text_before : pystr -> pystr -> Prop :=
| TB_nil x s : text_before [] (x :: s)
| TB_head x y s t : (x < y)%N -> text_before (x :: s) (y :: t)
| TB_tail x s t : text_before s t -> text_before (x :: s) (x :: t).
Definition port_before (p q : port) : Prop :=
  text_before (opt_or (p_op p)) (opt_or (p_op q)) \/
  (opt_or (p_op p) = opt_or (p_op q) /\ exists s t, p_num p = Some s /\ p_num q = Some t /\ text_before s t).

Lemma text_before_iff a b : text_before a b <-> str_ltb a b = true.
Proof.
  revert b. induction a as [|x a IH]; intros [|y b]; cbn.
  - split; [intros H; inversion H|discriminate].
  - split; auto. intros _. constructor.
  - split; [intros H; inversion H|discriminate].
  - destruct (N.ltb_spec x y) as [L|L].
    + split; auto. intros _. now constructor.
    + destruct (N.ltb_spec y x) as [L'|L'].
      * split; [|discriminate]. intros H; inversion H; subst; lia.
      * assert (x = y) as -> by lia. rewrite <- IH. split.
        -- intros H; inversion H; subst; [lia|auto].
        -- intros H. now apply TB_tail.
Qed.
Lemma str_tri3 a b : (str_ltb a b = true /\ str_ltb b a = false /\ a <> b) \/
  (str_ltb a b = false /\ str_ltb b a = true /\ a <> b) \/ (str_ltb a b = false /\ str_ltb b a = false /\ a = b).
Proof. destruct (str_tricho a b) as [H|[->|H]]; auto. right. right. rewrite str_ltb_irrefl. auto. Qed.
Lemma same_port_iff p q : port_eq p (Some q) = true <-> same_port p q.
Proof.
  unfold port_eq, tuple_eqb, same_port. cbn. rewrite andb_true_iff.
  assert (A : str_eqb (opt_or (p_op p)) (opt_or (p_op q)) = true <-> opt_or (p_op p) = opt_or (p_op q)).
  { destruct (str_eqb_spec (opt_or (p_op p)) (opt_or (p_op q))); intuition congruence. }
  rewrite A. destruct (p_num p) as [s|], (p_num q) as [t|]; cbn; try (intuition congruence).
  destruct (str_eqb_spec s t); intuition congruence.
Qed.

Theorem C33_equality : forall p q,
  (port_eq p (Some q) = true <-> same_port p q) /\ same_port p p /\
  (same_port p q -> same_port q p) /\ (forall r, same_port p q -> same_port q r -> same_port p r).
Proof.
  intros p q. split; [apply same_port_iff|]. unfold same_port. intuition congruence.
Qed.
Print Assumptions C33_equality.

Theorem C33_comparisons : forall p q, numbered p -> numbered q ->
  exists lt le gt ge, port_lt p (Some q) = Ok lt /\ port_le p (Some q) = Ok le /\
    port_gt p (Some q) = Ok gt /\ port_ge p (Some q) = Ok ge /\
    (lt = true <-> port_before p q) /\ (gt = true <-> port_before q p) /\
    (le = true <-> port_before p q \/ same_port p q) /\ (ge = true <-> port_before q p \/ same_port p q).
Proof.
  intros p q (s & Ep) (t & Eq).
  assert (E : exists b, port_lt p (Some q) = Ok b /\ (b = true <-> port_before p q)).
  { unfold port_lt, tuple_ltb, port_before. cbn. rewrite Ep, Eq. cbn.
    destruct (str_eqb_spec (opt_or (p_op p)) (opt_or (p_op q))) as [E|N]; cbn [negb].
    - destruct (str_eqb_spec s t) as [->|N']; cbn.
      + exists false. split; auto. split; [discriminate|]. rewrite !text_before_iff, E, !str_ltb_irrefl.
        intros [H|(_ & s' & t' & A & B & H)]; [discriminate|]. injection A as <-. injection B as <-.
        rewrite text_before_iff, str_ltb_irrefl in H. discriminate.
      + eexists. split; [reflexivity|]. rewrite <- text_before_iff. split.
        * intros H. right. eauto 6.
        * intros [H|(_ & s' & t' & A & B & H)].
          -- rewrite E, text_before_iff, str_ltb_irrefl in H. discriminate.
          -- injection A as <-. injection B as <-. auto.
    - eexists. split; [reflexivity|]. rewrite <- text_before_iff. intuition. }
  assert (Tri : (port_before p q /\ ~ port_before q p /\ ~ same_port p q) \/
                (~ port_before p q /\ port_before q p /\ ~ same_port p q) \/
                (~ port_before p q /\ ~ port_before q p /\ same_port p q)).
  { unfold port_before, same_port. rewrite !text_before_iff, Ep, Eq.
    assert (X : forall a b, (exists s0 t0, Some a = Some s0 /\ Some b = Some t0 /\ text_before s0 t0) <-> str_ltb a b = true).
    { intros a b. rewrite <- text_before_iff. split; [intros (s0 & t0 & A & B & C); congruence|eauto 6]. }
    rewrite (X s t), (X t s).
    destruct (str_tri3 (opt_or (p_op p)) (opt_or (p_op q))) as [(A & B & C)|[(A & B & C)|(A & B & C)]];
      rewrite ?A, ?B; [left; intuition congruence| |];
      (destruct (str_tri3 s t) as [(A' & B' & C')|[(A' & B' & C')|(A' & B' & C')]]; rewrite ?A', ?B'; intuition congruence). }
  destruct E as (b & E & Hb).
  assert (Q : port_eq p (Some q) = true <-> same_port p q) by apply same_port_iff.
  unfold port_le, port_gt, port_ge. rewrite E. cbn [bind].
  exists b, (b || port_eq p (Some q)), (negb b && negb (port_eq p (Some q))), (negb b).
  repeat (split; [reflexivity|]). rewrite andb_true_iff, orb_true_iff, !negb_true_iff.
  destruct b, (port_eq p (Some q)); intuition congruence.
Qed.
Print Assumptions C33_comparisons.

Theorem C33_order_laws : forall p q r, numbered p -> numbered q -> numbered r ->
  ~ port_before p p /\
  (port_before p q -> port_before q r -> port_before p r) /\
  ((port_before p q \/ port_before q p \/ same_port p q) /\
   ~ (port_before p q /\ port_before q p) /\ ~ (port_before p q /\ same_port p q)).
Proof.
  intros p q r (s & Ep) (t & Eq) (w & Er).
  assert (X : forall a b, (exists s0 t0, Some a = Some s0 /\ Some b = Some t0 /\ text_before s0 t0) <-> str_ltb a b = true).
  { intros a b. rewrite <- text_before_iff. split; [intros (s0 & t0 & A & B & C); congruence|eauto 6]. }
  unfold port_before, same_port. rewrite !text_before_iff, Ep, Eq, Er, !X, !str_ltb_irrefl. split; [intuition congruence|split].
  - intros [H|[E H]] [H'|[E' H']].
    + left. eapply str_ltb_trans; eauto.
    + left. now rewrite <- E'.
    + left. now rewrite E.
    + right. split; [congruence|]. eapply str_ltb_trans; eauto.
  - destruct (str_tri3 (opt_or (p_op p)) (opt_or (p_op q))) as [(A & B & C)|[(A & B & C)|(A & B & C)]];
      rewrite ?A, ?B; (destruct (str_tri3 s t) as [(A' & B' & C')|[(A' & B' & C')|(A' & B' & C')]]; rewrite ?A', ?B'; intuition congruence).
Qed.
Print Assumptions C33_order_laws.

(** Without numbers: comparing for order raises TypeError exactly for equal operators
    where only one of the two has a number; comparing with None exactly without operator. *)
Theorem C33_missing_number : forall p q,
  (port_lt p (Some q) = Err TypeError <->
     opt_or (p_op p) = opt_or (p_op q) /\ (p_num p = None <-> p_num q <> None)) /\
  (port_lt p None = Err TypeError <-> opt_or (p_op p) = []) /\
  port_eq p None = false.
Proof.
  intros p q. split; [|split].
  - unfold port_lt, tuple_ltb. cbn. destruct (str_eqb_spec (opt_or (p_op p)) (opt_or (p_op q))) as [E|N]; cbn [negb].
    + destruct (p_num p) as [s|], (p_num q) as [t|]; cbn; try (destruct (str_eqb_spec s t); cbn);
        split; try discriminate; intuition congruence.
    + split; [discriminate|]. intros [E _]. congruence.
  - unfold port_lt, tuple_ltb. cbn. destruct (str_eqb_spec (opt_or (p_op p)) []) as [E|N]; cbn [negb].
    + destruct (p_num p); cbn; intuition.
    + split; [discriminate|tauto].
  - unfold port_eq, tuple_eqb. cbn. destruct (p_num p); cbn; apply andb_false_r.
Qed.
Print Assumptions C33_missing_number.

(** Equal ports that are different objects are different members of a set. *)
Theorem C33_not_hash_equal : forall i j p q s, i <> j ->
  (forall k r, In (k, r) s -> k <> j) -> In (i, p) s ->
  In (i, p) (port_set_add (j, q) s) /\ In (j, q) (port_set_add (j, q) s).
Proof.
  intros i j p q s N F I. unfold port_set_add.
  destruct (port_in_set (j, q) s) eqn:E.
  - apply existsb_exists in E as ([k r] & Ik & Ek). cbn in Ek. apply andb_true_iff in Ek as [Ek _].
    apply Nat.eqb_eq in Ek. subst k. destruct (F _ _ Ik eq_refl).
  - rewrite !in_app_iff. cbn. auto.
Qed.
Print Assumptions C33_not_hash_equal.
Example C33_instance :
  port_lt (mkport (Some (u "eq")) (Some (u "443"))) (Some (mkport (Some (u "eq")) (Some (u "80")))) = Ok true /\
  port_gt (mkport (Some (u "eq")) (Some (u "80"))) (Some (mkport None (Some (u "80")))) = Ok true /\
  same_port (mkport None (Some (u "80"))) (mkport (Some []) (Some (u "80"))).
Proof. repeat split; reflexivity. Qed.

(** ** C43: numeric literals *)
(** The value of a digit text, from the right. *)
Fixpoint value_rev (s : pystr) : N := match s with [] => 0 | c :: s' => (c - 48) + 10 * value_rev s' end%N.
Definition value (s : pystr) : N := value_rev (rev s).
Lemma dec_value s : dec s = value s.
Proof.
  unfold dec, dec_from, value. rewrite <- (rev_involutive s) at 1. generalize (rev s) as r. clear s.
  induction r as [|c r IH]; cbn [rev value_rev]; [reflexivity|].
  rewrite fold_left_app. cbn [fold_left]. rewrite IH. lia.
Qed.
Theorem C43_bounds : forall s, digits s = true ->
  (protocol_int s = if (value s <=? 255)%N then Ok s else Err AssertionError) /\
  (port_int s = if (value s <=? 65535)%N then Ok s else Err AssertionError) /\
  (icmp_type_int s = if (value s <=? 255)%N then Ok s else Err AssertionError) /\
  (icmp_code_int s = if (value s <=? 255)%N then Ok s else Err AssertionError).
Proof.
  intros s _. unfold protocol_int, port_int, icmp_type_int, icmp_code_int, bounded_int. rewrite dec_value. auto.
Qed.
Print Assumptions C43_bounds.
Theorem C43_accepted_iff : forall s, digits s = true ->
  (protocol_int s = Ok s <-> (value s <= 255)%N) /\ (port_int s = Ok s <-> (value s <= 65535)%N) /\
  (icmp_type_int s = Ok s <-> (value s <= 255)%N) /\ (icmp_code_int s = Ok s <-> (value s <= 255)%N).
Proof.
  intros s D. destruct (C43_bounds s D) as (-> & -> & -> & ->).
  destruct (N.leb_spec (value s) 255), (N.leb_spec (value s) 65535); intuition (try discriminate; try lia).
Qed.
Print Assumptions C43_accepted_iff.
Example C43_instance : port_int (u "65535") = Ok (u "65535") /\ port_int (u "65536") = Err AssertionError /\
  protocol_int (u "0255") = Ok (u "0255") /\ icmp_code_int (u "256") = Err AssertionError /\ digits (u "65536") = true.
Proof. repeat split. Qed.

(** ** C34: port ranges *)
(** On digit texts Python's [int] succeeds with the value. *)
Definition int_ok (py_int : pystr -> option Z) : Prop :=
  forall s, digits s = true -> py_int s = Some (Z.of_N (value s)).
(** No leading zero. *)
Definition canonical_num (s : pystr) : Prop := digits s = true /\ hd 0%N s <> 48%N.

Theorem C34_range_test : forall py_int a b, int_ok py_int -> digits a = true -> digits b = true ->
  (text_before a b -> port_range py_int (Some a) (Some b) = Ok (PRange (Some a) (Some b))) /\
  (~ text_before a b -> port_range py_int (Some a) (Some b) = Err AssertionError).
Proof.
  intros py a b I Da Db. unfold port_range. rewrite (I a Da), (I b Db), text_before_iff.
  destruct (str_ltb a b); intuition congruence.
Qed.
Print Assumptions C34_range_test.
(** A range with a service name at either end is always accepted, whatever its order. *)
Theorem C34_named_range : forall py_int a b, py_int a = None \/ py_int b = None ->
  port_range py_int (Some a) (Some b) = Ok (PRange (Some a) (Some b)).
Proof. intros py a b [H|H]; unfold port_range; rewrite H; [reflexivity|]. destruct (py a); reflexivity. Qed.
Print Assumptions C34_named_range.

Lemma value_app a b : value (a ++ b) = (value a * 10 ^ N.of_nat (length b) + value b)%N.
Proof.
  unfold value. rewrite rev_app_distr. rewrite <- (rev_length b).
  generalize (rev a) (rev b). intros x y. induction y as [|c y IH]; cbn [app length value_rev].
  - rewrite N.pow_0_r. lia.
  - rewrite IH, Nat2N.inj_succ, N.pow_succ_r'. ring.
Qed.
Lemma value_lt s : forallb is_digit s = true -> (value s < 10 ^ N.of_nat (length s))%N.
Proof.
  unfold value. intros H. rewrite <- (rev_length s).
  assert (H' : forallb is_digit (rev s) = true).
  { apply forallb_forall. intros x I. rewrite forallb_forall in H. apply H. now apply in_rev. }
  revert H'. generalize (rev s). clear. intros s. induction s as [|c s IH]; cbn [length value_rev forallb]; intros H.
  - cbn. lia.
  - apply andb_true_iff in H as [H1 H2]. unfold is_digit in H1. apply andb_true_iff in H1 as [A B].
    apply N.leb_le in A, B. specialize (IH H2). rewrite Nat2N.inj_succ, N.pow_succ_r'. lia.
Qed.
Lemma value_cons c s : value (c :: s) = ((c - 48) * 10 ^ N.of_nat (length s) + value s)%N.
Proof. change (c :: s) with ([c] ++ s). rewrite value_app. f_equal. f_equal. unfold value. cbn. lia. Qed.

Lemma same_length a b : forallb is_digit a = true -> forallb is_digit b = true -> length a = length b ->
  text_before a b <-> (value a < value b)%N.
Proof.
  revert b. induction a as [|x a IH]; intros [|y b] Da Db L; cbn in L; try discriminate.
  - split; [intros H; inversion H|unfold value; cbn; lia].
  - injection L as L. cbn in Da, Db. apply andb_true_iff in Da as [X Da], Db as [Y Db].
    unfold is_digit in X, Y. apply andb_true_iff in X as [X1 X2], Y as [Y1 Y2]. apply N.leb_le in X1, X2, Y1, Y2.
    rewrite !value_cons, <- L. pose proof (value_lt a Da) as Va. pose proof (value_lt b Db) as Vb. rewrite <- L in Vb.
    set (k := (10 ^ N.of_nat (length a))%N) in *.
    split.
    + intros H. inversion H as [|? ? ? ? H1|? ? ? H1]; subst.
      * nia.
      * apply IH in H1; auto. lia.
    + intros H. destruct (N.lt_trichotomy x y) as [Lt|[->|Gt]].
      * now apply TB_head.
      * apply TB_tail. apply IH; auto. lia.
      * exfalso. nia.
Qed.
Lemma shorter_smaller a b : canonical_num b -> forallb is_digit a = true -> length a < length b -> (value a < value b)%N.
Proof.
  intros [Db H0] Da L. destruct b as [|y b]; [cbn in L; lia|]. cbn in Db, H0, L.
  apply andb_true_iff in Db as [Y Db]. unfold is_digit in Y. apply andb_true_iff in Y as [Y1 Y2]. apply N.leb_le in Y1, Y2.
  rewrite value_cons. pose proof (value_lt a Da) as Va.
  assert (P : (10 ^ N.of_nat (length a) <= 10 ^ N.of_nat (length b))%N) by (apply N.pow_le_mono_r; lia). nia.
Qed.
Lemma digits_forall s : digits s = true -> forallb is_digit s = true.
Proof. destruct s; [discriminate|auto]. Qed.

(** Numbers of equal length are checked correctly. *)
Theorem C34_equal_length : forall py_int a b, int_ok py_int -> digits a = true -> digits b = true -> length a = length b ->
  port_range py_int (Some a) (Some b) = Ok (PRange (Some a) (Some b)) <-> (value a < value b)%N.
Proof.
  intros py a b I Da Db L. rewrite <- same_length by (auto using digits_forall).
  destruct (C34_range_test py a b I Da Db) as [H1 H2]. split; [|auto].
  intros E. rewrite text_before_iff. destruct (str_ltb a b) eqn:X; auto.
  rewrite H2 in E; [discriminate|]. rewrite text_before_iff. congruence.
Qed.
Print Assumptions C34_equal_length.
(** For numbers of different length the check is right exactly when text order and length
    order agree. *)
Theorem C34_different_length : forall py_int a b, int_ok py_int -> canonical_num a -> canonical_num b -> length a <> length b ->
  ((port_range py_int (Some a) (Some b) = Ok (PRange (Some a) (Some b)) <-> (value a < value b)%N) <->
   (text_before a b <-> length a < length b)).
Proof.
  intros py a b I Ca Cb L. destruct (C34_range_test py a b I (proj1 Ca) (proj1 Cb)) as [H1 H2].
  assert (R : port_range py (Some a) (Some b) = Ok (PRange (Some a) (Some b)) <-> text_before a b).
  { split; [|auto]. intros E. rewrite text_before_iff. destruct (str_ltb a b) eqn:X; auto.
    rewrite H2 in E; [discriminate|]. rewrite text_before_iff. congruence. }
  rewrite R. assert (V : (value a < value b)%N <-> length a < length b).
  { destruct (Nat.lt_ge_cases (length a) (length b)) as [Lt|Ge].
    - split; auto. intros _. apply shorter_smaller; auto. apply digits_forall, Ca.
    - assert (length b < length a) by lia. pose proof (shorter_smaller b a Ca (digits_forall b (proj1 Cb)) H). lia. }
  rewrite V. reflexivity.
Qed.
Print Assumptions C34_different_length.
(** The two kinds of mistake. *)
Theorem C34_refuted : forall py_int, int_ok py_int ->
  port_range py_int (Some (u "80")) (Some (u "443")) = Err AssertionError /\
  port_range py_int (Some (u "100")) (Some (u "99")) = Ok (PRange (Some (u "100")) (Some (u "99"))).
Proof.
  intros py I. unfold port_range. rewrite !I by reflexivity. split; reflexivity.
Qed.
Print Assumptions C34_refuted.
Example C34_instance : int_ok (fun s => if digits s then Some (Z.of_N (value s)) else None) /\
  canonical_num (u "80") /\ canonical_num (u "443").
Proof. split; [intros s ->; reflexivity|]. split; (split; [reflexivity|discriminate]). Qed.

(** ** C35 *)
Theorem C35_lookup : forall table name,
  match getservbyname table name None with
  | Ok (Some p) => exists pre s post, table = pre ++ s :: post /\ s_name s = name /\ s_port s = p /\
                     forall x, In x pre -> s_name x <> name
  | Ok None => forall x, In x table -> s_name x <> name
  | Err _ => False
  end.
Proof.
  intros table name. induction table as [|s table IH]; cbn; [intros x []|].
  destruct (str_eqb_spec (s_name s) name) as [E|N].
  - exists [], s, table. cbn. tauto.
  - destruct (getservbyname table name None) as [[p|]|e].
    + destruct IH as (pre & s' & post & -> & A & B & C). exists (s :: pre), s', post. cbn.
      repeat split; auto. intros x [<-|I]; auto.
    + intros x [<-|I]; auto.
    + destruct IH.
Qed.
Print Assumptions C35_lookup.
Theorem C35_with_protocol : forall table name proto,
  ((exists s, In s table /\ s_name s = name) -> getservbyname table name (Some proto) = Err AttributeError) /\
  ((forall s, In s table -> s_name s <> name) -> getservbyname table name (Some proto) = Ok None).
Proof.
  intros table name proto. induction table as [|s table [IH1 IH2]]; cbn; (split; [|]).
  - intros (s & [] & _).
  - auto.
  - intros (x & I & E). destruct (str_eqb_spec (s_name s) name) as [E'|N]; auto.
    apply IH1. destruct I as [->|I]; [congruence|eauto].
  - intros H. destruct (str_eqb_spec (s_name s) name) as [E'|N]; [destruct (H s); auto|]. apply IH2. auto.
Qed.
Print Assumptions C35_with_protocol.
(** The shipped table is well-formed; of the names the grammar accepts as ports exactly
    eight are unknown to it. *)
Theorem C35_shipped_table : exists t, service_table = Some t /\ length t = 93 /\
  forall n, In n port_code ->
    (getservbyname t n None = Ok None <->
     In n (map u ["sip"; "rtsp"; "rsh"; "rpc"; "non500-isakmp"; "nfs"; "netbios-ss"; "http"]%string)).
Proof.
  destruct service_table as [t|] eqn:E; [|vm_compute in E; discriminate].
  exists t. split; [reflexivity|]. vm_compute in E. injection E as <-. split; [reflexivity|].
  set (missing := map u _).
  match goal with |- forall n, In n port_code -> (getservbyname ?t n None = _ <-> _) => set (tab := t) end.
  assert (A : forallb (fun n => Bool.eqb (match getservbyname tab n None with Ok None => true | _ => false end)
                                         (existsb (str_eqb n) missing)) port_code = true) by (vm_compute; reflexivity).
  intros n I. rewrite forallb_forall in A. specialize (A n I). apply eqb_prop in A.
  rewrite <- existsb_mem, <- A. destruct (getservbyname tab n None) as [[p|]|e]; intuition congruence.
Qed.
Print Assumptions C35_shipped_table.
Example C35_instance : exists t, service_table = Some t /\ getservbyname t (u "sunrpc") None = Ok (Some 111%N) /\
  getservbyname t (u "echo") None = Ok (Some 7%N) /\ getservbyname t (u "echo") (Some (u "icmp")) = Err AttributeError.
Proof. eexists. split; [vm_compute; reflexivity|]. repeat split; vm_compute; reflexivity. Qed.

(** ** C46 *)
Theorem C46_number_lost : forall py_int port,
  port_group_object py_int (port_line_ast (LEq port)) = Ok (Some (PPort (Some (u "eq")) None)).
Proof. reflexivity. Qed.
Print Assumptions C46_number_lost.
(** The other lines are read as written. *)
Theorem C46_other_lines : forall py_int,
  (forall a b, port_group_object py_int (port_line_ast (LRange a b)) =
               do r <- port_range py_int (Some a) (Some b); Ok (Some r)) /\
  (forall g, port_group_object py_int (port_line_ast (LGroup g)) = Ok (Some (PGrp g))).
Proof. intros py. split; reflexivity. Qed.
Print Assumptions C46_other_lines.
(** A port group with such a line cannot be sorted. *)
Theorem C46_sort_fails : forall py_int servbyname limit h g lines ms port,
  In (LEq port) lines -> map_r (fun l => port_group_object py_int (port_line_ast l)) lines = Ok (map Some ms) ->
  objs h g = ms -> port_sort py_int servbyname limit true h g = (h, Err TypeError).
Proof.
  intros py sv limit h g lines ms port I M O.
  assert (J : In (PPort (Some (u "eq")) None) ms).
  { apply map_r_ok in M. clear O. revert ms M. induction lines as [|l lines IH]; intros ms M; [destruct I|].
    destruct ms as [|m ms]; inversion M; subst. destruct I as [->|I].
    - left. rewrite C46_number_lost in H2. congruence.
    - right. apply IH; auto. }
  cbn [port_sort]. unfold sort_in, sort_by. rewrite O.
  assert (K : map_r (port_key py sv h) ms = Err TypeError).
  { clear M O I. induction ms as [|m ms IH]; [destruct J|]. cbn [map_r].
    assert (T : forall x, port_key py sv h x = Err TypeError \/ exists z, port_key py sv h x = Ok z).
    { intros [op num|a b|k]; cbn; [destruct num|destruct a|]; cbn; eauto. }
    destruct J as [->|J].
    - reflexivity.
    - destruct (T m) as [->|(z & ->)]; [reflexivity|]. cbn [bind]. rewrite IH; auto. }
  rewrite K. reflexivity.
Qed.
Print Assumptions C46_sort_fails.
Example C46_instance : exists h : gheap pmember,
  objs h 0 = [PRange (Some (u "1")) (Some (u "2")); PPort (Some (u "eq")) None] /\
  map_r (fun l => port_group_object (fun _ => None) (port_line_ast l)) [LRange (u "1") (u "2"); LEq (u "443")] =
    Ok (map Some (objs h 0)).
Proof.
  exists (mkheap (fun _ => mkgroup [] [] [] [PRange (Some (u "1")) (Some (u "2")); PPort (Some (u "eq")) None]) 1). split; reflexivity.
Qed.
