(** Facts about the parsing machinery and about references. *)
From Coq Require Import Lia Sorting.Sorted Permutation String.
From Verif.Model Require Import Base Ip Iface Peg Ids.
From Verif.Spec Require Import RefSpec.
From Verif.Proofs Require Import SortFacts GroupOps DictFacts.
Local Open Scope list_scope.

Lemma strip_spec t s r : strip_prefix t s = Some r <-> s = t ++ r.
Proof.
  revert s; induction t as [|a t IH]; cbn; intros s.
  - split; [intros [= ->]; auto|intros ->; auto].
  - destruct s as [|b s]; [split; discriminate|].
    destruct (N.eqb_spec a b) as [->|N]; [|split; [discriminate|intros [= -> ->]; congruence]].
    rewrite IH. split; [intros ->; auto|intros [= ->]; auto].
Qed.

Lemma str_ltb_prefix n x m : str_ltb n (n ++ x :: m) = true.
Proof. induction n; cbn; [reflexivity|]. now rewrite N.ltb_irrefl. Qed.

Lemma app_longer {A} (n m : list A) r r' :
  n ++ r = m ++ r' -> (length n <= length m)%nat -> exists k, m = n ++ k /\ r = k ++ r'.
Proof.
  revert m. induction n as [|a n IH]; cbn; intros m E L.
  - exists m. auto.
  - destruct m as [|b m]; cbn in *; [lia|]. injection E as -> E.
    destruct (IH m E ltac:(lia)) as (k & -> & ->). exists k. auto.
Qed.

Section Ids.
  Context (isalpha isalnum : N -> bool).
  Notation token := (token isalpha isalnum).
  Notation ids := (ids isalpha isalnum).

  Definition passes (t r : pystr) : Prop :=
    name_like isalpha isalnum t && next_alnum isalnum r = false.

  Lemma token_ok t s n r : token t s = POk n r <-> n = t /\ s = t ++ r /\ passes t r.
  Proof.
    unfold Peg.token, passes. destruct (strip_prefix t s) as [q|] eqn:E.
    - apply strip_spec in E. subst s.
      destruct (name_like isalpha isalnum t && next_alnum isalnum q) eqn:G.
      + split; [discriminate|]. intros (-> & H & H1). apply app_inv_head in H. subst. congruence.
      + split; [intros [= <- <-]; auto|]. intros (-> & H & H1). apply app_inv_head in H. now subst.
    - split; [discriminate|]. intros (_ & -> & _).
      assert (strip_prefix t (t ++ r) = Some r) by (now apply strip_spec). congruence.
  Qed.
  Lemma token_noerr t s e : token t s <> PErr e.
  Proof. unfold Peg.token. destruct (strip_prefix t s); [|discriminate]. destruct (_ && _); discriminate. Qed.

  Lemma choice_noerr l s e : choice (map token l) s <> PErr e.
  Proof.
    induction l as [|t l IH]; cbn; [discriminate|]. unfold por.
    destruct (token t s) eqn:E; auto; [|discriminate]. now apply token_noerr in E.
  Qed.
  Lemma choice_sound l s n r : choice (map token l) s = POk n r -> In n l /\ s = n ++ r /\ passes n r.
  Proof.
    induction l as [|t l IH]; cbn; [discriminate|]. unfold por.
    destruct (token t s) as [|e|a q] eqn:E.
    - intros H. apply IH in H. tauto.
    - discriminate.
    - intros [= -> ->]. apply token_ok in E. destruct E as (-> & E). tauto.
  Qed.
  Lemma choice_total l s n r : In n l -> s = n ++ r -> passes n r ->
    exists m q, choice (map token l) s = POk m q.
  Proof.
    induction l as [|t l IH]; cbn; [tauto|]. intros I E P. unfold por.
    destruct (token t s) as [|e|a q] eqn:T; eauto.
    - destruct I as [->|I]; auto.
      assert (token n s = POk n r) by (now apply token_ok). congruence.
    - now apply token_noerr in T.
  Qed.
  (** the list is in descending order: the first match is the longest *)
  Lemma choice_longest l s n r m q :
    StronglySorted (fun a b => str_ltb a b = false) l ->
    choice (map token l) s = POk m q -> In n l -> s = n ++ r -> passes n r ->
    (length n <= length m)%nat.
  Proof.
    induction l as [|t l IH]; cbn; [tauto|]. intros S H I E P. inversion S as [|? ? S1 S2]; subst.
    unfold por in H. destruct (token t (n ++ r)) as [|e|a q0] eqn:T.
    - destruct I as [->|I]; [|auto].
      assert (token n (n ++ r) = POk n r) by (now apply token_ok). congruence.
    - discriminate.
    - injection H as -> ->. apply token_ok in T. destruct T as (-> & E & _).
      destruct (Nat.le_gt_cases (length n) (length t)) as [|L]; auto.
      destruct I as [->|I]; [lia|].
      symmetry in E. apply app_longer in E; [|lia]. destruct E as (k & E1 & ->).
      destruct k as [|x k]; [rewrite app_nil_r in E1; subst; lia|].
      rewrite Forall_forall in S2. specialize (S2 _ I). subst n.
      rewrite str_ltb_prefix in S2. discriminate.
  Qed.

  Lemma le_sorted_rev (l : list pystr) :
    StronglySorted (fun a b => str_ltb b a = false) l ->
    StronglySorted (fun a b => str_ltb a b = false) (rev l).
  Proof.
    induction 1 as [|a l S IH F]; cbn; [constructor|].
    assert (G : forall l1, StronglySorted (fun a b => str_ltb a b = false) l1 ->
                Forall (fun b => str_ltb b a = false) l1 ->
                StronglySorted (fun a b => str_ltb a b = false) (l1 ++ [a])).
    { clear. induction 1 as [|b l S IH F]; cbn; intros G; [repeat constructor|].
      inversion G; subst. constructor; auto. apply Forall_app. auto. }
    apply G; auto. now apply Forall_rev.
  Qed.

  Context {V : Type}.
  Implicit Types (table : dict V).

  Lemma ids_list table :
    StronglySorted (fun a b => str_ltb a b = false) (rev (sorted str_ltb (map fst table))).
  Proof.
    apply le_sorted_rev. apply (sorted_sorted str_ltb); unfold le.
    - intros x y. destruct (str_tricho x y) as [(A & B & C)|[->|(A & B & C)]]; auto.
      left. apply str_ltb_irrefl.
    - intros x y z A B. exact (str_le_trans x y z A B).
  Qed.
  Lemma ids_in table n : In n (rev (sorted str_ltb (map fst table))) <-> dmem table n = true.
  Proof.
    rewrite <- in_rev, dmem_true. pose proof (sorted_perm str_ltb (map fst table)) as P.
    split; apply Permutation_in; [apply Permutation_sym|]; exact P.
  Qed.
  Lemma ids_noerr table s e : ids table s <> PErr e.
  Proof. apply choice_noerr. Qed.
  Lemma ids_sound table s n r : ids table s = POk n r -> dmem table n = true /\ s = n ++ r /\ passes n r.
  Proof. intros H. apply choice_sound in H. now rewrite ids_in in H. Qed.

  (** A known name, followed by a character of a class that is not in any name, is what
      the choice picks. *)
  Lemma ids_complete (cls : N -> Prop) table n r :
    (forall c, cls c -> isalnum c = false) ->
    (forall m, dmem table m = true -> freeof cls m) ->
    dmem table n = true -> headin cls r -> ids table (n ++ r) = POk n r.
  Proof.
    intros A F D (c & r' & -> & C).
    assert (P : passes n (c :: r')).
    { unfold passes. cbn. rewrite (A c C). apply andb_false_r. }
    apply ids_in in D as D'.
    destruct (choice_total _ (n ++ c :: r') n _ D' eq_refl P) as (m & q & H).
    pose proof (choice_longest _ _ _ _ _ _ (ids_list table) H D' eq_refl P) as L.
    unfold Ids.ids. rewrite H. apply choice_sound in H. destruct H as (H1 & H2 & _).
    apply app_longer in H2; [|auto]. destruct H2 as (k & -> & E).
    destruct k as [|x k].
    - rewrite app_nil_r. cbn in E. now subst.
    - injection E as <- ->. apply ids_in in H1. exfalso. apply (F _ H1 c); auto.
      apply in_app_iff. right. now left.
  Qed.
End Ids.

Lemma span_spec f s a b : span f s = (a, b) ->
  s = a ++ b /\ forallb f a = true /\ (b = [] \/ exists c b', b = c :: b' /\ f c = false).
Proof.
  revert a b. induction s as [|c s IH]; cbn; intros a b.
  - intros [= <- <-]. auto.
  - destruct (f c) eqn:E.
    + destruct (span f s) as [a' b'] eqn:S. intros [= <- <-].
      destruct (IH _ _ eq_refl) as (-> & H & H1). cbn. rewrite E. auto.
    + intros [= <- <-]. repeat split; auto. right. eauto.
Qed.
Lemma span_app f a b : forallb f a = true -> (b = [] \/ exists c b', b = c :: b' /\ f c = false) ->
  span f (a ++ b) = (a, b).
Proof.
  induction a as [|c a IH]; cbn; intros F B.
  - destruct B as [->|(c & b' & -> & E)]; cbn; auto. now rewrite E.
  - apply andb_true_iff in F. destruct F as [F1 F2]. now rewrite F1, IH.
Qed.

Lemma ws_ok s r : ws s = POk tt r <->
  exists b, b <> [] /\ forallb is_blank b = true /\ s = b ++ r /\ (r = [] \/ exists c r', r = c :: r' /\ is_blank c = false).
Proof.
  unfold ws, pbind, pat1, ret. destruct (span is_blank s) as [a b] eqn:E.
  apply span_spec in E as E'. destruct E' as (-> & F & B).
  split.
  - destruct a as [|x a]; [discriminate|]. intros [= <-]. exists (x :: a). repeat split; auto; discriminate.
  - intros (b0 & N & F0 & E0 & B0). rewrite E0, span_app in E; auto. injection E as <- <-.
    destruct b0; [congruence|]. reflexivity.
Qed.
Lemma sep_parse r : (exists q, por ws nl r = POk tt q) <-> sep_start r.
Proof.
  unfold por, ws, nl, pbind, pat1, popt, char, sep_start, ret.
  destruct r as [|c r]; cbn.
  - split; [intros (q & [=])|intros (r' & [[=]|[[=]|[[=]|[=]]]])].
  - unfold is_blank at 1. destruct (N.eqb_spec c 32) as [->|N1]; cbn.
    { destruct (span is_blank r). split; eauto 10. }
    destruct (N.eqb_spec c 9) as [->|N2]; cbn.
    { destruct (span is_blank r). split; eauto 10. }
    destruct (N.eqb_spec c 13) as [->|N3]; cbn.
    + destruct r as [|d r]; [split; [intros (q & [=])|intros (r' & [[=]|[[=]|[[=]|[=]]]])]|].
      destruct (N.eqb_spec d 10) as [->|N4]; [split; eauto 10|].
      split; [intros (q & [=])|intros (r' & [[=]|[[=]|[[=]|[=]]]]); congruence].
    + destruct (N.eqb_spec c 10) as [->|N4]; [split; eauto 10|].
      split; [intros (q & [=])|intros (r' & [[=]|[[=]|[[=]|[=]]]]); congruence].
Qed.
Lemma sep_noerr r e : por ws nl r <> PErr e.
Proof.
  unfold por, ws, nl, pbind, pat1, popt, char, ret. destruct (span is_blank r) as [[|x a] b].
  - destruct r as [|c r]; [discriminate|]. destruct (N.eqb c 13).
    + destruct r as [|d r]; [discriminate|]. destruct (N.eqb d 10); discriminate.
    + destruct (N.eqb c 10); discriminate.
  - discriminate.
Qed.

Section Ref.
  Context (isalpha isalnum : N -> bool) {V : Type}.
  Notation ids := (ids isalpha isalnum).
  Implicit Types (table : dict V).

  (** look-ahead for a name and a separator, then the name *)
  Lemma ref_exact (cls : N -> Prop) (sepp : parser unit) (starts : pystr -> Prop) table s v r :
    (forall q, (exists x, sepp q = POk tt x) <-> starts q) ->
    (forall q e, sepp q <> PErr e) ->
    (forall q, starts q -> headin cls q) ->
    (forall c, cls c -> isalnum c = false) ->
    (forall m, dmem table m = true -> freeof cls m) ->
    let p := act (subscript table) (let% _ := look (let% _ := ids table in sepp) in ids table) in
    (p s = POk v r <-> exists n, s = n ++ r /\ starts r /\ dget table n = Some v) /\
    (forall e, p s <> PErr e).
  Proof.
    intros HS HE HH HA HF p.
    assert (D : forall n, dmem table n = true <-> exists v, dget table n = Some v).
    { intros n. unfold dmem. destruct (dget table n); split; eauto; try discriminate. intros (? & [=]). }
    unfold p, act, pbind, look, subscript.
    destruct (ids table s) as [|e|n q] eqn:E.
    - split; [|discriminate]. split; [discriminate|]. intros (n & -> & S & G).
      rewrite (ids_complete isalpha isalnum cls) in E; auto; [discriminate|apply D; eauto].
    - now apply ids_noerr in E.
    - apply ids_sound in E as E'. destruct E' as (M & -> & P).
      destruct (sepp q) as [|e|[] x] eqn:Q.
      + split; [|discriminate]. split; [discriminate|]. intros (m & E1 & S & G).
        rewrite E1, (ids_complete isalpha isalnum cls) in E; auto; [|apply D; eauto].
        injection E as -> ->. apply HS in S. destruct S as (x & S). congruence.
      + now apply HE in Q.
      + apply D in M as (w & W). rewrite E, W. split; [|discriminate].
        assert (S : starts q) by (apply HS; eauto). split.
        * intros [= -> ->]. eauto.
        * intros (m & E1 & S1 & G).
          rewrite E1, (ids_complete isalpha isalnum cls) in E; auto; [|apply D; eauto].
          injection E as -> ->. congruence.
  Qed.
End Ref.

(** Interfaces in parentheses. *)
Section NatIface.
  Context (isalpha isalnum : N -> bool) {V : Type}.
  Notation ids := (ids isalpha isalnum).
  Notation nat_iface := (nat_iface isalpha isalnum).
  Notation nat_interfaces := (nat_interfaces isalpha isalnum).
  Implicit Types (table : dict V).
  Hypothesis A1 : forall c, in_class [44; 41]%N c -> isalnum c = false.
  Hypothesis A2 : isalpha 97%N = true /\ isalnum 97%N = true /\ isalnum 110%N = true /\ isalnum 121%N = true.

  Lemma any_token q : token isalpha isalnum (u "any") (u "any" ++ q) =
    if next_alnum isalnum q then PFail else POk (u "any") q.
  Proof.
    destruct A2 as (B1 & B2 & B3 & B4). unfold token.
    assert (strip_prefix (u "any") (u "any" ++ q) = Some q) as -> by (now apply strip_spec).
    change (u "any") with [97; 110; 121]%N. cbn [name_like forallb]. rewrite B1, B3, B4. reflexivity.
  Qed.

  Lemma nat_iface_sound table s i r : nat_iface table s = POk i r ->
    exists n, s = n ++ r /\ iface_named table n i.
  Proof.
    unfold Ids.nat_iface, act, pbind. destruct (por _ _ s) as [|e|n q] eqn:E; [discriminate..|].
    unfold por in E.
    assert (G : s = n ++ q).
    { destruct (token isalpha isalnum (u "any") s) as [|e|a b] eqn:T; [|discriminate|].
      - apply ids_sound in E. tauto.
      - injection E as -> ->. apply token_ok in T. intuition congruence. }
    clear E. destruct (str_eqb_spec n (u "any")) as [->|N].
    - intros [= <- <-]. exists (u "any"). split; auto. left. auto.
    - unfold bind, subscript. destruct (dget table n) as [v|] eqn:D; [|discriminate].
      intros [= <- <-]. exists n. split; auto. right. eauto.
  Qed.

  Lemma nat_iface_complete table n i r :
    (forall m, dmem table m = true -> freeof (in_class [44; 41]%N) m /\ clear_of_any isalnum m) ->
    iface_named table n i -> headin (in_class [44; 41]%N) r -> nat_iface table (n ++ r) = POk i r.
  Proof.
    intros F H R. unfold Ids.nat_iface, act, pbind, por.
    destruct H as [[-> ->]|(N & v & D & ->)].
    - rewrite any_token. destruct R as (c & r' & -> & C). cbn [next_alnum]. now rewrite (A1 _ C).
    - assert (M : dmem table n = true) by (unfold dmem; now rewrite D).
      assert (token isalpha isalnum (u "any") (n ++ r) = PFail) as ->.
      { destruct (strip_prefix (u "any") (n ++ r)) as [q|] eqn:S.
        - apply strip_spec in S. rewrite S, any_token.
          destruct R as (c & r' & -> & C). pose proof (A1 _ C) as A.
          destruct A2 as (B1 & B2 & B3 & B4). change (u "any") with [97; 110; 121]%N in *.
          destruct n as [|x n]; [cbn in S; injection S as -> _; congruence|].
          destruct n as [|y n]; [cbn in S; injection S as _ -> _; congruence|].
          destruct n as [|z n]; [cbn in S; injection S as _ _ -> _; congruence|].
          cbn in S. injection S as -> -> -> <-.
          destruct n as [|d n]; [congruence|]. cbn.
          destruct (F _ M) as [_ G]. now rewrite (G d n eq_refl).
        - unfold token. now rewrite S. }
      rewrite (ids_complete isalpha isalnum (in_class [44; 41]%N)); auto; [|apply F].
      destruct (str_eqb_spec n (u "any")); [congruence|]. unfold subscript, bind. now rewrite D.
  Qed.

  Lemma char_ok c s r : char c s = POk tt r <-> s = c :: r.
  Proof.
    unfold char. destruct s as [|d s]; [split; discriminate|].
    destruct (N.eqb_spec d c) as [->|N]; split; congruence.
  Qed.

  Lemma nat_interfaces_exact table s i j r :
    (forall m, dmem table m = true -> freeof (in_class [44; 41]%N) m /\ clear_of_any isalnum m) ->
    nat_interfaces table s = POk (i, j) r <->
    exists n m, s = u "(" ++ n ++ u "," ++ m ++ u ")" ++ r /\ iface_named table n i /\ iface_named table m j.
  Proof.
    intros F. unfold Ids.nat_interfaces, pbind, ret. split.
    - destruct (char 40 s) as [|e|[] s1] eqn:E1; [discriminate..|].
      destruct (nat_iface table s1) as [|e|i' s2] eqn:E2; [discriminate..|].
      destruct (char 44 s2) as [|e|[] s3] eqn:E3; [discriminate..|].
      destruct (nat_iface table s3) as [|e|j' s4] eqn:E4; [discriminate..|].
      destruct (char 41 s4) as [|e|[] s5] eqn:E5; [discriminate..|].
      intros [= -> -> ->]. apply char_ok in E1, E3, E5.
      apply nat_iface_sound in E2, E4. destruct E2 as (n & -> & H1), E4 as (m & -> & H2).
      exists n, m. subst. repeat split; auto.
    - intros (n & m & -> & H1 & H2).
      change (u "(" ++ n ++ u "," ++ m ++ u ")" ++ r) with (40%N :: n ++ 44%N :: m ++ 41%N :: r).
      assert (K : forall c q, char c (c :: q) = POk tt q) by (intros; now apply char_ok).
      rewrite K.
      assert (Hc : headin (in_class [44; 41]%N) (44%N :: m ++ 41%N :: r))
        by (eexists; eexists; split; [reflexivity|cbn; auto]).
      assert (Hp : headin (in_class [44; 41]%N) (41%N :: r))
        by (eexists; eexists; split; [reflexivity|cbn; auto]).
      rewrite (nat_iface_complete table n i _ F H1 Hc), K, (nat_iface_complete table m j _ F H2 Hp), K.
      reflexivity.
  Qed.
End NatIface.
