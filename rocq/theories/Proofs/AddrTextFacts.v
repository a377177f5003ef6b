From Coq Require Import Lia.
From Verif.Model Require Import Base Ip Peg AddrText.
From Verif.Spec Require Import AddrTextSpec.
From Verif.Proofs Require Import PegFacts.
Local Open Scope N_scope.

Lemma str_eqb_refl s : str_eqb s s = true.
Proof. induction s; cbn; [reflexivity|]. now rewrite N.eqb_refl. Qed.
Lemma str_eqb_eq a b : str_eqb a b = true <-> a = b.
Proof.
  revert b. induction a as [|x a IH]; intros [|y b]; cbn; try (split; [discriminate|discriminate]); [tauto|].
  rewrite andb_true_iff, N.eqb_eq, IH. split; [intros (-> & ->); auto|intros [= -> ->]; auto].
Qed.

(** ** Digits by enumeration *)
Definition digits : list N := [48;49;50;51;52;53;54;55;56;57].
Lemma digit_In c : is_digit c = true -> In c digits.
Proof.
  unfold is_digit. intros H. apply andb_true_iff in H as (A & B). apply N.leb_le in A, B.
  assert (E : c = 48 + N.of_nat (N.to_nat (c - 48))) by lia.
  assert (L : (N.to_nat (c - 48) < 10)%nat) by lia.
  remember (N.to_nat (c - 48)) as k. clear Heqk. subst c.
  do 10 (destruct k as [|k]; [cbn; tauto|]). lia.
Qed.
Definition upto255 : list N := map N.of_nat (seq 0 256).
Lemma upto255_In n : n <= 255 -> In n upto255.
Proof. intros H. unfold upto255. apply in_map_iff. exists (N.to_nat n). split; [lia|]. apply in_seq. lia. Qed.

(** ** IPv4 octets *)
Definition octet_check (s : pystr) : bool :=
  match parse_octet s with Ok n => str_eqb s (dec3 n) && (n <=? 255) | Err e => match e with ValueError => true | _ => false end end.
Lemma octet_checks :
  forallb (fun a => octet_check [a] && forallb (fun b => octet_check [a; b] && forallb (fun c => octet_check [a; b; c]) digits) digits) digits = true.
Proof. vm_compute. reflexivity. Qed.
Lemma dec3_checks : forallb (fun n => match parse_octet (dec3 n) with Ok m => N.eqb m n | Err _ => false end) upto255 = true.
Proof. vm_compute. reflexivity. Qed.

Lemma parse_octet_spec s n : parse_octet s = Ok n <-> n <= 255 /\ s = dec3 n.
Proof.
  split.
  - intros H. assert (C : octet_check s = true).
    { pose proof octet_checks as K. rewrite forallb_forall in K.
      destruct s as [|a s]; [reflexivity|].
      assert (D : forallb is_digit (a :: s) = true /\ (length (a :: s) <= 3)%nat).
      { unfold parse_octet in H. destruct (forallb is_digit (a :: s)); [|discriminate]. split; [reflexivity|].
        destruct (Nat.ltb_spec 3 (length (a :: s))); [discriminate|lia]. }
      destruct D as (D & L). cbn [forallb] in D. apply andb_true_iff in D as (Da & D).
      specialize (K a (digit_In a Da)). apply andb_true_iff in K as (K1 & K).
      destruct s as [|b s]; [exact K1|]. cbn [forallb] in D. apply andb_true_iff in D as (Db & D).
      rewrite forallb_forall in K. specialize (K b (digit_In b Db)). apply andb_true_iff in K as (K2 & K).
      destruct s as [|c s]; [exact K2|]. cbn [forallb] in D. apply andb_true_iff in D as (Dc & D).
      rewrite forallb_forall in K. specialize (K c (digit_In c Dc)).
      destruct s; [exact K|]. cbn [length] in L. lia. }
    unfold octet_check in C. rewrite H in C. apply andb_true_iff in C as (C1 & C2).
    apply str_eqb_eq in C1. apply N.leb_le in C2. auto.
  - intros (L & ->). pose proof dec3_checks as K. rewrite forallb_forall in K. specialize (K n (upto255_In n L)).
    destruct (parse_octet (dec3 n)) as [m|]; [|discriminate]. apply N.eqb_eq in K. now subst.
Qed.
Lemma parse_octet_err s e : parse_octet s = Err e -> e = ValueError.
Proof.
  unfold parse_octet. destruct s; [congruence|]. repeat match goal with |- context [if ?b then _ else _] => destruct b end; congruence.
Qed.

(** ** Splitting *)
Lemma split_nonempty sep s : split sep s <> [].
Proof. destruct s as [|c s]; cbn; [discriminate|]. destruct (N.eqb c sep); [discriminate|]. destruct (split sep s); discriminate. Qed.
Lemma split_none sep a : has sep a = false -> split sep a = [a].
Proof.
  induction a as [|c a IH]; cbn; [reflexivity|]. intros H. apply orb_false_iff in H as (E & H). rewrite N.eqb_sym, E.
  now rewrite IH.
Qed.
Lemma split_app sep a b : has sep a = false -> split sep (a ++ sep :: b) = a :: split sep b.
Proof.
  induction a as [|c a IH]; intros H; cbn; [now rewrite N.eqb_refl|]. cbn in H. apply orb_false_iff in H as (E & H).
  rewrite N.eqb_sym, E. now rewrite IH.
Qed.
Fixpoint join (sep : N) (l : list pystr) : pystr :=
  match l with [] => [] | [x] => x | x :: l' => (x ++ sep :: join sep l')%list end.
Lemma split_join sep s : join sep (split sep s) = s /\ forall p, In p (split sep s) -> has sep p = false.
Proof.
  induction s as [|c s (J & P)]; cbn; [split; [reflexivity|intros p [<-|[]]; reflexivity]|].
  destruct (N.eqb_spec c sep) as [->|D].
  - split; [|intros p [<-|I]; auto]. destruct (split sep s) eqn:E; [now apply split_nonempty in E|]. cbn [app]. cbn. now rewrite <- J.
  - destruct (split sep s) as [|p ps] eqn:E; [now apply split_nonempty in E|]. split.
    + destruct ps; cbn in *; now rewrite <- J.
    + intros q [<-|I]; [|apply P; now right]. change (has sep (c :: p)) with (N.eqb sep c || has sep p). rewrite P by now left. rewrite orb_false_r. apply N.eqb_neq. auto.
Qed.
Lemma join_split sep l : l <> [] -> (forall p, In p l -> has sep p = false) -> split sep (join sep l) = l.
Proof.
  induction l as [|x [|y l] IH]; intros N P; [congruence|cbn; apply split_none; apply P; now left|].
  change (join sep (x :: y :: l)) with (x ++ sep :: join sep (y :: l))%list. rewrite split_app by (apply P; now left).
  f_equal. apply IH; [discriminate|]. intros p I. apply P. now right.
Qed.

Lemma dec3_no_dot n : n <= 255 -> has dot (dec3 n) = false.
Proof.
  intros L. assert (K : forallb (fun n => negb (has dot (dec3 n))) upto255 = true) by (vm_compute; reflexivity).
  rewrite forallb_forall in K. specialize (K n (upto255_In n L)). now apply negb_true_iff in K.
Qed.

Lemma parse4_dotted s n : parse4 s = Ok n <-> exists a b c d, a <= 255 /\ b <= 255 /\ c <= 255 /\ d <= 255 /\
  s = dotted a b c d /\ n = ((a * 256 + b) * 256 + c) * 256 + d.
Proof.
  split.
  - intros H. unfold parse4 in H. destruct s as [|s0 s]; [discriminate|].
    destruct (split_join dot (s0 :: s)) as (J & _).
    destruct (split dot (s0 :: s)) as [|pa [|pb [|pc [|pd [|]]]]]; try discriminate.
    destruct (parse_octet pa) as [a|] eqn:Ea; [|discriminate]. destruct (parse_octet pb) as [b|] eqn:Eb; [|discriminate].
    destruct (parse_octet pc) as [c|] eqn:Ec; [|discriminate]. destruct (parse_octet pd) as [d|] eqn:Ed; [|discriminate].
    cbn [bind] in H. injection H as <-. apply parse_octet_spec in Ea as (La & ->). apply parse_octet_spec in Eb as (Lb & ->).
    apply parse_octet_spec in Ec as (Lc & ->). apply parse_octet_spec in Ed as (Ld & ->).
    exists a, b, c, d. repeat split; auto.
  - intros (a & b & c & d & La & Lb & Lc & Ld & -> & ->). unfold parse4.
    assert (E : split dot (dotted a b c d) = [dec3 a; dec3 b; dec3 c; dec3 d]).
    { unfold dotted. change 46 with dot. rewrite !split_app by (apply dec3_no_dot; auto).
      rewrite split_none by (apply dec3_no_dot; auto). reflexivity. }
    destruct (dotted a b c d) as [|x s] eqn:D.
    { unfold dotted in D. destruct (dec3 a); discriminate. }
    rewrite E. rewrite (proj2 (parse_octet_spec _ a)), (proj2 (parse_octet_spec _ b)), (proj2 (parse_octet_spec _ c)), (proj2 (parse_octet_spec _ d)) by auto.
    reflexivity.
Qed.
Theorem parse4_spec s n : parse4 s = Ok n <-> n < 2 ^ 32 /\ s = quad n.
Proof.
  rewrite parse4_dotted. unfold quad. change (2 ^ 24) with (256 * (256 * 256)). change (2 ^ 16) with (256 * 256). change (2 ^ 8) with 256.
  split.
  - intros (a & b & c & d & La & Lb & Lc & Ld & -> & ->). split; [lia|].
    rewrite <- !N.div_div by lia.
    assert (E1 : (((a * 256 + b) * 256 + c) * 256 + d) / 256 = (a * 256 + b) * 256 + c).
    { symmetry. apply N.div_unique with d; lia. }
    assert (E2 : ((a * 256 + b) * 256 + c) / 256 = a * 256 + b).
    { symmetry. apply N.div_unique with c; lia. }
    assert (E3 : (a * 256 + b) / 256 = a).
    { symmetry. apply N.div_unique with b; lia. }
    assert (M : forall x y, y <= 255 -> (x * 256 + y) mod 256 = y).
    { intros x y L. symmetry. apply N.mod_unique with x; lia. }
    rewrite E1, E2, E3, !M by auto. reflexivity.
  - intros (L & ->). rewrite <- !N.div_div by lia.
    exists (n / 256 / 256 / 256), (n / 256 / 256 mod 256), (n / 256 mod 256), (n mod 256).
    assert (B : forall x, x mod 256 <= 255) by (intros x; pose proof (N.mod_lt x 256); lia).
    split; [|split; [|split; [|split; [|split; [reflexivity|]]]]]; auto.
    + rewrite !N.div_div by lia. cut (n / (256 * 256 * 256) < 256); [lia|]. apply N.div_lt_upper_bound; lia.
    + assert (D : forall x, x / 256 * 256 + x mod 256 = x) by (intros x; pose proof (N.div_mod x 256); lia).
      now rewrite !D.
Qed.
Lemma parse4_err s e : parse4 s = Err e -> e = ValueError.
Proof.
  unfold parse4. destruct s; [congruence|]. destruct (split dot (n :: s)) as [|pa [|pb [|pc [|pd [|]]]]]; try congruence.
  destruct (parse_octet pa) eqn:E1; cbn [bind]; [|intros [= <-]; eapply parse_octet_err; eauto].
  destruct (parse_octet pb) eqn:E2; cbn [bind]; [|intros [= <-]; eapply parse_octet_err; eauto].
  destruct (parse_octet pc) eqn:E3; cbn [bind]; [|intros [= <-]; eapply parse_octet_err; eauto].
  destruct (parse_octet pd) eqn:E4; cbn [bind]; [discriminate|intros [= <-]; eapply parse_octet_err; eauto].
Qed.
