From Coq Require Import Lia.
From Verif.Model Require Import Base Ip Peg AddrText.
From Verif.Spec Require Import AddrTextSpec.
From Verif.Proofs Require Import PegFacts AddrTextFacts.
Local Open Scope N_scope.
Local Open Scope list_scope.

Lemma Forall2_length {A B} (R : A -> B -> Prop) l m : Forall2 R l m -> length l = length m.
Proof. induction 1; cbn; congruence. Qed.
Ltac plia := unfold pystr in *; lia.
(** ** Hex groups *)
Lemma hex_char c v : hex_value c v <-> is_hex c = true /\ v = hex_val c.
Proof.
  unfold hex_value, is_hex, is_digit, hex_val. rewrite !orb_true_iff, !andb_true_iff, !N.leb_le.
  destruct (N.leb_spec c 57); [|destruct (N.leb_spec c 70)]; lia.
Qed.
Lemma hex_val_lt c : is_hex c = true -> hex_val c < 16.
Proof.
  unfold is_hex, is_digit, hex_val. rewrite !orb_true_iff, !andb_true_iff, !N.leb_le.
  destruct (N.leb_spec c 57); [|destruct (N.leb_spec c 70)]; lia.
Qed.
Lemma int16_snoc s c : int16 (s ++ [c]) = 16 * int16 s + hex_val c.
Proof. unfold int16. now rewrite fold_left_app. Qed.
Lemma hex_number_spec s v : hex_number s v <-> s <> [] /\ forallb is_hex s = true /\ v = int16 s.
Proof.
  split.
  - induction 1 as [c v H|s n c v H IH Hc].
    + apply hex_char in H as (A & ->). split; [discriminate|]. cbn. now rewrite A.
    + destruct IH as (_ & A & ->). apply hex_char in Hc as (B & ->). split; [destruct s; discriminate|].
      rewrite forallb_app, A. cbn. rewrite B. split; [reflexivity|]. now rewrite int16_snoc.
  - intros (N & H & ->). revert N H. pattern s. apply rev_ind; clear s; [congruence|]. intros c s IH _ H.
    rewrite forallb_app in H. apply andb_true_iff in H as (H & Hc). cbn in Hc. rewrite andb_true_r in Hc.
    destruct s as [|c0 s].
    + cbn. apply HN_one. apply hex_char. split; [auto|]. unfold int16. cbn. lia.
    + rewrite int16_snoc. apply HN_more; [|now apply hex_char]. apply IH; [discriminate|auto].
Qed.
Lemma int16_bound s : forallb is_hex s = true -> int16 s < 16 ^ N.of_nat (length s).
Proof.
  pattern s. apply rev_ind; clear s; [reflexivity|]. intros c s IH H. rewrite forallb_app in H.
  apply andb_true_iff in H as (H & Hc). cbn in Hc. rewrite andb_true_r in Hc. apply hex_val_lt in Hc. specialize (IH H).
  rewrite int16_snoc, app_length. cbn [length]. replace (N.of_nat (length s + 1)) with (N.succ (N.of_nat (length s))) by lia.
  rewrite N.pow_succ_r'. lia.
Qed.
Lemma parse_hextet_spec s v : parse_hextet s = Ok v <-> hextet s v.
Proof.
  unfold parse_hextet, hextet. rewrite hex_number_spec. destruct s as [|c s].
  - split; [discriminate|]. intros ((N & _) & _). congruence.
  - destruct (forallb is_hex (c :: s)) eqn:E; cbn [negb].
    + destruct (Nat.ltb_spec 4 (length (c :: s))).
      * split; [discriminate|]. intros (_ & L). lia.
      * split; [intros [= <-]|intros ((_ & _ & ->) & _); reflexivity]. repeat split; auto; discriminate.
    + split; [discriminate|]. intros ((_ & F & _) & _). discriminate.
Qed.
Lemma parse_hextet_err s e : parse_hextet s = Err e -> e = ValueError.
Proof. unfold parse_hextet. destruct s; [congruence|]. repeat match goal with |- context [if ?b then _ else _] => destruct b end; congruence. Qed.
Lemma hextet_lt s v : hextet s v -> v < 65536.
Proof.
  intros (H & L). apply hex_number_spec in H as (_ & H & ->). apply int16_bound in H.
  eapply N.lt_le_trans; [exact H|]. change 65536 with (16 ^ 4). apply N.pow_le_mono_r; lia.
Qed.
Lemma hextet_nonempty s v : hextet s v -> s <> [].
Proof. intros (H & _). now apply hex_number_spec in H. Qed.
Lemma hex_not c s : forallb is_hex s = true -> is_hex c = false -> has c s = false.
Proof.
  intros H D. destruct (has c s) eqn:E; [|reflexivity]. apply existsb_exists in E as (d & I & Ed). apply N.eqb_eq in Ed. subst d.
  rewrite forallb_forall in H. rewrite (H c I) in D. discriminate.
Qed.
Lemma hextet_not c s v : hextet s v -> is_hex c = false -> has c s = false.
Proof. intros (H & _). apply hex_number_spec in H as (_ & H & _). now apply hex_not. Qed.

Lemma lor_shift n v : v < 65536 -> N.lor (N.shiftl n 16) v = 65536 * n + v.
Proof.
  intros L. rewrite N.lor_comm. rewrite <- N.lxor_lor.
  - rewrite <- N.add_nocarry_lxor.
    + rewrite N.shiftl_mul_pow2. change (2 ^ 16) with 65536. lia.
    + apply N.bits_inj. intros i. rewrite N.land_spec, N.bits_0. destruct (N.lt_ge_cases i 16).
      * rewrite N.shiftl_spec_low by auto. apply andb_false_r.
      * destruct (N.testbit v i) eqn:E; [|reflexivity]. exfalso.
        destruct (N.eq_dec v 0) as [->|NZ]; [rewrite N.bits_0 in E; discriminate|].
        assert (N.log2 v < 16) by (apply N.log2_lt_pow2; lia). rewrite N.bits_above_log2 in E by lia. discriminate.
  - apply N.bits_inj. intros i. rewrite N.land_spec, N.bits_0. destruct (N.lt_ge_cases i 16).
    + rewrite N.shiftl_spec_low by auto. apply andb_false_r.
    + destruct (N.testbit v i) eqn:E; [|reflexivity]. exfalso.
      destruct (N.eq_dec v 0) as [->|NZ]; [rewrite N.bits_0 in E; discriminate|].
      assert (N.log2 v < 16) by (apply N.log2_lt_pow2; lia). rewrite N.bits_above_log2 in E by lia. discriminate.
Qed.
Lemma shift_in_spec l : forall n r, shift_in n l = Ok r <->
  exists vs, Forall2 hextet l vs /\ r = fold_left (fun n v => 65536 * n + v) vs n.
Proof.
  induction l as [|p l IH]; intros n r; unfold shift_in; cbn [fold_r].
  - split; [intros [= <-]; exists []; split; [constructor|reflexivity]|]. intros (vs & F & ->). inversion F. reflexivity.
  - fold (shift_in). destruct (parse_hextet p) as [v|] eqn:E; cbn [bind].
    + apply parse_hextet_spec in E. rewrite (lor_shift n v) by (eapply hextet_lt; eauto).
      change (fold_r _ l (65536 * n + v)) with (shift_in (65536 * n + v) l). rewrite IH. split.
      * intros (vs & F & ->). exists (v :: vs). split; [now constructor|reflexivity].
      * intros (vs & F & ->). inversion F as [|x y l' vs' Hv F']; subst. exists vs'. split; [auto|].
        apply parse_hextet_spec in Hv. apply parse_hextet_spec in E. rewrite E in Hv. injection Hv as <-. reflexivity.
    + split; [discriminate|]. intros (vs & F & _). inversion F as [|x y l' vs' Hv F']; subst.
      apply parse_hextet_spec in Hv. congruence.
Qed.
Lemma shift_in_err l : forall n e, shift_in n l = Err e -> e = ValueError.
Proof.
  induction l as [|p l IH]; intros n e; unfold shift_in; cbn [fold_r]; [discriminate|].
  destruct (parse_hextet p) eqn:E; cbn [bind]; [apply IH|]. intros [= <-]. eapply parse_hextet_err; eauto.
Qed.

(** ** '%x' *)
Lemma hexdig_spec d : d < 16 -> is_hex (hexdig d) = true /\ hex_val (hexdig d) = d.
Proof.
  intros L. unfold hexdig, is_hex, is_digit, hex_val. destruct (N.ltb_spec d 10); rewrite !orb_true_iff, !andb_true_iff, !N.leb_le.
  - destruct (N.leb_spec (48 + d) 57); lia.
  - destruct (N.leb_spec (87 + d) 57); [lia|]. destruct (N.leb_spec (87 + d) 70); lia.
Qed.
Lemma hex16_hextet n : n < 65536 -> hextet (hex16 n) n.
Proof.
  intros L. unfold hextet. rewrite hex_number_spec.
  assert (M : forall x, x mod 16 < 16) by (intros; apply N.mod_lt; discriminate).
  assert (B : forall a b, a < 16 * b -> a / 16 < b) by (intros; apply N.div_lt_upper_bound; lia).
  assert (DM : forall x, 16 * (x / 16) + x mod 16 = x) by (intros x; pose proof (N.div_mod x 16); lia).
  assert (E2 : n / 256 = n / 16 / 16) by (rewrite N.div_div; [reflexivity|discriminate|discriminate]).
  assert (E3 : n / 4096 = n / 16 / 16 / 16) by (rewrite !N.div_div; [reflexivity|discriminate..]).
  unfold hex16.
  destruct (N.ltb_spec n 16); [|destruct (N.ltb_spec n 256); [|destruct (N.ltb_spec n 4096)]].
  - destruct (hexdig_spec n) as (A & V); [auto|]. cbn. rewrite A. unfold int16. cbn. rewrite V. split; [split; [discriminate|split; [reflexivity|lia]]|lia].
  - destruct (hexdig_spec (n / 16)) as (A1 & V1); [apply B; lia|]. destruct (hexdig_spec (n mod 16)) as (A2 & V2); [auto|].
    cbn [forallb length]. rewrite A1, A2. unfold int16. cbn [fold_left]. rewrite V1, V2. pose proof (DM n).
    split; [split; [discriminate|split; [reflexivity|lia]]|lia].
  - destruct (hexdig_spec (n / 256)) as (A0 & V0); [rewrite E2; apply B, B; lia|]. destruct (hexdig_spec (n / 16 mod 16)) as (A1 & V1); [auto|]. destruct (hexdig_spec (n mod 16)) as (A2 & V2); [auto|].
    cbn [forallb length]. rewrite A0, A1, A2. unfold int16. cbn [fold_left]. rewrite V0, V1, V2, E2. pose proof (DM n). pose proof (DM (n / 16)).
    split; [split; [discriminate|split; [reflexivity|lia]]|lia].
  - destruct (hexdig_spec (n / 4096)) as (A9 & V9); [rewrite E3; apply B, B, B; lia|]. destruct (hexdig_spec (n / 256 mod 16)) as (A0 & V0); [auto|]. destruct (hexdig_spec (n / 16 mod 16)) as (A1 & V1); [auto|]. destruct (hexdig_spec (n mod 16)) as (A2 & V2); [auto|].
    cbn [forallb length]. rewrite A9, A0, A1, A2. unfold int16. cbn [fold_left]. rewrite V9, V0, V1, V2, E2, E3. pose proof (DM n). pose proof (DM (n / 16)). pose proof (DM (n / 16 / 16)).
    split; [split; [discriminate|split; [reflexivity|lia]]|lia].
Qed.

(** ** Dotted suffix *)
Lemma quad_has_dot a : has dot (quad a) = true.
Proof.
  unfold quad, dotted. unfold has. rewrite existsb_app. cbn [existsb]. rewrite N.eqb_refl. apply orb_true_r.
Qed.
Lemma halves a : a < 2 ^ 32 -> N.land (N.shiftr a 16) 65535 = a / 2 ^ 16 /\ N.land a 65535 = a mod 2 ^ 16 /\ a / 2 ^ 16 < 65536 /\ a mod 2 ^ 16 < 65536.
Proof.
  intros L. change 65535 with (N.ones 16). rewrite !N.land_ones, N.shiftr_div_pow2.
  assert (a / 2 ^ 16 < 2 ^ 16) by (apply N.div_lt_upper_bound; [discriminate|change (2 ^ 16 * 2 ^ 16) with (2 ^ 32); lia]).
  split; [apply N.mod_small; auto|]. split; [reflexivity|]. split; [auto|]. apply N.mod_lt. discriminate.
Qed.
Lemma dotted_suffix_spec l x ps : dotted_suffix (l ++ [x]) = Ok ps <->
  (has dot x = false /\ ps = l ++ [x]) \/
  (exists a, a < 2 ^ 32 /\ x = quad a /\ ps = l ++ [hex16 (a / 2 ^ 16); hex16 (a mod 2 ^ 16)]).
Proof.
  unfold dotted_suffix. rewrite last_last, removelast_last. destruct (has dot x) eqn:D.
  - destruct (parse4 x) as [a|] eqn:P; cbn [bind].
    + apply parse4_spec in P as (L & ->). destruct (halves a L) as (E1 & E2 & _). rewrite E1, E2. split.
      * intros [= <-]. right. exists a. auto.
      * intros [(F & _)|(b & Lb & Eq & ->)]; [discriminate|]. f_equal.
        assert (a = b); [|now subst]. assert (P1 : parse4 (quad a) = Ok a) by now apply parse4_spec.
        assert (P2 : parse4 (quad a) = Ok b) by (apply parse4_spec; auto). congruence.
    + split; [discriminate|]. intros [(F & _)|(b & Lb & -> & _)]; [discriminate|].
      assert (parse4 (quad b) = Ok b) by now apply parse4_spec. congruence.
  - split; [intros [= <-]; auto|]. intros [(_ & ->)|(b & Lb & -> & _)]; [reflexivity|]. rewrite quad_has_dot in D. discriminate.
Qed.
Lemma dotted_suffix_app l m ms : m <> [] -> dotted_suffix m = Ok ms -> dotted_suffix (l ++ m) = Ok (l ++ ms).
Proof.
  intros N H. destruct (exists_last N) as (m' & x & ->). apply dotted_suffix_spec in H.
  rewrite app_assoc. apply dotted_suffix_spec. destruct H as [(A & ->)|(a & A & B & ->)]; [left|right].
  - split; [auto|]. now rewrite app_assoc.
  - exists a. rewrite app_assoc. auto.
Qed.
Lemma dotted_suffix_err parts e : dotted_suffix parts = Err e -> e = ValueError.
Proof.
  unfold dotted_suffix. destruct (has dot (last parts [])); [|discriminate]. destruct (parse4 (last parts [])) eqn:E; cbn [bind]; [discriminate|].
  intros [= <-]. eapply parse4_err; eauto.
Qed.

(** ** Groups as joined lists *)
Definition no_colon (l : list pystr) : Prop := forall p, In p l -> has colon p = false.
Lemma join_cons s t : t <> [] -> join colon (s :: t) = s ++ colon :: join colon t.
Proof. destruct t; [congruence|reflexivity]. Qed.
Lemma join_app a b : a <> [] -> b <> [] -> join colon (a ++ b) = join colon a ++ colon :: join colon b.
Proof.
  intros Na Nb. induction a as [|x a IH]; [congruence|]. destruct a as [|y a].
  - cbn [app]. now rewrite join_cons.
  - change ((x :: y :: a) ++ b) with (x :: (y :: a) ++ b). rewrite (join_cons x ((y :: a) ++ b)) by discriminate.
    rewrite (join_cons x (y :: a)) by discriminate. rewrite IH by discriminate. now rewrite <- app_assoc.
Qed.
Lemma colon_not_hex : is_hex colon = false. Proof. reflexivity. Qed.
Lemma dot_not_hex : is_hex dot = false. Proof. reflexivity. Qed.
Lemma Forall2_no_colon l vs : Forall2 hextet l vs -> no_colon l.
Proof. induction 1 as [|p v l vs H F IH]; intros q; [intros []|]. intros [<-|I]; [eapply hextet_not; eauto; reflexivity|auto]. Qed.
Lemma quad_no_colon a : a < 2 ^ 32 -> has colon (quad a) = false.
Proof.
  intros L. assert (P : parse4 (quad a) = Ok a) by now apply parse4_spec.
  apply parse4_dotted in P as (x & y & z & w & Lx & Ly & Lz & Lw & -> & _).
  assert (K : forall n, n <= 255 -> has colon (dec3 n) = false).
  { intros n Ln. assert (K : forallb (fun n => negb (has colon (dec3 n))) upto255 = true) by (vm_compute; reflexivity).
    rewrite forallb_forall in K. specialize (K n (upto255_In n Ln)). now apply negb_true_iff in K. }
  unfold dotted, has in *. repeat (rewrite existsb_app || cbn [existsb]).
  rewrite !K by auto. reflexivity.
Qed.
Lemma plain_join s vs : plain_hextets s vs <-> exists ps, ps <> [] /\ s = join colon ps /\ Forall2 hextet ps vs.
Proof.
  split.
  - induction 1 as [s v H|s v t vs H P IH].
    + exists [s]. split; [discriminate|]. split; [reflexivity|]. constructor; [exact H|constructor].
    + destruct IH as (ps & N & -> & F). exists (s :: ps). split; [discriminate|]. split; [now rewrite join_cons|]. now constructor.
  - intros (ps & N & -> & F). induction F as [|p v ps vs H F IH]; [congruence|]. destruct ps as [|q ps].
    + inversion F. now constructor.
    + rewrite join_cons by discriminate. constructor; [auto|]. apply IH. discriminate.
Qed.
Lemma hextets_join s vs : hextets s vs <->
  exists ps ps', ps <> [] /\ no_colon ps /\ s = join colon ps /\ dotted_suffix ps = Ok ps' /\ Forall2 hextet ps' vs.
Proof.
  split.
  - induction 1 as [s v H|a L|s v t vs H P IH].
    + exists [s], [s]. split; [discriminate|]. split; [|split; [reflexivity|split]].
      * intros p [<-|[]]. eapply hextet_not; [exact H|reflexivity].
      * apply (dotted_suffix_spec []). left. split; [|reflexivity]. eapply hextet_not; [exact H|reflexivity].
      * constructor; [exact H|constructor].
    + destruct (halves a L) as (_ & _ & B1 & B2).
      exists [quad a], [hex16 (a / 2 ^ 16); hex16 (a mod 2 ^ 16)]. split; [discriminate|]. split; [|split; [reflexivity|split]].
      * intros p [<-|[]]. now apply quad_no_colon.
      * apply (dotted_suffix_spec []). right. exists a. auto.
      * constructor; [now apply hex16_hextet|]. constructor; [now apply hex16_hextet|constructor].
    + destruct IH as (ps & ps' & N & C & -> & D & F). exists (s :: ps), (s :: ps'). split; [discriminate|]. split; [|split; [|split]].
      * intros p [<-|I]; [|auto]. eapply hextet_not; [exact H|reflexivity].
      * now rewrite join_cons.
      * apply (dotted_suffix_app [s]); auto.
      * now constructor.
  - intros (ps & ps' & N & C & -> & D & F). destruct (exists_last N) as (l & x & ->). apply dotted_suffix_spec in D.
    destruct D as [(_ & ->)|(a & L & -> & ->)].
    + clear N C. remember (l ++ [x]) as ps eqn:E. assert (N : ps <> []) by (subst; destruct l; discriminate). clear E l x.
      induction F as [|p v ps vs H F IH]; [congruence|]. destruct ps as [|q ps].
      * inversion F. now constructor.
      * rewrite join_cons by discriminate. constructor; [auto|]. apply IH. discriminate.
    + clear N C. revert vs F. induction l as [|p l IH]; intros vs F.
      * cbn [app] in *. inversion F as [|? v1 ? ? H1 F1]; subst. inversion F1 as [|? v2 ? ? H2 F2]; subst. inversion F2; subst.
        destruct (halves a L) as (_ & _ & B1 & B2). apply parse_hextet_spec in H1, H2.
        pose proof (proj2 (parse_hextet_spec _ _) (hex16_hextet _ B1)) as G1.
        pose proof (proj2 (parse_hextet_spec _ _) (hex16_hextet _ B2)) as G2.
        rewrite G1 in H1. rewrite G2 in H2. injection H1 as <-. injection H2 as <-. now constructor.
      * cbn [app] in *. inversion F as [|? v ? vs' H1 F1]; subst. rewrite join_cons by (destruct l; discriminate). constructor; auto.
Qed.

(** ** The empty part *)
Lemma filter_one {A} (f : A -> bool) l x : NoDup l -> In x l -> (forall y, In y l -> f y = true <-> y = x) -> filter f l = [x].
Proof.
  intros ND I H. induction ND as [|y l Ny ND IH]; [destruct I|]. cbn. destruct I as [->|I].
  - rewrite (proj2 (H x (or_introl eq_refl)) eq_refl). f_equal.
    assert (E : forall z, In z l -> f z = false).
    { intros z Iz. destruct (f z) eqn:E; [|reflexivity]. apply H in E; [|now right]. subst. contradiction. }
    clear - E. induction l as [|z l IH]; [reflexivity|]. cbn. rewrite E by now left. apply IH. intros. apply E. now right.
  - destruct (f y) eqn:E.
    + apply H in E; [|now left]. subst. contradiction.
    + apply IH; auto. intros z Iz. apply H. now right.
Qed.
Lemma part_split parts i : (i < length parts)%nat -> parts = firstn i parts ++ part parts i :: skipn (S i) parts.
Proof.
  unfold part. revert i. induction parts as [|p l IH]; intros i L; [cbn in L; lia|]. destruct i; [reflexivity|].
  cbn [firstn nth skipn app]. f_equal. apply IH. cbn in L. lia.
Qed.

(** The parts on one side of "::": nothing written (an empty end part), or groups. *)
Definition side (ps : list pystr) (vs : list N) : Prop := (ps = [[]] /\ vs = []) \/ (ps <> [] /\ Forall2 hextet ps vs).
Lemma side_parts ps vs : side ps vs -> ps <> [] /\ (is_empty (part ps 0) = true <-> ps = [[]]) /\ (is_empty (last ps []) = true <-> ps = [[]])
  /\ (ps <> [[]] -> Forall2 hextet ps vs /\ forall i, (i < length ps)%nat -> is_empty (part ps i) = false).
Proof.
  intros [(-> & ->)|(N & F)].
  - split; [discriminate|]. split; [split; reflexivity|]. split; [split; reflexivity|]. congruence.
  - assert (E : forall i, (i < length ps)%nat -> is_empty (part ps i) = false).
    { clear N. unfold part. induction F as [|p v ps vs H F IH]; intros i L; [cbn in L; lia|]. destruct i; cbn.
      - apply hextet_nonempty in H. destruct p; [congruence|reflexivity].
      - apply IH. cbn in L. lia. }
    assert (D : ps <> [[]]).
    { intros ->. specialize (E 0%nat). cbn in E. assert (X : true = false) by (apply E; lia). discriminate. }
    assert (L : (0 < length ps)%nat) by (destruct ps; [congruence|cbn; lia]).
    split; [auto|]. split; [|split].
    + rewrite (E 0%nat L). split; [discriminate|congruence].
    + destruct (exists_last N) as (l & x & ->). rewrite last_last.
      assert (X : is_empty x = false).
      { specialize (E (length l)). unfold part in E. rewrite nth_middle in E. apply E. rewrite app_length. cbn. lia. }
      rewrite X. split; [discriminate|congruence].
    + auto.
Qed.

Definition core (parts : list pystr) : result N :=
      let n := length parts in
      if (9 <? n)%nat then Err ValueError else
      match skips parts with
      | _ :: _ :: _ => Err ValueError
      | [i] =>
          let hi := i in
          let lo := (n - i - 1)%nat in
          do hi <- (if is_empty (part parts 0)
                    then if (hi - 1 =? 0)%nat then Ok 0%nat else Err ValueError else Ok hi);
          do lo <- (if is_empty (last parts [])
                    then if (lo - 1 =? 0)%nat then Ok 0%nat else Err ValueError else Ok lo);
          if (7 <? hi + lo)%nat then Err ValueError else
          do v <- shift_in 0 (firstn hi parts);
          shift_in (N.shiftl v (16 * N.of_nat (8 - (hi + lo)))) (skipn (n - lo) parts)
      | [] =>
          if negb (n =? 8)%nat then Err ValueError
          else if is_empty (part parts 0) then Err ValueError
          else if is_empty (last parts []) then Err ValueError
          else shift_in 0 parts
      end.

Lemma fold_zeros k n : fold_left (fun n v => 65536 * n + v) (repeat 0 k) n = N.shiftl n (16 * N.of_nat k).
Proof.
  revert n. induction k as [|k IH]; intros n; cbn [repeat fold_left]; [cbn; now rewrite N.shiftl_0_r|].
  rewrite IH, !N.shiftl_mul_pow2. replace (16 * N.of_nat (S k)) with (16 + 16 * N.of_nat k) by plia.
  rewrite N.pow_add_r. change (2 ^ 16) with 65536. plia.
Qed.
Lemma number_short hi lo k : number_of (hi ++ repeat 0 k ++ lo) =
  fold_left (fun n v => 65536 * n + v) lo (N.shiftl (number_of hi) (16 * N.of_nat k)).
Proof. unfold number_of. now rewrite !fold_left_app, fold_zeros. Qed.

Lemma part_app_l a b i : (i < length a)%nat -> part (a ++ b) i = part a i.
Proof. intros L. unfold part. now rewrite app_nth1. Qed.
Lemma part_app_r a b i : (length a <= i)%nat -> part (a ++ b) i = part b (i - length a).
Proof. intros L. unfold part. now rewrite app_nth2. Qed.

Lemma part_mid ph pl k : part (ph ++ [] :: pl) (k + S (length ph)) = part pl k.
Proof.
  unfold part. induction ph as [|p ph IH]; cbn [app length].
  - now rewrite Nat.add_1_r.
  - rewrite <- plus_n_Sm. cbn [nth]. exact IH.
Qed.
Lemma skip_mid (ph pl : list pystr) : skipn (S (length ph)) (ph ++ [] :: pl) = pl.
Proof. induction ph as [|p ph IH]; [reflexivity|exact IH]. Qed.
Lemma core_spec parts n : (3 <= length parts)%nat -> core parts = Ok n <->
  (exists vs, length vs = 8%nat /\ Forall2 hextet parts vs /\ n = number_of vs) \/
  (exists ph pl hi lo, parts = ph ++ [] :: pl /\ side ph hi /\ side pl lo /\ (length hi + length lo <= 7)%nat /\
     n = number_of (hi ++ repeat 0 (8 - length hi - length lo) ++ lo)).
Proof.
  intros L3. split.
  - intros H. unfold core in H. destruct (Nat.ltb_spec 9 (length parts)); [discriminate|].
    destruct (skips parts) as [|i [|]] eqn:S; [| |discriminate].
    + left. destruct (Nat.eqb_spec (length parts) 8) as [E8|]; [|discriminate]. cbn [negb] in H.
      destruct (is_empty (part parts 0)); [discriminate|]. destruct (is_empty (last parts [])); [discriminate|].
      apply shift_in_spec in H as (vs & F & ->). exists vs. split; [|split; [auto|reflexivity]].
      rewrite <- (Forall2_length _ _ _ F). auto.
    + right. assert (I : In i (skips parts)) by (rewrite S; now left). unfold skips in I. apply filter_In in I as (I & Em).
      apply in_seq in I. assert (Li : (i < length parts)%nat) by plia.
      pose proof (part_split parts i Li) as Sp. destruct (part parts i) as [|] eqn:Pi; [|discriminate].
      set (ph := firstn i parts) in *. set (pl := skipn (Datatypes.S i) parts) in *.
      assert (Lh : length ph = i) by (unfold ph; rewrite firstn_length; plia).
      assert (Ll : length pl = (length parts - i - 1)%nat) by (unfold pl; rewrite skipn_length; plia).
      assert (Nh : ph <> []) by (intros E; rewrite E in Lh; cbn in Lh; plia).
      assert (Nl : pl <> []) by (intros E; rewrite E in Ll; cbn in Ll; plia).
      assert (P0 : part parts 0 = part ph 0) by (rewrite Sp; apply part_app_l; plia).
      assert (Pz : last parts [] = last pl []).
      { destruct (exists_last Nl) as (l & x & E). rewrite Sp, E. rewrite last_last.
        change ([] :: l ++ [x]) with (([] :: l) ++ [x]). rewrite app_assoc. apply last_last. }
      rewrite P0, Pz in H.
      (* hi *)
      assert (HI : exists hi, (if is_empty (part ph 0) then if (i - 1 =? 0)%nat then Ok 0%nat else Err ValueError else Ok i) = Ok hi /\
                   (forall v, shift_in 0 (firstn hi parts) = Ok v -> exists vs, side ph vs /\ length vs = hi /\ v = number_of vs)).
      { destruct (is_empty (part ph 0)) eqn:E0.
        - destruct (Nat.eqb_spec (i - 1) 0); [|discriminate]. exists 0%nat. split; [reflexivity|]. intros v [= <-].
          exists []. split; [|split; reflexivity]. left. split; [|reflexivity].
          destruct ph as [|p [|]]; cbn [length] in Lh; try plia. cbn in E0. destruct p; [reflexivity|discriminate].
        - exists i. split; [reflexivity|]. intros v Hv. apply shift_in_spec in Hv as (vs & F & ->). exists vs. split; [right; auto|].
          split; [|reflexivity]. rewrite <- (Forall2_length _ _ _ F). auto. }
      destruct HI as (hi & Eh & HI). rewrite Eh in H. cbn [bind] in H.
      assert (LO : exists lo, (if is_empty (last pl []) then if (length parts - i - 1 - 1 =? 0)%nat then Ok 0%nat else Err ValueError else Ok (length parts - i - 1)%nat) = Ok lo /\
                   (forall m v, shift_in m (skipn (length parts - lo) parts) = Ok v -> exists vs, side pl vs /\ length vs = lo /\ v = fold_left (fun n v => 65536 * n + v) vs m)).
      { destruct (is_empty (last pl [])) eqn:E0.
        - destruct (Nat.eqb_spec (length parts - i - 1 - 1) 0); [|discriminate]. exists 0%nat. split; [reflexivity|]. intros m v.
          rewrite Nat.sub_0_r, skipn_all. intros [= <-]. exists []. split; [|split; reflexivity]. left. split; [|reflexivity].
          destruct pl as [|p [|]]; cbn [length] in Ll; try plia. cbn in E0. destruct p; [reflexivity|discriminate].
        - exists (length parts - i - 1)%nat. split; [reflexivity|]. intros m v Hv.
          replace (length parts - (length parts - i - 1))%nat with (Datatypes.S i) in Hv by plia. fold pl in Hv.
          apply shift_in_spec in Hv as (vs & F & ->). exists vs. split; [right; auto|].
          split; [|reflexivity]. rewrite <- (Forall2_length _ _ _ F). auto. }
      destruct LO as (lo & El & LO). rewrite El in H. cbn [bind] in H.
      destruct (Nat.ltb_spec 7 (hi + lo)); [discriminate|].
      destruct (shift_in 0 (firstn hi parts)) as [v|] eqn:Sv; [|discriminate]. cbn [bind] in H.
      destruct (HI v eq_refl) as (vh & Sh & Lvh & ->). destruct (LO _ _ H) as (vl & Sl & Lvl & ->).
      exists ph, pl, vh, vl. split; [exact Sp|]. split; [auto|]. split; [auto|]. split; [plia|].
      rewrite number_short. f_equal. f_equal. f_equal. plia.
  - intros [(vs & L8 & F & ->)|(ph & pl & hi & lo & -> & Sh & Sl & L7 & ->)].
    + assert (Lp : length parts = 8%nat) by (rewrite (Forall2_length _ _ _ F); auto).
      assert (Sd : side parts vs) by (right; split; [destruct parts; [discriminate Lp|discriminate]|auto]).
      apply side_parts in Sd as (N & E0 & El & Hx). assert (D : parts <> [[]]) by (intros ->; cbn in Lp; plia).
      destruct (Hx D) as (_ & NE). unfold core. rewrite Lp. cbn [Nat.ltb Nat.leb].
      assert (S : skips parts = []).
      { unfold skips. rewrite Lp. assert (X : forall i, In i (seq 1 (8 - 2)) -> is_empty (part parts i) = false).
        { intros i I. apply in_seq in I. apply NE. plia. }
        clear - X. induction (seq 1 (8 - 2)) as [|i l IH]; [reflexivity|]. cbn. rewrite X by now left. apply IH. intros. apply X. now right. }
      rewrite S. cbn [Nat.eqb negb].
      destruct (is_empty (part parts 0)); [exfalso; apply D, E0; reflexivity|].
      destruct (is_empty (last parts [])); [exfalso; apply D, El; reflexivity|].
      apply shift_in_spec. exists vs. auto.
    + set (parts := (ph ++ [] :: pl) : list pystr) in *.
      destruct (side_parts ph hi Sh) as (Nh & H0 & _ & Hh). destruct (side_parts pl lo Sl) as (Nl & _ & Hz & Hl).
      assert (Lp : @length pystr parts = (@length pystr ph + S (@length pystr pl))%nat) by (unfold parts; rewrite app_length; reflexivity).
      assert (Bh : (0 < length ph)%nat) by (destruct ph; [destruct (Nh eq_refl)|cbn; plia]).
      assert (Bl : (0 < length pl)%nat) by (destruct pl; [destruct (Nl eq_refl)|cbn; plia]).
      assert (Lh : length ph = length hi \/ ph = [[]] /\ hi = []).
      { destruct Sh as [(-> & ->)|(_ & F)]; [auto|left; apply (Forall2_length _ _ _ F)]. }
      assert (Ll : length pl = length lo \/ pl = [[]] /\ lo = []).
      { destruct Sl as [(-> & ->)|(_ & F)]; [auto|left; apply (Forall2_length _ _ _ F)]. }
      assert (L9 : (@length pystr parts <= 9)%nat).
      { rewrite Lp. clear -Lh Ll L7. destruct Lh as [Lh|(-> & ->)], Ll as [Ll|(-> & ->)]; cbn [length] in *; plia. }
      assert (Sk : skips parts = [length ph]).
      { unfold skips. apply filter_one; [apply seq_NoDup|apply in_seq; plia|]. intros i I. apply in_seq in I. unfold parts. split.
        - intros E. destruct (Nat.lt_trichotomy i (length ph)) as [Li|[->|Li]]; [|reflexivity|]; exfalso.
          + rewrite part_app_l in E by auto. assert (D : ph <> [[]]) by (intros ->; cbn in Li; plia).
            destruct (Hh D) as (_ & NE). rewrite NE in E by auto. discriminate.
          + destruct (Nat.le_exists_sub (S (length ph)) i Li) as (k & -> & _). rewrite part_mid in E.
            assert (D : pl <> [[]]) by (intros ->; cbn in Lp; plia). destruct (Hl D) as (_ & NE). rewrite NE in E by plia. discriminate.
        - intros ->. rewrite part_app_r by plia. now rewrite Nat.sub_diag. }
      unfold core. rewrite Sk. destruct (Nat.ltb_spec 9 (length parts)); [plia|].
      assert (P0 : part parts 0 = part ph 0) by (unfold parts; apply part_app_l; plia).
      assert (Pz : last parts [] = last pl []).
      { destruct (exists_last Nl) as (l & x & E). unfold parts. rewrite E. rewrite last_last.
        change ([] :: l ++ [x]) with (([] :: l) ++ [x]). rewrite app_assoc. apply last_last. }
      rewrite P0, Pz.
      assert (Eh : (if is_empty (part ph 0) then if (length ph - 1 =? 0)%nat then Ok 0%nat else Err ValueError else Ok (length ph)) = Ok (length hi)).
      { destruct (is_empty (part ph 0)) eqn:E.
        - assert (E' : ph = [[]]) by (apply H0; reflexivity). rewrite E' in *. cbn [length Nat.sub Nat.eqb]. destruct Sh as [(_ & ->)|(_ & F)]; [reflexivity|].
          inversion F as [|? ? ? ? X]; subst. apply hextet_nonempty in X. congruence.
        - destruct Lh as [->|(-> & _)]; [reflexivity|]. discriminate. }
      rewrite Eh. cbn [bind].
      assert (El : (if is_empty (last pl []) then if (length parts - length ph - 1 - 1 =? 0)%nat then Ok 0%nat else Err ValueError else Ok (length parts - length ph - 1)%nat) = Ok (length lo)).
      { replace (length parts - length ph - 1)%nat with (length pl) by plia. destruct (is_empty (last pl [])) eqn:E.
        - assert (E' : pl = [[]]) by (apply Hz; first [exact E|reflexivity]). rewrite E' in *. cbn [length Nat.sub Nat.eqb]. destruct Sl as [(_ & ->)|(_ & F)]; [reflexivity|].
          inversion F as [|? ? ? ? X]; subst. apply hextet_nonempty in X. congruence.
        - destruct Ll as [->|(-> & _)]; [reflexivity|]. discriminate. }
      rewrite El. cbn [bind]. destruct (Nat.ltb_spec 7 (length hi + length lo)); [plia|].
      assert (E1 : shift_in 0 (firstn (length hi) parts) = Ok (number_of hi)).
      { destruct Sh as [(-> & ->)|(_ & F)]; [reflexivity|]. rewrite <- (Forall2_length _ _ _ F). unfold parts.
        rewrite firstn_app, Nat.sub_diag, firstn_all, firstn_O, app_nil_r. apply shift_in_spec. exists hi. auto. }
      rewrite E1. cbn [bind]. rewrite number_short. replace (8 - length hi - length lo)%nat with (8 - (length hi + length lo))%nat by plia.
      destruct Sl as [(-> & ->)|(_ & F)].
      * rewrite (skipn_all2 (A:=pystr)) by (cbn [length]; plia). reflexivity.
      * rewrite <- (Forall2_length _ _ _ F). 
        assert (E2 : skipn (length parts - length pl) parts = pl).
        { assert (K : (length parts - length pl)%nat = S (length ph)) by plia. rewrite K. exact (skip_mid ph pl). }
        setoid_rewrite E2.
        apply shift_in_spec. exists lo. auto.
Qed.

(** ** The theorem *)
Lemma side_plain ps vs : side ps vs -> exists s, s = join colon ps /\ (s = [] /\ vs = [] \/ plain_hextets s vs).
Proof.
  intros [(-> & ->)|(N & F)]; eexists; (split; [reflexivity|]); [left; auto|right]. apply plain_join. eauto.
Qed.
Lemma join_empty pl : pl <> [] -> [] ++ colon :: join colon pl = join colon ([] :: pl).
Proof. intros N. now rewrite join_cons. Qed.
Lemma parse6_core s : s <> [] -> parse6 s = if (length (split colon s) <? 3)%nat then Err ValueError else
  do parts <- dotted_suffix (split colon s); core parts.
Proof. intros N. destruct s; [congruence|reflexivity]. Qed.
Lemma last_not_nil_app {A} (l : list A) a : l ++ [a] <> [].
Proof. destruct l; discriminate. Qed.

Theorem parse6_spec s n : parse6 s = Ok n <-> ipv6_text s n.
Proof.
  split.
  - intros H. destruct s as [|s0 s']; [discriminate|]. remember (s0 :: s') as s eqn:Es.
    rewrite parse6_core in H by (subst; discriminate). clear Es s0 s'.
    destruct (split_join colon s) as (J & NC). pose proof (split_nonempty colon s) as NE.
    remember (split colon s) as parts eqn:Ep. clear Ep.
    destruct (Nat.ltb_spec (length parts) 3) as [|L3]; [discriminate|].
    destruct (dotted_suffix parts) as [parts'|] eqn:D; [|discriminate]. cbn [bind] in H.
    assert (L3' : (3 <= length parts')%nat).
    { destruct (exists_last NE) as (l & x & ->). apply dotted_suffix_spec in D as [(_ & ->)|(a & _ & _ & ->)]; [auto|].
      rewrite app_length in *. cbn [length] in *. plia. }
    apply (core_spec parts' n L3') in H as [(vs & L8 & F & ->)|(ph & pl & hi & lo & -> & Sh & Sl & L7 & ->)].
    + apply T6_full; [|auto]. apply hextets_join. exists parts, parts'. auto.
    + (* where the empty part was before the suffix was replaced *)
      assert (X : exists pl0, parts = ph ++ [] :: pl0 /\ pl0 <> [] /\ dotted_suffix pl0 = Ok pl).
      { destruct (exists_last NE) as (l & x & E). rewrite E in D. apply dotted_suffix_spec in D.
        assert (Npl : pl <> []) by (now destruct (side_parts _ _ Sl)).
        destruct (exists_last Npl) as (pl' & y & Ey). 
        destruct D as [(Dx & Eq)|(a & La & -> & Eq)].
        - exists pl. rewrite E, <- Eq. split; [reflexivity|]. split; [auto|]. rewrite Ey in *.
          apply dotted_suffix_spec. left. split; [|reflexivity].
          assert (x = y); [|congruence]. change ([] :: pl' ++ [y]) with (([] :: pl') ++ [y]) in Eq. rewrite app_assoc in Eq. apply app_inj_tail in Eq. symmetry. apply Eq.
        - rewrite Ey in Eq. change ([] :: pl' ++ [y]) with (([] :: pl') ++ [y]) in Eq. rewrite app_assoc in Eq.
          change [hex16 (a / 2 ^ 16); hex16 (a mod 2 ^ 16)] with ([hex16 (a / 2 ^ 16)] ++ [hex16 (a mod 2 ^ 16)]) in Eq.
          rewrite app_assoc in Eq. apply app_inj_tail in Eq as (Eq & ->).
          destruct (halves a La) as (_ & _ & B1 & B2).
          destruct (list_eq_dec (list_eq_dec N.eq_dec) pl' []) as [->|Npl'].
          + exfalso. apply app_inj_tail in Eq as (_ & Eq). apply hex16_hextet, hextet_nonempty in B1. congruence.
          + destruct (exists_last Npl') as (pl2 & z & ->). change ([] :: pl2 ++ [z]) with (([] :: pl2) ++ [z]) in Eq. rewrite app_assoc in Eq.
            apply app_inj_tail in Eq as (Eq & ->). exists (pl2 ++ [quad a]). rewrite E, <- Eq, <- app_assoc. cbn [app].
            split; [reflexivity|]. split; [apply last_not_nil_app|]. rewrite Ey, <- app_assoc. apply dotted_suffix_spec. right. exists a. auto. }
      destruct X as (pl0 & Eparts & N0 & D0). 
      assert (Nh : ph <> []) by (now destruct (side_parts _ _ Sh)).
      rewrite <- J, Eparts, join_app by (auto; discriminate). rewrite join_cons by auto. cbn [app]. unfold colon at 2 3.
      apply T6_short; [| |auto].
      * destruct (side_plain _ _ Sh) as (s1 & -> & Hs). exact Hs.
      * destruct Sl as [(-> & ->)|(Nl & Fl)].
        -- left. split; [|reflexivity]. destruct (exists_last N0) as (l & x & E). rewrite E in D0. apply dotted_suffix_spec in D0 as [(_ & Eq)|(a & _ & _ & Eq)].
           ++ assert (E1 : pl0 = [[]]) by (etransitivity; [exact E|symmetry; exact Eq]). rewrite E1. reflexivity.
           ++ destruct l as [|? [|]]; discriminate Eq.
        -- right. apply hextets_join. exists pl0, pl. split; [auto|]. split; [|auto].
           intros p I. apply NC. rewrite Eparts. apply in_or_app. right. now right.
  - intros H. 
    assert (X : exists parts parts', no_colon parts /\ s = join colon parts /\ (3 <= length parts)%nat /\ dotted_suffix parts = Ok parts' /\
      ((exists vs, length vs = 8%nat /\ Forall2 hextet parts' vs /\ n = number_of vs) \/
       (exists ph pl hi lo, parts' = ph ++ [] :: pl /\ side ph hi /\ side pl lo /\ (length hi + length lo <= 7)%nat /\
         n = number_of (hi ++ repeat 0 (8 - length hi - length lo) ++ lo)))).
    { destruct H as [s vs Hx L8|s t hi lo Hs Ht L7].
      - apply hextets_join in Hx as (ps & ps' & N & C & -> & D & F). exists ps, ps'. split; [auto|]. split; [auto|]. split; [|split; [auto|]].
        + apply Forall2_length in F. rewrite L8 in F. destruct (exists_last N) as (l & x & ->). apply dotted_suffix_spec in D as [(_ & ->)|(a & _ & _ & ->)]; rewrite !app_length in *; cbn [length] in *; plia.
        + left. exists vs. auto.
      - assert (Hh : exists ph, side ph hi /\ s = join colon ph /\ no_colon ph).
        { destruct Hs as [(-> & ->)|P].
          - exists [[]]. split; [left; auto|]. split; [reflexivity|]. intros p [<-|[]]. reflexivity.
          - apply plain_join in P as (ps & N & -> & F). exists ps. split; [right; auto|]. split; [auto|]. eapply Forall2_no_colon; eauto. }
        assert (Hl : exists pl0 pl, side pl lo /\ pl0 <> [] /\ t = join colon pl0 /\ no_colon pl0 /\ dotted_suffix pl0 = Ok pl).
        { destruct Ht as [(-> & ->)|P].
          - exists [[]], [[]]. split; [left; auto|]. split; [discriminate|]. split; [reflexivity|]. split; [intros p [<-|[]]; reflexivity|reflexivity].
          - apply hextets_join in P as (ps & ps' & N & C & -> & D & F). exists ps, ps'. split; [right|auto]. split; [|auto].
            destruct (exists_last N) as (l & x & ->). apply dotted_suffix_spec in D as [(_ & ->)|(a & _ & _ & ->)]; [auto|destruct l; discriminate]. }
        destruct Hh as (ph & Sh & -> & Ch). destruct Hl as (pl0 & pl & Sl & N0 & -> & Cl & D).
        assert (Nh : ph <> []) by (now destruct (side_parts _ _ Sh)).
        exists (ph ++ [] :: pl0), (ph ++ [] :: pl). split; [|split; [|split; [|split]]].
        + intros p I. apply in_app_or in I as [I|[<-|I]]; [auto|reflexivity|auto].
        + rewrite join_app by (auto; discriminate). rewrite join_cons by auto. reflexivity.
        + rewrite app_length. cbn [length]. destruct ph; [congruence|]. destruct pl0; [congruence|]. cbn [length]. plia.
        + change ([] :: pl0) with ([[]] ++ pl0). change ([] :: pl) with ([[]] ++ pl). rewrite !app_assoc. now apply dotted_suffix_app.
        + right. exists ph, pl, hi, lo. auto. }
    destruct X as (parts & parts' & C & -> & L3 & D & S).
    assert (E : split colon (join colon parts) = parts) by (apply join_split; [destruct parts; [cbn in L3; plia|discriminate]|exact C]).
    rewrite parse6_core.
    + rewrite E. destruct (Nat.ltb_spec (length parts) 3); [plia|]. rewrite D. cbn [bind]. apply core_spec; [|exact S].
      assert (N : parts <> []) by (destruct parts; [cbn in L3; plia|discriminate]).
      destruct (exists_last N) as (l & x & ->). apply dotted_suffix_spec in D as [(_ & ->)|(a & _ & _ & ->)]; rewrite !app_length in *; cbn [length] in *; plia.
    + intros Z. rewrite Z in E. cbn in E. rewrite <- E in L3. cbn in L3. plia.
Qed.
