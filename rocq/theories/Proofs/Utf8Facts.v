(** The UTF-8 decoder accepts exactly the encodings of texts. *)
From Coq Require Import Lia ZArith.
From Verif.Model Require Import Base Auto.
From Verif.Spec Require Import AutoSpec.
Local Open Scope N_scope.
Ltac divs := zify; Z.to_euclidean_division_equations; lia.

Lemma split64 x j : j < 64 -> (x * 64 + j) / 64 = x /\ (x * 64 + j) mod 64 = j.
Proof. intros H. split; symmetry; [apply (N.div_unique _ 64 _ j)|apply (N.mod_unique _ 64 x)]; lia. Qed.
Lemma div64 c : c / 4096 = c / 64 / 64 /\ c / 262144 = c / 64 / 64 / 64.
Proof. rewrite !N.div_div by lia. split; reflexivity. Qed.

Lemma continues_iff b : continues b = true <-> exists j, j < 64 /\ b = 128 + j.
Proof.
  unfold continues. rewrite andb_true_iff, N.leb_le, N.ltb_lt. split.
  - intros (A & B). exists (b - 128). split; lia.
  - intros (j & J & ->). lia.
Qed.
(** One character. *)
Lemma char_two h j : 2 <= h < 32 -> j < 64 -> utf8_char (h * 64 + j) [192 + h; 128 + j].
Proof. intros H J. destruct (split64 h j J) as (A & B). pose proof (U8_2 (h * 64 + j) ltac:(lia)) as X. now rewrite A, B in X. Qed.
Lemma char_three h i j : h < 16 -> i < 64 -> j < 64 -> (h = 0 -> 32 <= i) -> (h = 13 -> i < 32) -> utf8_char ((h * 64 + i) * 64 + j) [224 + h; 128 + i; 128 + j].
Proof.
  intros H I J A B. destruct (split64 (h * 64 + i) j J) as (E1 & E2). destruct (split64 h i I) as (E3 & E4).
  pose proof (U8_3 ((h * 64 + i) * 64 + j) ltac:(lia) ltac:(lia)) as X. rewrite (proj1 (div64 _)), E1, E2, E3, E4 in X. exact X.
Qed.
Lemma char_four g h i j : g < 5 -> h < 64 -> i < 64 -> j < 64 -> (g = 0 -> 16 <= h) -> (g = 4 -> h < 16) ->
  utf8_char (((g * 64 + h) * 64 + i) * 64 + j) [240 + g; 128 + h; 128 + i; 128 + j].
Proof.
  intros G H I J A B. destruct (split64 ((g * 64 + h) * 64 + i) j J) as (E1 & E2). destruct (split64 (g * 64 + h) i I) as (E3 & E4). destruct (split64 g h H) as (E5 & E6).
  pose proof (U8_4 (((g * 64 + h) * 64 + i) * 64 + j) ltac:(lia)) as X. rewrite (proj2 (div64 _)), (proj1 (div64 _)), E1, E2, E3, E4, E5, E6 in X. exact X.
Qed.

Ltac ask := match goal with
  | H : (if ?b then _ else _) = Ok _ |- _ => destruct b eqn:?; [|try discriminate H]
  end.
Ltac isok H := match type of H with Ok ?x = Ok ?y => let E := fresh in assert (E : x = y) by congruence; rewrite <- E; clear H E end.
Lemma decode_sound : forall n l s, (length l <= n)%nat -> utf8_decode l = Ok s -> utf8_text s l.
Proof.
  induction n as [|n IH]; intros l s L H; [destruct l; [|cbn in L; lia]; injection H as <-; constructor|].
  destruct l as [|a l]; [injection H as <-; constructor|]. cbn [utf8_decode] in H.
  destruct (N.ltb_spec a 128) as [La|Ga].
  { destruct (utf8_decode l) eqn:E; [|discriminate]. injection H as <-. apply (UT_cons _ [a]); [now constructor|]. apply IH; [cbn in L; lia|auto]. }
  destruct (N.ltb_spec a 194) as [|G2]; [discriminate|]. destruct l as [|b l]; [discriminate|].
  destruct (continues b) eqn:Cb; [|discriminate]. cbn [negb] in H. apply continues_iff in Cb as (i & I & ->).
  destruct (N.ltb_spec a 224) as [L3|G3].
  { destruct (utf8_decode l) eqn:E; [|discriminate]. isok H. unfold low_bits.
    assert (X : utf8_char ((a - 192) * 64 + i) [192 + (a - 192); 128 + i]) by (apply char_two; lia).
    replace (192 + (a - 192)) with a in X by lia. replace (128 + i - 128) with i by lia. apply (UT_cons _ [a; 128 + i]); [exact X|]. apply IH; [cbn in L; lia|auto]. }
  destruct l as [|c l]; [discriminate|]. destruct (continues c) eqn:Cc; [|discriminate]. cbn [negb] in H. apply continues_iff in Cc as (j & J & ->).
  destruct (N.ltb_spec a 240) as [L4|G4].
  { destruct (_ || _) eqn:Bad in H; [discriminate|]. destruct (utf8_decode l) eqn:E; [|discriminate]. isok H. unfold low_bits.
    apply orb_false_iff in Bad as (B1 & B2). apply andb_false_iff in B1, B2. rewrite N.eqb_neq, N.ltb_ge in B1. rewrite N.eqb_neq, N.leb_gt in B2.
    assert (X : utf8_char (((a - 224) * 64 + i) * 64 + j) [224 + (a - 224); 128 + i; 128 + j]) by (apply char_three; lia).
    replace (224 + (a - 224)) with a in X by lia. replace ((a - 224) * 4096 + (128 + i - 128) * 64 + (128 + j - 128)) with (((a - 224) * 64 + i) * 64 + j) by lia.
    apply (UT_cons _ [a; 128 + i; 128 + j]); [exact X|]. apply IH; [cbn in L; lia|auto]. }
  destruct l as [|d l]; [discriminate|]. destruct (continues d) eqn:Cd; [|discriminate]. cbn [negb] in H. apply continues_iff in Cd as (k & K & ->).
  destruct (N.ltb_spec a 245) as [L5|]; [|discriminate]. destruct (_ || _) eqn:Bad in H; [discriminate|]. destruct (utf8_decode l) eqn:E; [|discriminate]. isok H. unfold low_bits.
  apply orb_false_iff in Bad as (B1 & B2). apply andb_false_iff in B1, B2. rewrite N.eqb_neq, N.ltb_ge in B1. rewrite N.eqb_neq, N.leb_gt in B2.
  assert (X : utf8_char ((((a - 240) * 64 + i) * 64 + j) * 64 + k) [240 + (a - 240); 128 + i; 128 + j; 128 + k]) by (apply char_four; lia).
  replace (240 + (a - 240)) with a in X by lia. replace ((a - 240) * 262144 + (128 + i - 128) * 4096 + (128 + j - 128) * 64 + (128 + k - 128)) with ((((a - 240) * 64 + i) * 64 + j) * 64 + k) by lia.
  apply (UT_cons _ [a; 128 + i; 128 + j; 128 + k]); [exact X|]. apply IH; [cbn in L; lia|auto].
Qed.

Lemma cont_mod x : continues (128 + x mod 64) = true /\ low_bits (128 + x mod 64) = x mod 64.
Proof.
  assert (L : x mod 64 < 64) by (apply N.mod_lt; discriminate). generalize dependent (x mod 64). intros m L.
  split; [apply continues_iff; exists m; split; [exact L|reflexivity]|unfold low_bits; lia].
Qed.
Ltac no_ltb := match goal with |- context[?x <? ?y] => let E := fresh in destruct (N.ltb_spec x y) as [E|E]; [exfalso; divs|] end.
Ltac is_ltb := match goal with |- context[?x <? ?y] => let E := fresh in destruct (N.ltb_spec x y) as [E|E]; [|exfalso; divs] end.
Lemma decode_char c b : utf8_char c b -> forall l, utf8_decode (b ++ l) = match utf8_decode l with Ok s => Ok (c :: s) | Err e => Err e end.
Proof.
  intros H l. destruct H as [c H|c H|c H N|c H]; cbn [app utf8_decode].
  - destruct (N.ltb_spec c 128); [auto|lia].
  - no_ltb. no_ltb. destruct (cont_mod c) as (-> & ->). cbn [negb]. is_ltb. replace ((192 + c / 64 - 192) * 64 + c mod 64) with c by divs. reflexivity.
  - no_ltb. no_ltb. destruct (cont_mod (c / 64)) as (-> & ->), (cont_mod c) as (-> & ->). cbn [negb]. no_ltb. is_ltb.
    assert (B : (224 + c / 4096 =? 224) && (128 + c / 64 mod 64 <? 160) || (224 + c / 4096 =? 237) && (160 <=? 128 + c / 64 mod 64) = false).
    { apply orb_false_iff. split; apply andb_false_iff; rewrite N.eqb_neq; [rewrite N.ltb_ge|rewrite N.leb_gt]; divs. }
    rewrite B. replace ((224 + c / 4096 - 224) * 4096 + c / 64 mod 64 * 64 + c mod 64) with c by divs. reflexivity.
  - no_ltb. no_ltb. destruct (cont_mod (c / 4096)) as (-> & ->), (cont_mod (c / 64)) as (-> & ->), (cont_mod c) as (-> & ->). cbn [negb]. no_ltb. no_ltb. is_ltb.
    assert (B : (240 + c / 262144 =? 240) && (128 + c / 4096 mod 64 <? 144) || (240 + c / 262144 =? 244) && (144 <=? 128 + c / 4096 mod 64) = false).
    { apply orb_false_iff. split; apply andb_false_iff; rewrite N.eqb_neq; [rewrite N.ltb_ge|rewrite N.leb_gt]; divs. }
    rewrite B. replace ((240 + c / 262144 - 240) * 262144 + c / 4096 mod 64 * 4096 + c / 64 mod 64 * 64 + c mod 64) with c by divs. reflexivity.
Qed.
Lemma decode_iff l s : utf8_decode l = Ok s <-> utf8_text s l.
Proof.
  split; [apply (decode_sound (length l)); auto|]. induction 1 as [|c b s l C _ IH]; [reflexivity|]. rewrite (decode_char _ _ C), IH. reflexivity.
Qed.
Lemma decode_err l e : utf8_decode l = Err e -> e = ValueError.
Proof.
  remember (length l) as n eqn:L. assert (L' : (length l <= n)%nat) by lia. clear L. revert l L'. induction n as [|n IH]; intros l L H; [destruct l; [discriminate|cbn in L; lia]|].
  destruct l as [|a l]; [discriminate|]. cbn [utf8_decode] in H. cbn in L.
  assert (R : forall l' (f : N), (length l' <= n)%nat -> match utf8_decode l' with Ok s => Ok (f :: s) | Err e => Err e end = Err e -> e = ValueError).
  { intros l' f L' E. destruct (utf8_decode l') eqn:D; [discriminate|]. injection E as ->. now apply (IH l'). }
  repeat (first [ progress (injection H; intros; subst; reflexivity) | match type of H with (if ?b then _ else _) = _ => destruct b end | match type of H with match ?l with [] => _ | _ :: _ => _ end = _ => destruct l; cbn in L end ]); try (injection H; congruence);
  eapply R; try exact H; lia.
Qed.
(** The byte order mark is the encoding of U+FEFF. *)
Lemma mark_char : utf8_char 65279 [239; 187; 191].
Proof. apply (U8_3 65279); [split; [discriminate|reflexivity]|intros (_ & H); now apply H]. Qed.
Lemma mark_only b : utf8_char 65279 b -> b = [239; 187; 191].
Proof.
  intros H. remember 65279 as c eqn:E. destruct H as [c H|c H|c H N|c H]; subst; [discriminate H|destruct H as (_ & H); discriminate H|reflexivity|destruct H as (H & _); now destruct H].
Qed.
Lemma sig_iff l s : decode_sig l = Ok s <-> file_bytes s l.
Proof.
  assert (Z : forall l, (exists r, l = [239; 187; 191] ++ r /\ decode_sig l = utf8_decode r) \/ ((forall r, l <> [239; 187; 191] ++ r) /\ decode_sig l = utf8_decode l)).
  { intros [|a [|b [|c r]]]; try (right; split; [intros r0 E; discriminate E|reflexivity]). cbn [decode_sig].
    destruct (N.eqb_spec a 239) as [-> |N1]; [destruct (N.eqb_spec b 187) as [-> |N2]; [destruct (N.eqb_spec c 191) as [-> |N3]|]|]; cbn [andb]; [left; exists r; auto|right; split; [|reflexivity]; intros r0 E; injection E; intros; congruence..]. }
  destruct (Z l) as [(r & -> & ->)|(N & ->)]; rewrite decode_iff; split.
  - now constructor.
  - intros H. remember ([239; 187; 191] ++ r) as l eqn:E. destruct H as [s l H|s l H N].
    + apply app_inv_head in E as ->. exact H.
    + subst l. exfalso. apply decode_iff in H. rewrite (decode_char _ _ mark_char) in H. destruct (utf8_decode r) as [q|]; [|discriminate H]. injection H as <-. now apply (N q).
  - intros H. apply FB_none; [exact H|]. intros q ->. inversion H as [|c b s0 l0 C T]; subst. apply mark_only in C as ->. now apply (N l0).
  - intros H. destruct H as [s r H|s l H _]; [now destruct (N r)|exact H].
Qed.
Lemma sig_err l e : decode_sig l = Err e -> e = ValueError.
Proof.
  intros H. destruct l as [|a [|b [|c r]]]; cbn [decode_sig] in H; try (now apply decode_err in H). destruct (_ && _) in H; now apply decode_err in H.
Qed.
