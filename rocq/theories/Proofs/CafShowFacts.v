From Coq Require Import Lia String.
From Verif.Model Require Import Base Ip Hosts Groups Rules Caf Peg AddrText CafText.
From Verif.Spec Require Import AddrSpec FilterSpec CafSpec AddrTextSpec CafTextSpec CafMeanSpec CafShow.
From Verif.Proofs Require Import PegFacts AddrTextFacts Addr6Facts FilterFacts CafFacts CafTextFacts TokFacts CafParse CafExpr CafMean.
Local Open Scope list_scope.

(** *** The trees of printed expressions *)
Definition net_tree (n : netast) : nettext :=
  match n with
  | NtAny => TWord WAny | NtAny4 => TWord WAny4 | NtAny6 => TWord WAny6
  | NtANY => TWord WANY | NtANY4 => TWord WANY4 | NtANY6 => TWord WANY6
  | NtHost a => TAddr (show_addr a) None
  | NtNet a p => TAddr (show_addr a) (Some (dec3 p))
  end.
Definition term_tree (t : dir * list netast) : cobj := OIp (fst t) (map net_tree (snd t)).
Fixpoint tree (f : fexpr) : cexpr :=
  match f with
  | FClause id terms => CE (CS id (map term_tree terms)) []
  | FOp o a b => CE (CS None [OExpr (tree a)]) [(o, CS None [OExpr (tree b)])]
  end.

(** *** Addresses *)
Lemma hexdigit_value v : (v < 16)%N -> hex_value (hexdigit v) v.
Proof. intros L. unfold hexdigit, hex_value. destruct (N.ltb_spec v 10); [left; split; lia|right; left; split; lia]. Qed.
Lemma hexdigit_hex v : (v < 16)%N -> is_hex (hexdigit v) = true.
Proof.
  intros L. assert (K : forallb (fun v => is_hex (hexdigit v)) (map N.of_nat (seq 0 16)) = true) by (vm_compute; reflexivity).
  rewrite forallb_forall in K. apply K. apply in_map_iff. exists (N.to_nat v). split; [lia|]. apply in_seq. lia.
Qed.
Lemma group4_value v : (v < 65536)%N -> hextet (group4 v) v.
Proof.
  intros L. split; [|cbn; lia]. unfold group4.
  assert (D : forall x, (x mod 16 < 16)%N) by (intros; apply N.mod_lt; discriminate).
  assert (L0 : (v / 4096 < 16)%N) by (apply N.div_lt_upper_bound; lia).
  assert (E : v = (16 * (16 * (16 * (v / 4096) + v / 256 mod 16) + v / 16 mod 16) + v mod 16)%N).
  { rewrite (N.div_mod v 16) at 1 by discriminate. f_equal. f_equal.
    rewrite (N.div_mod (v / 16) 16) at 1 by discriminate. f_equal. f_equal. rewrite N.div_div by discriminate. change (16 * 16)%N with 256%N.
    rewrite (N.div_mod (v / 256) 16) at 1 by discriminate. f_equal. f_equal. rewrite N.div_div by discriminate. reflexivity. }
  rewrite E at 5. change [hexdigit (v / 4096); hexdigit (v / 256 mod 16); hexdigit (v / 16 mod 16); hexdigit (v mod 16)] with
    ((([hexdigit (v / 4096)] ++ [hexdigit (v / 256 mod 16)]) ++ [hexdigit (v / 16 mod 16)]) ++ [hexdigit (v mod 16)]).
  apply HN_more; [apply HN_more; [apply HN_more; [apply HN_one|]|]|]; apply hexdigit_value; auto.
Qed.
Lemma group4_hex v : (v < 65536)%N -> forallb is_hex (group4 v) = true.
Proof.
  intros L. assert (D : forall x, (x mod 16 < 16)%N) by (intros; apply N.mod_lt; discriminate).
  assert (L0 : (v / 4096 < 16)%N) by (apply N.div_lt_upper_bound; lia).
  unfold group4. cbn [forallb]. rewrite !hexdigit_hex; auto.
Qed.
Fixpoint vals (k : nat) (n : N) : list N :=
  match k with O => [(n mod 65536)%N] | S k => (n / 65536 ^ N.of_nat (S k) mod 65536)%N :: vals k n end.
Lemma m16 x : (x mod 65536 < 65536)%N. Proof. apply N.mod_lt. discriminate. Qed.
Lemma groups_hextets k n : hextets (groups k n) (vals k n).
Proof.
  induction k as [|k IH]; cbn [groups vals].
  - apply HX_one, group4_value, m16.
  - change (u ":" ++ groups k n) with (58%N :: groups k n). apply HX_more; [apply group4_value, m16|auto].
Qed.
Lemma vals_length k n : length (vals k n) = S k.
Proof. induction k; cbn; auto. Qed.
Lemma number_cons v vs : number_of (v :: vs) = (v * 65536 ^ N.of_nat (length vs) + number_of vs)%N.
Proof.
  unfold number_of. cbn [fold_left]. rewrite N.mul_0_r, N.add_0_l.
  assert (K : forall vs a, fold_left (fun n v => 65536 * n + v)%N vs a = (a * 65536 ^ N.of_nat (length vs) + fold_left (fun n v => 65536 * n + v)%N vs 0)%N).
  { clear. induction vs as [|w vs IH]; intros a; cbn [fold_left length]; [cbn; lia|]. rewrite IH, (IH (65536 * 0 + w)%N).
    replace (N.of_nat (S (length vs))) with (N.succ (N.of_nat (length vs))) by lia. rewrite N.pow_succ_r'. lia. }
  apply K.
Qed.
Lemma vals_number k n : number_of (vals k n) = (n mod 65536 ^ N.of_nat (S k))%N.
Proof.
  induction k as [|k IH]; [cbn [vals]; unfold number_of; cbn [fold_left]; rewrite N.mul_0_r; reflexivity|].
  cbn [vals]. rewrite number_cons, vals_length, IH. set (p := (65536 ^ N.of_nat (S k))%N).
  replace (65536 ^ N.of_nat (S (S k)))%N with (p * 65536)%N by (unfold p; replace (N.of_nat (S (S k))) with (N.succ (N.of_nat (S k))) by lia; rewrite N.pow_succ_r'; lia).
  assert (p <> 0)%N by (apply N.pow_nonzero; discriminate). rewrite N.mod_mul_r by (auto; discriminate). lia.
Qed.
Lemma show_addr_text a : valid a -> address_text (show_addr a) a.
Proof.
  destruct a as [[|] n]; unfold valid, address_text, show_addr; cbn [a_ver a_val bits].
  - auto.
  - intros L. pose proof (T6_full _ _ (groups_hextets 7 n) (vals_length 7 n)) as T. rewrite vals_number in T. rewrite N.mod_small in T; [exact T|].
    exact L.
Qed.
Lemma dec3_value p : (p <= 255)%N -> decimal_text (dec3 p) p.
Proof.
  intros L. apply decimal_text_spec. split; [unfold dec3; destruct (p <? 10)%N, (p <? 100)%N; discriminate|]. split; [now apply dec3_digits|].
  assert (K : forallb (fun v => N.eqb (int10 (dec3 v)) v) upto255 = true) by (vm_compute; reflexivity).
  rewrite forallb_forall in K. apply N.eqb_eq, K, upto255_In, L.
Qed.
Lemma net_tree_reads n : net_valid n -> net_reads (net_tree n) n.
Proof.
  destruct n; cbn [net_tree net_valid]; try (intros; now constructor).
  - intros V. constructor. now apply show_addr_text.
  - intros (V & L). constructor; [now apply show_addr_text| |auto]. apply dec3_value. destruct a as [[|] n]; cbn in L; lia.
Qed.

(** *** The printed text *)
Section Show.
  Context (isalpha isalnum isspace : N -> bool) (OK : classes_ok isalpha isalnum isspace).
  Notation skip := (skip isspace).
  Notation blank := (blank isspace).
  Notation sym := (sym isspace).
  Notation word := (word isalnum isspace).
  Notation run := (run isspace).
  Notation net_text := (net_text isalnum isspace).
  Notation nets_text := (nets_text isalnum isspace).
  Notation expr_text := (expr_text isalnum isspace).
  Notation set_text := (set_text isalnum isspace).
  Notation objs_text := (objs_text isalnum isspace).

  Definition sepc (r : pystr) : Prop := r = [] \/ exists c r', r = c :: r' /\ (c = 32%N \/ c = 41%N).
  Definition noslash (r : pystr) : Prop := forall t, skip r <> 47%N :: t.

  Lemma blank1 : blank [32%N].
  Proof. unfold CafTextSpec.blank. cbn. rewrite (space_ok _ _ _ OK) by reflexivity. reflexivity. Qed.
  Lemma sym0 w r : sym w (w ++ r) r. Proof using. clear. exists []. split; reflexivity. Qed.
  Lemma sym1 w r : sym w (32%N :: w ++ r) r. Proof. exists [32%N]. split; [apply blank1|reflexivity]. Qed.
  Lemma sepc_not f r : sepc r -> f 32%N = false -> f 41%N = false -> ~ starts f r.
  Proof using. clear. intros [->|(c & r' & -> & [->| ->])] A B; [intros (c & s & [=] & _)|rewrite starts_cons; congruence..]. Qed.
  Lemma alnum_sep r : sepc r -> ~ starts isalnum r.
  Proof. intros S. apply sepc_not; [auto|rewrite (alnum_ok _ _ _ OK) by reflexivity; reflexivity..]. Qed.
  Lemma word1 w r : sepc r -> word w (32%N :: w ++ r) r.
  Proof. intros S. split; [apply sym1|now apply alnum_sep]. Qed.

  Lemma quad_addr4 n r : (n < 2 ^ 32)%N -> ~ starts is_digit r -> addr4_text (quad n) r.
  Proof using.
    clear. intros L S. assert (A : (n / 2 ^ 24 <= 255)%N) by (apply N.lt_succ_r, N.div_lt_upper_bound; lia).
    assert (M : forall x, (x mod 256 <= 255)%N) by (intros x; pose proof (N.mod_lt x 256); lia).
    assert (O : forall v, (v <= 255)%N -> octet_text (dec3 v)).
    { intros v Lv. unfold octet_text. destruct (N.ltb_spec v 100).
      - left. split; [now apply dec3_digits|]. unfold dec3. destruct (v <? 10)%N; [now left|]. destruct (N.ltb_spec v 100); [now right|lia].
      - right. exists v. split; [lia|auto]. }
    unfold quad, dotted. eexists _, _, _, _. split; [apply O, A|]. split; [apply O, M|]. split; [apply O, M|]. split; [apply O, M|]. split; [reflexivity|].
    intros x r' -> Ob. apply S. apply starts_cons. apply octet_digits in Ob as (_ & Ob). rewrite forallb_app in Ob. apply andb_true_iff in Ob as (_ & Ob).
    cbn [forallb] in Ob. now rewrite andb_true_r in Ob.
  Qed.
  Lemma groups_chars k n : forallb is_hexdotcolon (groups k n) = true /\ groups k n <> [].
  Proof using.
    clear. assert (H : forall l, forallb is_hex l = true -> forallb is_hexdotcolon l = true).
    { intros l F. rewrite forallb_forall in *. intros x I. unfold is_hexdotcolon. now rewrite (F x I). }
    induction k as [|k (IH & _)]; cbn [groups]; (split; [|discriminate]).
    - apply H, group4_hex, m16.
    - rewrite !forallb_app. rewrite IH. rewrite (H (group4 _)) by (apply group4_hex, m16). reflexivity.
  Qed.
  Lemma groups_addr6 k n r : ~ starts is_hexdotcolon r -> addr6_text (groups (S k) n) r.
  Proof using.
    clear. intros S. exists (group4 (n / 65536 ^ N.of_nat (Datatypes.S k) mod 65536)), (groups k n).
    destruct (groups_chars k n) as (C & Nn). split; [apply group4_hex, m16|]. split; [auto|]. split; [auto|]. split; [reflexivity|auto].
  Qed.
  Definition slashc (r : pystr) : Prop := exists r', r = 47%N :: r'.
  Lemma show_addr_addr a r : valid a -> sepc r \/ slashc r -> addr_text isspace (show_addr a) (32%N :: show_addr a ++ r) r.
  Proof.
    intros V S. split; [apply sym1|]. destruct a as [[|] n]; unfold show_addr; cbn [a_ver a_val].
    - left. apply quad_addr4; [exact V|]. destruct S as [S|(r' & ->)]; [now apply sepc_not|rewrite starts_cons; discriminate].
    - right. apply groups_addr6. destruct S as [S|(r' & ->)]; [now apply sepc_not|rewrite starts_cons; discriminate].
  Qed.
  Lemma show_net_text n r : net_valid n -> sepc r -> noslash r -> net_text (net_tree n) (32%N :: show_net n ++ r) r.
  Proof.
    intros V S N. destruct n; cbn [net_tree show_net].
    1-6: constructor; now apply word1.
    - apply NT_addr; [apply show_addr_addr; auto|]. intros (m & r' & s1 & Sy & _). apply (symy_skip _ _ _ OK (u "/")) in Sy; [|reflexivity]. now apply N in Sy.
    - destruct V as (V & L). rewrite <- !app_assoc. eapply NT_mask; [apply show_addr_addr; [auto|right; exists (dec3 plen ++ r); reflexivity]|].
      exists (dec3 plen ++ r). split; [apply sym0|]. split; [apply sym0|].
      assert (L' : (plen <= 255)%N) by (destruct a as [[|] x]; cbn in L; lia).
      split; [unfold dec3; destruct (plen <? 10)%N, (plen <? 100)%N; discriminate|]. split; [now apply dec3_digits|]. now apply sepc_not.
  Qed.
  Lemma first_char n : net_valid n -> exists c t, show_net n = c :: t /\ (97 <= c <= 122 \/ 65 <= c <= 90 \/ 48 <= c <= 57)%N.
  Proof using.
    clear. assert (A : forall a, valid a -> exists c t, show_addr a = c :: t /\ (97 <= c <= 122 \/ 65 <= c <= 90 \/ 48 <= c <= 57)%N).
    { intros [[|] m] V; unfold show_addr; cbn [a_ver a_val].
      - assert (L : (m / 2 ^ 24 <= 255)%N) by (apply N.lt_succ_r, N.div_lt_upper_bound; cbn in V; unfold valid in V; cbn in V; lia).
        unfold quad, dotted. pose proof (dec3_digits _ L) as D. destruct (dec3 (m / 2 ^ 24)) as [|c t] eqn:E.
        + exfalso. revert E. unfold dec3. repeat match goal with |- context [if ?b then _ else _] => destruct b end; discriminate.
        + exists c, (t ++ 46%N :: dec3 (m / 2 ^ 16 mod 256) ++ 46%N :: dec3 (m / 2 ^ 8 mod 256) ++ 46%N :: dec3 (m mod 256)). split; [reflexivity|].
          cbn [forallb] in D. apply andb_true_iff in D as (D & _). unfold is_digit in D. rewrite andb_true_iff, !N.leb_le in D. lia.
      - cbn [groups]. eexists _, _. split; [reflexivity|]. unfold hexdigit. set (v := (m / 65536 ^ N.of_nat 7 mod 65536)%N).
        assert ((v / 4096 < 16)%N) by (apply N.div_lt_upper_bound; [discriminate|]; unfold v; apply m16).
        destruct (N.ltb_spec (v / 4096) 10); lia. }
    destruct n; cbn [show_net net_valid]; intros V; try (match goal with |- context [u ?w = _] => let v := eval vm_compute in (u w) in change (u w) with v end; eexists _, _; split; [reflexivity|]; lia).
    - auto.
    - destruct V as (V & _). destruct (A a V) as (c & t & E & R). rewrite E. cbn [app]. eauto.
  Qed.
  Lemma noslash_net n r : net_valid n -> noslash (32%N :: show_net n ++ r).
  Proof.
    intros V t. destruct (first_char n V) as (c & t' & E & R). rewrite E. cbn [CafText.skip app].
    rewrite (space_ok _ _ _ OK) by reflexivity. change (ascii_space 32) with true. cbn iota.
    assert (F : isspace c = false).
    { rewrite (space_ok _ _ _ OK) by (apply N.ltb_lt; lia). unfold ascii_space, in_range. destruct (orb _ _) eqn:K; [|reflexivity].
      rewrite orb_true_iff, !andb_true_iff, !N.leb_le in K. lia. }
    rewrite F. intros [= H _]. lia.
  Qed.
  Lemma sepc_sp r : sepc (32%N :: r). Proof using. clear. right. exists 32%N, r. auto. Qed.
  Lemma show_nets_text l r : l <> [] -> Forall net_valid l -> sepc r -> noslash r ->
    nets_text (map net_tree l) (flat_map (fun n => u " " ++ show_net n) l ++ r) r.
  Proof.
    intros Nl V S N. induction V as [|n l Vn V IH]; [congruence|]. cbn [map flat_map]. rewrite <- !app_assoc. change (u " " ++ ?x) with (32%N :: x).
    destruct l as [|n' l].
    - cbn [flat_map map app]. constructor. now apply show_net_text.
    - apply NL_more with (s1 := flat_map (fun n => u " " ++ show_net n) (n' :: l) ++ r); [|apply IH; discriminate].
      cbn [flat_map]. rewrite <- !app_assoc. change (u " " ++ ?x) with (32%N :: x). apply show_net_text; [auto|apply sepc_sp|]. apply noslash_net. now inversion V.
  Qed.
  Definition ending (r : pystr) : Prop := r = [] \/ exists r', r = 41%N :: r'.
  Lemma ending_sepc r : ending r -> sepc r.
  Proof using. clear. intros [->|(r' & ->)]; [now left|right; exists 41%N, r'; auto]. Qed.
  Lemma ending_noslash r : ending r -> noslash r.
  Proof. intros [->|(r' & ->)] t; [discriminate|]. cbn [CafText.skip]. rewrite (space_ok _ _ _ OK) by reflexivity. discriminate. Qed.
  Lemma show_terms_text terms r : (forall d l, In (d, l) terms -> l <> [] /\ Forall net_valid l) -> ending r ->
    objs_text (map term_tree terms) (flat_map show_term terms ++ r) r.
  Proof.
    intros V S. induction terms as [|(d, l) terms IH]; [constructor|]. destruct (V d l (or_introl eq_refl)) as (Nl & Vl).
    cbn [map flat_map term_tree fst snd]. unfold show_term at 1. cbn [fst snd]. rewrite <- !app_assoc.
    set (r1 := flat_map show_term terms ++ r).
    assert (S1 : sepc r1 /\ noslash r1).
    { unfold r1. destruct terms as [|(d', l') terms]; [cbn; split; [now apply ending_sepc|now apply ending_noslash]|].
      cbn [flat_map]. unfold show_term. rewrite <- !app_assoc. split; [apply sepc_sp|]. intros t. cbn [fst snd]. change (u " ip ") with [32; 105; 112; 32]%N. cbn [app CafText.skip].
      rewrite !(space_ok _ _ _ OK) by reflexivity. discriminate. }
    apply OT_ip with (s1 := u " " ++ dir_text d ++ flat_map (fun n => u " " ++ show_net n) l ++ r1) (s2 := flat_map (fun n => u " " ++ show_net n) l ++ r1) (s3 := r1).
    - apply (word1 (u "ip")). apply sepc_sp.
    - apply (word1 (dir_text d)). destruct l as [|n l]; [congruence|]. apply sepc_sp.
    - apply show_nets_text; tauto.
    - apply IH. intros d' l' I. apply (V d'). now right.
  Qed.
  Lemma show_text f : printable f -> forall r, ending r -> expr_text (tree f) (show f ++ r) r.
  Proof.
    induction f as [id terms|o a IHa b IHb]; cbn [printable show tree]; intros P r E.
    - destruct P as (Pi & Pt). apply ET with (s1 := r); [|constructor]. pose proof (show_terms_text terms r Pt E) as T. rewrite <- app_assoc.
      apply ST with (s1 := match id with Some p => u "id " ++ p | None => [] end ++ flat_map show_term terms ++ r) (s2 := flat_map show_term terms ++ r); [constructor| |auto].
      destruct id as [p|]; [|reflexivity]. destruct (Pi p eq_refl) as (Np & Fp). cbn [CafTextSpec.id_text]. rewrite <- app_assoc.
      exists (u " " ++ p ++ flat_map show_term terms ++ r). split; [split; [apply (sym0 (u "id"))|apply alnum_sep, sepc_sp]|].
      split; [apply (sym1 p)|]. split; [auto|]. split; [auto|].
      assert (S : sepc (flat_map show_term terms ++ r)) by (destruct terms as [|t terms]; [now apply ending_sepc|apply sepc_sp]).
      now apply sepc_not.
    - destruct P as (Pa & Pb). rewrite <- !app_assoc.
      set (r3 := u ")" ++ r). set (r2 := show b ++ r3). set (r1 := u " (" ++ r2). set (r0 := u " " ++ op_text o ++ r1).
      change (u ") " ++ op_text o ++ r1) with (u ")" ++ r0).
      apply ET with (s1 := r0).
      + eapply ST; [constructor|reflexivity|]. eapply OT_expr; [apply sym0|apply IHa; [auto|right; eexists; reflexivity]|apply sym0|constructor].
      + apply OPT_more with (s1 := r1) (s2 := r); [apply (word1 (op_text o)), sepc_sp| |constructor].
        eapply ST; [constructor|reflexivity|]. eapply OT_expr; [apply (sym1 (u "("))|apply IHb; [auto|right; eexists; reflexivity]|apply sym0|constructor].
  Qed.
  Lemma show_written f : printable f -> written_as isalnum isspace (tree f) (show f).
  Proof. intros P. exists []. split; [|reflexivity]. rewrite <- (app_nil_r (show f)). apply show_text; [auto|now left]. Qed.
  Lemma tree_readable f : printable f -> readable (tree f).
  Proof using.
    clear. induction f as [id terms|o a IHa b IHb]; cbn [printable tree]; intros P.
    - destruct P as (_ & Pt). constructor; [|constructor]. apply RS_clause. intros x I. apply in_map_iff in I as ((d & l) & <- & I).
      exists d, (map net_tree l). split; [reflexivity|]. intros t It. apply in_map_iff in It as (n & <- & In_). exists n. apply net_tree_reads.
      destruct (Pt d l I) as (_ & V). rewrite Forall_forall in V. auto.
    - destruct P as (Pa & Pb). constructor; [constructor; auto|]. constructor; [|constructor]. cbn [snd]. constructor. auto.
  Qed.
  Lemma tree_side h terms : (forall d l, In (d, l) terms -> l <> [] /\ Forall net_valid l) -> forall d y,
    side_selects h d (map term_tree terms) y <->
    (forall l, ~ In (d, l) terms) \/ exists l n, In (d, l) terms /\ In n l /\ net_selects h n y.
  Proof using.
    clear. intros V d y. unfold side_selects. split; (intros [H|H]; [left|right]).
    - intros l I. apply (H (map net_tree l)). change (OIp d (map net_tree l)) with (term_tree (d, l)). now apply in_map.
    - destruct H as (ts & t & n & I & It & R & S). apply in_map_iff in I as ((d' & l) & [= -> <-] & I). apply in_map_iff in It as (n' & <- & In_).
      destruct (V d l I) as (_ & Vl). rewrite Forall_forall in Vl. pose proof (net_tree_reads n' (Vl n' In_)) as R'. rewrite (net_reads_unique _ _ _ R R') in S.
      exists l, n'. auto.
    - intros ts I. apply in_map_iff in I as ((d' & l) & [= -> <-] & I). now apply (H l).
    - destruct H as (l & n & I & In_ & S). exists (map net_tree l), (net_tree n), n. split; [change (OIp d (map net_tree l)) with (term_tree (d, l)); now apply in_map|].
      split; [now apply in_map|]. split; [|auto]. destruct (V d l I) as (_ & Vl). rewrite Forall_forall in Vl. now apply net_tree_reads, Vl.
  Qed.
  Lemma tree_means h f i : printable f -> expr_means h i (tree f) <-> fmeans h f i.
  Proof using.
    clear. induction f as [id terms|o a IHa b IHb]; intros P.
    - cbn [printable] in P. destruct P as (_ & Pt). change (expr_means h i (tree (FClause id terms))) with (set_means h i (CS id (map term_tree terms))). rewrite set_means_clause.
      2:{ intros e H. destruct terms as [|[d l] [|]]; discriminate. }
      cbn [fmeans]. unfold clause_selects, fclause_selects, nat_side_selects. pose proof (tree_side h terms Pt) as T. destruct i as [r|n].
      + now rewrite !T.
      + split; (intros [(s & E & A & B & C)|(s & E & A & B & C)]; [left|right]; exists s;
          (split; [exact E|split; [intros x Hx; apply T, A, Hx|split; [intros x Hx; apply T, B, Hx|exact C]]])).
    - cbn [printable] in P. destruct P as (Pa & Pb). specialize (IHa Pa). specialize (IHb Pb). 
      change (expr_means h i (tree (FOp o a b))) with (sequence (set_means h i) (fun q => q) (expr_means h i (tree a)) [(o, CS None [OExpr (tree b)])]).
      destruct o; cbn [sequence fmeans]; change (set_means h i (CS None [OExpr (tree b)])) with (expr_means h i (tree b)); tauto.
  Qed.
End Show.
