From Coq Require Import Lia String.
From Verif.Model Require Import Base Ip Hosts Groups Rules Caf Peg AddrText CafText.
From Verif.Spec Require Import AddrSpec FilterSpec CafSpec AddrTextSpec CafTextSpec.
From Verif.Proofs Require Import PegFacts AddrTextFacts Addr6Facts CafTextFacts.
Local Open Scope list_scope.

Definition ascii_alnum (c : N) : bool := ascii_alpha c || is_digit c.
Definition ascii (w : pystr) : bool := forallb (fun c => N.ltb c 128) w.
Definition wordy (w : pystr) : bool := ascii w && name_like ascii_alpha ascii_alnum w.
Definition symy (w : pystr) : bool :=
  ascii w && negb (name_like ascii_alpha ascii_alnum w) && match w with c :: _ => negb (ascii_space c) | [] => false end.

Section Facts.
  Context (isalpha isalnum isspace : N -> bool) (OK : classes_ok isalpha isalnum isspace).
  Notation skip := (skip isspace).
  Notation blank := (blank isspace).
  Notation sym := (sym isspace).
  Notation word := (word isalnum isspace).
  Notation run := (run isspace).
  Notation tok := (tok isalpha isalnum isspace).

  Lemma alpha_ok c : (c <? 128)%N = true -> isalpha c = ascii_alpha c.
  Proof. intros H. apply N.ltb_lt in H. apply (OK c H). Qed.
  Lemma alnum_ok c : (c <? 128)%N = true -> isalnum c = ascii_alnum c.
  Proof. intros H. apply N.ltb_lt in H. apply (OK c H). Qed.
  Lemma space_ok c : (c <? 128)%N = true -> isspace c = ascii_space c.
  Proof. intros H. apply N.ltb_lt in H. apply (OK c H). Qed.

  Lemma skip_spec s : exists b, blank b /\ s = b ++ skip s /\ ~ starts isspace (skip s).
  Proof using.
    clear. induction s as [|c s (b & B & E & N)]; cbn.
    - exists []. split; [reflexivity|]. split; [reflexivity|]. intros (c & s & [=] & _).
    - destruct (isspace c) eqn:F.
      + exists (c :: b). split; [unfold CafTextSpec.blank; cbn; now rewrite F|]. split; [cbn; congruence|auto].
      + exists []. split; [reflexivity|]. split; [reflexivity|]. rewrite starts_cons. congruence.
  Qed.
  Lemma skip_app b t : blank b -> ~ starts isspace t -> skip (b ++ t) = t.
  Proof using.
    clear. intros B N. induction b as [|c b IH]; cbn.
    - apply not_starts in N as [->|(c & s & -> & F)]; [reflexivity|]. cbn. now rewrite F.
    - unfold CafTextSpec.blank in B. cbn in B. apply andb_true_iff in B as (F & B). rewrite F. auto.
  Qed.
  Lemma skip_idem s : skip (skip s) = skip s.
  Proof using. clear. destruct (skip_spec s) as (_ & _ & _ & N). now apply (skip_app []). Qed.
  Lemma skip_le s : length (skip s) <= length s.
  Proof using. clear. induction s as [|c s IH]; cbn; [lia|]. destruct (isspace c); cbn; lia. Qed.
  Lemma skip_blank s : skip s = [] <-> blank s.
  Proof using.
    clear. split.
    - intros H. destruct (skip_spec s) as (b & B & E & _). rewrite H, app_nil_r in E. now subst.
    - intros B. rewrite <- (app_nil_r s). apply skip_app; [auto|]. intros (c & r & [=] & _).
  Qed.

  Lemma sym_skip w s r : ~ starts isspace w -> w <> [] -> sym w s r <-> skip s = w ++ r.
  Proof using.
    clear. intros N Nw. split.
    - intros (b & B & ->). apply skip_app; [auto|]. destruct w as [|c w]; [congruence|]. rewrite starts_cons in N. cbn [app]. now rewrite starts_cons.
    - intros E. destruct (skip_spec s) as (b & B & Es & _). exists b. rewrite <- E. auto.
  Qed.
  Lemma wordy_space w : wordy w = true -> ~ starts isspace w /\ w <> [].
  Proof using OK.
    unfold wordy, ascii, name_like. destruct w as [|c w]; [rewrite andb_false_r; discriminate|]. cbn [forallb].
    rewrite !andb_true_iff. intros ((A & _) & (B & _)). split; [|discriminate]. rewrite starts_cons, space_ok by auto.
    unfold ascii_alpha, in_range in B. unfold ascii_space, in_range. rewrite orb_true_iff, !andb_true_iff, !N.leb_le in *. lia.
  Qed.
  Lemma symy_space w : symy w = true -> ~ starts isspace w /\ w <> [].
  Proof using OK.
    unfold symy, ascii. destruct w as [|c w]; [rewrite andb_false_r; discriminate|]. cbn [forallb].
    rewrite !andb_true_iff. intros (((A & _) & _) & B). split; [|discriminate]. rewrite starts_cons, space_ok by auto.
    destruct (ascii_space c); [discriminate|discriminate].
  Qed.
  Lemma name_like_ok w : ascii w = true -> name_like isalpha isalnum w = name_like ascii_alpha ascii_alnum w.
  Proof using OK.
    unfold ascii, name_like. destruct w as [|c w]; [reflexivity|]. cbn [forallb]. rewrite andb_true_iff. intros (A & B).
    rewrite alpha_ok by auto. f_equal. clear c A. induction w as [|c w IH]; [reflexivity|]. cbn [forallb] in *.
    apply andb_true_iff in B as (A & B). rewrite alnum_ok by auto. now rewrite IH.
  Qed.
  Lemma next_alnum_spec r : next_alnum isalnum r = true <-> starts isalnum r.
  Proof using. clear. destruct r as [|c r]; cbn; [split; [discriminate|intros (c & s & [=] & _)]|]. now rewrite starts_cons. Qed.

  Lemma tok_noerr w s e : tok w s <> PErr e.
  Proof using. clear. unfold CafText.tok, token. destruct (strip_prefix w (skip s)); [|discriminate]. destruct (_ && _); discriminate. Qed.
  Lemma tok_word w s x r : wordy w = true -> tok w s = POk x r <-> x = w /\ word w s r.
  Proof using OK.
    intros W. destruct (wordy_space w W) as (Ns & Nw). unfold CafTextSpec.word. rewrite (sym_skip w s r Ns Nw).
    unfold CafText.tok, token. unfold wordy in W. apply andb_true_iff in W as (A & L). rewrite name_like_ok, L by auto. cbn [andb].
    destruct (strip_prefix w (skip s)) as [r'|] eqn:E.
    - apply strip_spec in E. destruct (next_alnum isalnum r') eqn:NA.
      + split; [discriminate|]. intros (_ & E' & N). rewrite E in E'. apply app_inv_head in E' as ->. exfalso. apply N. now apply next_alnum_spec.
      + split.
        * intros [= <- <-]. split; [auto|]. split; [auto|]. rewrite <- next_alnum_spec. congruence.
        * intros (-> & E' & _). rewrite E in E'. apply app_inv_head in E' as ->. reflexivity.
    - split; [discriminate|]. intros (_ & E' & _). apply strip_spec in E'. congruence.
  Qed.
  Lemma tok_sym w s x r : symy w = true -> tok w s = POk x r <-> x = w /\ sym w s r.
  Proof using OK.
    intros W. destruct (symy_space w W) as (Ns & Nw). rewrite (sym_skip w s r Ns Nw).
    unfold CafText.tok, token. unfold symy in W. rewrite !andb_true_iff in W. destruct W as ((A & L) & _). rewrite name_like_ok by auto.
    destruct (name_like ascii_alpha ascii_alnum w); [discriminate|]. cbn [andb].
    destruct (strip_prefix w (skip s)) as [r'|] eqn:E.
    - apply strip_spec in E. split.
      + intros [= <- <-]. auto.
      + intros (-> & E'). rewrite E in E'. apply app_inv_head in E' as ->. reflexivity.
    - split; [discriminate|]. intros (_ & E'). apply strip_spec in E'. congruence.
  Qed.
  Lemma tok_fail w s : (forall x r, tok w s <> POk x r) -> tok w s = PFail.
  Proof using. intros H. destruct (tok w s) as [|e|x r] eqn:E; [reflexivity|now apply tok_noerr in E|now destruct (H x r)]. Qed.
  Lemma word_fail w s : wordy w = true -> (forall r, ~ word w s r) -> tok w s = PFail.
  Proof using OK. intros W H. apply tok_fail. intros x r E. apply tok_word in E as (_ & E); auto. now apply (H r). Qed.
  Lemma sym_fail w s : symy w = true -> (forall r, ~ sym w s r) -> tok w s = PFail.
  Proof using OK. intros W H. apply tok_fail. intros x r E. apply tok_sym in E as (_ & E); auto. now apply (H r). Qed.

  (** Only one word can be written at a place. *)
  Lemma word_unique w w' s r r' : wordy w = true -> wordy w' = true -> word w s r -> word w' s r' -> w = w' /\ r = r'.
  Proof using OK.
    intros W W' (S & N) (S' & N'). destruct (wordy_space w W) as (Ns & Nw), (wordy_space w' W') as (Ns' & Nw').
    apply (sym_skip w s r Ns Nw) in S. apply (sym_skip w' s r' Ns' Nw') in S'. rewrite S in S'.
    assert (AN : forall w, wordy w = true -> forallb isalnum w = true).
    { intros v V. unfold wordy in V. apply andb_true_iff in V as (A & L). apply forallb_forall. intros c I.
      unfold ascii in A. rewrite forallb_forall in A. rewrite alnum_ok by auto. unfold name_like in L. destruct v as [|c0 v]; [discriminate|].
      apply andb_true_iff in L as (L0 & L). destruct I as [<-|I]; [unfold ascii_alnum; now rewrite L0|]. rewrite forallb_forall in L. auto. }
    assert (S1 : span isalnum (w ++ r) = (w, r)) by (apply span_iff; auto).
    assert (S2 : span isalnum (w' ++ r') = (w', r')) by (apply span_iff; auto).
    rewrite S' in S1. rewrite S1 in S2. injection S2 as -> ->. auto.
  Qed.
  Lemma word_skip w s r : wordy w = true -> word w s r -> skip s = w ++ r.
  Proof using OK. intros W (S & _). destruct (wordy_space w W). now apply sym_skip. Qed.
  Lemma symy_skip w s r : symy w = true -> sym w s r <-> skip s = w ++ r.
  Proof using OK. intros W. destruct (symy_space w W). now apply sym_skip. Qed.
  Lemma sym_le w s r : sym w s r -> length w + length r <= length s.
  Proof using. clear. intros (b & _ & ->). rewrite !app_length. lia. Qed.

  Lemma pmap_ok {A B} (f : A -> B) (p : parser A) s b r : pmap f p s = POk b r <-> exists a, p s = POk a r /\ b = f a.
  Proof using.
    clear. unfold pmap, pbind, ret. destruct (p s) as [|e|a r']; split; try discriminate.
    - intros (a & [=] & _).
    - intros (a & [=] & _).
    - intros [= <- <-]. eauto.
    - intros (a' & [= <- <-] & ->). reflexivity.
  Qed.
  Lemma pmap_fail {A B} (f : A -> B) (p : parser A) s : pmap f p s = PFail <-> p s = PFail.
  Proof using. clear. unfold pmap, pbind, ret. destruct (p s); split; congruence. Qed.

  (** Choice between words. *)
  Notation words := (words isalpha isalnum isspace).
  Lemma words_sound {A} (l : list (pystr * A)) s a r : Forall (fun w => wordy (fst w) = true) l ->
    words l s = POk a r -> exists w, In (w, a) l /\ word w s r.
  Proof using OK.
    unfold CafText.words. induction 1 as [|(w, b) l W F IH]; cbn [map choice fold_right]; [discriminate|].
    cbn [fst snd] in *. unfold por. destruct (pmap (fun _ => b) (tok w) s) as [|e|x r'] eqn:P; intros H.
    - destruct (IH H) as (w' & I & Hw). exists w'. split; [now right|auto].
    - discriminate.
    - injection H as -> ->. apply pmap_ok in P as (x & P & ->). apply tok_word in P as (_ & P); auto. exists w. split; [now left|auto].
  Qed.
  Lemma words_complete {A} (l : list (pystr * A)) s w a r : Forall (fun w => wordy (fst w) = true) l -> NoDup (map fst l) ->
    In (w, a) l -> word w s r -> words l s = POk a r.
  Proof using OK.
    unfold CafText.words. induction 1 as [|(v, b) l V F IH]; intros ND I Hw; [destruct I|].
    cbn [map choice fold_right fst snd] in *. apply NoDup_cons_iff in ND as (Nv & ND). unfold por. destruct I as [[= -> ->]|I].
    - assert (P : pmap (fun _ => a) (tok w) s = POk a r) by (apply pmap_ok; exists w; split; [apply tok_word; auto|auto]). now rewrite P.
    - assert (P : pmap (fun _ => b) (tok v) s = PFail).
      { apply pmap_fail, word_fail; [auto|]. intros r' Hv.
        assert (W : wordy w = true) by (rewrite Forall_forall in F; apply (F _ I)).
        destruct (word_unique v w s r' r V W Hv Hw) as (-> & _). apply Nv. change w with (fst (w, a)). now apply in_map. }
      rewrite P. now apply IH.
  Qed.
  Lemma words_fail {A} (l : list (pystr * A)) s : Forall (fun w => wordy (fst w) = true) l ->
    (forall w a r, In (w, a) l -> ~ word w s r) -> words l s = PFail.
  Proof using OK.
    unfold CafText.words. induction 1 as [|(v, b) l V F IH]; intros H; [reflexivity|].
    cbn [map choice fold_right fst snd] in *. unfold por.
    assert (P : pmap (fun _ => b) (tok v) s = PFail).
    { apply pmap_fail, word_fail; [auto|]. intros r Hv. apply (H v b r); [now left|auto]. }
    rewrite P. apply IH. intros w a r I. apply (H w a r). now right.
  Qed.

  (** Runs of characters. *)
  Lemma pat1_run f s x r : (forall c, f c = true -> isspace c = false) ->
    lex isspace (pat1 f) s = POk x r <-> run f x s r.
  Proof using.
    clear. intros F. unfold lex, pat1, CafTextSpec.run. destruct (span f (skip s)) as [a b] eqn:S. pose proof S as S0. apply span_iff in S as (E & A & N). split.
    - destruct a as [|c a]; [discriminate|]. intros [= <- <-]. split; [|split; [discriminate|auto]].
      apply sym_skip; [|discriminate|auto]. rewrite starts_cons. cbn in A. apply andb_true_iff in A as (A & _). apply F in A. congruence.
    - intros (Sy & Nx & Fx & Nr). apply sym_skip in Sy; [| |auto].
      + assert (S2 : span f (skip s) = (x, r)) by (apply span_iff; auto). rewrite S2 in S0. injection S0 as <- <-. destruct x; [congruence|reflexivity].
      + destruct x as [|c x]; [congruence|]. rewrite starts_cons. cbn in Fx. apply andb_true_iff in Fx as (Fx & _). apply F in Fx. congruence.
  Qed.
  Lemma pat1_noerr f s e : lex isspace (pat1 f) s <> PErr e.
  Proof using. clear. unfold lex, pat1. destruct (span f (skip s)) as [[|] b]; discriminate. Qed.
  Lemma digit_space c : is_digit c = true -> isspace c = false.
  Proof using OK.
    unfold is_digit. rewrite andb_true_iff, !N.leb_le. intros H. rewrite space_ok by (apply N.ltb_lt; lia).
    unfold ascii_space, in_range. destruct (orb _ _) eqn:E; [|reflexivity]. rewrite orb_true_iff, !andb_true_iff, !N.leb_le in E. lia.
  Qed.
  Lemma pattern_space c : is_pattern_char c = true -> isspace c = false.
  Proof using OK.
    unfold is_pattern_char. rewrite !orb_true_iff. intros [[[H|H]|H]|H].
    - now apply digit_space.
    - unfold in_range in H. rewrite andb_true_iff, !N.leb_le in H. rewrite space_ok by (apply N.ltb_lt; lia).
      unfold ascii_space, in_range. destruct (orb _ _) eqn:E; [|reflexivity]. rewrite orb_true_iff, !andb_true_iff, !N.leb_le in E. lia.
    - unfold in_range in H. rewrite andb_true_iff, !N.leb_le in H. rewrite space_ok by (apply N.ltb_lt; lia).
      unfold ascii_space, in_range. destruct (orb _ _) eqn:E; [|reflexivity]. rewrite orb_true_iff, !andb_true_iff, !N.leb_le in E. lia.
    - apply existsb_exists in H as (d & I & E). apply N.eqb_eq in E. subst d.
      assert (K : forallb (fun c => (c <? 128)%N && negb (ascii_space c)) (u "_-.?*[]!/") = true) by (vm_compute; reflexivity).
      rewrite forallb_forall in K. specialize (K c I). apply andb_true_iff in K as (K1 & K2). rewrite space_ok by auto. now apply negb_true_iff in K2.
  Qed.
  Lemma lex_idem {A} (p : parser A) s : lex isspace p (skip s) = lex isspace p s.
  Proof using. clear. unfold lex. now rewrite skip_idem. Qed.
  Lemma tok_skip w s : tok w (skip s) = tok w s.
  Proof using. clear. unfold CafText.tok. now rewrite skip_idem. Qed.
End Facts.
