(** Facts about the options and the end of access-list lines. *)
From Coq Require Import Lia String.
From Verif.Model Require Import Base Ip Hosts Groups Iface Peg Ids AddrText Ports AclText.
From Verif.Spec Require Import AddrSpec RefSpec AddrTextSpec CafTextSpec CafMeanSpec AclTextSpec.
From Verif.Proofs Require Import DictFacts PegFacts AddrTextFacts CafTextFacts TokFacts CafMean LineFacts AclTextFacts.
From Verif.Props Require Import Refs AddrText.
Local Open Scope list_scope.

(** Folding options. *)
Lemma fold_options l : forall o, 
  let o' := fold_left add_option l o in
  ao_log o' = match last_log l with Some x => Some x | None => ao_log o end /\
  ao_time o' = match last_time l with Some x => Some x | None => ao_time o end /\
  (ao_inactive o' = true <-> ao_inactive o = true \/ In OInactive l).
Proof.
  induction l as [|x l IH]; intros o; cbn [fold_left last_log last_time].
  - cbn. tauto.
  - destruct (IH (add_option o x)) as (A & B & C). cbv zeta. rewrite A, B, C. clear. destruct x; cbn.
    + split; [destruct (last_log l); auto|]. split; [destruct (last_time l); auto|]. split; [tauto|]. intros [H|[[=]|H]]; tauto.
    + split; [destruct (last_log l); auto|]. split; [destruct (last_time l); auto|]. split; [tauto|]. intros [H|[[=]|H]]; tauto.
    + split; [destruct (last_log l); auto|]. split; [destruct (last_time l); auto|]. split; [|tauto]. intros [H|H]; tauto.
Qed.
Lemma options_fold l o : options_mean l o <-> o = fold_left add_option l no_opts.
Proof.
  destruct (fold_options l no_opts) as (A & B & C). cbv zeta in *. set (o' := fold_left add_option l no_opts) in *. unfold options_mean. split.
  - intros (X & Y & Z). destruct o as [a b c], o' as [a' b' c']. cbn [ao_log ao_time ao_inactive no_opts] in *.
    assert (c = c'). { apply Bool.eq_true_iff_eq. rewrite Z, C. split; [tauto|]. intros [[=]|H]; auto. }
    subst. f_equal; [destruct (last_log l); auto|destruct (last_time l); auto].
  - intros ->. cbn in A, B, C. split; [rewrite A; destruct (last_log l); auto|]. split; [rewrite B; destruct (last_time l); auto|].
    rewrite C. split; [intros [[=]|H]; auto|auto].
Qed.

Section Opts.
  Context (isalpha isalnum isspace : N -> bool) (OK : classes_ok isalpha isalnum isspace).
  Variables (E : env) (HE : env_ok E).
  Notation kw := (kw isalpha isalnum).
  Notation tokens := (tokens isalpha isalnum).
  Notation log_option := (log_option isalpha isalnum).
  Notation acl_option := (acl_option isalpha isalnum E).
  Notation acl_options := (acl_options isalpha isalnum E).
  Notation rule_end := (rule_end isalpha isalnum E).
  Notation option_text := (option_text E).
  Notation options_text := (options_text E).
  Notation tail_text := (tail_text E).
  Notation stop := (stop isalnum).

  Lemma blanks_app a b : blanks a -> blanks b -> blanks (a ++ b).
  Proof using. intros A B c I. apply in_app_iff in I as [I|I]; auto. Qed.
  Lemma gap_blanks g : gap g -> blanks g. Proof using. intros (_ & B). exact B. Qed.
  Lemma blanks_nil : blanks []. Proof using. intros c []. Qed.
  Lemma blanks_gap g : blanks g -> g = [] \/ gap g.
  Proof using. intros B. destruct g as [|c g]; [auto|right]. split; [discriminate|auto]. Qed.
  Hint Resolve blanks_nil gap_blanks : core.

  Definition all_log_words : list string :=
    ["debugging"; "disable"; "default"; "notifications"; "warnings"; "critical";
     "0"; "1"; "2"; "3"; "4"; "5"; "6"; "7"]%string.
  (** A text that ends in a digit, or is followed by something else than a letter or digit. *)
  Definition closes (t q : pystr) : Prop := ends_in_digit t \/ stop q.

  Lemma digits_end t n : n <> [] -> forallb AddrText.is_digit n = true -> ends_in_digit (t ++ n).
  Proof using.
    clear. intros N F. destruct (exists_last N) as (n' & c & ->). exists (t ++ n'), c. split; [now rewrite app_assoc|].
    rewrite forallb_app in F. cbn in F. rewrite !andb_true_iff in F. now apply is_digit_spec.
  Qed.
  Lemma ends_app t t' : ends_in_digit t' -> ends_in_digit (t ++ t').
  Proof using. intros (x & c & -> & D). exists (t ++ x), c. now rewrite app_assoc. Qed.

  Lemma log_option_sound s x r : log_option s = POk x r ->
    match x with
    | None => s = r
    | Some o => exists t, s = t ++ r /\ logopt_text o t /\ closes t r /\ t <> []
    end.
  Proof using OK.
    unfold AclText.log_option, choice. cbn [fold_right]. intros H.
    repeat (apply por_sound in H as [H|H]; [pinv H|]).
    - apply ret_ok in H as (<- & ->). apply tokens_sound in P as (I & -> & P). exists a. split; [auto|].
      assert (W : In a (map u all_log_words)) by (unfold log_words in I; unfold all_log_words; cbn [map In] in *; tauto).
      apply in_map_iff in W as (w & <- & W). split; [constructor; exists w; auto|]. unfold passes in P.
      assert (L : name_like isalpha isalnum (u w) = true).
      { destruct I as [<-|[<-|[<-|[<-|[<-|[<-|[]]]]]]]; (rewrite (name_like_ok _ _ _ OK); reflexivity). }
      rewrite L in P. split; [right; exact P|]. intros X. rewrite X in L. discriminate L.
    - apply ret_ok in H as (<- & ->). apply kw_sound in P as ->. apply ws_sound in P0 as (g & -> & G). apply int_iff in P1 as (-> & N & F & _).
      exists (u "interval" ++ g ++ a1). split; [now rewrite <- !app_assoc|]. split; [econstructor; eauto; apply decimal_text_spec; eauto|].
      split; [left; do 2 apply ends_app; now apply (digits_end [])|discriminate].
    - apply ret_ok in H as (<- & ->). apply tokens_sound in P as (I & -> & _). exists a. split; [auto|].
      assert (W : In a (map u all_log_words)) by (unfold log_levels in I; unfold all_log_words; cbn [map In] in *; tauto).
      apply in_map_iff in W as (w & <- & W). split; [constructor; exists w; auto|].
      assert (D : u w <> [] /\ forallb AddrText.is_digit (u w) = true).
      { clear W. destruct I as [<-|[<-|[<-|[<-|[<-|[<-|[<-|[<-|[]]]]]]]]]; split; try reflexivity; discriminate. }
      split; [left; now apply (digits_end [])|apply D].
    - apply ret_ok in H as (<- & ->). reflexivity.
    - discriminate H.
  Qed.
  Lemma keep_cons {A} (x : option A) l : keep (x :: l) = match x with Some a => a :: keep l | None => keep l end.
  Proof using. clear. destruct x; reflexivity. Qed.
  (** The options of "log": the gap that follows them is read with them. *)
  Lemma log_many_sound l : forall s r, chain (then_ ws log_option) l s r ->
    exists t g, s = t ++ g ++ r /\ logopts_text (keep l) t /\ blanks g /\ (g = [] -> t = [] \/ closes t r).
  Proof using OK.
    induction l as [|x l IH]; intros s r C; inversion C as [|? ? ? s1 ? P L C']; subst.
    - exists [], []. split; [auto|]. split; [constructor|]. auto.
    - unfold then_ in P. pinv P. apply ws_iff in P0 as (g & G & -> & Nb). apply log_option_sound in P. destruct x as [o|].
      + destruct P as (t & -> & T & Cl & Nt). destruct (IH _ _ C') as (t' & g' & -> & T' & B & Z).
        exists (g ++ t ++ t'), g'. split; [now rewrite <- !app_assoc|]. split; [rewrite keep_cons; now constructor|]. split; [auto|].
        intros E0. right. destruct (Z E0) as [-> |[Y|Y]].
        * subst g'. cbn [app] in Cl. rewrite app_nil_r. destruct Cl as [Cl|Cl]; [left; now apply ends_app|now right].
        * left. now do 2 apply ends_app.
        * now right.
      + subst s0. inversion C' as [|? ? ? s2 ? P' L' C2]; subst.
        * exists [], g. split; [auto|]. split; [constructor|]. split; [auto|]. intros ->. destruct G; congruence.
        * unfold then_ in P'. pinv P'. apply ws_iff in P as (g2 & G2 & -> & _). exfalso. apply Nb. now apply gap_nonblank.
  Qed.
  Lemma option_sound s x r : acl_option s = POk x r ->
    match x with
    | None => s = r
    | Some o => exists t g, s = t ++ g ++ r /\ option_text o t /\ blanks g /\
                  (g = [] -> ends_in_digit t /\ (exists l, o = OLog l) \/ stop r)
    end.
  Proof using OK HE.
    unfold AclText.acl_option, choice. cbn [fold_right]. intros H.
    repeat (apply por_sound in H as [H|H]; [pinv H|]).
    - apply ret_ok in H as (<- & ->). apply many_chain in P0. apply log_many_sound in P0 as (t & g & -> & T & B & Z).
      unfold AclText.kw in P. pinv P. apply ret_ok in P as (_ & ->). apply token_ok in P0 as (_ & -> & Pa).
      exists (u "log" ++ t), g. split; [now rewrite <- !app_assoc|]. split; [now constructor|]. split; [auto|].
      intros Eg. destruct (Z Eg) as [-> |[D|D]]; [|left; split; [now apply ends_app|eauto]|now right].
      right. subst g. cbn [app] in Pa. unfold passes in Pa.
      assert (L : name_like isalpha isalnum (u "log") = true) by (rewrite (name_like_ok _ _ _ OK); reflexivity).
      rewrite L in Pa. exact Pa.
    - apply ret_ok in H as (<- & ->). apply kw_sound in P as ->. apply ws_sound in P0 as (g & -> & G).
      apply C26_reference in P1; [|exact (white_alnum _ _ _ OK)|exact (time_white E HE)]. destruct P1 as (n & -> & S & D).
      exists (u "time-range" ++ g ++ n), []. split; [now rewrite <- !app_assoc|]. split; [now constructor|]. split; [auto|].
      intros _. right. now apply (sep_stop _ _ _ OK).
    - unfold AclText.kw in P. pinv P. apply ret_ok in P as (_ & ->). apply token_ok in P0 as (_ & -> & Pa). apply ret_ok in H as (<- & ->).
      exists (u "inactive"), []. split; [auto|]. split; [constructor|]. split; [auto|]. intros _. right. unfold passes in Pa.
      assert (L : name_like isalpha isalnum (u "inactive") = true) by (rewrite (name_like_ok _ _ _ OK); reflexivity).
      rewrite L in Pa. exact Pa.
    - apply ret_ok in H as (<- & ->). reflexivity.
    - discriminate H.
  Qed.
  Lemma option_start o t : option_text o t -> exists c t', t = c :: t' /\ isalnum c = true /\ is_blank c = false.
  Proof using OK.
    intros [l x T|g n x G D|].
    - exists 108%N, (u "og" ++ x). split; [reflexivity|]. rewrite (alnum_ok _ _ _ OK); auto.
    - exists 116%N, (u "ime-range" ++ g ++ n). split; [reflexivity|]. rewrite (alnum_ok _ _ _ OK); auto.
    - exists 105%N, (u "nactive"). split; [reflexivity|]. rewrite (alnum_ok _ _ _ OK); auto.
  Qed.
  Lemma options_start l t : options_text l t -> exists c t', t = c :: t' /\ isalnum c = true /\ is_blank c = false.
  Proof using OK.
    intros H. destruct H as [o t g O|o t g o' l t' O _ _]; apply option_start in O as (c & x & -> & A & B); cbn [app]; eauto.
  Qed.
  Notation iteration := (let% x := acl_option in let% _ := popt ws in ret x).
  Lemma options_chain_sound l : forall s r, ~ starts is_blank s -> chain iteration l s r ->
    l = [] /\ s = r \/ exists t, s = t ++ r /\ options_text (keep l) t /\ keep l <> [] /\ ~ starts is_blank r.
  Proof using OK HE.
    induction l as [|x l IH]; intros s r Nb C; inversion C as [|? ? ? s1 ? P L C']; subst; [now left|right].
    pinv P. apply ret_ok in P as (<- & ->). apply option_sound in P0.
    assert (Nb1 : exists g, blanks g /\ s0 = g ++ s1 /\ ~ starts is_blank s1 \/ s1 = s0 /\ ~ starts is_blank s1).
    { apply popt_ok in P1 as [(? & _ & W)|(_ & -> & W)].
      - apply ws_iff in W as (g & G & -> & N). exists g. left. auto.
      - exists []. left. split; [auto|]. split; [auto|]. intros B. destruct B as (c & q & -> & B).
        unfold ws, pbind, pat1 in W. cbn [span] in W. rewrite B in W. destruct (span is_blank q). discriminate W. }
    destruct a as [o|].
    - destruct P0 as (t & g & -> & T & B & Z). destruct Nb1 as (g1 & [(B1 & -> & N1)|(-> & N1)]).
      + destruct (IH _ _ N1 C') as [(-> & ->)|(t' & -> & T' & K & Nr)].
        * exists (t ++ g ++ g1). split; [now rewrite <- !app_assoc|]. split; [|split; [discriminate|auto]]. cbn. constructor; [auto|now apply blanks_app].
        * exists (t ++ (g ++ g1) ++ t'). split; [now rewrite <- !app_assoc|]. split; [|split; [discriminate|auto]].
          rewrite keep_cons. destruct (keep l) as [|o' l'] eqn:Kl; [congruence|]. constructor; [auto| |auto].
          destruct (blanks_gap (g ++ g1)) as [E0|G]; [now apply blanks_app| |now left].
          apply app_eq_nil in E0 as (-> & ->). right. split; [auto|]. destruct (Z eq_refl) as [(D & X)|St]; [auto|exfalso].
          apply options_start in T' as (c & x & -> & A & _). cbn in St. unfold LineFacts.stop in St. cbn in St. congruence.
      + destruct (IH _ _ N1 C') as [(-> & ->)|(t' & -> & T' & K & Nr)].
        * exists (t ++ g). split; [now rewrite <- !app_assoc|]. split; [|split; [discriminate|auto]]. cbn. now constructor.
        * exists (t ++ g ++ t'). split; [now rewrite <- !app_assoc|]. split; [|split; [discriminate|auto]].
          rewrite keep_cons. destruct (keep l) as [|o' l'] eqn:Kl; [congruence|]. constructor; [auto| |auto].
          destruct (blanks_gap g B) as [-> |G]; [|now left].
          right. split; [auto|]. destruct (Z eq_refl) as [(D & X)|St]; [auto|exfalso].
          apply options_start in T' as (c & x & -> & A & _). cbn in St. unfold LineFacts.stop in St. cbn in St. congruence.
    - subst s0. exfalso. destruct Nb1 as (g1 & [(B1 & -> & N1)|(-> & N1)]); [|lia].
      destruct g1 as [|c g1]; [cbn in L; lia|]. apply Nb. cbn. rewrite starts_cons. apply is_blank_spec, B1. now left.
  Qed.
  Lemma rule_end_sound s o r : rule_end s = POk o r -> exists t, s = t ++ r /\ tail_text o t.
  Proof using OK HE.
    unfold AclText.rule_end. intros H. pinv H. apply ret_ok in H as (<- & ->). apply nl_iff in P1 as (z & Z & ->).
    assert (W : exists g, blanks g /\ s0 = g ++ z ++ r).
    { apply popt_ok in P0 as [(? & _ & W)|(_ & W & _)]; [apply ws_sound in W as (g & -> & G); eauto|exists []; split; [auto|]]. cbn [app]. congruence. }
    destruct W as (g & B & ->). apply popt_ok in P as [(x & -> & Q)|(-> & <- & _)].
    - unfold then_ in Q. pinv Q. apply ws_iff in P as (g0 & G0 & -> & Nb). unfold AclText.acl_options in Q. pinv Q.
      apply ret_ok in Q as (<- & ->). apply many_chain in P. apply options_chain_sound in P; [|auto].
      destruct P as [(-> & ->)|(t & -> & T & _ & Nr)].
      + exists ((g0 ++ g) ++ z). split; [now rewrite <- !app_assoc|]. constructor; [apply (proj2 (options_fold _ _)); reflexivity|apply blanks_app; auto|auto].
      + assert (g = []) as ->.
        { destruct g as [|c g]; [auto|]. exfalso. apply Nr. cbn. rewrite starts_cons. apply is_blank_spec, B. now left. }
        exists (g0 ++ t ++ z). split; [now rewrite <- !app_assoc|]. eapply TT_opts; eauto. apply (proj2 (options_fold _ _)); reflexivity.
    - exists (g ++ z). split; [now rewrite <- !app_assoc|]. constructor; auto. apply (proj2 (options_fold _ _)); reflexivity.
  Qed.

  (** *** Reading options *)
  (** What follows the options of "log": the end of the line, or another option. *)
  Definition asa_words : list pystr := [] :: map u ["log"; "time-range"; "inactive"]%string.
  Lemma asa_tail n : In n asa_words -> In n tail_words.
  Proof using. intros [<-|[<-|[<-|[<-|[]]]]]; cbn; auto. Qed.
  Definition opt_next (q : pystr) : Prop :=
    exists n q', q = n ++ q' /\ sepw q' /\ In n asa_words /\ (n = [] -> sep_start q /\ ~ starts is_blank q).
  Lemma next_nodigit q : opt_next q -> ~ starts AddrText.is_digit q.
  Proof using. intros (n & q' & -> & S & [<-|[<-|[<-|[<-|[]]]]] & _); [now apply sepw_nodigit|now apply nostart..]. Qed.
  Lemma next_noblank q : opt_next q -> ~ starts is_blank q.
  Proof using. intros (n & q' & -> & S & [<-|[<-|[<-|[<-|[]]]]] & H); [now apply H|now apply nostart..]. Qed.
  Lemma next_no_log q : opt_next q -> log_option q = POk None q.
  Proof using.
    intros N. pose proof N as (n & q' & -> & S & I & _). unfold AclText.log_option. cbn [choice fold_right].
    assert (D : forall l, forallb freewb l = true -> forallb (fun w => match w with c :: _ => true | [] => false end) l = true -> forall w, In w l -> w <> []).
    { clear. intros l _ F w I. rewrite forallb_forall in F. specialize (F w I). destruct w; [discriminate|congruence]. }
    destruct I as [<-|I].
    - cbn [app] in *. destruct S as (c & r & -> & C).
      assert (X : forall l, forallb (fun w => match w with x :: _ => negb (existsb (N.eqb x) [32;9;13;10;47]%N) | [] => false end) l = true -> tokens l (c :: r) = PFail).
      { clear - C. intros l F. destruct (tokens l (c :: r)) as [|e|x q] eqn:T; [auto|now apply tokens_noerr in T|exfalso].
        apply tokens_sound in T as (I & T & _). rewrite forallb_forall in F. specialize (F x I). destruct x as [|d x]; [discriminate|].
        injection T as <- _. unfold cls, in_class in C. apply negb_true_iff in F. assert (K : existsb (N.eqb c) [32;9;13;10;47]%N = true); [|congruence].
        apply existsb_exists. exists c. split; [auto|apply N.eqb_refl]. }
      apply por_r; [apply pbind_fail, X; reflexivity|]. apply por_r.
      { apply pbind_fail. specialize (X [u "interval"] eq_refl). unfold AclText.tokens in X. cbn [map choice fold_right] in X.
        unfold AclText.kw. apply pbind_fail. unfold por in X. destruct (token isalpha isalnum (u "interval") (c :: r)) eqn:T; auto; discriminate. }
      apply por_r; [apply pbind_fail, X; reflexivity|]. apply por_l. reflexivity.
    - apply por_r. { apply pbind_fail, tokens_clash. destruct I as [<-|[<-|[<-|[]]]]; reflexivity. }
      apply por_r. { apply pbind_fail, kw_clash. destruct I as [<-|[<-|[<-|[]]]]; reflexivity. }
      apply por_r. { apply pbind_fail, tokens_clash. destruct I as [<-|[<-|[<-|[]]]]; reflexivity. }
      apply por_l. reflexivity.
  Qed.
  Lemma level_ok w r : In w log_levels -> tokens log_levels (w ++ r) = POk w r.
  Proof using OK.
    intros I. unfold AclText.tokens, log_levels in *.
    assert (K : forall l, forallb (fun w => match w with [c] => AddrText.is_digit c | _ => false end) l = true -> In w l -> choice (map (token isalpha isalnum) l) (w ++ r) = POk w r).
    { clear - OK. induction l as [|v l IH]; [intros _ []|]. cbn [forallb map choice fold_right]. rewrite andb_true_iff. intros (V & F) I.
      destruct v as [|c [|]]; try discriminate V.
      assert (L : name_like isalpha isalnum [c] = false).
      { cbn. rewrite andb_true_r, (alpha_ok _ _ _ OK).
        - unfold ascii_alpha, in_range. unfold AddrText.is_digit in V. rewrite andb_true_iff, !N.leb_le in V.
          destruct (_ || _) eqn:X; [|auto]. rewrite orb_true_iff, !andb_true_iff, !N.leb_le in X. lia.
        - unfold AddrText.is_digit in V. rewrite andb_true_iff, !N.leb_le in V. apply N.ltb_lt. lia. }
      destruct I as [<-|I].
      - apply por_l. apply token_ok. split; [auto|]. split; [auto|]. unfold passes. now rewrite L.
      - destruct w as [|d w']; [rewrite forallb_forall in F; specialize (F _ I); discriminate F|].
        assert (W' : w' = []) by (rewrite forallb_forall in F; specialize (F _ I); destruct w'; [auto|discriminate F]). subst w'.
        destruct (N.eq_dec d c) as [->|Nd]; [apply por_l; apply token_ok; split; [auto|]; split; [auto|]; unfold passes; now rewrite L|].
        apply por_r; [|now apply IH]. unfold token. cbn. destruct (N.eqb_spec c d); [congruence|reflexivity]. }
    apply K; [reflexivity|auto].
  Qed.
  Lemma logopt_start o t r : logopt_text o t -> ~ starts is_blank (t ++ r).
  Proof using.
    intros [w (v & V & ->)|g d x G D]; [|rewrite <- app_assoc; now apply nostart]. apply nostart.
    cbn in V. repeat (destruct V as [<-|V]; [reflexivity|]). destruct V.
  Qed.
  Lemma logopt_nonempty o t : logopt_text o t -> t <> [].
  Proof using.
    intros [w (v & V & ->)|g d x G D]; [|discriminate]. cbn in V. repeat (destruct V as [<-|V]; [discriminate|]). destruct V.
  Qed.
  (** [r]: what follows immediately, with the condition of [closes]. *)
  Lemma log_option_ok o t r : logopt_text o t -> ~ starts AddrText.is_digit r -> (sepw r \/ ends_in_digit t) -> log_option (t ++ r) = POk (Some o) r.
  Proof using OK.
    intros H N S. unfold AclText.log_option. cbn [choice fold_right]. destruct H as [w (v & V & ->)|g d x G D].
    - assert (W : In (u v) log_words \/ In (u v) log_levels).
      { cbn in V. repeat (destruct V as [<-|V]; [cbn; tauto|]). destruct V. }
      destruct W as [W|W].
      + apply por_l. eapply pbind_step; [|reflexivity]. apply (tokens_ok _ _ _ OK); auto. destruct S as [S|(t' & c & Et & Dc)]; [auto|exfalso].
        assert (K : forallb (fun w => negb (AddrText.is_digit (last w 0%N))) log_words = true) by reflexivity. rewrite forallb_forall in K.
        specialize (K _ W). rewrite Et, last_last in K. apply is_digit_spec in Dc. now rewrite Dc in K.
      + apply por_r. { apply pbind_fail, tokens_clash. unfold log_levels in W. cbn [map] in W.
          repeat (destruct W as [<-|W]; [reflexivity|]). destruct W. }
        apply por_r. { apply pbind_fail, kw_clash. unfold log_levels in W. cbn [map] in W. repeat (destruct W as [<-|W]; [reflexivity|]). destruct W. }
        apply por_l. eapply pbind_step; [now apply level_ok|reflexivity].
    - rewrite <- !app_assoc. apply decimal_text_spec in D as (Nd & Fd & _).
      apply por_r. { apply pbind_fail, tokens_clash. reflexivity. }
      apply por_l. apply (kwws_step _ _ _ OK); auto; [apply freew_noblank; auto using digits_freew|].
      eapply pbind_step; [apply int_iff; auto|reflexivity].
  Qed.
  Lemma gap_length g r : gap g -> (length r < length (g ++ r))%nat.
  Proof using. intros (N & _). rewrite app_length. destruct g; [congruence|cbn; lia]. Qed.
  (** The options of "log" and the gap after them. *)
  Lemma log_many_ok l t : logopts_text l t -> forall g q, blanks g -> opt_next q -> (g = [] -> t = [] \/ sep_start q \/ ends_in_digit t) ->
    exists l', many (then_ ws log_option) (t ++ g ++ q) = POk l' q /\ keep l' = l.
  Proof using OK.
    induction 1 as [|g0 o t l t' G0 O T IH]; intros g q B Q Z.
    - cbn [app]. destruct (blanks_gap g B) as [-> |G].
      + exists []. split; [|auto]. cbn [app]. apply many_stop, then_ws_fail. now apply next_noblank.
      + exists [None]. split; [|auto]. eapply many_step; [apply then_ws_step; [auto|now apply next_noblank|now apply next_no_log]|now apply gap_length|].
        apply many_stop, then_ws_fail. now apply next_noblank.
    - rewrite <- !app_assoc.
      assert (F : sepw (t' ++ g ++ q) \/ ends_in_digit t /\ ~ starts AddrText.is_digit (t' ++ g ++ q)).
      { destruct T as [|g1 o1 t1 l1 t2 G1 O1 T1]; [|left; rewrite <- !app_assoc; now apply gap_sepw]. cbn [app].
        destruct (blanks_gap g B) as [-> |G]; [|left; now apply gap_sepw]. cbn [app]. rewrite app_nil_r in Z. destruct (Z eq_refl) as [X|[X|X]].
        - exfalso. apply app_eq_nil in X as (-> & _). destruct G0; congruence.
        - left. now apply sep_sepw.
        - right. split; [|now apply next_nodigit].
          destruct X as (x & c & X & D). pose proof (logopt_nonempty _ _ O) as Nt.
          destruct (exists_last Nt) as (t0 & d & ->). rewrite app_assoc in X. apply app_inj_tail in X as (_ & ->). exists t0, c. auto. }
      assert (O' : log_option (t ++ t' ++ g ++ q) = POk (Some o) (t' ++ g ++ q)).
      { apply log_option_ok; auto; [|tauto]. destruct F as [F|(_ & F)]; [now apply sepw_nodigit|auto]. }
      destruct (IH g q B Q) as (l' & M & K).
      { intros E0. destruct (Z E0) as [X|[X|X]]; [|auto|].
        - exfalso. apply app_eq_nil in X as (-> & _). destruct G0; congruence.
        - destruct T as [|g1 o1 t1 l1 t2 G1 O1 T1]; [now left|]. right. right. destruct X as (x & c & X & D).
          assert (Nn : g1 ++ t1 ++ t2 <> []) by (destruct G1 as (G1 & _); destruct g1; [congruence|discriminate]).
          destruct (exists_last Nn) as (x' & d & X'). rewrite X' in *. rewrite !app_assoc in X. apply app_inj_tail in X as (_ & ->). exists x', c. auto. }
      exists (Some o :: l'). split; [|rewrite keep_cons; now f_equal].
      eapply many_step; [apply then_ws_step; [auto|eapply logopt_start; eauto|exact O']| |exact M].
      rewrite !app_length. destruct G0 as (G0 & _). destruct g0; [congruence|cbn; lia].
  Qed.
  Lemma iteration_ok o t g q : option_text o t -> blanks g -> opt_next q ->
    (g = [] -> sep_start q \/ ends_in_digit t /\ exists l, o = OLog l) -> iteration (t ++ g ++ q) = POk (Some o) q.
  Proof using OK HE.
    intros O B Q Z. assert (Nq : ~ starts is_blank q) by now apply next_noblank.
    assert (Step : forall o', acl_option (t ++ g ++ q) = POk (Some o') (g ++ q) \/ acl_option (t ++ g ++ q) = POk (Some o') q ->
              iteration (t ++ g ++ q) = POk (Some o') q).
    { intros o' [H|H]; (eapply pbind_step; [exact H|]).
      - destruct (blanks_gap g B) as [-> |G].
        + eapply pbind_step; [apply popt_none, ws_fail; exact Nq|reflexivity].
        + eapply pbind_step; [apply popt_some, ws_gap; auto|reflexivity].
      - eapply pbind_step; [apply popt_none, ws_fail; exact Nq|reflexivity]. }
    apply Step. clear Step. unfold AclText.acl_option. cbn [choice fold_right]. destruct O as [l x T|g1 n x G1 D|].
    - right. rewrite <- app_assoc. apply por_l. destruct (log_many_ok l x T g q B Q) as (l' & M & K).
      { intros E0. destruct (Z E0) as [S|((y & c & Y & D) & _)]; [auto|]. destruct x as [|d x]; [now left|]. right. right.
        assert (Nx : d :: x <> []) by discriminate. destruct (exists_last Nx) as (x' & e & X). rewrite X in *. rewrite app_assoc in Y.
        apply app_inj_tail in Y as (_ & ->). exists x', c. auto. }
      eapply pbind_step; [apply kw_ok|eapply pbind_step; [exact M|rewrite K; reflexivity]].
      destruct T as [|g0 o0 t0 l0 t0' G0 O0 T0]; [|rewrite <- !app_assoc; now apply (gap_stop _ _ _ OK)]. cbn [app].
      destruct (blanks_gap g B) as [-> |G]; [|now apply (gap_stop _ _ _ OK)]. destruct (Z eq_refl) as [S|((y & c & Y & D) & _)].
      + now apply (sep_stop _ _ _ OK).
      + exfalso. rewrite app_nil_r in Y. apply (f_equal (fun l => last l 0%N)) in Y. rewrite last_last in Y. cbn in Y. unfold digit in D. lia.
    - left. rewrite <- !app_assoc. apply por_r. { apply pbind_fail, kw_clash. reflexivity. }
      apply por_l. apply (kwws_step _ _ _ OK); auto.
      { pose proof (time_nonempty E HE _ _ D) as Nn. apply mem_get in D. pose proof (time_white E HE n D) as W. destruct n as [|c n]; [congruence|].
        apply nostart. destruct (is_blank c) eqn:Bc; [|auto]. exfalso. apply is_blank_spec in Bc. apply (W c); [now left|].
        unfold white, in_class. cbn. destruct Bc; subst; auto. }
      eapply pbind_step; [apply (ref_ok _ _ _ OK); eauto using time_white|reflexivity].
      destruct (blanks_gap g B) as [-> |G]; [|now apply gap_sep]. destruct (Z eq_refl) as [S|(_ & l & [=])]. auto.
    - left. apply por_r. { apply pbind_fail, kw_clash. reflexivity. }
      apply por_r. { apply pbind_fail, kw_clash. reflexivity. }
      apply por_l. eapply pbind_step; [apply kw_ok|reflexivity].
      destruct (blanks_gap g B) as [-> |G]; [|now apply (gap_stop _ _ _ OK)]. destruct (Z eq_refl) as [S|(_ & l & [=])]. now apply (sep_stop _ _ _ OK).
  Qed.
  Lemma eol_next z r : eol_text z -> opt_next (z ++ r).
  Proof using.
    intros Z. exists [], (z ++ r). split; [auto|]. pose proof (eol_sep z r Z) as S. split; [now apply sep_sepw|]. split; [now left|].
    intros _. split; [auto|now apply eol_noblank].
  Qed.
  Lemma logopts_sep l t r : logopts_text l t -> sepw r -> sepw (t ++ r).
  Proof using. intros [|g o t0 l0 t' G O T] S; [auto|]. rewrite <- app_assoc. now apply gap_sepw. Qed.
  Lemma options_next l t : options_text l t -> forall z r, eol_text z -> opt_next (t ++ z ++ r).
  Proof using.
    intros H0. assert (K : forall o t q, option_text o t -> (sepw q \/ (ends_in_digit t /\ exists l, o = OLog l)) -> opt_next (t ++ q)).
    { clear. intros o t q [l x T|g n x G D|] S.
      - exists (u "log"), (x ++ q). rewrite <- app_assoc. split; [auto|]. split; [|split; [right; now left|discriminate]].
        destruct S as [S|((y & c & Y & D) & _)]; [now eapply logopts_sep; eauto|]. destruct T as [|g o2 t0 l0 t' G O T]; [|rewrite <- app_assoc; now apply gap_sepw].
        exfalso. rewrite app_nil_r in Y. apply (f_equal (fun l => last l 0%N)) in Y. rewrite last_last in Y. cbn in Y. unfold digit in D. lia.
      - exists (u "time-range"), ((g ++ n) ++ q). rewrite <- !app_assoc. split; [auto|]. split; [now apply gap_sepw|split; [right; right; now left|discriminate]].
      - exists (u "inactive"), q. split; [auto|]. split; [|split; [right; right; right; now left|discriminate]]. destruct S as [S|(_ & l & [=])]. auto. }
    intros z r Z. destruct H0 as [o t g O B|o t g o' l t' O G T].
    - rewrite <- app_assoc. eapply K; eauto. left. apply sep_sepw, blank_ends; auto. now apply eol_sep.
    - rewrite <- !app_assoc. eapply K; eauto. destruct G as [G|(-> & D & X)]; [left; now apply gap_sepw|right; auto].
  Qed.
  Lemma options_stop s : acl_option s = POk None s -> ~ starts is_blank s -> many iteration s = POk [] s.
  Proof using.
    intros A N. rewrite many_unfold. assert (I : iteration s = POk None s).
    { eapply pbind_step; [exact A|]. eapply pbind_step; [apply popt_none, ws_fail; exact N|reflexivity]. }
    rewrite I, Nat.ltb_irrefl. reflexivity.
  Qed.
  Lemma options_ok l t : options_text l t -> forall z r, eol_text z -> exists l', many iteration (t ++ z ++ r) = POk l' (z ++ r) /\ keep l' = l.
  Proof using OK HE.
    assert (Stop : forall z r, eol_text z -> many iteration (z ++ r) = POk [] (z ++ r)).
    { intros z r Z. rewrite many_unfold. assert (I : iteration (z ++ r) = POk None (z ++ r)).
      { assert (A : acl_option (z ++ r) = POk None (z ++ r)).
        { unfold AclText.acl_option. cbn [choice fold_right]. do 3 (apply por_r; [apply pbind_fail, kw_clash; destruct Z as [-> | ->]; reflexivity|]).
          apply por_l. reflexivity. }
        eapply pbind_step; [exact A|]. eapply pbind_step; [apply popt_none, ws_fail; now apply eol_noblank|reflexivity]. }
      rewrite I, Nat.ltb_irrefl. reflexivity. }
    induction 1 as [o t g O B|o t g o' l t' O G T IH]; intros z r Z.
    - exists [Some o]. split; [|auto]. rewrite <- app_assoc. eapply many_step; [apply iteration_ok; auto using eol_next|rewrite !app_length|now apply Stop].
      + intros _. left. now apply eol_sep.
      + apply option_start in O as (c & x & -> & _). cbn. lia.
    - destruct (IH z r Z) as (l' & M & K). exists (Some o :: l'). split; [|rewrite keep_cons; now f_equal]. rewrite <- !app_assoc.
      eapply many_step; [apply iteration_ok; auto| |exact M].
      + destruct G as [G|(-> & _)]; auto.
      + eapply options_next; eauto.
      + intros ->. destruct G as [(G & _)|(_ & D & X)]; [congruence|right; auto].
      + apply option_start in O as (c & x & -> & _). cbn. rewrite !app_length. lia.
  Qed.
  Lemma rule_end_ok o t r : tail_text o t -> rule_end (t ++ r) = POk o r.
  Proof using OK HE.
    intros [o' g z M B Z|o' l g t' z M G T Z]; unfold AclText.rule_end; rewrite <- !app_assoc.
    - assert (NL : nl (z ++ r) = POk tt r) by (apply nl_iff; eauto).
      assert (W : ws (z ++ r) = PFail) by (apply ws_fail; now apply eol_noblank).
      apply options_fold in M. cbn in M. subst o'. destruct (blanks_gap g B) as [-> |G].
      + cbn [app]. eapply pbind_step; [apply popt_none; now apply then_ws_fail, eol_noblank|].
        eapply pbind_step; [apply popt_none; exact W|]. eapply pbind_step; [exact NL|reflexivity].
      + assert (A : acl_options (z ++ r) = POk no_opts (z ++ r)).
        { unfold AclText.acl_options. apply (pbind_step _ _ _ [] (z ++ r)); [|reflexivity]. 
          assert (A : acl_option (z ++ r) = POk None (z ++ r)).
          { unfold AclText.acl_option. cbn [choice fold_right]. do 3 (apply por_r; [apply pbind_fail, kw_clash; destruct Z as [-> | ->]; reflexivity|]).
            apply por_l. reflexivity. }
          apply options_stop; [exact A|now apply eol_noblank]. }
        eapply pbind_step; [apply popt_some, then_ws_step; [auto|now apply eol_noblank|exact A]|].
        eapply pbind_step; [apply popt_none; exact W|]. eapply pbind_step; [exact NL|reflexivity].
    - assert (NL : nl (z ++ r) = POk tt r) by (apply nl_iff; eauto).
      assert (W : ws (z ++ r) = PFail) by (apply ws_fail; now apply eol_noblank).
      destruct (options_ok l t' T z r Z) as (l' & Ml & K). apply options_fold in M. subst o'.
      eapply pbind_step; [apply popt_some, then_ws_step; [auto| |unfold AclText.acl_options; eapply pbind_step; [exact Ml|rewrite K; reflexivity]]|].
      { eapply next_noblank, options_next; eauto. }
      eapply pbind_step; [apply popt_none; exact W|]. eapply pbind_step; [exact NL|reflexivity].
  Qed.
  Lemma tail_starts o t r : tail_text o t -> tail_start (t ++ r).
  Proof using OK.
    intros [o' g z M B Z|o' l g t' z M G T Z]; rewrite <- !app_assoc.
    - split; [apply blank_ends; auto; now apply eol_sep|]. intros S. destruct (blanks_gap g B) as [-> |G]; [exfalso; exact (eol_noblank z r Z S)|].
      exists g, [], (z ++ r). split; [auto|]. split; [auto|]. split; [apply sep_sepw, eol_sep; auto|]. split; [now left|cbn [app]; now apply eol_noblank].
    - split; [now apply gap_sep|]. intros _. pose proof (options_next _ _ T z r Z) as N. pose proof (next_noblank _ N) as Nb.
      destruct N as (n & q & Eq & S & I & _). exists g, n, q. rewrite Eq in *. auto 10 using asa_tail.
  Qed.
  (** A line does not end in a port. *)
  Lemma rule_end_port g p t r : gap g -> port_text E p t -> rule_end (g ++ t ++ r) = PFail.
  Proof using.
    intros G P. unfold AclText.rule_end.
    assert (A : acl_options (t ++ r) = POk no_opts (t ++ r)).
    { unfold AclText.acl_options. apply (pbind_step _ _ _ [] (t ++ r)); [|reflexivity].
      assert (A : acl_option (t ++ r) = POk None (t ++ r)).
      { unfold AclText.acl_option. cbn [choice fold_right].
        destruct P as [g1 n x G1 D|w g1 p W G1 N|g1 a g' b G1 G' A B R]; rewrite <- !app_assoc.
        - do 3 (apply por_r; [apply pbind_fail, kw_clash; reflexivity|]). apply por_l. reflexivity.
        - destruct W as (v & V & ->). do 3 (apply por_r; [apply pbind_fail, kw_clash; cbn in V; destruct V as [<-|[<-|[<-|[<-|[]]]]]; reflexivity|]). apply por_l. reflexivity.
        - do 3 (apply por_r; [apply pbind_fail, kw_clash; reflexivity|]). apply por_l. reflexivity. }
      apply options_stop; [exact A|eapply port_start; eauto]. }
    eapply pbind_step; [apply popt_some, then_ws_step; [auto|eapply port_start; eauto|exact A]|].
    eapply pbind_step; [apply popt_none, ws_fail; eapply port_start; eauto|]. apply pbind_fail, nl_fail.
    destruct P as [g1 n x G1 D|w g1 p W G1 N|g1 a g' b G1 G' A' B R]; rewrite <- !app_assoc.
    - intros (r' & [X|[X|[X|X]]]); discriminate X.
    - destruct W as (v & V & ->). cbn in V; destruct V as [<-|[<-|[<-|[<-|[]]]]]; intros (r' & [X|[X|[X|X]]]); discriminate X.
    - intros (r' & [X|[X|[X|X]]]); discriminate X.
  Qed.
End Opts.
