From Coq Require Import Lia String.
From Verif.Model Require Import Base Ip Hosts Groups Rules Caf Peg AddrText CafText.
From Verif.Spec Require Import AddrSpec FilterSpec CafSpec AddrTextSpec CafTextSpec.
From Verif.Proofs Require Import PegFacts AddrTextFacts Addr6Facts CafTextFacts TokFacts.
Local Open Scope list_scope.

Ltac plia := unfold pystr in *; lia.

Section Parse.
  Context (isalpha isalnum isspace : N -> bool) (OK : classes_ok isalpha isalnum isspace).
  Notation skip := (skip isspace).
  Notation blank := (blank isspace).
  Notation sym := (sym isspace).
  Notation word := (word isalnum isspace).
  Notation run := (run isspace).
  Notation tok := (tok isalpha isalnum isspace).
  Notation words := (words isalpha isalnum isspace).
  Notation comment := (comment isspace).
  Notation comments := (comments isspace).
  Notation p_comment := (p_comment isalpha isalnum isspace).
  Notation p_comments := (p_comments isalpha isalnum isspace).
  Notation p_op := (p_op isalpha isalnum isspace).
  Notation p_dir := (p_dir isalpha isalnum isspace).
  Notation p_int := (p_int isspace).
  Notation p_pattern := (p_pattern isspace).
  Notation p_network := (p_network isalpha isalnum isspace).
  Notation p_net := (p_net isalpha isalnum isspace).
  Notation p_set_ip := (p_set_ip isalpha isalnum isspace).
  Notation p_set_id := (p_set_id isalpha isalnum isspace).
  Notation net_text := (net_text isalnum isspace).
  Notation nets_text := (nets_text isalnum isspace).
  Notation addr_text := (addr_text isspace).
  Notation mask_text := (mask_text isspace).
  Notation id_text := (id_text isalnum isspace).
  Notation expr_text := (expr_text isalnum isspace).
  Notation ops_text := (ops_text isalnum isspace).
  Notation set_text := (set_text isalnum isspace).
  Notation objs_text := (objs_text isalnum isspace).

  Lemma sym_eq w s s' r : symy w = true -> skip s = skip s' -> sym w s r -> sym w s' r.
  Proof. intros W E H. apply (symy_skip _ _ _ OK w) in H; auto. apply (symy_skip _ _ _ OK w); congruence. Qed.
  Lemma word_eq w s s' r : wordy w = true -> skip s = skip s' -> word w s r -> word w s' r.
  Proof.
    intros W E (H & N). split; [|auto]. destruct (wordy_space _ _ _ OK w W) as (Ns & Nw).
    apply (sym_skip _ w s r Ns Nw) in H. apply (sym_skip _ w s' r Ns Nw). congruence.
  Qed.
  Lemma run_eq f x s s' r : (forall c, f c = true -> isspace c = false) -> skip s = skip s' -> run f x s r -> run f x s' r.
  Proof.
    intros F E H. apply (pat1_run isspace f) in H; auto. apply (pat1_run isspace f); auto. unfold lex in *. congruence.
  Qed.

  (** *** Comments *)
  Lemma comment_body_sound : forall n s, length s <= n -> exists b, comment_inner b /\ s = b ++ comment_body s /\
    (comment_body s = [] \/ exists t, comment_body s = 42%N :: t /\ (t = [] \/ exists t', t = 47%N :: t')).
  Proof using.
    clear. induction n as [|n IH]; intros s L.
    - destruct s; [|cbn in L; lia]. exists []. split; [constructor|]. split; [reflexivity|now left].
    - destruct s as [|c s]; [exists []; split; [constructor|]; split; [reflexivity|now left]|].
      cbn [comment_body]. destruct (N.eqb_spec c 42) as [->|Nc].
      + destruct s as [|d s]; [exists []; split; [constructor|]; split; [reflexivity|]; right; exists []; auto|].
        destruct (N.eqb_spec d 47) as [->|Nd].
        * exists []. split; [constructor|]. split; [reflexivity|]. right. exists (47%N :: s). eauto.
        * destruct (IH s ltac:(cbn in L; lia)) as (b & B & E & T). exists (42%N :: d :: b). split; [now constructor|]. split; [cbn; congruence|auto].
      + destruct (IH s ltac:(cbn in L; lia)) as (b & B & E & T). exists (c :: b). split; [now constructor|]. split; [cbn; congruence|auto].
  Qed.
  Lemma comment_body_complete b r : comment_inner b -> comment_body (b ++ 42%N :: 47%N :: r) = 42%N :: 47%N :: r.
  Proof using.
    clear. induction 1 as [|c b Nc C IH|c b Nc C IH]; cbn [app comment_body].
    - rewrite !N.eqb_refl. reflexivity.
    - destruct (N.eqb_spec c 42); [congruence|auto].
    - rewrite N.eqb_refl. destruct (N.eqb_spec c 47); [congruence|auto].
  Qed.
  Lemma star_space : isspace 42 = false.
  Proof. rewrite (space_ok _ _ _ OK) by reflexivity. reflexivity. Qed.
  Lemma p_comment_spec s x r : p_comment s = POk x r <-> comment s r.
  Proof.
    destruct x. unfold CafText.p_comment, lex, pbind, ret, CafTextSpec.comment. rewrite (tok_skip isalpha isalnum isspace). split.
    - destruct (tok (u "/*") s) as [|e|x s1] eqn:T1; try discriminate. apply (tok_sym _ _ _ OK) in T1 as (_ & T1); [|reflexivity].
      destruct (tok (u "*/") (comment_body s1)) as [|e|y s2] eqn:T2; try discriminate. intros [= <-].
      apply (tok_sym _ _ _ OK) in T2 as (_ & T2); [|reflexivity].
      destruct (comment_body_sound (length s1) s1 (le_n _)) as (b & B & E & T). exists b. split; [auto|].
      apply (symy_skip _ _ _ OK (u "*/")) in T2; [|reflexivity].
      assert (K : comment_body s1 = skip (comment_body s1)).
      { destruct T as [-> | (t & -> & _)]; [reflexivity|]. cbn [CafText.skip]. now rewrite star_space. }
      rewrite T2 in K. rewrite K in E. rewrite <- E. exact T1.
    - intros (b & B & T1). assert (K : tok (u "/*") s = POk (u "/*") (b ++ u "*/" ++ r)) by (apply (tok_sym _ _ _ OK); auto).
      rewrite K. change (u "*/" ++ r) with (42%N :: 47%N :: r). rewrite comment_body_complete by auto.
      assert (K2 : tok (u "*/") (42%N :: 47%N :: r) = POk (u "*/") r).
      { apply (tok_sym _ _ _ OK); [reflexivity|]. split; [reflexivity|]. exists []. split; reflexivity. }
      now rewrite K2.
  Qed.
  Lemma p_comment_noerr s e : p_comment s <> PErr e.
  Proof using.
    clear. unfold CafText.p_comment, lex, pbind, ret. pose proof (fun w s e => tok_noerr isalpha isalnum isspace w s e) as N.
    destruct (tok (u "/*") (skip s)) eqn:E; try discriminate; [now apply N in E|].
    destruct (tok (u "*/") (comment_body rest)) eqn:E2; try discriminate. now apply N in E2.
  Qed.
  Lemma comment_lt s r : comment s r -> length r < length s.
  Proof using. clear. intros (b & _ & S). apply sym_le in S. rewrite !app_length in S. cbn in S. plia. Qed.
  Lemma comment_skip s r : comment s r -> exists t, skip s = 47%N :: 42%N :: t.
  Proof. intros (b & _ & S). apply (symy_skip _ _ _ OK (u "/*")) in S; [|reflexivity]. eexists. exact S. Qed.
  Lemma comment_eq s s' r : skip s = skip s' -> comment s r -> comment s' r.
  Proof. intros E (b & B & S). exists b. split; [auto|]. apply (sym_eq (u "/*") s s'); auto. Qed.
  Lemma comments_app s s1 s2 : comments s s1 -> comments s1 s2 -> comments s s2.
  Proof using. clear. induction 1; [auto|]. intros H1. econstructor; eauto. Qed.
  Lemma comments_le s r : comments s r -> length r <= length s.
  Proof using. clear. induction 1 as [|s s1 r C _ IH]; [lia|]. apply comment_lt in C. plia. Qed.
  Lemma comments_eq s s' r : skip s = skip s' -> comments s r -> exists r', comments s' r' /\ skip r' = skip r.
  Proof.
    intros E H. destruct H as [s|s s1 r C H]; [exists s'; split; [constructor|auto]|].
    exists r. split; [|auto]. econstructor; [eapply comment_eq; eauto|auto].
  Qed.
  (** The maximal run of comments. *)
  Lemma many_comment s : exists l r, many p_comment s = POk l r /\ comments s r /\ p_comment r = PFail /\ (l = [] -> r = s).
  Proof.
    remember (length s) as n eqn:E. assert (L : length s <= n) by plia. clear E. revert s L. induction n as [|n IH]; intros s L.
    - rewrite many_unfold. destruct (p_comment s) as [|e|x r] eqn:P.
      + exists [], s. repeat split; auto. constructor.
      + now apply p_comment_noerr in P.
      + apply p_comment_spec, comment_lt in P. plia.
    - rewrite many_unfold. destruct (p_comment s) as [|e|x r] eqn:P.
      + exists [], s. repeat split; auto. constructor.
      + now apply p_comment_noerr in P.
      + pose proof P as C. apply p_comment_spec in C. pose proof (comment_lt _ _ C) as Lt.
        destruct (IH r ltac:(plia)) as (l & r' & M & Cs & F & _). apply Nat.ltb_lt in Lt. unfold pystr in *. rewrite Lt, M.
        exists (x :: l), r'. repeat split; auto; [econstructor; eauto|discriminate].
  Qed.
  Lemma comment_unique s r r' : comment s r -> comment s r' -> r = r'.
  Proof. intros A B. apply (p_comment_spec s tt) in A. apply (p_comment_spec s tt) in B. congruence. Qed.
  Lemma comments_max s r r' : comments s r -> comments s r' -> p_comment r' = PFail -> comments r r'.
  Proof.
    intros C. revert r'. induction C as [|s s1 r C Cs IH]; intros r' C' F; [auto|].
    apply IH; auto. destruct C' as [s|s s2 r' C2 C']; [|now rewrite (comment_unique _ _ _ C C2)].
    apply (p_comment_spec s tt) in C. congruence.
  Qed.
  (** [[p_comments]] *)
  Lemma popt_comments s : exists o r, popt p_comments s = POk o r /\
    exists r0, comments s r0 /\ skip r0 = skip r /\ (r0 = r \/ r0 = s /\ r = s) /\ p_comment r = PFail.
  Proof.
    unfold popt, CafText.p_comments, lex, many1, pmap, pbind, ret, fail.
    destruct (many_comment (skip s)) as (l & r & M & C & F & N). rewrite M. destruct l as [|x l].
    - rewrite (N eq_refl) in *. exists None, s. split; [reflexivity|]. exists s. repeat split; auto; [constructor|].
      unfold CafText.p_comment in *. now rewrite (lex_idem isspace) in F.
    - exists (Some tt), r. split; [reflexivity|]. exists r. repeat split; auto.
      assert (K : forall s0, skip s0 = skip s -> many p_comment s0 = POk (x :: l) r -> comments s0 r -> comments s r).
      { intros s0 E M0 C0. destruct C0 as [s0|s0 s1 r C0 Cs].
        - destruct (many_inv _ _ _ _ M0) as (s1 & _ & L & M1). apply many_chain in M1.
          exfalso. clear -M1 L. assert (K : length s0 <= length s1); [|plia]. induction M1; plia.
        - econstructor; [|exact Cs]. eapply comment_eq; [|exact C0]. auto. }
      apply (K (skip s)); auto. apply skip_idem.
  Qed.
  Lemma p_comments_ok s r : p_comments s = POk tt r <-> comments s r /\ p_comment r = PFail /\ p_comment s <> PFail.
  Proof.
    unfold CafText.p_comments, lex, many1, pmap, pbind, ret, fail.
    destruct (many_comment (skip s)) as (l & r0 & M & C & F & N). rewrite M.
    assert (E : p_comment (skip s) = p_comment s) by (unfold CafText.p_comment; apply lex_idem).
    destruct l as [|x l].
    - rewrite (N eq_refl) in *. split; [discriminate|]. intros (_ & _ & H). congruence.
    - destruct (many_inv _ _ _ _ M) as (s1 & P & L & M1). rewrite E in P. split.
      + intros [= <-]. split; [|split; [auto|congruence]]. apply many_chain in M1.
        assert (C1 : comments s1 r0).
        { clear -M1 OK. induction M1; [constructor|]. econstructor; [eapply p_comment_spec; eauto|auto]. }
        econstructor; [eapply p_comment_spec; eauto|auto].
      + intros (Cs & F' & _). f_equal. destruct Cs as [s|s s1' r C' Cs]; [congruence|].
        apply (p_comment_spec s tt) in C'. assert (s1' = s1) by (destruct x; congruence). subst s1'.
        apply many_chain in M1.
        assert (C1 : comments s1 r0).
        { clear -M1 OK. induction M1; [constructor|]. econstructor; [eapply p_comment_spec; eauto|auto]. }
        pose proof (comments_max _ _ _ C1 Cs F') as K. destruct K as [|a b c K _]; [auto|]. apply (p_comment_spec _ tt) in K. congruence.
  Qed.
  Lemma p_comments_fail s : p_comment s = PFail -> p_comments s = PFail.
  Proof.
    intros H. destruct (p_comments s) as [|e|[] r] eqn:E; [reflexivity| |apply p_comments_ok in E as (_ & _ & E); congruence].
    exfalso. revert E. unfold CafText.p_comments, lex, many1, pmap, pbind, ret, fail.
    destruct (many_comment (skip s)) as (l & r0 & M & _). rewrite M. destruct l; discriminate.
  Qed.
  Lemma p_comments_noerr s e : p_comments s <> PErr e.
  Proof.
    unfold CafText.p_comments, lex, many1, pmap, pbind, ret, fail.
    destruct (many_comment (skip s)) as (l & r0 & M & _). rewrite M. destruct l; discriminate.
  Qed.

  (** *** Words *)
  Lemma p_op_spec s o r : p_op s = POk o r <-> word (op_text o) s r.
  Proof.
    unfold CafText.p_op. unfold lex. split.
    - intros H. apply (words_sound _ _ _ OK) in H as (w & I & W); [|repeat constructor].
      assert (E : w = op_text o) by (destruct I as [[= <- <-]|[[= <- <-]|[[= <- <-]|[]]]]; reflexivity). subst w.
      apply (word_eq _ (skip s)); [destruct o; reflexivity|apply skip_idem|auto].
    - intros W. apply (words_complete _ _ _ OK _ _ (op_text o)); [repeat constructor| | |].
      + cbn [map fst]. apply NoDup_cons; [intros [H|[H|[]]]; discriminate|]. apply NoDup_cons; [intros [H|[]]; discriminate|]. apply NoDup_cons; [intros []|constructor].
      + destruct o; cbn; auto.
      + apply (word_eq _ s); [destruct o; reflexivity|symmetry; apply skip_idem|auto].
  Qed.
  Lemma words_noerr {A} (l : list (pystr * A)) s e : words l s <> PErr e.
  Proof using.
    clear. unfold CafText.words. induction l as [|(w, a) l IH]; cbn [map choice fold_right]; [discriminate|].
    unfold por at 1. destruct (pmap _ _ s) eqn:P; [auto| |discriminate].
    exfalso. unfold pmap, pbind, ret in P. cbn [fst] in P. destruct (tok w s) eqn:T; try discriminate. now apply tok_noerr in T.
  Qed.
  Lemma p_op_noerr s e : p_op s <> PErr e.
  Proof using. clear. apply words_noerr. Qed.
  Lemma p_op_fail s : (forall o r, ~ word (op_text o) s r) -> p_op s = PFail.
  Proof. intros H. destruct (p_op s) as [|e|o r] eqn:E; [reflexivity|now apply p_op_noerr in E|apply p_op_spec in E; now apply H in E]. Qed.
  Lemma p_op_eq s s' : skip s = skip s' -> p_op s = p_op s'.
  Proof using. clear. intros E. unfold CafText.p_op, lex. now rewrite E. Qed.
  Lemma p_dir_spec s d r : p_dir s = POk d r <-> word (dir_text d) s r.
  Proof.
    unfold CafText.p_dir. unfold lex. split.
    - intros H. apply (words_sound _ _ _ OK) in H as (w & I & W); [|repeat constructor].
      assert (E : w = dir_text d) by (destruct I as [[= <- <-]|[[= <- <-]|[]]]; reflexivity). subst w.
      apply (word_eq _ (skip s)); [destruct d; reflexivity|apply skip_idem|auto].
    - intros W. apply (words_complete _ _ _ OK _ _ (dir_text d)); [repeat constructor| | |].
      + cbn [map fst]. apply NoDup_cons; [intros [H|[]]; discriminate|]. apply NoDup_cons; [intros []|constructor].
      + destruct d; cbn; auto.
      + apply (word_eq _ s); [destruct d; reflexivity|symmetry; apply skip_idem|auto].
  Qed.
  Lemma p_dir_noerr s e : p_dir s <> PErr e.
  Proof using. clear. apply words_noerr. Qed.

  (** *** Networks *)
  Definition networds := [(u "ANY4", WANY4); (u "ANY6", WANY6); (u "ANY", WANY); (u "any4", WAny4); (u "any6", WAny6); (u "any", WAny)].
  Lemma networds_wordy : Forall (fun w : pystr * netword => wordy (fst w) = true) networds.
  Proof using. repeat constructor. Qed.
  Lemma networds_nodup : NoDup (map fst networds).
  Proof using.
    cbn [map fst networds]. repeat (apply NoDup_cons; [intros H; repeat destruct H as [H|H]; try discriminate; destruct H|]). constructor.
  Qed.
  Lemma networds_text w a : In (w, a) networds <-> w = netword_text a.
  Proof using.
    split.
    - intros I. repeat destruct I as [[= <- <-]|I]; try reflexivity. destruct I.
    - intros ->. destruct a; cbn; auto 10.
  Qed.
  Lemma netword_wordy w : wordy (netword_text w) = true.
  Proof using. destruct w; reflexivity. Qed.

  Definition p_mask : parser pystr := let% _ := tok (u "/") in p_int.
  Lemma mask_spec s m r : p_mask s = POk m r <-> mask_text m s r.
  Proof.
    unfold p_mask, pbind, CafTextSpec.mask_text. split.
    - destruct (tok (u "/") s) as [|e|x s1] eqn:T; try discriminate. apply (tok_sym _ _ _ OK) in T as (_ & T); [|reflexivity].
      intros H. exists s1. split; [auto|]. now apply pat1_run in H; [|apply (digit_space _ _ _ OK)].
    - intros (s1 & T & R). assert (K : tok (u "/") s = POk (u "/") s1) by (apply (tok_sym _ _ _ OK); auto). rewrite K.
      apply pat1_run; [apply (digit_space _ _ _ OK)|auto].
  Qed.
  Lemma mask_noerr s e : p_mask s <> PErr e.
  Proof using.
    clear. unfold p_mask, pbind. destruct (tok (u "/") s) eqn:T; [discriminate|now apply tok_noerr in T|]. apply pat1_noerr.
  Qed.
  Lemma digit_nospace d : forallb is_digit d = true -> ~ starts isspace d.
  Proof.
    destruct d as [|c d]; [intros _ (c & s & [=] & _)|]. cbn [forallb]. rewrite andb_true_iff, starts_cons. intros (D & _).
    rewrite (digit_space _ _ _ OK c D). discriminate.
  Qed.
  Lemma hex_space c : is_hex c = true -> isspace c = false.
  Proof.
    unfold is_hex. rewrite !orb_true_iff, !andb_true_iff, !N.leb_le. intros H.
    assert (D : is_digit c = true \/ (65 <= c <= 102)%N) by (destruct H as [[H|H]|H]; [auto|lia..]).
    destruct D as [D|D]; [now apply (digit_space _ _ _ OK)|]. rewrite (space_ok _ _ _ OK) by (apply N.ltb_lt; lia).
    unfold ascii_space, in_range. destruct (orb _ _) eqn:E; [|reflexivity]. rewrite orb_true_iff, !andb_true_iff, !N.leb_le in E. lia.
  Qed.
  Lemma addr_nospace t r : addr4_text t r \/ addr6_text t r -> ~ starts isspace t /\ t <> [].
  Proof.
    intros [(a & b & c & d & Oa & _ & _ & _ & -> & _)|(a & b & A & _ & _ & -> & _)].
    - apply octet_digits in Oa as (Na & Da). destruct a as [|x a]; [congruence|]. split; [|discriminate]. cbn [app]. rewrite starts_cons.
      cbn [forallb] in Da. apply andb_true_iff in Da as (Da & _). rewrite (digit_space _ _ _ OK x Da). discriminate.
    - split; [|destruct a; discriminate]. destruct a as [|x a]; cbn [app]; rewrite starts_cons.
      + rewrite (space_ok _ _ _ OK) by reflexivity. discriminate.
      + cbn [forallb] in A. apply andb_true_iff in A as (A & _). rewrite (hex_space x A). discriminate.
  Qed.
  Definition p_addr : parser pystr := choice [lex isspace ip4_pat; lex isspace ip6_pat].
  Lemma p_addr_spec s t r : p_addr s = POk t r <-> addr_text t s r.
  Proof.
    unfold p_addr, CafTextSpec.addr_text. cbn [choice fold_right]. unfold por, fail, lex. split.
    - intros H. destruct (ip4_pat (skip s)) as [|e|t' r'] eqn:P4.
      + destruct (ip6_pat (skip s)) as [|e|t' r'] eqn:P6; try discriminate. injection H as -> ->.
        apply ip6_pat_spec in P6 as (E & A). split; [|auto]. destruct (addr_nospace t r (or_intror A)). now apply sym_skip.
      + discriminate.
      + injection H as -> ->. apply ip4_pat_spec in P4 as (E & A). split; [|auto]. destruct (addr_nospace t r (or_introl A)). now apply sym_skip.
    - intros (Sy & A). destruct (addr_nospace t r A) as (N & Nt). apply sym_skip in Sy; auto. destruct A as [A|A].
      + assert (K : ip4_pat (skip s) = POk t r) by (apply ip4_pat_spec; auto). now rewrite K.
      + assert (K : ip6_pat (skip s) = POk t r) by (apply ip6_pat_spec; auto). rewrite K.
        destruct (ip4_pat (skip s)) as [|e|t' r'] eqn:P4; [reflexivity|now apply ip4_pat_noerr in P4|].
        apply ip4_pat_spec in P4 as (E & A'). exfalso. rewrite Sy in E. symmetry in E. eapply addr46; eauto.
  Qed.
  Lemma p_addr_noerr s e : p_addr s <> PErr e.
  Proof using.
    clear. unfold p_addr. cbn [choice fold_right]. unfold por, fail, lex.
    destruct (ip4_pat (skip s)) eqn:P; [|now apply ip4_pat_noerr in P|discriminate].
    destruct (ip6_pat (skip s)) eqn:P6; [discriminate|now apply ip6_pat_noerr in P6|discriminate].
  Qed.
  Lemma addr_text_eq t s s' r : skip s = skip s' -> addr_text t s r -> addr_text t s' r.
  Proof.
    intros E (S & A). split; [|auto]. destruct (addr_nospace t r A) as (N & Nt). apply (sym_skip _ t s r N Nt) in S. apply (sym_skip _ t s' r N Nt). congruence.
  Qed.
  (** An address is no word *)
  Definition addr_like (s : pystr) : bool :=
    let (_, b) := span is_hex s in match b with c :: _ => N.eqb c 46 || N.eqb c 58 | [] => false end.
  Lemma addr_text_like t s r : addr_text t s r -> addr_like (skip s) = true.
  Proof.
    intros (S & A). destruct (addr_nospace t r A) as (N & Nt). apply (sym_skip _ t s r N Nt) in S. rewrite S. unfold addr_like.
    destruct A as [(a & b & c & d & Oa & _ & _ & _ & -> & _)|(a & b & A & _ & _ & -> & _)]; rewrite <- !app_assoc; cbn [app].
    - apply octet_digits in Oa as (_ & Da).
      assert (H : span is_hex (a ++ 46%N :: (b ++ 46%N :: c ++ 46%N :: d) ++ r) = (a, 46%N :: (b ++ 46%N :: c ++ 46%N :: d) ++ r)).
      { apply span_iff. split; [auto|]. split; [|rewrite starts_cons; discriminate]. apply forallb_forall. intros x I. rewrite forallb_forall in Da. apply digit_hex; auto. }
      now rewrite H.
    - assert (H : span is_hex (a ++ 58%N :: b ++ r) = (a, 58%N :: b ++ r)).
      { apply span_iff. split; [auto|]. split; [auto|rewrite starts_cons; discriminate]. }
      now rewrite H.
  Qed.
  Lemma netword_like w s : addr_like (netword_text w ++ s) = false.
  Proof using. destruct w; reflexivity. Qed.

  Lemma p_network_unfold s : p_network s =
    por (pmap TWord (words networds)) (let% a := p_addr in let% m := popt p_mask in ret (TAddr a m)) (skip s).
  Proof using.
    clear. assert (K : forall A (p q : parser A) s, choice [p; q] s = por p q s).
    { intros A p q t. unfold choice, por, fail. cbn [fold_right]. destruct (p t); [|reflexivity..]. now destruct (q t). }
    unfold CafText.p_network, lex at 1. rewrite K. reflexivity.
  Qed.
  Lemma p_network_spec s n r : p_network s = POk n r <-> net_text n s r.
  Proof.
    rewrite p_network_unfold. unfold por. split.
    - intros H. destruct (pmap TWord (words networds) (skip s)) as [|e|x r'] eqn:P.
      + unfold pbind, ret in H. destruct (p_addr (skip s)) as [|e|a s1] eqn:A; try discriminate.
        apply p_addr_spec, (addr_text_eq a _ s) in A; [|apply skip_idem].
        unfold popt in H.
        destruct (p_mask s1) as [|e|m r'] eqn:M.
        * injection H as <- <-. apply NT_addr; [auto|]. intros (m & r' & K). apply mask_spec in K. congruence.
        * discriminate.
        * injection H as <- <-. eapply NT_mask; [eauto|]. now apply mask_spec.
      + discriminate.
      + injection H as -> ->. apply pmap_ok in P as (w & P & ->). apply (words_sound _ _ _ OK) in P as (v & I & W); [|apply networds_wordy].
        apply networds_text in I as ->. constructor. apply (word_eq _ (skip s)); [apply netword_wordy|apply skip_idem|auto].
    - intros H.
      assert (NW : forall t s1, addr_text t s s1 -> pmap TWord (words networds) (skip s) = PFail).
      { intros t s1 A. apply pmap_fail, (words_fail _ _ _ OK); [apply networds_wordy|]. intros w b r' I W. apply networds_text in I as ->.
        apply (word_skip _ _ _ OK) in W; [|apply netword_wordy]. rewrite skip_idem in W. apply addr_text_like in A. rewrite W, netword_like in A. discriminate. }
      destruct H as [w s r W|a s r A NM|a m s s1 r A M].
      + assert (P : pmap TWord (words networds) (skip s) = POk (TWord w) r).
        { apply pmap_ok. exists w. split; [|auto]. apply (words_complete _ _ _ OK _ _ (netword_text w)); [apply networds_wordy|apply networds_nodup|now apply networds_text|].
          apply (word_eq _ s); [apply netword_wordy|symmetry; apply skip_idem|auto]. }
        now rewrite P.
      + rewrite (NW _ _ A). apply (addr_text_eq a s (skip s)) in A; [|symmetry; apply skip_idem]. apply p_addr_spec in A. unfold pbind, ret. rewrite A.
        unfold popt.
        destruct (p_mask r) as [|e|m r'] eqn:M; [reflexivity|now apply mask_noerr in M|].
        exfalso. apply NM. exists m, r'. now apply mask_spec.
      + rewrite (NW _ _ A). apply (addr_text_eq a s (skip s)) in A; [|symmetry; apply skip_idem]. apply p_addr_spec in A. unfold pbind, ret. rewrite A.
        unfold popt. apply mask_spec in M. now rewrite M.
  Qed.
  Lemma p_network_noerr s e : p_network s <> PErr e.
  Proof using.
    clear. rewrite p_network_unfold. unfold por. destruct (pmap TWord (words networds) (skip s)) eqn:P; [| |discriminate].
    - unfold pbind, ret. destruct (p_addr (skip s)) as [|e'|a s1] eqn:A; [discriminate|now apply p_addr_noerr in A|].
      unfold popt. destruct (p_mask s1) eqn:M; try discriminate. now apply mask_noerr in M.
    - exfalso. unfold pmap, pbind, ret in P. destruct (words networds (skip s)) eqn:W; try discriminate. now apply words_noerr in W.
  Qed.
  Lemma run_lt f x s r : run f x s r -> length r < length s.
  Proof using. clear. intros (S & N & _). apply sym_le in S. destruct x; [congruence|]. cbn in S. plia. Qed.
  Lemma word_lt w s r : wordy w = true -> word w s r -> length r < length s.
  Proof. intros W (S & _). destruct (wordy_space _ _ _ OK w W) as (_ & N). apply sym_le in S. destruct w; [congruence|]. cbn in S. plia. Qed.
  Lemma symy_lt w s r : symy w = true -> sym w s r -> length r < length s.
  Proof. intros W S. destruct (symy_space _ _ _ OK w W) as (_ & N). apply sym_le in S. destruct w; [congruence|]. cbn in S. plia. Qed.
  Lemma addr_text_lt t s r : addr_text t s r -> length r < length s.
  Proof. intros (S & A). destruct (addr_nospace t r A) as (_ & N). apply sym_le in S. destruct t; [congruence|]. cbn in S. plia. Qed.
  Lemma net_text_lt n s r : net_text n s r -> length r < length s.
  Proof.
    intros [w s' r' W|a s' r' A _|a m s' s1 r' A (s2 & S & R)].
    - eapply word_lt; [apply netword_wordy|eauto].
    - eapply addr_text_lt; eauto.
    - apply addr_text_lt in A. apply symy_lt in S; [|reflexivity]. apply run_lt in R. plia.
  Qed.
  Lemma net_text_eq n s s' r : skip s = skip s' -> net_text n s r -> net_text n s' r.
  Proof. intros E H. apply p_network_spec in H. apply p_network_spec. rewrite p_network_unfold in *. congruence. Qed.
  Lemma nets_text_eq l s s' r : skip s = skip s' -> nets_text l s r -> nets_text l s' r.
  Proof. intros E H. destruct H as [n s r H|n l s s1 r H H1]; [constructor|econstructor; [|eauto]]; eapply net_text_eq; eauto. Qed.

  Lemma p_net_sound s l r : p_net s = POk l r -> nets_text l s r.
  Proof.
    unfold CafText.p_net, lex, many1, pbind, ret, fail. intros H. destruct (many p_network (skip s)) as [|e|l' r'] eqn:M; try discriminate.
    destruct l' as [|n l']; [discriminate|]. injection H as <- <-. apply many_chain in M.
    apply (nets_text_eq _ (skip s)); [apply skip_idem|]. remember (n :: l') as k eqn:K. revert n l' K. generalize dependent (skip s).
    clear -OK. intros s M. induction M as [|a l s s1 r P L M IH]; intros n l' K; [discriminate|]. injection K as -> ->.
    apply p_network_spec in P. destruct l' as [|n' l']; [inversion M; subst; now constructor|]. econstructor; eauto.
  Qed.
  Lemma p_net_complete s l r : nets_text l s r -> p_network r = PFail -> p_net s = POk l r.
  Proof.
    intros H F. unfold CafText.p_net, lex, many1, pbind, ret, fail. apply (nets_text_eq _ _ (skip s)) in H; [|symmetry; apply skip_idem].
    assert (C : chain p_network l (skip s) r /\ l <> []).
    { revert H. generalize (skip s). clear s. intros s H. induction H as [n s r H|n l s s1 r H H1 IH]; (split; [|discriminate]).
      - econstructor; [apply p_network_spec; eauto|eapply net_text_lt; eauto|constructor].
      - econstructor; [apply p_network_spec; eauto|eapply net_text_lt; eauto|]. now apply IH. }
    destruct C as (C & N). rewrite (chain_many _ _ _ _ C F). now destruct l.
  Qed.
  Lemma nets_text_lt l s r : nets_text l s r -> length r < length s.
  Proof. induction 1 as [n s r H|n l s s1 r H H1 IH]; apply net_text_lt in H; plia. Qed.
  Lemma p_net_noerr s e : p_net s <> PErr e.
  Proof.
    unfold CafText.p_net, lex, many1, pbind, ret, fail. assert (K : forall s e, many p_network s <> PErr e).
    { clear s e. intros s. remember (length s) as n eqn:E. assert (L : length s <= n) by plia. clear E. revert s L.
      induction n as [|n IH]; intros s L e; rewrite many_unfold; destruct (p_network s) as [|e'|x r] eqn:P; try discriminate; try (now apply p_network_noerr in P);
        destruct (Nat.ltb_spec (@length N r) (@length N s)); try discriminate.
      - plia.
      - destruct (many p_network r) eqn:M; try discriminate. apply IH in M; [easy|plia]. }
    destruct (many p_network (skip s)) as [|e'|l r] eqn:M; [discriminate|now apply K in M|]. destruct l; discriminate.
  Qed.

  (** *** [ip] and [id] clauses *)
  Lemma p_set_ip_sound s o r : p_set_ip s = POk o r -> exists d l s1 s2, o = OIp d l /\ word (u "ip") s s1 /\ word (dir_text d) s1 s2 /\ nets_text l s2 r.
  Proof.
    unfold CafText.p_set_ip, lex, pbind, ret. rewrite (tok_skip isalpha isalnum isspace). destruct (tok (u "ip") s) as [|e|x s1] eqn:T; try discriminate.
    apply (tok_word _ _ _ OK) in T as (_ & T); [|reflexivity]. destruct (p_dir s1) as [|e|d s2] eqn:D; try discriminate. apply p_dir_spec in D.
    destruct (p_net s2) as [|e|l r'] eqn:Nt; try discriminate. intros [= <- <-]. apply p_net_sound in Nt. exists d, l, s1, s2. auto.
  Qed.
  Lemma p_set_ip_complete d l s s1 s2 r : word (u "ip") s s1 -> word (dir_text d) s1 s2 -> nets_text l s2 r -> p_network r = PFail ->
    p_set_ip s = POk (OIp d l) r.
  Proof.
    intros T D Nt F. unfold CafText.p_set_ip, lex, pbind, ret. rewrite (tok_skip isalpha isalnum isspace).
    assert (K : tok (u "ip") s = POk (u "ip") s1) by (apply (tok_word _ _ _ OK); auto). rewrite K.
    apply p_dir_spec in D. rewrite D. now rewrite (p_net_complete _ _ _ Nt F).
  Qed.
  Lemma p_set_ip_noerr s e : p_set_ip s <> PErr e.
  Proof.
    unfold CafText.p_set_ip, lex, pbind, ret. destruct (tok (u "ip") (skip s)) as [|e'|x s1] eqn:T; [discriminate|now apply tok_noerr in T|].
    destruct (p_dir s1) as [|e'|d s2] eqn:D; [discriminate|now apply p_dir_noerr in D|]. destruct (p_net s2) eqn:P; [discriminate|now apply p_net_noerr in P|discriminate].
  Qed.
  Lemma p_set_id_spec s p r : p_set_id s = POk p r <-> id_text (Some p) s r.
  Proof.
    unfold CafText.p_set_id, lex, pbind. cbn [CafTextSpec.id_text]. rewrite (tok_skip isalpha isalnum isspace). split.
    - destruct (tok (u "id") s) as [|e|x s1] eqn:T; try discriminate. apply (tok_word _ _ _ OK) in T as (_ & T); [|reflexivity].
      intros H. exists s1. split; [auto|]. now apply pat1_run in H; [|apply (pattern_space _ _ _ OK)].
    - intros (s1 & T & R). assert (K : tok (u "id") s = POk (u "id") s1) by (apply (tok_word _ _ _ OK); auto). rewrite K.
      apply pat1_run; [apply (pattern_space _ _ _ OK)|auto].
  Qed.
  Lemma p_set_id_noerr s e : p_set_id s <> PErr e.
  Proof using.
    clear. unfold CafText.p_set_id, lex, pbind. destruct (tok (u "id") (skip s)) eqn:T; [discriminate|now apply tok_noerr in T|]. apply pat1_noerr.
  Qed.
  Lemma p_set_id_fail s : (forall r, ~ word (u "id") s r) -> p_set_id s = PFail.
  Proof.
    intros H. destruct (p_set_id s) as [|e|p r] eqn:E; [reflexivity|now apply p_set_id_noerr in E|]. apply p_set_id_spec in E as (s1 & W & _). now apply H in W.
  Qed.
  Lemma id_text_eq id s s' r : skip s = skip s' -> id_text id s r -> exists r', id_text id s' r' /\ skip r' = skip r.
  Proof.
    intros E. destruct id as [p|]; cbn [CafTextSpec.id_text].
    - intros (s1 & W & R). exists r. split; [|auto]. exists s1. split; [eapply word_eq; eauto|auto].
    - intros <-. exists s'. auto.
  Qed.
  Lemma objs_text_eq l s s' r : skip s = skip s' -> objs_text l s r -> exists r', objs_text l s' r' /\ skip r' = skip r.
  Proof.
    intros E H. destruct H as [s|l s s1 r C H|d ns l s s1 s2 s3 r W D Nt H|e l s s1 s2 s3 r S1 He S2 H].
    - exists s'. split; [constructor|auto].
    - exists r. split; [|auto]. econstructor; [eapply comment_eq; eauto|auto].
    - exists r. split; [|auto]. econstructor; [eapply word_eq; eauto|eauto..].
    - exists r. split; [|auto]. econstructor; [eapply sym_eq; eauto|eauto..].
  Qed.
  Lemma set_text_eq x s s' r : skip s = skip s' -> set_text x s r -> exists r', set_text x s' r' /\ skip r' = skip r.
  Proof.
    intros E H. destruct H as [id l s s1 s2 r C I O].
    destruct (comments_eq _ s' _ E C) as (s1' & C' & E1). symmetry in E1. destruct (id_text_eq _ _ s1' _ E1 I) as (s2' & I' & E2). symmetry in E2.
    destruct (objs_text_eq _ _ s2' _ E2 O) as (r' & O' & E3). exists r'. split; [econstructor; eauto|auto].
  Qed.
  Lemma ops_text_eq l s s' r : skip s = skip s' -> ops_text l s r -> exists r', ops_text l s' r' /\ skip r' = skip r.
  Proof.
    intros E H. destruct H as [s|o x l s s1 s2 r W X O]; [exists s'; split; [constructor|auto]|].
    exists r. split; [|auto]. econstructor; [eapply word_eq; [destruct o; reflexivity|eauto|eauto]|eauto..].
  Qed.
  Lemma expr_text_eq e s s' r : skip s = skip s' -> expr_text e s r -> exists r', expr_text e s' r' /\ skip r' = skip r.
  Proof.
    intros E H. destruct H as [f l s s1 r S O]. destruct (set_text_eq _ _ s' _ E S) as (s1' & S' & E1). symmetry in E1.
    destruct (ops_text_eq _ _ s1' _ E1 O) as (r' & O' & E2). exists r'. split; [econstructor; eauto|auto].
  Qed.
End Parse.
