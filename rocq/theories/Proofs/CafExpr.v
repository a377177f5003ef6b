From Coq Require Import Lia String.
From Verif.Model Require Import Base Ip Hosts Groups Rules Caf Peg AddrText CafText.
From Verif.Spec Require Import AddrSpec FilterSpec CafSpec AddrTextSpec CafTextSpec.
From Verif.Proofs Require Import PegFacts AddrTextFacts Addr6Facts CafTextFacts TokFacts CafParse.
Local Open Scope list_scope.

Scheme expr_text_mut := Induction for expr_text Sort Prop
with ops_text_mut := Induction for ops_text Sort Prop
with set_text_mut := Induction for set_text Sort Prop
with objs_text_mut := Induction for objs_text Sort Prop.
Combined Scheme caf_text_ind from expr_text_mut, ops_text_mut, set_text_mut, objs_text_mut.

Section Expr.
  Context (isalpha isalnum isspace : N -> bool) (OK : classes_ok isalpha isalnum isspace).
  Notation skip := (skip isspace).
  Notation sym := (sym isspace).
  Notation word := (word isalnum isspace).
  Notation run := (run isspace).
  Notation tok := (tok isalpha isalnum isspace).
  Notation comment := (comment isspace).
  Notation comments := (comments isspace).
  Notation p_comment := (p_comment isalpha isalnum isspace).
  Notation p_comments := (p_comments isalpha isalnum isspace).
  Notation p_op := (p_op isalpha isalnum isspace).
  Notation p_network := (p_network isalpha isalnum isspace).
  Notation p_set_ip := (p_set_ip isalpha isalnum isspace).
  Notation p_set_id := (p_set_id isalpha isalnum isspace).
  Notation p_set_expr := (p_set_expr isalpha isalnum isspace).
  Notation p_set_r := (p_set_r isalpha isalnum isspace).
  Notation p_set := (p_set isalpha isalnum isspace).
  Notation p_expr_r := (p_expr_r isalpha isalnum isspace).
  Notation p_expr := (p_expr isalpha isalnum isspace).
  Notation net_text := (net_text isalnum isspace).
  Notation nets_text := (nets_text isalnum isspace).
  Notation id_text := (id_text isalnum isspace).
  Notation expr_text := (expr_text isalnum isspace).
  Notation ops_text := (ops_text isalnum isspace).
  Notation set_text := (set_text isalnum isspace).
  Notation objs_text := (objs_text isalnum isspace).

  Lemma choice2 {A} (p q : parser A) s : choice [p; q] s = por p q s.
  Proof using. clear. unfold choice, por, fail. cbn [fold_right]. destruct (p s); [|reflexivity..]. now destruct (q s). Qed.
  Lemma choice3 {A} (p q r : parser A) s : choice [p; q; r] s = por p (por q r) s.
  Proof using. clear. unfold choice, por, fail. cbn [fold_right]. destruct (p s); [|reflexivity..]. destruct (q s); [|reflexivity..]. now destruct (r s). Qed.

  (** *** What follows an expression, a set, an object *)
  Definition ends (s : pystr) : Prop := skip s = [] \/ exists r, sym (u ")") s r.
  Definition after_set (s : pystr) : Prop := ends s \/ exists o r, word (op_text o) s r.
  Definition after_obj (s : pystr) : Prop :=
    after_set s \/ (exists r, sym (u "(") s r) \/ (exists r, comment s r) \/ (exists r, word (u "ip") s r).

  Lemma ends_eq s s' : skip s = skip s' -> ends s -> ends s'.
  Proof. intros E [H|(r & H)]; [left; congruence|right; exists r; eapply (sym_eq _ _ _ OK); eauto]. Qed.
  Lemma after_set_eq s s' : skip s = skip s' -> after_set s -> after_set s'.
  Proof. intros E [H|(o & r & H)]; [left; eapply ends_eq; eauto|right; exists o, r; eapply (word_eq _ _ _ OK); eauto; destruct o; reflexivity]. Qed.
  Lemma op_wordy o : wordy (op_text o) = true.
  Proof using. destruct o; reflexivity. Qed.

  Lemma word_first w s r : wordy w = true -> word w s r -> skip s = w ++ r.
  Proof. intros W H. now apply (word_skip _ _ _ OK). Qed.
  Lemma ends_noword w s r : wordy w = true -> ends s -> ~ word w s r.
  Proof.
    intros W E H. apply word_first in H; auto. destruct (wordy_space _ _ _ OK w W) as (_ & N). destruct w as [|c w]; [congruence|].
    destruct E as [E|(r' & E)]; [rewrite E in H; discriminate|]. apply (symy_skip _ _ _ OK (u ")")) in E; [|reflexivity].
    rewrite E in H. injection H as <- _.
    unfold wordy in W. apply andb_true_iff in W as (_ & W). discriminate W.
  Qed.
  Lemma ends_noop s : ends s -> p_op s = PFail.
  Proof. intros E. apply (p_op_fail _ _ _ OK). intros o r. apply ends_noword; [apply op_wordy|auto]. Qed.
  Lemma after_set_nohead s c t : after_set s -> skip s = c :: t -> ~ In c (u "(/").
  Proof.
    intros [[E|(r & E)]|(o & r & W)] H.
    - rewrite E in H. discriminate.
    - apply (symy_skip _ _ _ OK (u ")")) in E; [|reflexivity]. rewrite E in H. injection H as <- _. intros [K|[K|[]]]; discriminate.
    - apply word_first in W; [|apply op_wordy]. rewrite W in H. destruct o; injection H as <- _; intros [K|[K|[]]]; discriminate.
  Qed.
  Lemma after_set_noword w s r : wordy w = true -> ~ (exists o, op_text o = w) -> after_set s -> ~ word w s r.
  Proof.
    intros W N [E|(o & r' & H)] H'; [eapply ends_noword; eauto|].
    destruct (word_unique _ _ _ OK _ _ _ _ _ (op_wordy o) W H H') as (E & _). apply N. eauto.
  Qed.
  Lemma after_set_nocomment s : after_set s -> p_comment s = PFail.
  Proof.
    intros A. destruct (p_comment s) as [|e|x r] eqn:E; [reflexivity|now apply p_comment_noerr in E|].
    apply (p_comment_spec _ _ _ OK) in E. destruct (comment_skip _ _ _ OK _ _ E) as (t & H). exfalso. apply (after_set_nohead s _ _ A H). cbn. auto.
  Qed.
  Lemma no_ip o : op_text o <> u "ip". Proof using. destruct o; discriminate. Qed.
  Lemma no_id o : op_text o <> u "id". Proof using. destruct o; discriminate. Qed.

  Lemma after_obj_nonet s : after_obj s -> p_network s = PFail.
  Proof.
    intros A. destruct (p_network s) as [|e|n r] eqn:E; [reflexivity|now apply p_network_noerr in E|]. exfalso. apply (p_network_spec _ _ _ OK) in E.
    assert (K : (exists w r', word (netword_text w) s r') \/ addr_like (skip s) = true).
    { destruct E as [w s r W|a s r T _|a m s s1 r T _]; [eauto|right; eapply (addr_text_like _ _ _ OK); eauto..]. }
    clear E. assert (Hd : forall c t, ~ (exists w, hd 0%N (netword_text w) = c) -> addr_like (c :: t) = false -> skip s = c :: t -> False).
    { intros c t N L H. destruct K as [(w & r' & W)|K].
      - apply word_first in W; [|apply netword_wordy]. rewrite W in H. apply N. exists w. destruct w; injection H as <- _; reflexivity.
      - congruence. }
    destruct A as [[[A|(r' & A)]|(o & r' & A)]|[(r' & A)|[(r' & A)|(r' & A)]]].
    - destruct K as [(w & r' & W)|K]; [|rewrite A in K; discriminate]. apply word_first in W; [|apply netword_wordy]. rewrite W in A. destruct w; discriminate.
    - apply (symy_skip _ _ _ OK (u ")")) in A; [|reflexivity]. eapply Hd; [| |exact A]; [intros (w & H); destruct w; discriminate|reflexivity].
    - apply word_first in A; [|apply op_wordy]. destruct o; (eapply Hd; [| |exact A]; [intros (w & H); destruct w; discriminate|reflexivity]).
    - apply (symy_skip _ _ _ OK (u "(")) in A; [|reflexivity]. eapply Hd; [| |exact A]; [intros (w & H); destruct w; discriminate|reflexivity].
    - apply (comment_skip _ _ _ OK) in A as (t & A). eapply Hd; [| |exact A]; [intros (w & H); destruct w; discriminate|reflexivity].
    - apply word_first in A; [|reflexivity]. eapply Hd; [| |exact A]; [intros (w & H); destruct w; discriminate|reflexivity].
  Qed.
  Lemma objs_after l s r : objs_text l s r -> after_set r -> after_obj s.
  Proof using. clear. intros H A. unfold after_obj. destruct H; eauto 10. Qed.

  Lemma text_le : (forall e s r, expr_text e s r -> length r <= length s) /\ (forall l s r, ops_text l s r -> length r <= length s) /\
    (forall x s r, set_text x s r -> length r <= length s) /\ (forall l s r, objs_text l s r -> length r <= length s).
  Proof.
    apply (caf_text_ind isalnum isspace (fun e s r _ => length r <= length s) (fun e s r _ => length r <= length s)
             (fun e s r _ => length r <= length s) (fun e s r _ => length r <= length s)); intros.
    - plia.
    - lia.
    - apply (word_lt _ _ _ OK) in w; [|apply op_wordy]. plia.
    - apply comments_le in c. assert (length s2 <= length s1); [|plia].
      destruct id as [p|]; cbn in i; [|subst; lia]. destruct i as (s3 & W & R). apply (word_lt _ _ _ OK) in W; [|reflexivity]. apply run_lt in R. plia.
    - lia.
    - apply comment_lt in c. plia.
    - apply (word_lt _ _ _ OK) in w; [|reflexivity]. apply (word_lt _ _ _ OK) in w0; [|destruct d; reflexivity]. apply (nets_text_lt _ _ _ OK) in n. plia.
    - repeat match goal with H : CafTextSpec.sym _ _ _ _ |- _ => apply (symy_lt _ _ _ OK) in H; [|reflexivity] end. plia.
  Qed.
  Lemma expr_text_le e s r : expr_text e s r -> length r <= length s. Proof. apply text_le. Qed.
  Lemma set_text_le x s r : set_text x s r -> length r <= length s. Proof. apply text_le. Qed.

  (** *** Soundness *)
  Section Sound.
    Context (pe : parser cexpr).
    Context (PE : forall s e r, pe s = POk e r -> exists r0, expr_text e s r0 /\ skip r0 = skip r).
    Lemma p_set_expr_sound s o r : p_set_expr pe s = POk o r ->
      exists e s1 s2, o = OExpr e /\ sym (u "(") s s1 /\ expr_text e s1 s2 /\ sym (u ")") s2 r.
    Proof.
      unfold CafText.p_set_expr, lex, pbind, ret. rewrite (tok_skip isalpha isalnum isspace).
      destruct (tok (u "(") s) as [|e|x s1] eqn:T; try discriminate. apply (tok_sym _ _ _ OK) in T as (_ & T); [|reflexivity].
      destruct (pe s1) as [|e|v s2] eqn:P; try discriminate. destruct (tok (u ")") s2) as [|e|y s3] eqn:T2; try discriminate.
      apply (tok_sym _ _ _ OK) in T2 as (_ & T2); [|reflexivity]. intros [= <- <-]. destruct (PE _ _ _ P) as (r0 & Ex & E).
      exists v, s1, r0. split; [auto|]. split; [auto|]. split; [auto|]. apply (sym_eq _ _ _ OK _ s2); auto.
    Qed.
    Lemma comments_objs s s1 l r : comments s s1 -> objs_text l s1 r -> objs_text l s r.
    Proof using. clear. induction 1; [auto|]. intros. econstructor; eauto. Qed.
    Lemma p_set_r_sound s o s1 : p_set_r pe s = POk o s1 -> length s1 < length (skip s) /\
      forall l r, objs_text l s1 r -> objs_text (match o with Some o => o :: l | None => l end) s r.
    Proof.
      unfold CafText.p_set_r, lex. rewrite choice3. unfold por.
      assert (S : skip (skip s) = skip s) by apply skip_idem.
      destruct (pmap Some p_set_ip (skip s)) as [|e|x r'] eqn:P1; [| |].
      - destruct (pmap Some (p_set_expr pe) (skip s)) as [|e|x r'] eqn:P2.
        + destruct (pmap (fun _ => None) p_comments (skip s)) as [|e|x r'] eqn:P3; try discriminate. intros [= -> ->].
          apply pmap_ok in P3 as ([] & P3 & ->). apply (p_comments_ok _ _ _ OK) in P3 as (C & F & N).
          remember (skip s) as s0 eqn:E0. destruct C as [s0|s0 s2 r0 C1 C2].
          * congruence.
          * split; [apply comment_lt in C1; apply comments_le in C2; plia|].
            intros l r O. econstructor; [apply (comment_eq _ _ _ OK s0); [congruence|exact C1]|]. eapply comments_objs; eauto.
        + discriminate.
        + intros [= -> ->]. apply pmap_ok in P2 as (o' & P2 & ->). apply p_set_expr_sound in P2 as (e & s2 & s3 & -> & S1 & Ex & S2). split.
          * apply (symy_lt _ _ _ OK) in S1; [|reflexivity]. apply (symy_lt _ _ _ OK) in S2; [|reflexivity].
            apply expr_text_le in Ex. plia.
          * intros l r O. eapply OT_expr; [eapply (sym_eq _ _ _ OK); [| |exact S1]; [reflexivity|exact S]|eauto..].
      - discriminate.
      - intros [= -> ->]. apply pmap_ok in P1 as (o' & P1 & ->). apply (p_set_ip_sound _ _ _ OK) in P1 as (d & l & s2 & s3 & -> & W & D & Nt). split.
        + apply (word_lt _ _ _ OK) in W; [|reflexivity]. apply (word_lt _ _ _ OK) in D; [|destruct d; reflexivity]. apply (nets_text_lt _ _ _ OK) in Nt. plia.
        + intros l0 r O. eapply OT_ip; [eapply (word_eq _ _ _ OK); [| |exact W]; [reflexivity|exact S]|eauto..].
    Qed.
    Lemma many_set_r_sound s raw r : many (p_set_r pe) s = POk raw r -> objs_text (drop_none raw) s r.
    Proof.
      intros M. apply many_chain in M. induction M as [|o l s s1 r P L M IH]; [constructor|].
      apply p_set_r_sound in P as (_ & P). specialize (P _ _ IH). destruct o; exact P.
    Qed.
    Lemma p_set_sound s x r : p_set pe s = POk x r -> exists r0, set_text x s r0 /\ skip r0 = skip r.
    Proof.
      unfold CafText.p_set, lex, pbind, ret. destruct (popt_comments _ _ _ OK (skip s)) as (o & s1 & P & s1' & C & E1 & _ & _). rewrite P.
      intros H. apply (comments_eq _ _ _ OK _ s) in C as (t1 & C & T1); [|apply skip_idem]. rewrite E1 in T1.
      assert (I : exists id s2, popt p_set_id s1 = POk id s2 /\ id_text id s1 s2).
      { unfold popt. destruct (p_set_id s1) as [|e|p s2] eqn:I; [exists None, s1; split; reflexivity|now apply p_set_id_noerr in I|].
        exists (Some p), s2. split; [reflexivity|]. now apply (p_set_id_spec _ _ _ OK). }
      destruct I as (id & s2 & I & It). rewrite I in H. destruct (many (p_set_r pe) s2) as [|e|raw r'] eqn:M; try discriminate. injection H as <- <-.
      apply many_set_r_sound in M. symmetry in T1. apply (id_text_eq _ _ _ OK _ _ t1) in It as (t2 & It & T2); auto. symmetry in T2.
      apply (objs_text_eq _ _ _ OK _ _ t2) in M as (r0 & M & E); auto. exists r0. split; [|auto]. econstructor; eauto.
    Qed.
    Lemma many_nofail {A} (p : parser A) s : many p s <> PFail.
    Proof using.
      clear. remember (length s) as n eqn:E. assert (L : length s <= n) by plia. clear E. revert s L.
      induction n as [|n IH]; intros s L; rewrite many_unfold; destruct (p s) as [|e'|x r] eqn:P; try discriminate;
        destruct (Nat.ltb_spec (@length N r) (@length N s)); try discriminate.
      - plia.
      - destruct (many p r) eqn:M; try discriminate. now apply IH in M; [|plia].
    Qed.
    Lemma p_set_nofail s : p_set pe s <> PFail.
    Proof using OK.
      unfold CafText.p_set, lex, pbind, ret. destruct (popt_comments _ _ _ OK (skip s)) as (o & s1 & P & _). rewrite P.
      unfold popt. destruct (p_set_id s1) as [|e|p s2] eqn:I; [|discriminate|].
      - destruct (many (p_set_r pe) s1) eqn:M; try discriminate. now apply many_nofail in M.
      - destruct (many (p_set_r pe) s2) eqn:M; try discriminate. now apply many_nofail in M.
    Qed.
    Definition op_rest (n : nat) : parser (cset * list (cafop * cset)) :=
      choice [p_expr_r pe n; pmap (fun x => (x, [])) (p_set pe)].
    Definition op_item (n : nat) : parser (list (cafop * cset)) :=
      let% o := p_op in let% x := op_rest n in ret ((o, fst x) :: snd x).
    Lemma p_expr_r_unfold n s : p_expr_r pe (S n) s =
      match p_set pe s with
      | POk a r => match many (op_item n) r with
                   | POk (x :: _) r' => POk (a, x) r'
                   | POk [] _ => PFail | PFail => PFail | PErr e => PErr e
                   end
      | PErr e => PErr e | PFail => PFail
      end.
    Proof using.
      clear. cbn [CafText.p_expr_r]. unfold lex, pbind at 1. unfold CafText.p_set at 1. rewrite (lex_idem isspace). fold (p_set pe).
      destruct (p_set pe s) as [|e|a r]; try reflexivity. unfold many1, op_item, op_rest. unfold pbind at 1 2.
      match goal with |- context [many ?p r] => destruct (many p r) as [|e|[|x l] r'] end; reflexivity.
    Qed.
    Lemma rest_nofail n s : op_rest n s <> PFail.
    Proof using OK.
      unfold op_rest. rewrite choice2. unfold por. destruct (p_expr_r pe n s); try discriminate. unfold pmap, pbind, ret.
      destruct (p_set pe s) eqn:P; try discriminate. now apply p_set_nofail in P.
    Qed.
    Lemma set_len s x r : p_set pe s = POk x r -> length r <= length s.
    Proof.
      unfold CafText.p_set, lex, pbind, ret. destruct (popt_comments _ _ _ OK (skip s)) as (o & s1 & P & s1' & C & E1 & Cs & _). rewrite P.
      pose proof (skip_le isspace s) as Ls. apply comments_le in C.
      assert (L1 : length s1 <= length s) by (destruct Cs as [-> | (-> & ->)]; plia).
      assert (I : exists id s2, popt p_set_id s1 = POk id s2 /\ length s2 <= length s1).
      { unfold popt. destruct (p_set_id s1) as [|e|p s2] eqn:I; [exists None, s1; split; [reflexivity|plia]|now apply p_set_id_noerr in I|].
        exists (Some p), s2. split; [reflexivity|]. apply (p_set_id_spec _ _ _ OK) in I as (s3 & W & R). apply (word_lt _ _ _ OK) in W; [|reflexivity]. apply run_lt in R. plia. }
      destruct I as (id & s2 & I & L2). rewrite I. destruct (many (p_set_r pe) s2) as [|e|raw r'] eqn:M; try discriminate. intros [= <- <-].
      apply many_chain in M. assert (L3 : length r' <= length s2); [|plia]. clear -M. induction M; plia.
    Qed.
    Lemma chain_le {A} (p : parser A) l s r : chain p l s r -> length r <= length s.
    Proof using. clear. induction 1; plia. Qed.
    Lemma expr_r_len : forall n s x r, p_expr_r pe n s = POk x r -> length r <= length s.
    Proof.
      induction n as [|n IH]; intros s x r H; [discriminate|]. rewrite p_expr_r_unfold in H.
      destruct (p_set pe s) as [|e|a' s1] eqn:PS; try discriminate. apply set_len in PS.
      destruct (many (op_item n) s1) as [|e|[|i l] r'] eqn:M; try discriminate. injection H as _ <-. apply many_chain, chain_le in M. plia.
    Qed.
    Lemma rest_len n s x r : op_rest n s = POk x r -> length r <= length s.
    Proof.
      intros R. unfold op_rest in R. rewrite choice2 in R. unfold por in R. destruct (p_expr_r pe n s) as [|e|z r3] eqn:P.
      - apply pmap_ok in R as (x' & PS & ->). eapply set_len; eauto.
      - discriminate.
      - injection R as -> ->. eapply expr_r_len; eauto.
    Qed.
    Lemma item_len n s x r : op_item n s = POk x r -> length r < length s.
    Proof.
      unfold op_item, pbind. destruct (p_op s) as [|e|o r1] eqn:O; try discriminate.
      apply (p_op_spec _ _ _ OK), (word_lt _ _ _ OK) in O; [|apply op_wordy]. destruct (op_rest n r1) as [|e|y r2] eqn:R; try discriminate.
      apply rest_len in R. intros [= <- <-]. plia.
    Qed.
    (** A repetition that ends, ends where no operator follows. *)
    Lemma item_none n r : many (op_item n) r = POk [] r -> p_op r = PFail.
    Proof.
      intros M. rewrite many_unfold in M. destruct (op_item n r) as [|e|a r'] eqn:I.
      - unfold op_item, pbind in I. destruct (p_op r) as [|e|o r'] eqn:O; [reflexivity|discriminate|].
        destruct (op_rest n r') eqn:R; try discriminate. now apply rest_nofail in R.
      - discriminate.
      - apply item_len, Nat.ltb_lt in I. unfold pystr in *. rewrite I in M. destruct (many (op_item n) r'); discriminate.
    Qed.
    Lemma item_fail n s : p_op s = PFail -> op_item n s = PFail.
    Proof using. clear. intros H. unfold op_item, pbind. now rewrite H. Qed.
    Lemma expr_r_sound : forall n s a l r, p_expr_r pe n s = POk (a, l) r -> p_op r = PFail /\
      exists s1 r0, set_text a s s1 /\ ops_text l s1 r0 /\ skip r0 = skip r.
    Proof.
      induction n as [|n IH]; intros s a l r H; [discriminate|]. rewrite p_expr_r_unfold in H.
      destruct (p_set pe s) as [|e|a' s1] eqn:PS; try discriminate.
      assert (Rs : forall s x r, op_rest n s = POk x r -> p_op r = PFail /\
                exists s1 r0, set_text (fst x) s s1 /\ ops_text (snd x) s1 r0 /\ skip r0 = skip r).
      { clear -IH OK PE. intros s (x & l) r H. unfold op_rest in H. rewrite choice2 in H. unfold por in H. destruct (p_expr_r pe n s) as [|e|y r'] eqn:P.
        - apply pmap_ok in H as (x' & PS & [= -> ->]). cbn [fst snd]. split.
          + destruct n as [|n]; [discriminate|]. rewrite p_expr_r_unfold, PS in P.
            destruct (many (op_item n) r) as [|e|[|i l'] r'] eqn:M; try discriminate; [now apply many_nofail in M|].
            pose proof (many_inv _ _ _ _ M) as E. cbn in E. subst r'. now apply (item_none n).
          + apply p_set_sound in PS as (r0 & St & E). exists r0, r0. split; [auto|]. split; [constructor|auto].
        - discriminate.
        - injection H as -> ->. apply IH in P. exact P. }
      destruct (many (op_item n) s1) as [|e|[|i l'] r'] eqn:M; try discriminate. injection H as <- <- <-.
      destruct (many_inv _ _ _ _ M) as (s2 & I & L & M2). unfold op_item, pbind, ret in I.
      destruct (p_op s1) as [|e|o s3] eqn:O; try discriminate. apply (p_op_spec _ _ _ OK) in O.
      destruct (op_rest n s3) as [|e|y s4] eqn:R; try discriminate. injection I as <- <-.
      apply Rs in R as (F & t1 & r0 & St & Ot & E). rewrite (many_stop (op_item n)) in M2 by now apply item_fail. injection M2 as <- <-.
      split; [auto|]. apply p_set_sound in PS as (t0 & S0 & E0). exists t0, r0. split; [auto|]. split; [|auto].
      econstructor; [|eauto..]. apply (word_eq _ _ _ OK _ s1); [apply op_wordy|auto|auto].
    Qed.
  End Sound.
  Lemma p_expr_sound : forall n s e r, p_expr n s = POk e r -> exists r0, expr_text e s r0 /\ skip r0 = skip r.
  Proof.
    induction n as [|n IH]; intros s e r H; [discriminate|]. cbn [CafText.p_expr] in H. unfold lex in H. rewrite choice2 in H. unfold por in H.
    assert (K : exists r0, expr_text e (skip s) r0 /\ skip r0 = skip r).
    { destruct (pmap _ (p_expr_r (p_expr n) (S n)) (skip s)) as [|e'|x r'] eqn:P.
      - apply pmap_ok in H as (x & PS & ->). apply p_set_sound in PS as (r0 & St & E); [|apply IH]. exists r0. split; [|auto]. econstructor; [eauto|constructor].
      - discriminate.
      - injection H as -> ->. apply pmap_ok in P as ((a & l) & P & ->). apply expr_r_sound in P as (_ & s1 & r0 & St & Ot & E); [|apply IH].
        exists r0. split; [|auto]. econstructor; eauto. }
    destruct K as (r0 & K & E). apply (expr_text_eq _ _ _ OK _ _ s) in K as (r1 & K & E1); [|apply skip_idem]. exists r1. split; [auto|congruence].
  Qed.

  (** *** Completeness *)
  Section Complete.
    Context (pe : parser cexpr).
    Lemma p_set_r_fail s : after_set s -> p_set_r pe s = PFail.
    Proof.
      intros A. unfold CafText.p_set_r, lex. rewrite choice3. unfold por.
      assert (A' : after_set (skip s)) by (eapply after_set_eq; [|exact A]; symmetry; apply skip_idem).
      assert (P1 : pmap Some p_set_ip (skip s) = PFail).
      { apply pmap_fail. unfold CafText.p_set_ip. rewrite (lex_idem isspace). unfold lex, pbind. rewrite (tok_skip isalpha isalnum isspace).
        rewrite (word_fail _ _ _ OK); [reflexivity|reflexivity|]. intros r. apply after_set_noword; [reflexivity| |auto]. intros (o & H). now apply no_ip in H. }
      assert (P2 : pmap Some (p_set_expr pe) (skip s) = PFail).
      { apply pmap_fail. unfold CafText.p_set_expr. rewrite (lex_idem isspace). unfold lex, pbind. rewrite (tok_skip isalpha isalnum isspace).
        rewrite (sym_fail _ _ _ OK); [reflexivity|reflexivity|]. intros r H. apply (symy_skip _ _ _ OK (u "(")) in H; [|reflexivity].
        apply (after_set_nohead s 40%N r A H). cbn. auto. }
      assert (P3 : pmap (fun _ => @None cobj) p_comments (skip s) = PFail).
      { apply pmap_fail, (p_comments_fail _ _ _ OK). now apply after_set_nocomment. }
      now rewrite P1, P2.
    Qed.
    Lemma p_set_r_comment s r : p_comments s = POk tt r -> p_set_r pe s = POk None r.
    Proof.
      intros H. unfold CafText.p_set_r, lex. rewrite choice3. unfold por.
      pose proof H as H0. apply (p_comments_ok _ _ _ OK) in H0 as (_ & _ & N). destruct (p_comment s) as [|e|[] r'] eqn:C; [congruence|now apply p_comment_noerr in C|].
      apply (p_comment_spec _ _ _ OK), (comment_skip _ _ _ OK) in C as (t & E).
      assert (P1 : pmap Some p_set_ip (skip s) = PFail).
      { apply pmap_fail. unfold CafText.p_set_ip. rewrite (lex_idem isspace). unfold lex, pbind. rewrite (tok_skip isalpha isalnum isspace).
        rewrite (word_fail _ _ _ OK); [reflexivity|reflexivity|]. intros r0 W. apply word_first in W; [|reflexivity]. rewrite E in W. discriminate. }
      assert (P2 : pmap Some (p_set_expr pe) (skip s) = PFail).
      { apply pmap_fail. unfold CafText.p_set_expr. rewrite (lex_idem isspace). unfold lex, pbind. rewrite (tok_skip isalpha isalnum isspace).
        rewrite (sym_fail _ _ _ OK); [reflexivity|reflexivity|]. intros r0 W. apply (symy_skip _ _ _ OK (u "(")) in W; [|reflexivity]. rewrite E in W. discriminate. }
      rewrite P1, P2. apply pmap_ok. exists tt. split; [|auto]. unfold CafText.p_comments in *. now rewrite (lex_idem isspace).
    Qed.
    Lemma p_set_r_ip d ns s s1 s2 s3 : word (u "ip") s s1 -> word (dir_text d) s1 s2 -> nets_text ns s2 s3 -> p_network s3 = PFail ->
      p_set_r pe s = POk (Some (OIp d ns)) s3.
    Proof.
      intros W D Nt F. unfold CafText.p_set_r, lex. rewrite choice3. unfold por.
      assert (P1 : pmap Some p_set_ip (skip s) = POk (Some (OIp d ns)) s3).
      { apply pmap_ok. exists (OIp d ns). split; [|auto]. eapply (p_set_ip_complete _ _ _ OK); eauto. apply (word_eq _ _ _ OK _ s); auto. symmetry. apply skip_idem. }
      now rewrite P1.
    Qed.
    Lemma p_set_r_expr e s s1 s2 s2' s3 : sym (u "(") s s1 -> pe s1 = POk e s2' -> skip s2' = skip s2 -> sym (u ")") s2 s3 ->
      p_set_r pe s = POk (Some (OExpr e)) s3.
    Proof.
      intros S1 P E S2. unfold CafText.p_set_r, lex. rewrite choice3. unfold por.
      assert (P1 : pmap Some p_set_ip (skip s) = PFail).
      { apply pmap_fail. unfold CafText.p_set_ip. rewrite (lex_idem isspace). unfold lex, pbind. rewrite (tok_skip isalpha isalnum isspace).
        rewrite (word_fail _ _ _ OK); [reflexivity|reflexivity|]. intros r0 W. apply word_first in W; [|reflexivity].
        apply (symy_skip _ _ _ OK (u "(")) in S1; [|reflexivity]. rewrite S1 in W. discriminate. }
      assert (P2 : pmap Some (p_set_expr pe) (skip s) = POk (Some (OExpr e)) s3).
      { apply pmap_ok. exists (OExpr e). split; [|auto]. unfold CafText.p_set_expr. rewrite (lex_idem isspace). unfold lex, pbind. rewrite (tok_skip isalpha isalnum isspace).
        assert (T1 : tok (u "(") s = POk (u "(") s1) by (apply (tok_sym _ _ _ OK); auto). rewrite T1, P.
        assert (T2 : tok (u ")") s2' = POk (u ")") s3).
        { apply (tok_sym _ _ _ OK); [reflexivity|]. split; [auto|]. apply (sym_eq _ _ _ OK _ s2); auto. }
        now rewrite T2. }
      now rewrite P1, P2.
    Qed.
    Lemma set_r_noid s raw r : many (p_set_r pe) s = POk raw r -> after_set r -> p_set_id s = PFail.
    Proof.
      intros M A. apply (p_set_id_fail _ _ _ OK). intros r' W.
      assert (F : p_set_r pe s = PFail).
      { unfold CafText.p_set_r, lex. rewrite choice3. unfold por. pose proof W as W0. apply word_first in W0; [|reflexivity].
        assert (P1 : pmap Some p_set_ip (skip s) = PFail).
        { apply pmap_fail. unfold CafText.p_set_ip. rewrite (lex_idem isspace). unfold lex, pbind. rewrite (tok_skip isalpha isalnum isspace).
          rewrite (word_fail _ _ _ OK); [reflexivity|reflexivity|]. intros r0 W1.
          destruct (word_unique _ _ _ OK (u "id") (u "ip") _ _ _ eq_refl eq_refl W W1) as (E & _). discriminate. }
        assert (P2 : pmap Some (p_set_expr pe) (skip s) = PFail).
        { apply pmap_fail. unfold CafText.p_set_expr. rewrite (lex_idem isspace). unfold lex, pbind. rewrite (tok_skip isalpha isalnum isspace).
          rewrite (sym_fail _ _ _ OK); [reflexivity|reflexivity|]. intros r0 W1. apply (symy_skip _ _ _ OK (u "(")) in W1; [|reflexivity]. rewrite W0 in W1. discriminate. }
        assert (P3 : pmap (fun _ => @None cobj) p_comments (skip s) = PFail).
        { apply pmap_fail. unfold CafText.p_comments. rewrite (lex_idem isspace). fold p_comments. apply (p_comments_fail _ _ _ OK).
          destruct (p_comment s) as [|e|x r0] eqn:C; [reflexivity|now apply p_comment_noerr in C|].
          apply (p_comment_spec _ _ _ OK), (comment_skip _ _ _ OK) in C as (t & C). rewrite W0 in C. discriminate. }
        now rewrite P1, P2. }
      rewrite (many_stop _ _ F) in M. injection M as _ <-. apply (after_set_noword (u "id") s r'); auto. intros (o & H). now apply no_id in H.
    Qed.
  End Complete.

  Lemma p_expr_unfold n s : p_expr (S n) s = pmap (fun x => CE (fst x) (snd x)) (op_rest (p_expr n) (S n)) (skip s).
  Proof using.
    clear. cbn [CafText.p_expr]. unfold lex. rewrite choice2. unfold op_rest, por, pmap, pbind, ret. rewrite choice2. unfold por.
    destruct (p_expr_r (p_expr n) (S n) (skip s)); try reflexivity. now destruct (p_set (p_expr n) (skip s)).
  Qed.
  Lemma p_set_eq pe s s' : skip s = skip s' -> p_set pe s = p_set pe s'.
  Proof using. clear. intros E. unfold CafText.p_set, lex. now rewrite E. Qed.
  Lemma item_eq pe m s s' : skip s = skip s' -> op_item pe m s = op_item pe m s'.
  Proof using. clear. intros E. unfold op_item, pbind. now rewrite (p_op_eq _ _ _ _ _ E). Qed.
  Lemma rest_complete n m s x l t s1 r : p_set (p_expr n) s = POk x t -> skip t = skip s1 -> ends r ->
    (l = [] /\ s1 = r \/ l <> [] /\ exists r', op_item (p_expr n) m s1 = POk l r' /\ skip r' = skip r) ->
    exists r', op_rest (p_expr n) (S m) s = POk (x, l) r' /\ skip r' = skip r.
  Proof.
    intros P E F C. unfold op_rest. rewrite choice2. unfold por. rewrite p_expr_r_unfold, P. destruct C as [(-> & ->)|(Nl & r' & I & E')].
    - assert (O : p_op t = PFail) by (rewrite (p_op_eq _ _ _ _ _ E); now apply ends_noop). rewrite (many_stop (op_item (p_expr n) m)) by now apply item_fail.
      exists t. split; [|auto]. apply pmap_ok. eauto.
    - rewrite (item_eq _ _ _ t) in I by auto. assert (O : p_op r' = PFail) by (rewrite (p_op_eq _ _ _ _ _ E'); now apply ends_noop).
      rewrite (many_step (op_item (p_expr n) m) t l r' [] r'); [exists r'; auto|auto| |].
      + eapply item_len; [|exact I]. apply p_expr_sound.
      + apply many_stop. now apply item_fail.
  Qed.
  Lemma ops_after l s r : ops_text l s r -> ends r -> after_set s.
  Proof using. clear. intros [s'|o x l' s' s1 s2 r' W _ _] E; [now left|right; eauto]. Qed.

  Lemma complete : (forall e s r, expr_text e s r -> forall n, length s < n -> ends r -> exists r', p_expr n s = POk e r' /\ skip r' = skip r) /\
    (forall l s r, ops_text l s r -> forall n m, length s <= n -> length s <= m -> ends r -> l <> [] ->
       exists r', op_item (p_expr n) m s = POk l r' /\ skip r' = skip r) /\
    (forall x s r, set_text x s r -> forall n, length s <= n -> after_set r -> exists r', p_set (p_expr n) s = POk x r' /\ skip r' = skip r) /\
    (forall l s r, objs_text l s r -> forall n, length s <= n -> after_set r ->
       exists raw, many (p_set_r (p_expr n)) s = POk raw r /\ drop_none raw = l).
  Proof.
    apply (caf_text_ind isalnum isspace
      (fun e s r _ => forall n, length s < n -> ends r -> exists r', p_expr n s = POk e r' /\ skip r' = skip r)
      (fun l s r _ => forall n m, length s <= n -> length s <= m -> ends r -> l <> [] -> exists r', op_item (p_expr n) m s = POk l r' /\ skip r' = skip r)
      (fun x s r _ => forall n, length s <= n -> after_set r -> exists r', p_set (p_expr n) s = POk x r' /\ skip r' = skip r)
      (fun l s r _ => forall n, length s <= n -> after_set r -> exists raw, many (p_set_r (p_expr n)) s = POk raw r /\ drop_none raw = l)).
    - intros f l s s1 r St IHs Ot IHo [|n] L E; [lia|]. rewrite p_expr_unfold.
      destruct (IHs n ltac:(lia) (ops_after _ _ _ Ot E)) as (t & P & Et).
      destruct (rest_complete n n (skip s) f l t s1 r) as (r' & R & E'); auto.
      + rewrite (p_set_eq _ (skip s) s) by apply skip_idem. auto.
      + destruct l as [|x l]; [left; inversion Ot; auto|right]. split; [discriminate|]. apply set_text_le in St. apply IHo; [plia|plia|auto|discriminate].
      + exists r'. split; [|auto]. apply pmap_ok. eauto.
    - intros s n m _ _ _ H. congruence.
    - intros o x l s s1 s2 r W St IHs Ot IHo n m Ln Lm E _. pose proof (word_lt _ _ _ OK _ _ _ (op_wordy o) W) as Lt.
      destruct m as [|m]; [plia|]. destruct (IHs n ltac:(plia) (ops_after _ _ _ Ot E)) as (t & P & Et).
      destruct (rest_complete n m s1 x l t s2 r) as (r' & R & E'); auto.
      + destruct l as [|y l]; [left; inversion Ot; auto|right]. split; [discriminate|]. apply set_text_le in St. apply IHo; [plia|plia|auto|discriminate].
      + exists r'. split; [|auto]. unfold op_item, pbind, ret. apply (p_op_spec _ _ _ OK) in W. now rewrite W, R.
    - intros id l s s1 s2 r C I O IH n L A. unfold CafText.p_set, lex, pbind, ret.
      assert (C' : exists u1, comments (skip s) u1 /\ skip u1 = skip s1).
      { apply (comments_eq _ _ _ OK s); [symmetry; apply skip_idem|auto]. }
      destruct C' as (u1 & C' & Eu).
      destruct (popt_comments _ _ _ OK (skip s)) as (o & t & P & t0 & Ct & Et & _ & Ft). rewrite P.
      assert (Ft0 : p_comment t0 = PFail).
      { unfold CafText.p_comment, lex in *. now rewrite Et. }
      pose proof (comments_max _ _ _ OK _ _ _ C' Ct Ft0) as Cm.
      apply (comments_eq _ _ _ OK _ s1) in Cm as (t1 & Cm & Et1); [|auto].
      (* t is the end of the run of comments from s1, up to white space *)
      assert (Ft1 : p_comment t1 = PFail).
      { unfold CafText.p_comment, lex in *. now rewrite Et1. }
      assert (Ett : skip t = skip t1) by congruence.
      pose proof (comments_le _ _ _ C) as L1.
      destruct id as [p|].
      + cbn in I. destruct I as (s3 & W & R). assert (s1 = t1).
        { destruct Cm as [s0|s0 s4 r0 C1 Cm]; [auto|]. exfalso. apply (comment_skip _ _ _ OK) in C1 as (k & C1). apply word_first in W; [|reflexivity]. rewrite W in C1. discriminate. }
        subst t1. assert (Id : p_set_id t = POk p s2).
        { unfold CafText.p_set_id, lex in *. rewrite Ett. apply (p_set_id_spec _ _ _ OK). exists s3. auto. }
        unfold popt. rewrite Id. apply (word_lt _ _ _ OK) in W; [|reflexivity]. apply run_lt in R.
        destruct (IH n ltac:(plia) A) as (raw & M & D). rewrite M. exists r. subst l. auto.
      + cbn in I. subst s2. destruct (IH n ltac:(plia) A) as (raw & M & D).
        assert (M1 : exists raw1, many (p_set_r (p_expr n)) t1 = POk raw1 r /\ drop_none raw1 = l).
        { destruct Cm as [s0|s0 s4 r0 C1 Cm]; [eauto|].
          assert (Pc : p_comments s0 = POk tt r0).
          { apply (p_comments_ok _ _ _ OK). split; [econstructor; eauto|]. split; [auto|]. apply (p_comment_spec _ _ _ OK s0 tt) in C1. congruence. }
          apply (p_set_r_comment (p_expr n)) in Pc. rewrite many_unfold, Pc in M.
          assert (Lt : length r0 < length s0) by (apply comment_lt in C1; apply comments_le in Cm; plia).
          apply Nat.ltb_lt in Lt. unfold pystr in *. rewrite Lt in M. destruct (many (p_set_r (p_expr n)) r0) as [|e|raw1 r1]; try discriminate.
          injection M as <- <-. cbn in D. eauto. }
        destruct M1 as (raw1 & M1 & D1). pose proof (set_r_noid _ _ _ _ M1 A) as Nid.
        assert (Nid' : p_set_id t = PFail) by (unfold CafText.p_set_id, lex in *; now rewrite Ett).
        unfold popt. rewrite Nid'.
        assert (M2 : exists r', many (p_set_r (p_expr n)) t = POk raw1 r' /\ skip r' = skip r).
        { assert (Pt : p_set_r (p_expr n) t = p_set_r (p_expr n) t1) by (unfold CafText.p_set_r, lex; now rewrite Ett).
          destruct raw1 as [|x raw1].
          - pose proof (many_inv _ _ _ _ M1) as Er. cbn in Er. subst t1. exists t. split; [|auto]. apply many_stop. rewrite Pt. now apply p_set_r_fail.
          - destruct (many_inv _ _ _ _ M1) as (s4 & P4 & L4 & M4). exists r. split; [|auto]. eapply many_step; [rewrite Pt; exact P4| |exact M4].
            apply p_set_r_sound in P4 as (L5 & _); [|apply p_expr_sound]. rewrite <- Ett in L5. pose proof (skip_le isspace t). plia. }
        destruct M2 as (r' & M2 & E'). rewrite M2. exists r'. rewrite D1. auto.
    - intros s n _ A. exists []. split; [|reflexivity]. apply many_stop. now apply p_set_r_fail.
    - intros l s s1 r C O IH n L A. pose proof (comment_lt _ _ _ C) as Lt. destruct (IH n ltac:(plia) A) as (raw & M & D).
      destruct (p_comment s1) as [|e|[] s2] eqn:P1.
      + assert (Pc : p_comments s = POk tt s1).
        { apply (p_comments_ok _ _ _ OK). split; [econstructor; [eauto|constructor]|]. split; [auto|]. apply (p_comment_spec _ _ _ OK s tt) in C. congruence. }
        apply (p_set_r_comment (p_expr n)) in Pc. exists (None :: raw). split; [|auto]. eapply many_step; eauto.
      + now apply p_comment_noerr in P1.
      + destruct (many_comment _ _ _ OK s1) as (k & r0 & _ & Cs & F & _).
        assert (Pc1 : p_comments s1 = POk tt r0).
        { apply (p_comments_ok _ _ _ OK). split; [auto|]. split; [auto|congruence]. }
        assert (Pc : p_comments s = POk tt r0).
        { apply (p_comments_ok _ _ _ OK). split; [econstructor; eauto|]. split; [auto|]. apply (p_comment_spec _ _ _ OK s tt) in C. congruence. }
        apply (p_set_r_comment (p_expr n)) in Pc, Pc1. apply comments_le in Cs.
        destruct raw as [|x raw].
        * pose proof (many_inv _ _ _ _ M) as E. cbn in E. subst s1. rewrite p_set_r_fail in Pc1 by auto. discriminate.
        * destruct (many_inv _ _ _ _ M) as (s4 & P4 & L4 & M4). rewrite Pc1 in P4. injection P4 as <- <-.
          exists (None :: raw). split; [|auto]. eapply many_step; [exact Pc|plia|exact M4].
    - intros d ns l s s1 s2 s3 r W D Nt O IH n L A. pose proof (word_lt _ _ _ OK (u "ip") _ _ eq_refl W) as L1.
      assert (Wd : wordy (dir_text d) = true) by (destruct d; reflexivity). pose proof (word_lt _ _ _ OK _ _ _ Wd D) as L2. pose proof (nets_text_lt _ _ _ OK _ _ _ Nt) as L3.
      destruct (IH n ltac:(plia) A) as (raw & M & Dr). exists (Some (OIp d ns) :: raw). split; [|cbn; now rewrite <- Dr].
      eapply many_step; [eapply p_set_r_ip; eauto; apply after_obj_nonet; eapply objs_after; eauto|plia|exact M].
    - intros e l s s1 s2 s3 r S1 Ex IHe S2 O IH n L A. pose proof (symy_lt _ _ _ OK (u "(") _ _ eq_refl S1) as L1.
      pose proof (symy_lt _ _ _ OK (u ")") _ _ eq_refl S2) as L2. pose proof (expr_text_le _ _ _ Ex) as L3.
      destruct (IHe n ltac:(plia)) as (r' & P & E'); [right; eauto|].
      destruct (IH n ltac:(plia) A) as (raw & M & Dr). exists (Some (OExpr e) :: raw). split; [|cbn; now rewrite <- Dr].
      eapply many_step; [eapply p_set_r_expr; eauto|plia|exact M].
  Qed.

  (** The parser accepts exactly the texts of an expression. *)
  Theorem p_grammar_spec s e : p_grammar isalpha isalnum isspace s = Ok e <-> written_as isalnum isspace e s.
  Proof.
    unfold p_grammar, written_as, lex. split.
    - destruct (p_expr (S (length s)) (skip s)) as [|x|e' r] eqn:P; try discriminate. destruct (skip r) as [|c t] eqn:R; [|discriminate]. intros [= ->].
      apply p_expr_sound in P as (r0 & P & E). apply (expr_text_eq _ _ _ OK _ _ s) in P as (r1 & P & E1); [|apply skip_idem].
      exists r1. split; [auto|]. apply skip_blank. congruence.
    - intros (r & Ex & B). apply skip_blank in B.
      apply (expr_text_eq _ _ _ OK _ _ (skip s)) in Ex as (r1 & Ex & E1); [|symmetry; apply skip_idem].
      destruct (proj1 complete _ _ _ Ex (S (length s))) as (r' & P & E').
      + pose proof (skip_le isspace s). plia.
      + left. congruence.
      + rewrite P. rewrite E', E1, B. reflexivity.
  Qed.

  (** *** Every other text is refused as a syntax error *)
  Lemma many_noerr {A} (p : parser A) B : (forall s e, length s <= B -> p s <> PErr e) -> forall s e, length s <= B -> many p s <> PErr e.
  Proof using.
    clear. intros P s. remember (length s) as n eqn:E. assert (L : length s <= n) by plia. clear E. revert s L.
    induction n as [|n IH]; intros s L e Lb; rewrite many_unfold; destruct (p s) as [|e'|x r] eqn:Ps; try discriminate; try (apply P in Ps; [easy|plia]);
      destruct (Nat.ltb_spec (@length N r) (@length N s)); try discriminate.
    - plia.
    - destruct (many p r) eqn:M; try discriminate. apply IH in M; [easy|plia|plia].
  Qed.
  Section NoErr.
    Context (pe : parser cexpr) (B : nat).
    Context (PE : forall s e r, pe s = POk e r -> exists r0, expr_text e s r0 /\ skip r0 = skip r).
    Context (NE : forall s e, length s < B -> pe s <> PErr e).
    Lemma p_set_r_noerr s e : length s <= B -> p_set_r pe s <> PErr e.
    Proof.
      intros L. unfold CafText.p_set_r, lex. rewrite choice3. unfold por, pmap, pbind, ret.
      destruct (p_set_ip (skip s)) eqn:P1; [|now apply p_set_ip_noerr in P1|discriminate].
      destruct (p_set_expr pe (skip s)) eqn:P2.
      - destruct (p_comments (skip s)) eqn:P3; [discriminate|now apply (p_comments_noerr _ _ _ OK) in P3|discriminate].
      - exfalso. revert P2. unfold CafText.p_set_expr. rewrite (lex_idem isspace). unfold lex, pbind. rewrite (tok_skip isalpha isalnum isspace).
        destruct (tok (u "(") s) as [|e'|x s1] eqn:T; [discriminate|now apply tok_noerr in T|]. apply (tok_sym _ _ _ OK) in T as (_ & T); [|reflexivity].
        apply (symy_lt _ _ _ OK) in T; [|reflexivity]. destruct (pe s1) as [|e'|x' s2] eqn:P; [discriminate|apply NE in P; [easy|plia]|].
        destruct (tok (u ")") s2) eqn:T2; [discriminate|now apply tok_noerr in T2|discriminate].
      - discriminate.
    Qed.
    Lemma p_set_noerr s e : length s <= B -> p_set pe s <> PErr e.
    Proof.
      intros L. unfold CafText.p_set, lex, pbind, ret. destruct (popt_comments _ _ _ OK (skip s)) as (o & s1 & P & s1' & C & E1 & Cs & _). rewrite P.
      pose proof (skip_le isspace s) as Ls. apply comments_le in C.
      assert (L1 : length s1 <= length s) by (destruct Cs as [-> | (-> & ->)]; plia).
      unfold popt. destruct (p_set_id s1) as [|e'|p s2] eqn:I; [|now apply p_set_id_noerr in I|].
      - destruct (many (p_set_r pe) s1) eqn:M; try discriminate. apply (many_noerr _ B) in M; [easy|intros; now apply p_set_r_noerr|plia].
      - apply (p_set_id_spec _ _ _ OK) in I as (s3 & W & R). apply (word_lt _ _ _ OK) in W; [|reflexivity]. apply run_lt in R.
        destruct (many (p_set_r pe) s2) eqn:M; try discriminate. apply (many_noerr _ B) in M; [easy|intros; now apply p_set_r_noerr|plia].
    Qed.
    Lemma p_expr_r_noerr : forall n s e, length s <= B -> length s < n -> p_expr_r pe n s <> PErr e.
    Proof.
      induction n as [|n IH]; intros s e Lb Ln; [plia|]. rewrite p_expr_r_unfold. destruct (p_set pe s) as [|e'|a s1] eqn:PS; [discriminate|now apply p_set_noerr in PS|].
      apply (set_len pe PE) in PS.
      destruct (many (op_item pe n) s1) as [|e'|[|x l] r] eqn:M; try discriminate. exfalso. apply (many_noerr _ (length s1)) in M; [easy| |plia].
      intros t e0 Lt. unfold op_item, pbind, ret. destruct (p_op t) as [|e1|o t1] eqn:O; [discriminate|now apply p_op_noerr in O|].
      apply (p_op_spec _ _ _ OK), (word_lt _ _ _ OK) in O; [|apply op_wordy].
      destruct (op_rest pe n t1) as [|e1|x t2] eqn:R; try discriminate. exfalso. revert R. unfold op_rest. rewrite choice2. unfold por.
      destruct (p_expr_r pe n t1) eqn:P; [|apply IH in P; [easy|plia|plia]|discriminate]. unfold pmap, pbind, ret.
      destruct (p_set pe t1) eqn:PS1; [discriminate|apply p_set_noerr in PS1; [easy|plia]|discriminate].
    Qed.
  End NoErr.
  Lemma p_expr_noerr : forall n s e, length s < n -> p_expr n s <> PErr e.
  Proof.
    induction n as [|n IH]; intros s e L; [plia|]. rewrite p_expr_unfold. unfold pmap, pbind, ret. pose proof (skip_le isspace s) as Ls.
    destruct (op_rest (p_expr n) (S n) (skip s)) as [|e'|x r] eqn:R; try discriminate. exfalso. revert R. unfold op_rest. rewrite choice2. unfold por.
    destruct (p_expr_r (p_expr n) (S n) (skip s)) eqn:P; [|exfalso; revert P; apply (p_expr_r_noerr (p_expr n) n (p_expr_sound n)); [intros; now apply IH|plia|plia]|discriminate].
    unfold pmap, pbind, ret. destruct (p_set (p_expr n) (skip s)) eqn:PS; [discriminate|exfalso; revert PS; apply (p_set_noerr (p_expr n) n (p_expr_sound n)); [intros; now apply IH|plia]|discriminate].
  Qed.
  Theorem p_grammar_err s x : p_grammar isalpha isalnum isspace s = Err x -> x = FailedParse.
  Proof.
    unfold p_grammar, lex. destruct (p_expr (S (length s)) (skip s)) as [|e|e r] eqn:P.
    - congruence.
    - apply p_expr_noerr in P; [easy|]. pose proof (skip_le isspace s). plia.
    - destruct (skip r); congruence.
  Qed.
End Expr.
