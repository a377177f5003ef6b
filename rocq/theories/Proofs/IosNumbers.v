(** The numbers of numbered IOS access lists. *)
From Coq Require Import Lia String.
From Verif.Model Require Import Base Ip Hosts Groups Iface Peg Ids AddrText Ports AclText IosText.
From Verif.Spec Require Import AddrSpec RefSpec AddrTextSpec CafTextSpec CafMeanSpec AclTextSpec IosTextSpec.
From Verif.Proofs Require Import PegFacts AddrTextFacts CafTextFacts TokFacts CafMean LineFacts AclTextFacts AclOptFacts.
Local Open Scope list_scope.

Definition fits (l : list (N * N)) (t : pystr) : Prop := Forall2 (fun c x => (fst x <= c <= snd x)%N) t l.
Lemma pattern_iff l : forall s t r, pattern l s = POk t r <-> s = t ++ r /\ fits l t.
Proof.
  induction l as [|[a b] l IH]; intros s t r; cbn [pattern].
  - split; [intros [= <- <-]; split; [auto|constructor]|]. intros (-> & F). inversion F. reflexivity.
  - destruct s as [|c s]; [split; [discriminate|intros (X & F); inversion F; subst; discriminate]|]. unfold in_range. destruct (_ && _) eqn:C.
    + apply andb_true_iff in C as (C1 & C2). apply N.leb_le in C1, C2. destruct (pattern l s) as [|e|t' r'] eqn:P.
      * split; [discriminate|]. intros (X & F). inversion F as [|? ? t2 ? B F']; subst. cbn [app] in X. injection X as -> ->. assert (Q : pattern l (t2 ++ r) = POk t2 r) by (apply IH; auto). congruence.
      * split; [discriminate|]. intros (X & F). inversion F as [|? ? t2 ? B F']; subst. cbn [app] in X. injection X as -> ->. assert (Q : pattern l (t2 ++ r) = POk t2 r) by (apply IH; auto). congruence.
      * apply IH in P as (-> & F). split.
        -- intros [= <- <-]. split; [auto|]. constructor; auto.
        -- intros (X & F'). inversion F' as [|? ? t2 ? B F2]; subst. cbn [app] in X. injection X as -> X. assert (Q : pattern l (t2 ++ r) = POk t2 r) by (apply IH; auto).
           rewrite <- X in Q. assert (Q' : pattern l (t' ++ r') = POk t' r') by (apply IH; auto). rewrite Q in Q'. injection Q' as -> ->. reflexivity.
    + split; [discriminate|]. intros (X & F). inversion F as [|? ? t2 ? B F']; subst. injection X as -> ->. cbn in B. apply andb_false_iff in C as [C|C]; apply N.leb_gt in C; lia.
Qed.
Lemma pattern_noerr l : forall s e, pattern l s <> PErr e.
Proof.
  induction l as [|[a b] l IH]; intros [|c s] e; cbn [pattern]; try discriminate. destruct (in_range a b c); [|discriminate]. specialize (IH s e). destruct (pattern l s); try discriminate. congruence.
Qed.
Lemma ws_blank r : starts is_blank r -> exists q, ws r = POk tt q.
Proof.
  intros B. unfold ws, pbind, pat1, ret. destruct (span is_blank r) as (a & b) eqn:S. apply span_iff in S as (-> & F & N). destruct a as [|c a]; [cbn in B; contradiction|eauto].
Qed.
Lemma ws_noerr r e : ws r <> PErr e.
Proof. unfold ws, pbind, pat1, ret. destruct (span is_blank r) as ([|c a] & b); discriminate. Qed.
Lemma look_ws_ok r : starts is_blank r -> look ws r = POk tt r.
Proof. intros B. unfold look. destruct (ws_blank r B) as (q & ->). reflexivity. Qed.
Lemma look_ws_sound r x q : look ws r = POk x q -> q = r /\ starts is_blank r.
Proof.
  unfold look. destruct (ws r) as [|e|y q'] eqn:W; try discriminate. intros [= _ <-]. split; [auto|]. apply ws_sound in W as (g & -> & G). now apply gap_nonblank.
Qed.
Lemma followed_iff p s t r : (forall s e, p s <> PErr e) -> (followed p s = POk t r <-> p s = POk t r /\ starts is_blank r) /\ (forall e, followed p s <> PErr e).
Proof.
  intros NE. unfold followed, pbind. specialize (NE s). destruct (p s) as [|e|t' r'] eqn:P.
  - split; [|discriminate]. split; [discriminate|]. intros (H & _). discriminate H.
  - now destruct (NE e).
  - destruct (look ws r') as [|e|x q] eqn:L.
    + split; [|discriminate]. split; [discriminate|]. intros ([= <- <-] & B). rewrite (look_ws_ok _ B) in L. discriminate L.
    + exfalso. unfold look in L. destruct (ws r') as [|e'|] eqn:W; try discriminate. now apply ws_noerr in W.
    + apply look_ws_sound in L as (-> & B). split; [|discriminate]. unfold ret. split; [intros [= <- <-]; auto|intros ([= <- <-] & _); auto].
Qed.

(** ** Numbers *)
Lemma int10_snoc t c : int10 (t ++ [c]) = (10 * int10 t + (c - 48))%N.
Proof. unfold int10. now rewrite fold_left_app. Qed.
Lemma int10_bound t : forallb AddrText.is_digit t = true -> (int10 t < 10 ^ N.of_nat (length t))%N.
Proof.
  induction t as [|c t IH] using rev_ind; [reflexivity|]. rewrite forallb_app. intros H. apply andb_true_iff in H as (H & C). cbn in C. rewrite andb_true_r in C. apply is_digit_spec in C.
  specialize (IH H). rewrite int10_snoc, app_length. replace (N.of_nat (length t + length [c])) with (N.succ (N.of_nat (length t))) by (cbn; lia). rewrite N.pow_succ_r'. unfold digit in C. lia.
Qed.
Lemma int10_large c t : digit c -> c <> 48%N -> forallb AddrText.is_digit t = true -> (10 ^ N.of_nat (length t) <= int10 (c :: t))%N.
Proof.
  intros D N. induction t as [|d t IH] using rev_ind; intros H; [unfold digit in D; cbn; unfold digit_val; lia|]. rewrite forallb_app in H. apply andb_true_iff in H as (H & C).
  cbn in C. rewrite andb_true_r in C. apply is_digit_spec in C. specialize (IH H). change (c :: t ++ [d]) with ((c :: t) ++ [d]). rewrite int10_snoc, app_length.
  replace (N.of_nat (length t + length [d])) with (N.succ (N.of_nat (length t))) by (cbn; lia). rewrite N.pow_succ_r'. unfold digit in C. lia.
Qed.
Lemma list_number_length k n lo hi t : list_number lo hi t -> (10 ^ k <= lo)%N -> (hi < 10 ^ n)%N -> (k < N.of_nat (length t) <= n)%N.
Proof.
  intros (v & D & B & Z) L H. apply decimal_text_spec in D as (Nt & F & <-). destruct t as [|c t]; [congruence|]. pose proof (int10_bound _ F) as U. cbn in F. apply andb_true_iff in F as (C & F).
  apply is_digit_spec in C. pose proof (int10_large c t C) as Q. assert (N0 : c <> 48%N) by (intros ->; exact (Z t eq_refl)). specialize (Q N0 F). split.
  - assert (X : (10 ^ k < 10 ^ N.of_nat (length (c :: t)))%N) by lia. apply N.pow_lt_mono_r_iff in X; lia.
  - assert (X : (10 ^ N.of_nat (length t) < 10 ^ n)%N) by lia. apply N.pow_lt_mono_r_iff in X; cbn [length]; lia.
Qed.
Ltac digs := repeat match goal with H : _ && _ = true |- _ => apply andb_true_iff in H as (?H & ?H) | H : forallb _ _ = true |- _ => cbn [forallb] in H end.
Ltac arith := unfold AddrText.is_digit in *; rewrite ?andb_true_iff, ?N.leb_le in *; cbv [int10 fold_left digit_val] in *; lia.
Definition std_pats : list (list (N * N)) := [[(49, 57)]; [(49, 57); (48, 57)]; [(49, 49); (51, 51); (48, 57); (48, 57)]]%N.
Definition ext_pats : list (list (N * N)) := [[(49, 49); (48, 57); (48, 57)]; [(50, 50); (48, 54); (48, 57); (48, 57)]]%N.
Lemma fits_number lo hi l t : match l with (a, _) :: _ => (a <> 48)%N | [] => False end -> (forall x, In x l -> (48 <= fst x /\ snd x <= 57)%N) -> (48 < fst (hd (0, 0) l))%N ->
  fits l t -> (lo <= int10 t <= hi)%N -> list_number lo hi t.
Proof.
  intros H0 R L F B. exists (int10 t). split; [|split; [auto|]].
  - apply decimal_text_spec. split; [inversion F; subst; [destruct H0|discriminate]|]. split; [|auto]. clear H0 L B. induction F as [|c x t l C F IH]; [auto|]. cbn. rewrite IH by (intros; apply R; now right).
    specialize (R x (or_introl eq_refl)). rewrite andb_true_r. apply is_digit_spec. unfold digit. lia.
  - intros t' ->. inversion F as [|? x ? l' C]; subst. cbn in L. lia.
Qed.
Ltac unfits H := repeat match type of H with fits _ _ => unfold fits in H | Forall2 _ _ (_ :: _) => let F := fresh in inversion H as [|? ? ? ? ? F]; subst; clear H; rename F into H | Forall2 _ _ [] => inversion H; subst; clear H end; cbn [fst snd] in *.
Lemma std_number t : (list_number 1 99 t \/ list_number 1300 1399 t) <-> exists l, In l std_pats /\ fits l t.
Proof.
  split.
  - intros [H|H].
    + pose proof (list_number_length 0 2 1 99 t H ltac:(cbn; lia) ltac:(cbn; lia)) as L. destruct H as (v & D & B & Z). apply decimal_text_spec in D as (_ & F & <-).
      destruct t as [|a [|b [|c t]]]; cbn [length] in L; [lia| | |lia]; digs; assert (a <> 48%N) by (intros ->; eapply Z; reflexivity).
      * exists [(49, 57)]%N. split; [cbn; auto|]. repeat constructor; cbn [fst snd]; arith.
      * exists [(49, 57); (48, 57)]%N. split; [cbn; auto|]. repeat constructor; cbn [fst snd]; arith.
    + pose proof (list_number_length 3 4 1300 1399 t H ltac:(cbn; lia) ltac:(cbn; lia)) as L. destruct H as (v & D & B & Z). apply decimal_text_spec in D as (_ & F & <-).
      destruct t as [|a [|b [|c [|d [|e t]]]]]; cbn [length] in L; try lia; digs. exists [(49, 49); (51, 51); (48, 57); (48, 57)]%N. split; [cbn; auto|]. repeat constructor; cbn [fst snd]; arith.
  - intros (l & I & F). cbn in I. destruct I as [<-|[<-|[<-|[]]]].
    + left. eapply fits_number; eauto; cbn; [lia|intros x [<-|[]]; cbn; lia|lia|]. unfits F. arith.
    + left. eapply fits_number; eauto; cbn; [lia|intros x [<-|[<-|[]]]; cbn; lia|lia|]. unfits F. arith.
    + right. eapply fits_number; eauto; cbn; [lia|intros x [<-|[<-|[<-|[<-|[]]]]]; cbn; lia|lia|]. unfits F. arith.
Qed.
Lemma ext_number t : (list_number 100 199 t \/ list_number 2000 2699 t) <-> exists l, In l ext_pats /\ fits l t.
Proof.
  split.
  - intros [H|H].
    + pose proof (list_number_length 2 3 100 199 t H ltac:(cbn; lia) ltac:(cbn; lia)) as L. destruct H as (v & D & B & Z). apply decimal_text_spec in D as (_ & F & <-).
      destruct t as [|a [|b [|c [|d t]]]]; cbn [length] in L; try lia; digs. exists [(49, 49); (48, 57); (48, 57)]%N. split; [cbn; auto|]. repeat constructor; cbn [fst snd]; arith.
    + pose proof (list_number_length 3 4 2000 2699 t H ltac:(cbn; lia) ltac:(cbn; lia)) as L. destruct H as (v & D & B & Z). apply decimal_text_spec in D as (_ & F & <-).
      destruct t as [|a [|b [|c [|d [|e t]]]]]; cbn [length] in L; try lia; digs. exists [(50, 50); (48, 54); (48, 57); (48, 57)]%N. split; [cbn; auto|]. repeat constructor; cbn [fst snd]; arith.
  - intros (l & I & F). cbn in I. destruct I as [<-|[<-|[]]].
    + left. eapply fits_number; eauto; cbn; [lia|intros x [<-|[<-|[<-|[]]]]; cbn; lia|lia|]. unfits F. arith.
    + right. eapply fits_number; eauto; cbn; [lia|intros x [<-|[<-|[<-|[<-|[]]]]]; cbn; lia|lia|]. unfits F. arith.
Qed.
Lemma fits_digits l t : In l (std_pats ++ ext_pats) -> fits l t -> t <> [] /\ forallb AddrText.is_digit t = true.
Proof.
  intros I F. assert (R : l <> [] /\ forall x, In x l -> (48 <= fst x /\ snd x <= 57)%N).
  { cbn in I. destruct I as [<-|[<-|[<-|[<-|[<-|[]]]]]]; (split; [discriminate|]); intros x X; cbn in X; repeat (destruct X as [<-|X]; [cbn; lia|]); destruct X. }
  destruct R as (N & R). split; [inversion F; subst; [congruence|discriminate]|]. clear N I. induction F as [|c x t l C F IH]; [auto|]. cbn. rewrite IH by (intros; apply R; now right).
  specialize (R x (or_introl eq_refl)). rewrite andb_true_r. apply is_digit_spec. unfold digit. lia.
Qed.
(** A run of digits before a blank is determined by the text. *)
Lemma digits_split t t' r r' : forallb AddrText.is_digit t = true -> forallb AddrText.is_digit t' = true -> starts is_blank r -> starts is_blank r' -> t ++ r = t' ++ r' -> t = t' /\ r = r'.
Proof.
  assert (K : forall c, AddrText.is_digit c = true -> is_blank c = true -> False) by (intros c D B; apply is_digit_spec in D; apply is_blank_spec in B; unfold digit in D; lia).
  revert t'. induction t as [|c t IH]; intros [|d t'] F F' S S' X; cbn [app] in X.
  - auto.
  - subst r. rewrite starts_cons in S. cbn in F'. apply andb_true_iff in F'. exfalso. eapply K; [apply F'|exact S].
  - subst r'. rewrite starts_cons in S'. cbn in F. apply andb_true_iff in F. exfalso. eapply K; [apply F|exact S'].
  - injection X as -> X. cbn in F, F'. apply andb_true_iff in F as (_ & F). apply andb_true_iff in F' as (_ & F'). destruct (IH t' F F' S S' X) as (-> & ->). auto.
Qed.
Lemma one_or_two_noerr s e : por (pattern [(49, 57); (48, 57)]%N) (pattern [(49, 57)]%N) s <> PErr e.
Proof. unfold por. pose proof (pattern_noerr [(49, 57); (48, 57)]%N s) as A. pose proof (pattern_noerr [(49, 57)]%N s) as B. destruct (pattern _ s); auto; discriminate. Qed.
Lemma std_id_noerr s e : std_id s <> PErr e.
Proof.
  unfold std_id, por. pose proof (proj2 (followed_iff _ s [] [] one_or_two_noerr)) as A. pose proof (proj2 (followed_iff _ s [] [] (pattern_noerr [(49, 49); (51, 51); (48, 57); (48, 57)]%N))) as B.
  specialize (A e). specialize (B e). unfold por in A. destruct (followed _ s) eqn:Q; auto; congruence.
Qed.
Lemma ext_id_noerr s e : ext_id s <> PErr e.
Proof.
  unfold ext_id, por. pose proof (proj2 (followed_iff _ s [] [] (pattern_noerr [(49, 49); (48, 57); (48, 57)]%N))) as A. pose proof (proj2 (followed_iff _ s [] [] (pattern_noerr [(50, 50); (48, 54); (48, 57); (48, 57)]%N))) as B.
  specialize (A e). specialize (B e). destruct (followed _ s) eqn:Q; auto; congruence.
Qed.
Lemma std_id_sound s t r : std_id s = POk t r -> s = t ++ r /\ (list_number 1 99 t \/ list_number 1300 1399 t) /\ starts is_blank r.
Proof.
  unfold std_id. intros H. apply por_sound in H as [H|H].
  - apply (followed_iff _ _ _ _ one_or_two_noerr) in H as (H & B). apply por_sound in H as [H|H]; apply pattern_iff in H as (-> & F); (split; [auto|]; split; [|auto]); apply std_number; eexists; (split; [|exact F]); cbn; auto.
  - apply (followed_iff _ _ _ _ (pattern_noerr _)) in H as (H & B). apply pattern_iff in H as (-> & F). split; [auto|]. split; [|auto]. apply std_number. eexists. split; [|exact F]. cbn. auto.
Qed.
Lemma ext_id_sound s t r : ext_id s = POk t r -> s = t ++ r /\ (list_number 100 199 t \/ list_number 2000 2699 t) /\ starts is_blank r.
Proof.
  unfold ext_id. intros H. apply por_sound in H as [H|H]; apply (followed_iff _ _ _ _ (pattern_noerr _)) in H as (H & B); apply pattern_iff in H as (-> & F); (split; [auto|]; split; [|auto]);
  apply ext_number; eexists; (split; [|exact F]); cbn; auto.
Qed.
Lemma fits_len l t : fits l t -> length t = length l. Proof. induction 1; cbn; auto. Qed.
Lemma followed_miss p l t r : (forall s t r, p s = POk t r -> exists l', In l' l /\ s = t ++ r /\ fits l' t) -> (forall s e, p s <> PErr e) -> (forall l', In l' l -> In l' (std_pats ++ ext_pats)) ->
  forallb AddrText.is_digit t = true -> starts is_blank r -> (forall l', In l' l -> ~ fits l' t) -> followed p (t ++ r) = PFail.
Proof.
  intros P NE IL D B N. destruct (followed p (t ++ r)) as [|e|t' r'] eqn:Q; [auto|exfalso; now apply (proj2 (followed_iff p (t ++ r) [] [] NE)) in Q|exfalso].
  apply (followed_iff p _ _ _ NE) in Q as (Q & B'). apply P in Q as (l' & I & X & F). destruct (fits_digits l' t' (IL _ I) F) as (_ & D'). destruct (digits_split _ _ _ _ D D' B B' X) as (<- & <-). exact (N l' I F).
Qed.
Lemma std_id_ok t r : list_number 1 99 t \/ list_number 1300 1399 t -> starts is_blank r -> std_id (t ++ r) = POk t r.
Proof.
  intros H B. apply std_number in H as (l & I & F). assert (D : forallb AddrText.is_digit t = true) by (apply (fits_digits l); auto; apply in_or_app; auto). unfold std_id.
  cbn in I. destruct I as [<-|[<-|[<-|[]]]].
  - apply por_l. apply (followed_iff _ _ _ _ one_or_two_noerr). split; [|auto]. apply por_r; [|apply pattern_iff; auto].
    unfits F. cbn [app pattern]. unfold in_range. destruct (_ && _); [|auto]. destruct B as (b & r' & -> & Bb). apply is_blank_spec in Bb.
    replace (_ && _) with false; [auto|symmetry]. apply andb_false_iff. left. apply N.leb_gt. lia.
  - apply por_l. apply (followed_iff _ _ _ _ one_or_two_noerr). split; [|auto]. apply por_l, pattern_iff; auto.
  - apply por_r; [|apply (followed_iff _ _ _ _ (pattern_noerr _)); split; [apply pattern_iff; auto|auto]].
    apply (followed_miss _ [[(49, 57); (48, 57)]; [(49, 57)]]%N); auto.
    + intros s t' r' Q. apply por_sound in Q as [Q|Q]; apply pattern_iff in Q as (-> & Ft); eexists; (split; [|split; [reflexivity|exact Ft]]); cbn; auto.
    + apply one_or_two_noerr.
    + intros l' [<-|[<-|[]]]; cbn; auto.
    + apply fits_len in F. intros l' [<-|[<-|[]]] F'; apply fits_len in F'; cbn in *; lia.
Qed.
Lemma ext_id_ok t r : list_number 100 199 t \/ list_number 2000 2699 t -> starts is_blank r -> ext_id (t ++ r) = POk t r.
Proof.
  intros H B. apply ext_number in H as (l & I & F). assert (D : forallb AddrText.is_digit t = true) by (apply (fits_digits l); auto; apply in_or_app; auto). unfold ext_id.
  cbn in I. destruct I as [<-|[<-|[]]].
  - apply por_l. apply (followed_iff _ _ _ _ (pattern_noerr _)). split; [|auto]. apply pattern_iff; auto.
  - apply por_r; [|apply (followed_iff _ _ _ _ (pattern_noerr _)); split; [apply pattern_iff; auto|auto]].
    apply (followed_miss _ [[(49, 49); (48, 57); (48, 57)]]%N); auto.
    + intros s t' r' Q. apply pattern_iff in Q as (-> & Ft); eexists; (split; [|split; [reflexivity|exact Ft]]); cbn; auto.
    + apply pattern_noerr.
    + intros l' [<-|[]]; cbn; auto.
    + apply fits_len in F. intros l' [<-|[]] F'; apply fits_len in F'; cbn in *; lia.
Qed.
Lemma number_word lo hi t : list_number lo hi t -> t <> [] /\ forallb AddrText.is_digit t = true.
Proof. intros (v & D & _). apply decimal_text_spec in D. tauto. Qed.
Lemma ext_id_std t r : list_number 1 99 t \/ list_number 1300 1399 t -> starts is_blank r -> ext_id (t ++ r) = PFail.
Proof.
  intros H B. assert (D : forallb AddrText.is_digit t = true) by (destruct H as [H|H]; now apply number_word in H).
  destruct (ext_id (t ++ r)) as [|e|t' r'] eqn:Q; [auto|now apply ext_id_noerr in Q|exfalso]. apply ext_id_sound in Q as (X & L & B').
  assert (D' : forallb AddrText.is_digit t' = true) by (destruct L as [L|L]; now apply number_word in L). destruct (digits_split _ _ _ _ D D' B B' X) as (<- & _).
  assert (K : forall lo hi, list_number lo hi t -> (lo <= int10 t <= hi)%N) by (intros lo hi (v & Dv & Bv & _); apply decimal_text_spec in Dv as (_ & _ & ->); auto).
  destruct H as [H|H]; apply K in H; destruct L as [L|L]; apply K in L; lia.
Qed.
