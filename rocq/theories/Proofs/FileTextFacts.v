(** Whole configurations as text: skipped lines. *)
From Coq Require Import Lia String.
From Verif.Model Require Import Base Ip Hosts Groups Rules Nat Iface Peg Ids AddrText Ports AclText Define GroupText ObjText LineText NatText FileText.
From Verif.Spec Require Import AddrSpec AddrTextSpec RefSpec CafMeanSpec CafTextSpec AclTextSpec GroupTextSpec ObjTextSpec LineTextSpec FileTextSpec.
From Verif.Spec Require NatTextSpec.
From Verif.Proofs Require Import DictFacts PegFacts TokFacts CafTextFacts LineFacts GroupTextFacts LineTextFacts NoErr.
Local Open Scope list_scope.

(** ** The table of words *)
Definition word_of (e : string * shape * bool) : string := fst (fst e).
Definition memb (w : string) (l : list string) : bool := existsb (String.eqb w) l.
Lemma memb_in w l : memb w l = true <-> In w l.
Proof.
  unfold memb. rewrite existsb_exists. split; [intros (x & I & E); apply String.eqb_eq in E; now subst|]. intros I. exists w. split; [auto|apply String.eqb_refl].
Qed.
Fixpoint prefixb (a b : pystr) : bool :=
  match a, b with [], _ => true | x :: a', y :: b' => N.eqb x y && prefixb a' b' | _, _ => false end.
Lemma prefixb_ok a b : prefixb a (a ++ b) = true.
Proof. induction a as [|x a IH]; cbn; [auto|]. now rewrite N.eqb_refl. Qed.
Lemma prefix_cases a b x y : a ++ x = b ++ y -> prefixb a b = true \/ prefixb b a = true /\ (length b < length a)%nat.
Proof.
  revert b. induction a as [|c a IH]; intros b E; [now left|]. destruct b as [|d b]; [right; split; [auto|cbn; lia]|].
  cbn [app] in E. injection E as <- E. apply IH in E as [P|(P & L)]; [left|right]; cbn; rewrite N.eqb_refl; cbn; [auto|split; [auto|lia]].
Qed.
Fixpoint longer_first (l : list (string * shape * bool)) : bool :=
  match l with
  | [] => true
  | e :: l' => forallb (fun e' => negb (prefixb (u (word_of e)) (u (word_of e')))) l' && longer_first l'
  end.
Lemma table_order : longer_first skip_table = true.
Proof. vm_compute. reflexivity. Qed.
Lemma longer_first_split pre e post e' : longer_first (pre ++ e :: post) = true -> In e' post -> prefixb (u (word_of e)) (u (word_of e')) = false.
Proof.
  induction pre as [|x pre IH]; cbn [app longer_first]; rewrite andb_true_iff; intros (A & B) I; [|now apply IH].
  rewrite forallb_forall in A. apply A in I. now apply negb_true_iff in I.
Qed.
Lemma longer_first_pre pre e post e' : longer_first (pre ++ e :: post) = true -> In e' pre -> prefixb (u (word_of e')) (u (word_of e)) = false.
Proof.
  intros L I. apply in_split in I as (p1 & p2 & ->). rewrite <- app_assoc in L. cbn [app] in L. eapply longer_first_split; [exact L|]. apply in_app_iff. right. now left.
Qed.
Definition entry_ok (e : string * shape * bool) : bool :=
  match e with (w, k, b) =>
    Bool.eqb b (memb w block_words) && Bool.eqb (match k with SAny => true | _ => false end) (memb w open_words) &&
    Bool.eqb (match k with SSpaced => true | _ => false end) (memb w spaced_words) &&
    Bool.eqb (match k with SMaybe => true | _ => false end) (String.eqb w "failover") &&
    Bool.eqb (match k with SAlone => true | _ => false end) (String.eqb w "names")
  end.
Lemma table_ok : forallb entry_ok skip_table = true.
Proof. vm_compute. reflexivity. Qed.
Lemma entry_facts w k b : In (w, k, b) skip_table ->
  (b = true <-> In w block_words) /\ (k = SAny <-> In w open_words) /\ (k = SSpaced <-> In w spaced_words) /\
  (k = SMaybe <-> w = "failover"%string) /\ (k = SAlone <-> w = "names"%string).
Proof.
  intros I. pose proof table_ok as H. rewrite forallb_forall in H. apply H in I. unfold entry_ok in I. rewrite !andb_true_iff, !eqb_true_iff in I. destruct I as ((((A & B) & C) & D) & E).
  split; [rewrite A; apply memb_in|]. split; [rewrite <- memb_in, <- B; destruct k; split; congruence|]. split; [rewrite <- memb_in, <- C; destruct k; split; congruence|].
  split; [rewrite <- String.eqb_eq, <- D; destruct k; split; congruence|rewrite <- String.eqb_eq, <- E; destruct k; split; congruence].
Qed.
Lemma entry_of w : In w (open_words ++ spaced_words ++ ["failover"; "names"]%string) -> exists k b, In (w, k, b) skip_table.
Proof.
  intros I. assert (H : forallb (fun w => memb w (map word_of skip_table)) (open_words ++ spaced_words ++ ["failover"; "names"]%string) = true) by (vm_compute; reflexivity).
  rewrite forallb_forall in H. apply H in I. apply memb_in in I. apply in_map_iff in I as (((w' & k) & b) & <- & I). eauto.
Qed.

(** What follows the word. *)
Definition rest_text (k : shape) (x : pystr) : Prop :=
  match k with
  | SAny => exists q, one_line q /\ x = q ++ lf
  | SSpaced => exists g q, gap g /\ one_line q /\ x = g ++ q ++ lf
  | SMaybe => (exists g q, gap g /\ one_line q /\ x = g ++ q ++ lf) \/ eol_text x
  | SAlone => eol_text x
  end.
Lemma rest_after w k b x : In (w, k, b) skip_table -> (rest_text k x <-> after_word w x).
Proof.
  intros I. apply entry_facts in I as (_ & A & B & C & D). split.
  - destruct k; cbn [rest_text].
    + intros (q & O & ->). apply AW_open; [|auto]. now apply A.
    + intros (g & q & G & O & ->). apply AW_spaced; auto. left. now apply B.
    + intros [(g & q & G & O & ->)|Z]; [apply AW_spaced; auto; right; now apply C|]. apply AW_alone; [|auto]. left. now apply C.
    + intros Z. apply AW_alone; [|auto]. right. now apply D.
  - destruct 1 as [w q W O|w g q [W|W] G O|w z [W|W] Z].
    + apply A in W as ->. cbn. eauto.
    + apply B in W as ->. cbn. eauto 6.
    + apply C in W as ->. cbn. left. eauto 6.
    + apply C in W as ->. cbn. now right.
    + apply D in W as ->. cbn. auto.
Qed.
Lemma eol_line z : eol_text z -> exists q, one_line q /\ z = q ++ lf.
Proof. intros [-> | ->]; [exists []; split; [intros []|auto]|exists [13%N]; split; [intros [E|[]]; discriminate|auto]]. Qed.
Lemma rest_line k x : rest_text k x -> exists q, one_line q /\ x = q ++ lf.
Proof.
  destruct k; cbn [rest_text].
  - eauto.
  - intros (g & q & G & O & ->). exists (g ++ q). split; [apply line_app; split; [now apply gap_line|auto]|now rewrite <- app_assoc].
  - intros [(g & q & G & O & ->)|Z]; [|now apply eol_line]. exists (g ++ q). split; [apply line_app; split; [now apply gap_line|auto]|now rewrite <- app_assoc].
  - apply eol_line.
Qed.
Lemma table_lines : forallb (fun e => forallb (fun c => negb (N.eqb c 10)) (u (word_of e))) skip_table = true.
Proof. vm_compute. reflexivity. Qed.
Lemma word_one e : In e skip_table -> one_line (u (word_of e)).
Proof.
  intros I J. pose proof table_lines as H. rewrite forallb_forall in H. apply H in I. rewrite forallb_forall in I. apply I in J. discriminate J.
Qed.
Lemma first_lines a b r r' : one_line a -> one_line b -> a ++ lf ++ r = b ++ lf ++ r' -> a = b /\ r = r'.
Proof.
  intros A B E. destruct (line_split a b (lf ++ r') r A B E) as (b' & -> & E'). destruct b' as [|c b']; [rewrite app_nil_r; split; [auto|]; now injection E'|].
  cbn [app lf] in E'. injection E' as <- _. apply line_app in A as (_ & A). destruct A. now left.
Qed.

Lemma many_total {A} (p : parser A) s : many p s <> PFail.
Proof.
  remember (length s) as n eqn:E. assert (L : (length s <= n)%nat) by (unfold pystr in *; lia). clear E. revert s L.
  induction n as [|n IH]; intros s L; rewrite many_unfold; destruct (p s) as [|e'|x r] eqn:P; try discriminate;
    destruct (Nat.ltb_spec (@length N r) (@length N s)); try discriminate.
  - unfold pystr in *. lia.
  - destruct (many p r) eqn:M; try discriminate. apply IH in M; [auto|]. unfold pystr in *. lia.
Qed.
Section Skip.
  Context (isalpha isalnum isspace : N -> bool) (OK : classes_ok isalpha isalnum isspace).
  Notation kw := (kw isalpha isalnum).
  Notation skip_line := (skip_line isalpha isalnum).
  Notation ignored := (ignored isalpha isalnum).
  Notation guarded w x := (plain_word w -> ~ opens_alnum isalnum x).

  Lemma plain_char c : letter c \/ digit c <-> ascii_alnum c = true.
  Proof using.
    clear. unfold ascii_alnum, ascii_alpha, is_digit, in_range, letter, digit. rewrite !orb_true_iff, !andb_true_iff, !N.leb_le. lia.
  Qed.
  Lemma table_words : forallb (fun e => ascii (u (word_of e)) && Bool.eqb (name_like ascii_alpha ascii_alnum (u (word_of e))) (forallb ascii_alnum (u (word_of e)))) skip_table = true.
  Proof using. vm_compute. reflexivity. Qed.
  Lemma word_guard w k b : In (w, k, b) skip_table -> (name_like isalpha isalnum (u w) = true <-> plain_word w).
  Proof using OK.
    intros I. pose proof table_words as H. rewrite forallb_forall in H. apply H in I. unfold word_of in I. cbn [fst] in I. apply andb_true_iff in I as (A & B). apply (proj1 (eqb_true_iff _ _)) in B.
    rewrite (name_like_ok _ _ _ OK) by auto. rewrite B, forallb_forall. unfold plain_word. split; intros F c J; apply plain_char; auto.
  Qed.
  Lemma next_alnum_opens x : next_alnum isalnum x = true <-> opens_alnum isalnum x.
  Proof using.
    clear. unfold opens_alnum. destruct x as [|c x]; cbn; [split; [discriminate|intros (c & q & [=] & _)]|]. split; [intros A; eauto|intros (d & q & [= -> ->] & A); auto].
  Qed.
  Lemma kw_iff w k b s x r : In (w, k, b) skip_table -> (kw w s = POk x r <-> s = u w ++ r /\ guarded w r).
  Proof using OK.
    intros I. destruct x. unfold AclText.kw. rewrite pbind_ok. assert (G : passes isalpha isalnum (u w) r <-> guarded w r).
    { unfold passes. rewrite <- (word_guard _ _ _ I). rewrite <- next_alnum_opens. generalize (next_alnum isalnum r). intros bb.
      destruct (name_like isalpha isalnum (u w)); destruct bb; cbn [andb]; (split; [|auto]); try congruence. intros N. exfalso. now apply N. }
    split; [intros (a & s1 & T & R); apply ret_ok in R as (_ & ->); apply token_ok in T as (-> & -> & P); split; [auto|now apply G]|].
    intros (-> & P). exists (u w), r. split; [|reflexivity]. apply token_ok. split; [auto|]. split; [auto|now apply G].
  Qed.

  Lemma shape_sound k s x r : shape_rest k s = POk x r -> exists t, s = t ++ r /\ rest_text k t.
  Proof using.
    clear. destruct k; cbn [shape_rest rest_text]; intros H.
    - pinv H. destruct (toeol_nl_sound _ _ _ _ _ P H) as (-> & O). exists (a ++ lf). rewrite <- app_assoc. eauto.
    - pinv H. apply ws_sound in P as (g & -> & G). destruct (toeol_nl_sound _ _ _ _ _ P0 H) as (-> & O). exists (g ++ a0 ++ lf). rewrite <- !app_assoc. eauto 6.
    - pinv H. unfold then_ in P. apply popt_ok in P as [(y & -> & P)|(-> & -> & P)].
      + pinv P. apply ws_sound in P0 as (g & -> & G). destruct (toeol_nl_sound _ _ _ _ _ P H) as (-> & O). exists (g ++ y ++ lf). rewrite <- !app_assoc. split; [auto|]. left. eauto 6.
      + apply nl_sound in H as (z & -> & Z). eauto.
    - apply nl_sound in H as (z & -> & Z). eauto.
  Qed.
  Lemma shape_ok k t r : rest_text k t -> shape_rest k (t ++ r) = POk tt r.
  Proof using.
    clear. assert (B : forall g q r, gap g -> one_line q -> exists q', ws (g ++ q ++ lf ++ r) = POk tt (q' ++ lf ++ r) /\ one_line q').
    { intros g q r' G O. assert (S : exists a q', q = a ++ q' /\ blanks a /\ ~ starts is_blank q').
      { clear - q. induction q as [|c q IH]; [exists [], []; split; [auto|]; split; [intros c []|now intros (c & q & [=] & _)]|].
        destruct (is_blank c) eqn:C.
        - destruct IH as (a & q' & -> & A & N). exists (c :: a), q'. split; [auto|]. split; [|auto]. intros d [<-|I]; [|auto]. now apply is_blank_spec.
        - exists [], (c :: q). split; [auto|]. split; [intros d []|]. intros (d & q' & [= -> ->] & D). congruence. }
      destruct S as (a & q' & -> & A & N). exists q'. split; [|apply line_app in O; tauto]. rewrite <- app_assoc. rewrite app_assoc. apply ws_gap.
      - split; [destruct G as (G & _); destruct g; [congruence|discriminate]|]. intros c I. apply in_app_iff in I as [I|I]; [now apply G|now apply A].
      - destruct q' as [|c q']; [intros (d & q & E & D); cbn in E; injection E as <- _; discriminate D|]. intros (d & q & E & D). apply N. cbn [app] in E. injection E as -> _. exists d, q'. auto. }
    destruct k; cbn [shape_rest rest_text].
    - intros (q & O & ->). rewrite <- app_assoc. eapply pbind_step; [now apply toeol_ok|]. reflexivity.
    - intros (g & q & G & O & ->). rewrite <- !app_assoc. destruct (B g q r G O) as (q' & W & O'). eapply pbind_step; [exact W|]. eapply pbind_step; [now apply toeol_ok|]. reflexivity.
    - intros [(g & q & G & O & ->)|Z].
      + rewrite <- !app_assoc. destruct (B g q r G O) as (q' & W & O'). eapply pbind_step; [apply popt_some; unfold then_; eapply pbind_step; [exact W|now apply toeol_ok]|]. reflexivity.
      + eapply pbind_step; [apply popt_none; unfold then_; apply pbind_fail, ws_fail; now apply eol_noblank|]. now apply nl_ok.
    - intros Z. now apply nl_ok.
  Qed.

  (** Indented lines. *)
  Definition fresh_line (r : pystr) : Prop := ~ indented r /\ forall z r', eol_text z -> r = z ++ r' -> ~ indented r'.
  Lemma indent_sound s x r : indent_line s = POk x r -> exists e q, s = e ++ u " " ++ q ++ lf ++ r /\ (e = [] \/ eol_text e) /\ one_line q.
  Proof using.
    clear. unfold indent_line. intros H. pinv H. apply sp_ok in P0 as ->. destruct (toeol_nl_sound _ _ _ _ _ P1 H) as (-> & O).
    apply popt_ok in P as [(y & -> & P)|(-> & <- & P)].
    - apply nl_sound in P as (z & -> & Z). exists z, a1. auto.
    - exists [], a1. auto.
  Qed.
  Lemma indent_ok e q r : e = [] \/ eol_text e -> one_line q -> indent_line (e ++ u " " ++ q ++ lf ++ r) = POk tt r.
  Proof using.
    clear. intros Z O. unfold indent_line. eapply pbind_step.
    - instantiate (1 := u " " ++ q ++ lf ++ r). instantiate (1 := match e with [] => None | _ => Some tt end). destruct Z as [-> | Z].
      + apply popt_none. reflexivity.
      + destruct e; [destruct Z; discriminate|]. apply popt_some. now apply nl_ok.
    - eapply pbind_step; [reflexivity|]. eapply pbind_step; [now apply toeol_ok|]. reflexivity.
  Qed.
  Lemma indent_fail r : fresh_line r -> indent_line r = PFail.
  Proof using.
    clear. intros (N & Nz). destruct (indent_line r) as [|e|x r'] eqn:H; [auto| |].
    - exfalso. revert H. unfold indent_line. apply never_bind; [apply never_popt, never_nl|]. intros _. apply never_bind; [apply never_sp|]. intros _. apply never_bind; [apply never_toeol|]. intros _. apply never_nl.
    - apply indent_sound in H as (z & q & -> & [-> | Z] & O).
      + destruct N. eexists. reflexivity.
      + exfalso. apply (Nz z _ Z eq_refl). eexists. reflexivity.
  Qed.
  Lemma block_sound s l r : many indent_line s = POk l r -> exists t, s = t ++ r /\ block_text t.
  Proof using.
    clear. intros H. apply many_chain in H. induction H as [s|a l s s1 r P L C IH]; [exists []; split; [auto|constructor]|].
    destruct IH as (t & -> & B). apply indent_sound in P as (e & q & -> & E & O). exists (e ++ u " " ++ q ++ lf ++ t). rewrite <- !app_assoc. split; [auto|]. now constructor.
  Qed.
  Lemma block_ok t r : block_text t -> fresh_line r -> exists l, many indent_line (t ++ r) = POk l r.
  Proof using.
    clear. intros B F. assert (C : exists l, chain indent_line l (t ++ r) r).
    { induction B as [|e q t E O B (l & C)]; [exists []; constructor|]. exists (tt :: l). rewrite <- !app_assoc. eapply Ch_cons; [now apply indent_ok| |exact C].
      rewrite !app_length. cbn. lia. }
    destruct C as (l & C). exists l. apply chain_many; [auto|now apply indent_fail].
  Qed.

  Lemma skip_sound w k b s x r : In (w, k, b) skip_table -> skip_line (w, k, b) s = POk x r ->
    exists y t, s = (u w ++ y) ++ t ++ r /\ rest_text k y /\ guarded w y /\ (t = [] \/ b = true /\ block_text t).
  Proof using OK.
    intros I H. unfold FileText.skip_line in H. pinv H. apply (kw_iff _ _ _ _ _ _ I) in P as (-> & G). apply shape_sound in P0 as (y & -> & Y).
    assert (G' : guarded w y).
    { intros Pw (c & q & -> & A). apply (G Pw). exists c. eexists. split; [reflexivity|auto]. }
    destruct b.
    - pinv H. apply ret_ok in H as (_ & ->). apply block_sound in P as (t & -> & B). exists y, t. rewrite <- !app_assoc. auto 6.
    - apply ret_ok in H as (_ & ->). exists y, []. rewrite <- !app_assoc. auto.
  Qed.
  Lemma guard_app w y t : guarded w y -> y <> [] -> guarded w (y ++ t).
  Proof using. clear. intros G N Pw (c & q & E & A). destruct y as [|d y]; [congruence|]. cbn [app] in E. injection E as -> _. apply (G Pw). exists c, y. auto. Qed.
  Lemma rest_nonempty k y : rest_text k y -> y <> [].
  Proof using. clear. intros R E. apply rest_line in R as (q & _ & R). rewrite E in R. now destruct q. Qed.
  Lemma skip_ok w k b y t r : In (w, k, b) skip_table -> rest_text k y -> guarded w y -> t = [] \/ b = true /\ block_text t -> fresh_line r ->
    skip_line (w, k, b) ((u w ++ y) ++ t ++ r) = POk tt r.
  Proof using OK.
    intros I Y G B F. unfold FileText.skip_line. rewrite <- app_assoc. eapply pbind_step; [apply (kw_iff _ _ _ _ tt _ I); split; [reflexivity|]; apply guard_app; [auto|now apply rest_nonempty in Y]|].
    eapply pbind_step; [now apply shape_ok|]. destruct b.
    - assert (B' : block_text t) by (destruct B as [-> |B]; [constructor|tauto]). destruct (block_ok t r B' F) as (l & M). eapply pbind_step; [exact M|]. reflexivity.
    - destruct B as [-> |(B & _)]; [reflexivity|discriminate].
  Qed.
  Lemma never_shape k : never (shape_rest k).
  Proof using.
    clear. destruct k; cbn [shape_rest]; never; first [exact never_ws|exact never_toeol|exact never_nl].
  Qed.
  Lemma never_skip e : never (skip_line e).
  Proof using.
    clear. destruct e as ((w & k) & b). unfold FileText.skip_line. apply never_bind; [apply never_kw|intros _]. apply never_bind; [apply never_shape|intros _].
    destruct b; [|apply never_ret]. apply never_bind; [apply never_many|intros _; apply never_ret]. unfold indent_line.
    never.
  Qed.
  (** The line decides. *)
  Lemma skip_fits w k b y r : In (w, k, b) skip_table -> rest_text k y -> guarded w y -> skip_line (w, k, b) ((u w ++ y) ++ r) <> PFail.
  Proof using OK.
    intros I Y G. unfold FileText.skip_line. rewrite <- app_assoc. unfold pbind.
    assert (K : kw w (u w ++ y ++ r) = POk tt (y ++ r)) by (apply (kw_iff _ _ _ _ _ _ I); split; [reflexivity|]; apply guard_app; [auto|now apply rest_nonempty in Y]).
    rewrite K, shape_ok by auto. destruct b; [|discriminate]. destruct (many indent_line r) as [|e|l r'] eqn:M; [now apply many_total in M|discriminate|discriminate].
  Qed.
  Lemma skip_none e l r : In e skip_table -> one_line l -> ~ skipped_line isalnum (word_of e) (l ++ lf) -> skip_line e (l ++ lf ++ r) = PFail.
  Proof using OK.
    destruct e as ((w & k) & b). unfold word_of. cbn [fst]. intros I O N. destruct (skip_line (w, k, b) (l ++ lf ++ r)) as [|e|x r'] eqn:H; [auto|now apply never_skip in H|].
    exfalso. apply (skip_sound _ _ _ _ _ _ I) in H as (y & t & E & Y & G & _). apply N. destruct (rest_line _ _ Y) as (q & Oq & ->).
    rewrite <- !app_assoc in E. rewrite (app_assoc (u w)) in E. apply first_lines in E as (-> & _); [|auto|apply line_app; split; [apply (word_one _ I)|auto]].
    exists (q ++ lf). split; [now rewrite <- app_assoc|]. split; [now apply (rest_after _ _ _ _ I)|auto].
  Qed.

  Lemma choice_first {A} (l : list (parser A)) s a r : choice l s = POk a r -> exists pre p post, l = pre ++ p :: post /\ (forall q, In q pre -> q s = PFail) /\ p s = POk a r.
  Proof using.
    clear. induction l as [|p l IH]; cbn; [discriminate|]. intros H. apply por_ok in H as [H|(F & H)].
    - exists [], p, l. split; [auto|]. split; [intros q []|auto].
    - apply IH in H as (pre & q & post & -> & Fq & H). exists (p :: pre), q, post. split; [auto|]. split; [intros q' [<-|J]; auto|auto].
  Qed.
  Lemma choice_hit {A} (pre : list (parser A)) p post s a r : (forall q, In q pre -> q s = PFail) -> p s = POk a r -> choice (pre ++ p :: post) s = POk a r.
  Proof using.
    clear. induction pre as [|q pre IH]; intros F H; cbn [app]; unfold choice; cbn [fold_right]; [now apply por_l|]. apply por_r; [apply F; now left|]. apply IH; [|auto]. intros q' I. apply F. now right.
  Qed.
  Lemma ignored_sound s x r : ignored s = POk x r -> exists t, s = t ++ r /\ skipped_text isalnum t.
  Proof using OK.
    unfold FileText.ignored. intros H. apply choice_first in H as (pre & p & post & E & F & H). apply map_eq_app in E as (pre' & l2 & E & <- & E2).
    apply map_eq_cons in E2 as (((w & k) & b) & post' & -> & <- & <-). assert (I : In (w, k, b) skip_table) by (rewrite E; apply in_app_iff; right; now left).
    apply (skip_sound _ _ _ _ _ _ I) in H as (y & t & -> & Y & G & B). exists ((u w ++ y) ++ t). split; [now rewrite <- !app_assoc|].
    apply (SK isalnum w).
    - exists y. split; [auto|]. split; [now apply (rest_after _ _ _ _ I)|auto].
    - intros w' (y' & Ey & A' & G'). assert (I' : exists k' b', In (w', k', b') skip_table).
      { apply entry_of. rewrite !in_app_iff. cbn [In]. destruct A' as [w' q W O|w' g q [W|W] _ _|w' z [W|W] _]; auto. }
      destruct I' as (k' & b' & I'). pose proof I' as J. rewrite E in J. apply in_app_iff in J as [J|[J|J]].
      + exfalso. specialize (F (skip_line (w', k', b')) (in_map _ _ _ J)). rewrite Ey in F. revert F. apply (skip_fits _ _ _ _ _ I'); [now apply (rest_after _ _ _ _ I')|auto].
      + injection J as -> _ _. lia.
      + pose proof table_order as L. rewrite E in L. apply (longer_first_split _ _ _ _ L) in J. unfold word_of in J. cbn [fst] in J.
        destruct (prefix_cases _ _ _ _ Ey) as [P|(_ & P)]; [congruence|lia].
    - destruct B as [-> |(-> & B)]; [now left|]. right. split; [|auto]. now apply (entry_facts _ _ _ I).
  Qed.
  Lemma ignored_ok t r : skipped_text isalnum t -> fresh_line r -> ignored (t ++ r) = POk tt r.
  Proof using OK.
    intros [w l t' (y & -> & A & G) Long B] F. assert (I : exists k b, In (w, k, b) skip_table).
    { apply entry_of. rewrite !in_app_iff. cbn [In]. destruct A as [w q W O|w g q [W|W] _ _|w z [W|W] _]; auto. }
    destruct I as (k & b & I). apply (rest_after _ _ _ _ I) in A. unfold FileText.ignored. destruct (in_split _ _ I) as (pre & post & E). rewrite E, map_app. cbn [map].
    destruct (rest_line _ _ A) as (q & O & Ey).
    apply choice_hit.
    - intros p J. apply in_map_iff in J as (e' & <- & J). assert (I' : In e' skip_table) by (rewrite E; apply in_app_iff; now left).
      rewrite Ey, <- !app_assoc. rewrite (app_assoc (u w)). apply skip_none; [auto|apply line_app; split; [apply (word_one _ I)|auto]|]. rewrite <- app_assoc, <- Ey.
      intros S. pose proof (Long _ S) as L. destruct S as (y' & E' & _). pose proof table_order as T. rewrite E in T. apply (longer_first_pre _ _ _ _ T) in J. unfold word_of at 2 in J. cbn [fst] in J.
      destruct (prefix_cases _ _ _ _ E') as [P|(P & L')]; [|congruence].
      assert (Pr : prefixb (u (word_of e')) (u w) = true); [|congruence]. destruct (prefix_cases _ _ _ _ (eq_sym E')) as [P'|(P' & L')]; [auto|]. exfalso. lia.
    - rewrite <- app_assoc. apply skip_ok; auto. destruct B as [-> |(B & B')]; [now left|]. right. split; [|auto]. now apply (entry_facts _ _ _ I).
  Qed.
End Skip.
