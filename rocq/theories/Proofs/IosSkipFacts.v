(** IOS commands of which nothing is kept. *)
From Coq Require Import Lia String.
From Verif.Model Require Import Base Ip Hosts Groups Iface Peg Ids AddrText Ports AclText Define GroupText LineText FileText IosText IosFile.
From Verif.Model Require Config.
From Verif.Spec Require Import AddrSpec RefSpec AddrTextSpec CafTextSpec CafMeanSpec AclTextSpec GroupTextSpec ObjTextSpec LineTextSpec FileTextSpec IosTextSpec IosFileSpec.
From Verif.Proofs Require Import DictFacts PegFacts AddrTextFacts CafTextFacts TokFacts CafMean LineFacts AclTextFacts AclOptFacts GroupTextFacts ObjTextFacts LineTextFacts IosFacts NoErr FileTextFacts FileFacts IosLineFacts.
From Verif.Props Require Import AddrText.
Local Open Scope list_scope.

Section Skip.
  Context (isalpha isalnum isspace : N -> bool) (OK : classes_ok isalpha isalnum isspace).
  Notation kw := (kw isalpha isalnum).
  Notation ios_skip := (ios_skip isalpha isalnum).
  Notation guarded w x := (plain_word w -> ~ opens_alnum isalnum x).

  (** ** Indented lines *)
  Lemma inner_sound s l r : many ios_indent s = POk l r -> exists t, s = t ++ r /\ inner_lines t.
  Proof using.
    clear. intros H. apply many_chain in H. induction H as [s|a l s s1 r P L C IH]; [exists []; split; [auto|constructor]|].
    destruct IH as (t & -> & B). unfold ios_indent in P. pinv P. apply sp_ok in P0 as ->. destruct (toeol_nl_sound _ _ _ _ _ P1 P) as (-> & O).
    exists (u " " ++ a1 ++ lf ++ t). rewrite <- !app_assoc. split; [auto|]. now constructor.
  Qed.
  Lemma inner_fail r : ~ indented r -> ios_indent r = PFail.
  Proof using. clear. intros N. unfold ios_indent. now apply pbind_fail, sp_fail. Qed.
  Lemma inner_ok t r : inner_lines t -> ~ indented r -> exists l, many ios_indent (t ++ r) = POk l r.
  Proof using.
    clear. intros B F. assert (C : exists l, chain ios_indent l (t ++ r) r).
    { induction B as [|q t O B (l & C)]; [exists []; constructor|]. exists (tt :: l). rewrite <- !app_assoc. eapply Ch_cons; [| |exact C].
      - unfold ios_indent. eapply pbind_step; [reflexivity|]. eapply pbind_step; [now apply toeol_ok|]. reflexivity.
      - rewrite !app_length. cbn. lia. }
    destruct C as (l & C). exists l. apply chain_many; [auto|now apply inner_fail].
  Qed.
  Lemma never_inner : never (many ios_indent).
  Proof using. clear. unfold ios_indent. never. Qed.

  (** ** A table of words *)
  Section Table.
    Variables (tab : list (string * shape * bool)) (opens spaced alone blocks : list string).
    Notation follow := (follow_text opens spaced alone).
    Notation line := (ignored_line isalnum opens spaced alone).
    Notation text := (ignored_text isalnum opens spaced alone blocks).
    Definition entry_fits (e : string * shape * bool) : bool :=
      match e with (w, k, b) =>
        Bool.eqb b (memb w blocks) && Bool.eqb (match k with SAny => true | _ => false end) (memb w opens) &&
        Bool.eqb (match k with SSpaced => true | _ => false end) (memb w spaced) &&
        Bool.eqb (match k with SAlone => true | _ => false end) (memb w alone) && match k with SMaybe => false | _ => true end &&
        ascii (u w) && Bool.eqb (name_like ascii_alpha ascii_alnum (u w)) (forallb ascii_alnum (u w)) && forallb (fun c => negb (N.eqb c 10)) (u w)
      end.
    Definition table_fits : bool :=
      longer_first tab && forallb entry_fits tab && forallb (fun w => memb w (map word_of tab)) (opens ++ spaced ++ alone).
    Context (Fit : table_fits = true).
    Lemma fits : longer_first tab = true /\ (forall e, In e tab -> entry_fits e = true) /\ (forall w, In w (opens ++ spaced ++ alone) -> exists k b, In (w, k, b) tab).
    Proof using Fit.
      unfold table_fits in Fit. rewrite !andb_true_iff, !forallb_forall in Fit. destruct Fit as ((A & B) & C). split; [auto|]. split; [auto|].
      intros w I. apply C in I. apply memb_in in I. apply in_map_iff in I as (((w' & k) & b) & <- & I). eauto.
    Qed.
    Lemma entry_word w k b : In (w, k, b) tab -> (b = true <-> In w blocks) /\ (forall x, rest_text k x <-> follow w x) /\ one_line (u w) /\ (name_like isalpha isalnum (u w) = true <-> plain_word w).
    Proof using Fit OK.
      intros I. apply (proj1 (proj2 fits)) in I. unfold entry_fits in I. rewrite !andb_true_iff, !eqb_true_iff in I. destruct I as (((((((A & B) & C) & D) & M) & As) & Nl) & Ol).
      split; [rewrite A; apply memb_in|]. split; [|split].
      - assert (B' : k = SAny <-> In w opens) by (rewrite <- memb_in, <- B; destruct k; split; congruence).
        assert (C' : k = SSpaced <-> In w spaced) by (rewrite <- memb_in, <- C; destruct k; split; congruence).
        assert (D' : k = SAlone <-> In w alone) by (rewrite <- memb_in, <- D; destruct k; split; congruence).
        intros x. split.
        + destruct k; cbn [rest_text]; [| |discriminate M|].
          * intros (q & O & ->). apply FO_open; [now apply B'|auto].
          * intros (g & q & G & O & ->). apply FO_spaced; auto. now apply C'.
          * intros Z. apply FO_alone; [|auto]. now apply D'.
        + destruct 1 as [w q W O|w g q W G O|w z W Z].
          * apply B' in W as ->. cbn. eauto.
          * apply C' in W as ->. cbn. eauto 6.
          * apply D' in W as ->. cbn. auto.
      - rewrite forallb_forall in Ol. intros J. apply Ol in J. discriminate J.
      - rewrite (name_like_ok _ _ _ OK) by auto. rewrite Nl, forallb_forall. unfold plain_word. split; intros F c J; apply plain_char; auto.
    Qed.
    Lemma kw_word w k b s x r : In (w, k, b) tab -> (kw w s = POk x r <-> s = u w ++ r /\ guarded w r).
    Proof using Fit OK.
      intros I. destruct x. unfold AclText.kw. rewrite pbind_ok. assert (G : passes isalpha isalnum (u w) r <-> guarded w r).
      { unfold passes. rewrite <- (proj2 (proj2 (proj2 (entry_word _ _ _ I)))). rewrite <- next_alnum_opens. generalize (next_alnum isalnum r). intros bb.
        destruct (name_like isalpha isalnum (u w)); destruct bb; cbn [andb]; (split; [|auto]); try congruence. intros N. exfalso. now apply N. }
      split; [intros (a & s1 & T & R); apply ret_ok in R as (_ & ->); apply token_ok in T as (-> & -> & P); split; [auto|now apply G]|].
      intros (-> & P). exists (u w), r. split; [|reflexivity]. apply token_ok. split; [auto|]. split; [auto|now apply G].
    Qed.
    Lemma entry_sound w k b s x r : In (w, k, b) tab -> ios_skip (w, k, b) s = POk x r ->
      exists y t, s = (u w ++ y) ++ t ++ r /\ rest_text k y /\ guarded w y /\ (t = [] \/ b = true /\ inner_lines t).
    Proof using Fit OK.
      intros I H. unfold IosFile.ios_skip in H. pinv H. apply (kw_word _ _ _ _ _ _ I) in P as (-> & G). apply shape_sound in P0 as (y & -> & Y).
      assert (G' : guarded w y).
      { intros Pw (c & q & -> & A). apply (G Pw). exists c. eexists. split; [reflexivity|auto]. }
      destruct b.
      - pinv H. apply ret_ok in H as (_ & ->). apply inner_sound in P as (t & -> & B). exists y, t. rewrite <- !app_assoc. auto 6.
      - apply ret_ok in H as (_ & ->). exists y, []. rewrite <- !app_assoc. auto.
    Qed.
    Lemma entry_ok w k b y t r : In (w, k, b) tab -> rest_text k y -> guarded w y -> t = [] \/ b = true /\ inner_lines t -> ~ indented r ->
      ios_skip (w, k, b) ((u w ++ y) ++ t ++ r) = POk tt r.
    Proof using Fit OK.
      intros I Y G B F. unfold IosFile.ios_skip. rewrite <- app_assoc. eapply pbind_step; [apply (kw_word _ _ _ _ tt _ I); split; [reflexivity|]; apply guard_app; [auto|now apply rest_nonempty in Y]|].
      eapply pbind_step; [now apply shape_ok|]. destruct b.
      - assert (B' : inner_lines t) by (destruct B as [-> |B]; [constructor|tauto]). destruct (inner_ok t r B' F) as (l & M). eapply pbind_step; [exact M|]. reflexivity.
      - destruct B as [-> |(B & _)]; [reflexivity|discriminate].
    Qed.
    Lemma never_entry e : never (ios_skip e).
    Proof using.
      clear. destruct e as ((w & k) & b). unfold IosFile.ios_skip. apply never_bind; [apply never_kw|intros _]. apply never_bind; [apply never_shape|intros _].
      destruct b; [|apply never_ret]. apply never_bind; [apply never_inner|intros _; apply never_ret].
    Qed.
    Lemma entry_fit w k b y r : In (w, k, b) tab -> rest_text k y -> guarded w y -> ios_skip (w, k, b) ((u w ++ y) ++ r) <> PFail.
    Proof using Fit OK.
      intros I Y G. unfold IosFile.ios_skip. rewrite <- app_assoc. unfold pbind.
      assert (K : kw w (u w ++ y ++ r) = POk tt (y ++ r)) by (apply (kw_word _ _ _ _ _ _ I); split; [reflexivity|]; apply guard_app; [auto|now apply rest_nonempty in Y]).
      rewrite K, shape_ok by auto. destruct b; [|discriminate]. destruct (many ios_indent r) as [|e|l r'] eqn:M; [now apply many_total in M|discriminate|discriminate].
    Qed.
    Lemma entry_none e l r : In e tab -> one_line l -> ~ line (word_of e) (l ++ lf) -> ios_skip e (l ++ lf ++ r) = PFail.
    Proof using Fit OK.
      destruct e as ((w & k) & b). unfold word_of. cbn [fst]. intros I O N. destruct (ios_skip (w, k, b) (l ++ lf ++ r)) as [|e|x r'] eqn:H; [auto|now apply never_entry in H|].
      exfalso. apply (entry_sound _ _ _ _ _ _ I) in H as (y & t & E & Y & G & _). apply N. destruct (rest_line _ _ Y) as (q & Oq & ->). destruct (entry_word _ _ _ I) as (_ & Fo & Ow & _).
      rewrite <- !app_assoc in E. rewrite (app_assoc (u w)) in E. apply first_lines in E as (-> & _); [|auto|apply line_app; split; [exact Ow|auto]].
      exists (q ++ lf). split; [now rewrite <- app_assoc|]. split; [now apply Fo|auto].
    Qed.
    Lemma follow_entry w x : follow w x -> exists k b, In (w, k, b) tab.
    Proof using Fit. intros A. apply (proj2 (proj2 fits)). rewrite !in_app_iff. destruct A; auto. Qed.
    Lemma table_sound s x r : choice (map ios_skip tab) s = POk x r -> exists t, s = t ++ r /\ text t.
    Proof using Fit OK.
      intros H. apply choice_first in H as (pre & p & post & E & F & H). apply map_eq_app in E as (pre' & l2 & E & <- & E2).
      apply map_eq_cons in E2 as (((w & k) & b) & post' & -> & <- & <-). assert (I : In (w, k, b) tab) by (rewrite E; apply in_app_iff; right; now left).
      apply (entry_sound _ _ _ _ _ _ I) in H as (y & t & -> & Y & G & B). exists ((u w ++ y) ++ t). split; [now rewrite <- !app_assoc|].
      destruct (entry_word _ _ _ I) as (Bl & Fo & _). apply (IX_ isalnum _ _ _ _ w).
      - exists y. split; [auto|]. split; [now apply Fo|auto].
      - intros w' (y' & Ey & A' & G'). destruct (follow_entry _ _ A') as (k' & b' & I'). destruct (entry_word _ _ _ I') as (_ & Fo' & _). pose proof I' as J. rewrite E in J. apply in_app_iff in J as [J|[J|J]].
        + exfalso. specialize (F (ios_skip (w', k', b')) (in_map _ _ _ J)). rewrite Ey in F. revert F. apply (entry_fit _ _ _ _ _ I'); [now apply Fo'|auto].
        + injection J as -> _ _. lia.
        + pose proof (proj1 fits) as L. rewrite E in L. apply (longer_first_split _ _ _ _ L) in J. unfold word_of in J. cbn [fst] in J.
          destruct (prefix_cases _ _ _ _ Ey) as [P|(_ & P)]; [congruence|lia].
      - destruct B as [-> |(-> & B)]; [now left|]. right. split; [now apply Bl|auto].
    Qed.
    Lemma table_complete t r : text t -> ~ indented r -> choice (map ios_skip tab) (t ++ r) = POk tt r.
    Proof using Fit OK.
      intros [w l t' (y & -> & A & G) Long B] F. destruct (follow_entry _ _ A) as (k & b & I). destruct (entry_word _ _ _ I) as (Bl & Fo & Ow & _).
      apply Fo in A. destruct (in_split _ _ I) as (pre & post & E). rewrite E, map_app. cbn [map].
      destruct (rest_line _ _ A) as (q & O & Ey).
      apply choice_hit.
      - intros p J. apply in_map_iff in J as (e' & <- & J). assert (I' : In e' tab) by (rewrite E; apply in_app_iff; now left).
        rewrite Ey, <- !app_assoc. rewrite (app_assoc (u w)). apply entry_none; [auto|apply line_app; split; [exact Ow|auto]|]. rewrite <- app_assoc, <- Ey.
        intros S. pose proof (Long _ S) as L. destruct S as (y' & E' & _). pose proof (proj1 fits) as T. rewrite E in T. apply (longer_first_pre _ _ _ _ T) in J. unfold word_of at 2 in J. cbn [fst] in J.
        assert (Pr : prefixb (u (word_of e')) (u w) = true); [|congruence]. destruct (prefix_cases _ _ _ _ (eq_sym E')) as [P'|(P' & L')]; [auto|]. exfalso. lia.
      - rewrite <- app_assoc. apply entry_ok; auto. destruct B as [-> |(B & B')]; [now left|]. right. split; [now apply Bl|auto].
    Qed.
    Lemma text_word t : text t -> exists w q, In w (map word_of tab) /\ t = u w ++ q.
    Proof using Fit.
      intros [w l t' (y & -> & A & G) _ _]. destruct (follow_entry _ _ A) as (k & b & I). exists w, (y ++ t'). split; [apply in_map_iff; exists (w, k, b); auto|now rewrite <- app_assoc].
    Qed.
    Lemma table_miss s : not_word (map word_of tab) s -> choice (map ios_skip tab) s = PFail.
    Proof using.
      clear. induction tab as [|((w & k) & b) l IH]; intros H; [reflexivity|]. inversion H as [|? ? A H']; subst.
      unfold choice. cbn [map fold_right]. apply por_r; [|now apply IH]. unfold IosFile.ios_skip. now apply pbind_fail, kw_none.
    Qed.
    (** A word that fits alone. *)
    Lemma text_single w x : line w (u w ++ x) -> (forall w' q, In w' (map word_of tab) -> u w ++ x = u w' ++ q -> w' = w) -> text (u w ++ x).
    Proof using Fit.
      intros L U. rewrite <- (app_nil_r (u w ++ x)). apply (IX_ isalnum _ _ _ _ w); [auto| |now left]. intros w' (y & E & A & _). destruct (follow_entry _ _ A) as (k & b & I).
      assert (w' = w) as ->; [|lia]. eapply U; [|exact E]. apply in_map_iff. exists (w', k, b). auto.
    Qed.
  End Table.
End Skip.
