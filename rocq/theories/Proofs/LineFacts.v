(** Facts about the lexical parts of configuration lines: gaps, words, names, numbers. *)
From Coq Require Import Lia String.
From Verif.Model Require Import Base Ip Hosts Groups Iface Peg Ids AddrText Ports AclText.
From Verif.Spec Require Import AddrSpec RefSpec AddrTextSpec CafTextSpec CafMeanSpec AclTextSpec.
From Verif.Proofs Require Import DictFacts PegFacts AddrTextFacts Addr6Facts CafTextFacts TokFacts CafMean MaskFacts.
From Verif.Props Require Import Refs.
Local Open Scope list_scope.
Notation is_digit := AddrText.is_digit.

(** ** Sequence and choice *)
Lemma pbind_ok {A B} (p : parser A) (f : A -> parser B) s b r :
  pbind p f s = POk b r <-> exists a s1, p s = POk a s1 /\ f a s1 = POk b r.
Proof.
  unfold pbind. destruct (p s) as [|e|a s1]; split; try discriminate.
  - intros (a & s1 & [=] & _).
  - intros (a & s1 & [=] & _).
  - eauto.
  - intros (a' & s' & [= <- <-] & H). auto.
Qed.
Lemma pbind_step {A B} (p : parser A) (f : A -> parser B) s a s1 x : p s = POk a s1 -> f a s1 = x -> pbind p f s = x.
Proof. unfold pbind. now intros ->. Qed.
Lemma pbind_fail {A B} (p : parser A) (f : A -> parser B) s : p s = PFail -> pbind p f s = PFail.
Proof. unfold pbind. now intros ->. Qed.
Lemma por_ok {A} (p q : parser A) s a r : por p q s = POk a r <-> p s = POk a r \/ p s = PFail /\ q s = POk a r.
Proof.
  unfold por. destruct (p s) as [|e|b s1]; split; intros H; auto.
  - now destruct H as [H|(_ & H)].
  - destruct H as [H|(H & _)]; congruence.
  - destruct H as [H|(H & _)]; congruence.
Qed.
Lemma por_sound {A} (p q : parser A) s a r : por p q s = POk a r -> p s = POk a r \/ q s = POk a r.
Proof. rewrite por_ok. tauto. Qed.
Lemma por_l {A} (p q : parser A) s a r : p s = POk a r -> por p q s = POk a r.
Proof. unfold por. now intros ->. Qed.
Lemma por_r {A} (p q : parser A) s x : p s = PFail -> q s = x -> por p q s = x.
Proof. unfold por. now intros ->. Qed.
Lemma act_ok {A B} (f : A -> result B) (p : parser A) s b r :
  act f p s = POk b r <-> exists a, p s = POk a r /\ f a = Ok b.
Proof.
  unfold act. rewrite pbind_ok. split.
  - intros (a & s1 & H & K). destruct (f a) eqn:F; [|discriminate]. injection K as -> ->. eauto.
  - intros (a & H & F). exists a, r. rewrite F. auto.
Qed.
Lemma act_fail {A B} (f : A -> result B) (p : parser A) s : p s = PFail -> act f p s = PFail.
Proof. apply pbind_fail. Qed.
Lemma popt_some {A} (p : parser A) s a r : p s = POk a r -> popt p s = POk (Some a) r.
Proof. unfold popt. now intros ->. Qed.
Lemma popt_none {A} (p : parser A) s : p s = PFail -> popt p s = POk None s.
Proof. unfold popt. now intros ->. Qed.
Lemma popt_ok {A} (p : parser A) s x r : popt p s = POk x r ->
  (exists a, x = Some a /\ p s = POk a r) \/ (x = None /\ r = s /\ p s = PFail).
Proof. unfold popt. destruct (p s); try discriminate; intros [= <- <-]; eauto. Qed.
Lemma ret_ok {A} (a b : A) s r : ret a s = POk b r <-> a = b /\ s = r.
Proof. unfold ret. split; [intros [= -> ->]; auto|intros (-> & ->); auto]. Qed.
(** Taking a successful sequence apart. *)
Ltac pinv H :=
  repeat (lazymatch type of H with pbind _ _ _ = _ => idtac end;
          apply pbind_ok in H; let a := fresh "a" in let s := fresh "s" in let P := fresh "P" in destruct H as (a & s & P & H)).

(** ** Words: texts without white space or slash *)
Definition cls : N -> Prop := in_class [32; 9; 13; 10; 47]%N.
Definition freew (n : pystr) : Prop := freeof cls n.
Definition sepw (r : pystr) : Prop := headin cls r.
Definition freewb (n : pystr) : bool := forallb (fun c => negb (existsb (N.eqb c) [32; 9; 13; 10; 47]%N)) n.
Lemma freewb_ok n : freewb n = true -> freew n.
Proof.
  unfold freewb, freew, freeof, cls, in_class. rewrite forallb_forall. intros H c I C. specialize (H c I).
  apply negb_true_iff in H. assert (X : existsb (N.eqb c) [32; 9; 13; 10; 47]%N = true); [|congruence].
  apply existsb_exists. exists c. split; [auto|apply N.eqb_refl].
Qed.
Lemma word_split n r n' r' : freew n -> freew n' -> sepw r -> sepw r' -> n ++ r = n' ++ r' -> n = n' /\ r = r'.
Proof.
  intros F F' (c & q & -> & C) (c' & q' & -> & C'). revert n' F'. induction n as [|x n IH]; intros [|x' n'] F' E; cbn in E.
  - auto.
  - injection E as -> _. destruct (F' x'); [now left|auto].
  - injection E as -> _. destruct (F c'); [now left|auto].
  - injection E as -> E. destruct (IH (fun c H => F c (or_intror H)) n' (fun c H => F' c (or_intror H)) E) as (-> & ->). auto.
Qed.
Lemma sep_sepw r : sep_start r -> sepw r.
Proof. intros (r' & [-> |[-> |[-> | ->]]]); eexists; eexists; (split; [reflexivity|]); cbn; auto 10. Qed.
Lemma slash_sepw r : sepw (47%N :: r).
Proof. eexists; eexists; split; [reflexivity|]; cbn; auto 10. Qed.
Lemma slash_not_sep r : ~ sep_start (47%N :: r).
Proof. intros (r' & [[=]|[[=]|[[=]|[=]]]]). Qed.
Lemma gap_sep g r : gap g -> sep_start (g ++ r).
Proof. intros (N & B). destruct g as [|c g]; [congruence|]. destruct (B c) as [-> | ->]; [now left|eexists; left; reflexivity|eexists; right; left; reflexivity]. Qed.
Lemma gap_sepw g r : gap g -> sepw (g ++ r).
Proof. intros H. apply sep_sepw, gap_sep, H. Qed.
Lemma eol_sep z r : eol_text z -> sep_start (z ++ r).
Proof. intros [-> | ->]; eexists; [right; right; left; reflexivity|right; right; right; reflexivity]. Qed.
Lemma blank_ends g r : blanks g -> sep_start r -> sep_start (g ++ r).
Proof. intros B S. destruct g as [|c g]; [auto|]. apply gap_sep. split; [discriminate|auto]. Qed.
Lemma sep_no_digit r : sep_start r -> ~ starts is_digit r.
Proof. intros (r' & [-> |[-> |[-> | ->]]]); rewrite starts_cons; discriminate. Qed.
Lemma sep_no_hdc r : sep_start r -> ~ starts is_hexdotcolon r.
Proof. intros (r' & [-> |[-> |[-> | ->]]]); rewrite starts_cons; discriminate. Qed.
Lemma sep_no_obj r : sep_start r -> ~ starts is_obj_char r.
Proof. intros (r' & [-> |[-> |[-> | ->]]]); rewrite starts_cons; discriminate. Qed.
Lemma sep_no_id r : sep_start r -> ~ starts is_id_char r.
Proof. intros (r' & [-> |[-> |[-> | ->]]]); rewrite starts_cons; discriminate. Qed.
Lemma freew_app a b : freew a -> freew b -> freew (a ++ b).
Proof. intros F G c I. apply in_app_iff in I as [I|I]; [apply F, I|apply G, I]. Qed.

(** Heads of words. *)
Lemma letter_name n : name_text n -> freew n.
Proof.
  intros (_ & H) c I C. specialize (H c I). unfold cls, in_class, letter, digit in *. cbn in C. lia.
Qed.
Lemma ident_name n : ident_text n -> name_text n.
Proof. intros ((c & n' & -> & _) & H). split; [discriminate|]. intros x I. specialize (H x I). tauto. Qed.
Lemma digits_freew n : forallb is_digit n = true -> freew n.
Proof.
  rewrite forallb_forall. intros H c I C. specialize (H c I). unfold is_digit in H. rewrite andb_true_iff, !N.leb_le in H.
  unfold cls, in_class in C. cbn in C. lia.
Qed.
Lemma hdc_freew n : forallb is_hexdotcolon n = true -> freew n.
Proof.
  rewrite forallb_forall. intros H c I C. specialize (H c I). unfold cls, in_class in C. cbn in C.
  destruct C as [<-|[<-|[<-|[<-|[<-|[]]]]]]; discriminate H.
Qed.

(** ** Gaps and line ends *)
Lemma is_blank_spec c : is_blank c = true <-> c = 32%N \/ c = 9%N.
Proof. unfold is_blank. now rewrite orb_true_iff, !N.eqb_eq. Qed.
Lemma blanks_spec g : blanks g <-> forallb is_blank g = true.
Proof. unfold blanks. rewrite forallb_forall. split; intros H c I; [apply is_blank_spec, H, I|apply is_blank_spec, H, I]. Qed.
Lemma ws_iff s x r : ws s = POk x r <-> exists g, gap g /\ s = g ++ r /\ ~ starts is_blank r.
Proof.
  destruct x. rewrite ws_ok. split; intros (g & H).
  - destruct H as (N & B & -> & R). exists g. split; [split; [auto|now apply blanks_spec]|]. split; [auto|]. now apply not_starts.
  - destruct H as ((N & B) & -> & R). exists g. apply blanks_spec in B. apply not_starts in R. auto.
Qed.
Lemma ws_sound s x r : ws s = POk x r -> exists g, s = g ++ r /\ gap g.
Proof. rewrite ws_iff. intros (g & G & -> & _). eauto. Qed.
Lemma ws_gap g r : gap g -> ~ starts is_blank r -> ws (g ++ r) = POk tt r.
Proof. intros G N. apply ws_iff. eauto. Qed.
Lemma ws_fail s : ~ starts is_blank s -> ws s = PFail.
Proof.
  intros N. unfold ws, pbind, pat1. destruct (span is_blank s) as [a b] eqn:S. apply span_iff in S as (-> & F & _).
  destruct a as [|c a]; [reflexivity|]. exfalso. apply N. cbn [app]. rewrite starts_cons. cbn in F. now apply andb_true_iff in F.
Qed.
Lemma nl_iff s x r : nl s = POk x r <-> exists z, eol_text z /\ s = z ++ r.
Proof.
  destruct x. unfold nl, pbind, popt. destruct (char 13 s) as [|e|[] s1] eqn:C.
  - rewrite char_ok. split; [intros ->; exists [10%N]; split; [now left|auto]|].
    intros (z & [-> | ->] & ->); [reflexivity|]. discriminate C.
  - unfold char in C. destruct s as [|d s]; [discriminate|]. destruct (N.eqb d 13); discriminate.
  - apply char_ok in C. subst. rewrite char_ok. split.
    + intros ->. exists [13%N; 10%N]. split; [now right|auto].
    + intros (z & [-> | ->] & E); [discriminate|]. now injection E.
Qed.
Lemma nl_fail s : ~ sep_start s -> nl s = PFail.
Proof.
  intros N. destruct (nl s) as [|e|x r] eqn:E; [reflexivity| |].
  - exfalso. unfold nl, pbind, popt, char in E. destruct s as [|c s]; [discriminate|]. destruct (N.eqb c 13).
    + destruct s as [|d s]; [discriminate|]. destruct (N.eqb d 10); discriminate.
    + destruct (N.eqb c 10); discriminate.
  - apply nl_iff in E as (z & Z & ->). exfalso. apply N. now apply eol_sep.
Qed.
Lemma gap_nonblank g r : gap g -> starts is_blank (g ++ r).
Proof. intros (N & B). destruct g as [|c g]; [congruence|]. cbn. rewrite starts_cons. apply is_blank_spec, B. now left. Qed.
Lemma freew_noblank n r : n <> [] -> freew n -> ~ starts is_blank (n ++ r).
Proof.
  intros N F. destruct n as [|c n]; [congruence|]. cbn. rewrite starts_cons. intros B. apply is_blank_spec in B.
  apply (F c); [now left|]. unfold cls, in_class. cbn. destruct B as [-> | ->]; auto.
Qed.
Lemma eol_noblank z r : eol_text z -> ~ starts is_blank (z ++ r).
Proof. intros [-> | ->]; cbn [app]; rewrite starts_cons; discriminate. Qed.

(** ** Numbers *)
Lemma dec_int10 n : Ports.dec n = int10 n. Proof. reflexivity. Qed.
Lemma int_iff s n r : int_ s = POk n r <-> s = n ++ r /\ n <> [] /\ forallb is_digit n = true /\ ~ starts is_digit r.
Proof.
  unfold int_, pat1. destruct (span is_digit s) as [a b] eqn:S. pose proof S as S'. apply span_iff in S' as (-> & F & N). split.
  - destruct a as [|c a]; [discriminate|]. intros [= <- <-]. split; [auto|]. split; [discriminate|auto].
  - intros (E & Nn & Fn & Nr). assert (S2 : span is_digit (a ++ b) = (n, r)) by (apply span_iff; auto).
    rewrite S2 in S. injection S as <- <-. destruct n; [congruence|reflexivity].
Qed.
Lemma int_noerr s e : int_ s <> PErr e.
Proof. unfold int_, pat1. destruct (span is_digit s) as [[|] b]; discriminate. Qed.
Lemma int_fail s : ~ starts is_digit s -> int_ s = PFail.
Proof.
  intros N. destruct (int_ s) as [|e|n r] eqn:E; [auto|now apply int_noerr in E|]. apply int_iff in E as (-> & Nn & F & _).
  exfalso. apply N. destruct n as [|c n]; [congruence|]. cbn. rewrite starts_cons. cbn in F. now apply andb_true_iff in F.
Qed.
Lemma bounded_sound top s n r : act (bounded_int top) int_ s = POk n r -> s = n ++ r /\ number_text n top.
Proof.
  rewrite act_ok. intros (m & P & B). apply int_iff in P as (-> & N & F & _). unfold bounded_int in B.
  destruct (N.leb_spec (Ports.dec m) top); [|discriminate]. injection B as ->. split; [auto|]. exists (int10 n). split; [|auto].
  apply decimal_text_spec. auto.
Qed.
Lemma bounded_ok top n r : number_text n top -> ~ starts is_digit r -> act (bounded_int top) int_ (n ++ r) = POk n r.
Proof.
  intros (v & D & L) N. apply decimal_text_spec in D as (Nn & F & I). apply act_ok. exists n. split; [apply int_iff; auto|].
  unfold bounded_int. rewrite dec_int10, I. destruct (N.leb_spec v top); [auto|lia].
Qed.
Lemma number_digits n top : number_text n top -> n <> [] /\ forallb is_digit n = true.
Proof. intros (v & D & _). apply decimal_text_spec in D. tauto. Qed.

(** ** Names *)
Lemma is_letter_spec c : is_ascii_letter c = true <-> letter c.
Proof. unfold is_ascii_letter, in_range, letter. rewrite orb_true_iff, !andb_true_iff, !N.leb_le. tauto. Qed.
Lemma is_digit_spec c : is_digit c = true <-> digit c.
Proof. unfold is_digit, digit. rewrite andb_true_iff, !N.leb_le. tauto. Qed.
Lemma obj_char_spec c : is_obj_char c = true <-> letter c \/ digit c \/ c = 95%N \/ c = 45%N \/ c = 46%N \/ c = 43%N.
Proof. unfold is_obj_char. rewrite !orb_true_iff, !N.eqb_eq, is_letter_spec, is_digit_spec. tauto. Qed.
Lemma id_char_spec c : is_id_char c = true <-> letter c \/ digit c \/ c = 95%N \/ c = 45%N \/ c = 46%N.
Proof. unfold is_id_char. rewrite !orb_true_iff, !N.eqb_eq, is_letter_spec, is_digit_spec. tauto. Qed.
Lemma id_start_spec c : is_id_start c = true <-> letter c \/ c = 95%N.
Proof. unfold is_id_start. rewrite !orb_true_iff, !N.eqb_eq, is_letter_spec. tauto. Qed.
Lemma id_start_char c : is_id_start c = true -> is_id_char c = true.
Proof. rewrite id_start_spec, id_char_spec. tauto. Qed.
Lemma obj_name_ok n r : name_text n -> ~ starts is_obj_char r -> obj_name (n ++ r) = POk n r.
Proof.
  intros (_ & F) N. unfold obj_name, pat0. assert (S : span is_obj_char (n ++ r) = (n, r)); [|now rewrite S].
  apply span_iff. split; [auto|]. split; [|auto]. apply forallb_forall. intros c I. apply obj_char_spec, F, I.
Qed.
Lemma obj_name_sound s n r : obj_name s = POk n r -> s = n ++ r /\ (n = [] \/ name_text n).
Proof.
  unfold obj_name, pat0. destruct (span is_obj_char s) as [a b] eqn:S. apply span_iff in S as (-> & F & _). intros [= <- <-].
  split; [auto|]. destruct a as [|c a]; [now left|right]. split; [discriminate|]. rewrite forallb_forall in F. intros x I. apply obj_char_spec, F, I.
Qed.
Lemma ident_iff s n r : identifier s = POk n r <-> s = n ++ r /\ ident_text n /\ ~ starts is_id_char r.
Proof.
  unfold identifier. split.
  - destruct s as [|c s]; [discriminate|]. destruct (is_id_start c) eqn:C; [|discriminate].
    destruct (span is_id_char s) as [a b] eqn:S. apply span_iff in S as (-> & F & N). intros [= <- <-]. split; [auto|]. split; [|auto].
    split; [exists c, a; split; [auto|now apply id_start_spec]|]. intros x [<-|I]; [apply id_char_spec, id_start_char, C|].
    rewrite forallb_forall in F. apply id_char_spec, F, I.
  - intros (-> & ((c & n' & -> & C) & F) & N). cbn [app]. apply id_start_spec in C. rewrite C.
    assert (S : span is_id_char (n' ++ r) = (n', r)); [|now rewrite S]. apply span_iff. split; [auto|]. split; [|auto].
    apply forallb_forall. intros x I. apply id_char_spec, F. now right.
Qed.

Lemma nostart f n r : match n with c :: _ => f c = false | [] => False end -> ~ starts f (n ++ r).
Proof. destruct n as [|c n]; [intros []|]. cbn. rewrite starts_cons. congruence. Qed.
Section Words.
  Context (isalpha isalnum isspace : N -> bool) (OK : classes_ok isalpha isalnum isspace).
  Notation token := (token isalpha isalnum).
  Notation kw := (kw isalpha isalnum).
  Notation tokens := (tokens isalpha isalnum).
  Notation reference := (reference isalpha isalnum).
  Notation name_slash := (name_slash isalpha isalnum).
  Notation acl_name := (acl_name isalpha isalnum).

  (** Not followed by a letter or digit. *)
  Definition stop (r : pystr) : Prop := next_alnum isalnum r = false.
  Lemma sepw_stop r : sepw r -> stop r.
  Proof using OK.
    intros (c & r' & -> & C). unfold stop. cbn. unfold cls, in_class in C. cbn in C.
    destruct C as [<-|[<-|[<-|[<-|[<-|[]]]]]]; (rewrite (alnum_ok _ _ _ OK) by reflexivity; reflexivity).
  Qed.
  Lemma sep_stop r : sep_start r -> stop r.
  Proof using OK. intros H. apply sepw_stop, sep_sepw, H. Qed.
  Lemma gap_stop g r : gap g -> stop (g ++ r).
  Proof using OK. intros H. apply sep_stop, gap_sep, H. Qed.
  Lemma white_alnum c : white c -> isalnum c = false.
  Proof using OK.
    unfold white, in_class. cbn. intros [<-|[<-|[<-|[<-|[]]]]]; (rewrite (alnum_ok _ _ _ OK) by reflexivity; reflexivity).
  Qed.
  Lemma slash_alnum : isalnum 47%N = false.
  Proof using OK. rewrite (alnum_ok _ _ _ OK) by reflexivity; reflexivity. Qed.

  Lemma kw_ok w r : stop r -> kw w (u w ++ r) = POk tt r.
  Proof using.
    clear. intros S. unfold AclText.kw. eapply pbind_step; [|reflexivity]. apply token_ok. split; [auto|]. split; [auto|].
    unfold passes. rewrite S. apply andb_false_r.
  Qed.
  Lemma kw_sound w s x r : kw w s = POk x r -> s = u w ++ r.
  Proof using. clear. unfold AclText.kw. rewrite pbind_ok. intros (a & s1 & T & R). apply ret_ok in R as (_ & ->). apply token_ok in T. tauto. Qed.
  Lemma kw_noerr w s e : kw w s <> PErr e.
  Proof using. clear. unfold AclText.kw, pbind. destruct (token (u w) s) eqn:T; try discriminate. now apply token_noerr in T. Qed.

  (** Texts that part before either of them ends. *)
  Fixpoint clash (a b : pystr) : bool :=
    match a, b with x :: a', y :: b' => negb (N.eqb x y) || clash a' b' | _, _ => false end.
  Lemma clash_strip t v r : clash t v = true -> strip_prefix t (v ++ r) = None.
  Proof using.
    clear. revert v. induction t as [|x t IH]; intros [|y v]; cbn; try discriminate. destruct (N.eqb x y); cbn; [apply IH|reflexivity].
  Qed.
  Lemma kw_clash w v r : clash (u w) v = true -> kw w (v ++ r) = PFail.
  Proof using. clear. intros C. unfold AclText.kw. apply pbind_fail. unfold Peg.token. now rewrite clash_strip. Qed.
  (** A text of one word [n] is not the word [w]. *)
  Lemma kwws_fail {A} w (k : parser A) n r : freew n -> freewb (u w) = true -> sepw r -> n <> u w ->
    (let% _ := kw w in let% _ := ws in k) (n ++ r) = PFail.
  Proof using.
    clear. intros Fn Fw S N. apply freewb_ok in Fw. unfold pbind at 1. destruct (kw w (n ++ r)) as [|e|x q] eqn:K; [auto|now apply kw_noerr in K|].
    apply kw_sound in K. apply pbind_fail. destruct (ws q) as [|e|y q'] eqn:W; [auto| |].
    - exfalso. unfold ws, pbind, pat1, ret in W. destruct (span is_blank q) as [[|] ?]; discriminate.
    - apply ws_iff in W as (g & G & -> & _). exfalso. apply N.
      destruct (word_split n r (u w) (g ++ q') Fn Fw S (gap_sepw g q' G) K). auto.
  Qed.
  Lemma tokens_noerr l s e : tokens l s <> PErr e.
  Proof using. clear. apply choice_noerr. Qed.
  Lemma tokens_sound l s n r : tokens l s = POk n r -> In n l /\ s = n ++ r /\ passes isalpha isalnum n r.
  Proof using. clear. apply choice_sound. Qed.
  Lemma tokws_fail {A} l (k : pystr -> parser A) n r : freew n -> forallb freewb l = true -> sepw r -> ~ In n l ->
    (let% x := tokens l in let% _ := ws in k x) (n ++ r) = PFail.
  Proof using.
    clear. intros Fn Fl S N. unfold pbind at 1. destruct (tokens l (n ++ r)) as [|e|x q] eqn:K; [auto|now apply tokens_noerr in K|].
    apply tokens_sound in K as (I & K & _). apply pbind_fail. destruct (ws q) as [|e|y q'] eqn:W; [auto| |].
    - exfalso. unfold ws, pbind, pat1, ret in W. destruct (span is_blank q) as [[|] ?]; discriminate.
    - apply ws_iff in W as (g & G & -> & _). exfalso. apply N. rewrite forallb_forall in Fl.
      destruct (word_split n r x (g ++ q') Fn (freewb_ok _ (Fl x I)) S (gap_sepw g q' G) K) as (-> & _). auto.
  Qed.
  (** Nothing in the list begins the text. *)
  Lemma tokens_clash l v r : forallb (fun w => clash w v) l = true -> tokens l (v ++ r) = PFail.
  Proof using.
    clear. intros C. destruct (tokens l (v ++ r)) as [|e|x q] eqn:K; [auto|now apply tokens_noerr in K|].
    apply tokens_sound in K as (I & K & _). rewrite forallb_forall in C. specialize (C x I). apply clash_strip with (r := r) in C.
    assert (strip_prefix x (v ++ r) = Some q) by (now apply strip_spec). congruence.
  Qed.

  (** A word of the list, with no earlier word of the list reading a part of it. *)
  Definition misread (v w : pystr) : bool :=
    match strip_prefix v w with
    | Some (c :: _) => negb (name_like ascii_alpha ascii_alnum v && ascii_alnum c)
    | _ => false
    end.
  Fixpoint clear_list (l : list pystr) : bool :=
    match l with [] => true | v :: l' => ascii v && freewb v && forallb (fun w => negb (misread v w)) l' && clear_list l' end.
  Lemma clear_in l w : clear_list l = true -> In w l -> ascii w = true /\ freewb w = true.
  Proof using.
    clear. induction l as [|v l IH]; [intros _ []|]. cbn [clear_list]. rewrite !andb_true_iff. intros (((A & B) & _) & C) [->|I]; auto.
  Qed.
  Lemma tokens_ok l w r : clear_list l = true -> In w l -> sepw r -> tokens l (w ++ r) = POk w r.
  Proof using OK.
    intros C I S. unfold AclText.tokens. induction l as [|v l IH]; [destruct I|]. cbn [map choice fold_right].
    pose proof (clear_in _ _ C I) as (Aw & Fw). cbn [clear_list] in C. rewrite !andb_true_iff in C. destruct C as (((Av & Fv) & M) & C).
    destruct (list_eq_dec N.eq_dec v w) as [->|Nv].
    - apply por_l. apply token_ok. split; [auto|]. split; [auto|]. unfold passes. rewrite (sepw_stop r S). apply andb_false_r.
    - destruct I as [I|I]; [congruence|]. apply por_r; [|apply IH; auto].
      destruct (token v (w ++ r)) as [|e|x q] eqn:T; [auto|now apply token_noerr in T|exfalso].
      apply token_ok in T as (_ & E & P). destruct (Nat.le_gt_cases (length v) (length w)) as [L|L].
      + symmetry in E. apply app_longer in E as (k & -> & ->); [|auto]. destruct k as [|c k]; [rewrite app_nil_r in Nv; congruence|].
        rewrite forallb_forall in M. specialize (M _ I). unfold misread in M.
        assert (X : strip_prefix v (v ++ c :: k) = Some (c :: k)) by (now apply strip_spec). rewrite X in M.
        rewrite negb_involutive in M. apply andb_true_iff in M as (M1 & M2). unfold passes in P. cbn in P.
        unfold ascii in Aw. rewrite forallb_app in Aw. cbn [forallb] in Aw. rewrite !andb_true_iff in Aw.
        rewrite (name_like_ok _ _ _ OK) in P by auto. rewrite M1, (alnum_ok _ _ _ OK) in P by tauto. rewrite M2 in P. discriminate.
      + apply app_longer in E as (k & -> & ->); [|lia]. destruct k as [|c k]; [rewrite app_nil_r in L; lia|].
        destruct S as (c' & r' & E & Cc). injection E as <- _. apply freewb_ok in Fv. apply (Fv c); [apply in_app_iff; right; now left|auto].
  Qed.

  (** ** References *)
  Lemma ref_sound {V} (table : dict V) s v r : (forall n, dmem table n = true -> freeof white n) ->
    reference table s = POk v r -> exists n, s = n ++ r /\ dget table n = Some v.
  Proof using OK. intros F H. apply C26_reference in H; [|exact white_alnum|exact F]. destruct H as (n & -> & _ & D). eauto. Qed.
  Lemma ref_ok {V} (table : dict V) n v r : (forall n, dmem table n = true -> freeof white n) ->
    dget table n = Some v -> sep_start r -> reference table (n ++ r) = POk v r.
  Proof using OK. intros F D S. apply C26_reference; [exact white_alnum|exact F|]. eauto. Qed.
  Lemma ref_fail {V} (table : dict V) s : (forall n, dmem table n = true -> freeof white n) ->
    (forall n v r, s = n ++ r -> sep_start r -> dget table n <> Some v) -> reference table s = PFail.
  Proof using OK.
    intros F H. destruct (C26_reference_total isalpha isalnum table s white_alnum F) as [(v & r & R)|R]; [|auto].
    apply C26_reference in R; [|exact white_alnum|exact F]. destruct R as (n & -> & S & D). now destruct (H n v r eq_refl S).
  Qed.
  Lemma freew_white n : freew n -> freeof white n.
  Proof using. clear. intros F c I W. apply (F c I). unfold cls, white, in_class in *. cbn in *. tauto. Qed.
  Lemma ref_none {V} (table : dict V) n r : (forall n, dmem table n = true -> freew n) -> freew n -> sepw r ->
    (dget table n = None \/ ~ sep_start r) -> reference table (n ++ r) = PFail.
  Proof using OK.
    intros F Fn S H. apply ref_fail; [intros m M; apply freew_white, F, M|]. intros m v q E Sq D.
    assert (M : dmem table m = true) by (unfold dmem; now rewrite D).
    destruct (word_split n r m q Fn (F m M) S (sep_sepw _ Sq) E) as (-> & ->). destruct H as [H|H]; [congruence|auto].
  Qed.
  Lemma slash_ok {V} (table : dict V) n v r : (forall n, dmem table n = true -> freew n) ->
    dget table n = Some v -> name_slash table (n ++ 47%N :: r) = POk v (47%N :: r).
  Proof using OK.
    intros F D. apply C26_name_slash; [exact slash_alnum| |eauto].
    intros m M c I C. apply (F m M c I). unfold cls, in_class in *. cbn in *. tauto.
  Qed.
  Lemma slash_sound {V} (table : dict V) s v r : (forall n, dmem table n = true -> freew n) ->
    name_slash table s = POk v r -> exists n, s = n ++ r /\ dget table n = Some v.
  Proof using OK.
    intros F H. apply C26_name_slash in H; [|exact slash_alnum|]. { destruct H as (n & r' & -> & _ & D). eauto. }
    intros m M c I C. apply (F m M c I). unfold cls, in_class in *. cbn in *. tauto.
  Qed.
  Lemma slash_noerr {V} (table : dict V) s e : name_slash table s <> PErr e.
  Proof using.
    clear. unfold Ids.name_slash, act, pbind, look, subscript. destruct (ids isalpha isalnum table s) as [|e'|n q] eqn:I; [discriminate|now apply ids_noerr in I|].
    destruct (char 47 q) eqn:C; [discriminate| |].
    - unfold char in C. destruct q as [|d q]; [discriminate|]. destruct (N.eqb d 47); discriminate.
    - rewrite I. apply ids_sound in I as (M & _). unfold dmem in M. destruct (dget table n); [discriminate|discriminate].
  Qed.
  Lemma slash_none {V} (table : dict V) n r : (forall n, dmem table n = true -> freew n) -> freew n -> sepw r ->
    (dget table n = None \/ forall r', r <> 47%N :: r') -> name_slash table (n ++ r) = PFail.
  Proof using OK.
    intros F Fn S H. destruct (name_slash table (n ++ r)) as [|e|v q] eqn:E; [auto|now apply slash_noerr in E|exfalso].
    apply C26_name_slash in E; [|exact slash_alnum|].
    - destruct E as (m & r' & E & -> & D). assert (M : dmem table m = true) by (unfold dmem; now rewrite D).
      destruct (word_split n r m (47%N :: r') Fn (F m M) S (slash_sepw r') E) as (-> & ->). destruct H as [H|H]; [congruence|now apply (H r')].
    - intros m M c I C. apply (F m M c I). unfold cls, in_class in *. cbn in *. tauto.
  Qed.

  (** ** Names from a list followed by a separator (port and ICMP type names) *)
  Notation named := (named isalpha isalnum).
  Lemma named_sound l s n r : named l s = POk n r -> In n l /\ s = n ++ r.
  Proof using. clear. unfold AclText.named. rewrite pbind_ok. intros (a & s1 & L & T). unfold look in L.
    match type of L with match ?x with _ => _ end = _ => destruct x end; try discriminate. injection L as _ <-. apply tokens_sound in T. tauto. Qed.
  Lemma named_ok l n r : clear_list l = true -> In n l -> sep_start r -> named l (n ++ r) = POk n r.
  Proof using OK.
    intros C I S. pose proof (tokens_ok l n r C I (sep_sepw r S)) as T. unfold AclText.named.
    apply (pbind_step _ _ _ tt (n ++ r)); [|exact T].
    unfold look. destruct (proj2 (sep_parse r) S) as (q & Q). erewrite (pbind_step (tokens l)); [|exact T|exact Q]. reflexivity.
  Qed.
  Lemma named_fail l s : (forall n q, In n l -> s = n ++ q -> ~ sep_start q) -> named l s = PFail.
  Proof using.
    clear. intros H. unfold AclText.named. apply pbind_fail. unfold look. unfold pbind. destruct (tokens l s) as [|e|x q] eqn:T; [auto|now apply tokens_noerr in T|].
    apply tokens_sound in T as (I & -> & _). destruct (por ws nl q) as [|e|y q'] eqn:Q; [auto|now apply sep_noerr in Q|].
    exfalso. apply (H x q I eq_refl). apply sep_parse. destruct y. eauto.
  Qed.
  Lemma named_none l n r : forallb freewb l = true -> freew n -> sepw r -> ~ In n l -> named l (n ++ r) = PFail.
  Proof using.
    clear. intros C Fn S N. apply named_fail. intros m q I E Sq. rewrite forallb_forall in C.
    destruct (word_split n r m q Fn (freewb_ok _ (C m I)) S (sep_sepw _ Sq) E) as (-> & _). auto.
  Qed.
End Words.
