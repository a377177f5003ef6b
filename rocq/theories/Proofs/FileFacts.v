(** Whole configurations as text: commands and tables. *)
From Coq Require Import Lia String.
From Verif.Model Require Import Base Ip Hosts Groups Rules Nat Iface Peg Ids AddrText Ports AclText Define GroupText ObjText LineText NatText FileText.
From Verif.Spec Require Import AddrSpec AddrTextSpec RefSpec CafMeanSpec CafTextSpec AclTextSpec GroupTextSpec ObjTextSpec LineTextSpec FileTextSpec.
From Verif.Spec Require NatTextSpec.
From Verif.Proofs Require Import DictFacts PegFacts TokFacts CafTextFacts LineFacts AclTextFacts GroupTextFacts LineTextFacts NoErr FileTextFacts.
From Verif.Props Require Import AclText GroupText ObjText LineText NatText.
Local Open Scope list_scope.

Definition command_words : list string :=
  ["ASA Version "; "FWSM Version "; "hostname"; "domain-name"; "interface"; "name"; "time-range"; "object"; "object-group"; "access-list"; "access-group"; "nat"]%string ++ map word_of skip_table.
Definition is_acl (c : command) : bool := match c with CRule _ | CEthertype | CRemarks _ => true | _ => false end.

Lemma clash_neq a b x y : clash a b = true -> a ++ x <> b ++ y.
Proof.
  revert b. induction a as [|c a IH]; intros [|d b]; cbn; try discriminate. intros C E. injection E as -> E. rewrite N.eqb_refl in C. cbn in C. now apply IH in E.
Qed.
Lemma strip_clash a b x : clash a b = true -> strip_prefix a (b ++ x) = None.
Proof. apply clash_strip. Qed.

Section Commands.
  Context (isalpha isalnum isspace : N -> bool) (OK : classes_ok isalpha isalnum isspace).
  Context (py_int : pystr -> option Z)
          (PI1 : forall n, n <> [] -> forallb AddrText.is_digit n = true -> py_int n <> None)
          (PI2 : forall n, In n port_code -> py_int n = None).
  Notation kw := (kw isalpha isalnum).
  Notation command_ := (command_ isalpha isalnum isspace py_int).
  Notation commands := (commands isalpha isalnum isspace py_int).
  Notation access_list E := (access_list isalpha isalnum isspace py_int E).
  Notation access_list_remark := (access_list_remark isalpha isalnum).
  Notation command_text := (command_text isalnum isspace).
  Notation file_text := (file_text isalnum isspace).

  Lemma remarks_open l ts : l <> [] -> Forall2 remark_text l ts -> exists q, concat ts = u "access-list" ++ q.
  Proof using. clear. intros N F. destruct F as [|x t l ts X F]; [congruence|]. destruct X. cbn [concat]. rewrite <- !app_assoc. eauto. Qed.
  Lemma rule_open E x t : rule_text E isspace x t -> exists q, t = u "access-list" ++ q.
  Proof using.
    clear. intros [y ts t' F L]. destruct F as [|z tz l ts Z F].
    - cbn [concat app]. destruct L as [id mode hd p g g1 src s g2 dst d icmp i o z Hd|id mode hd proto p g g1 src s g2 dst d o z Hd|id mode hd g src s g1 z Hd|id mode hd g g1 url o z Hd|id mode hd g g1 dst d o z Hd];
        destruct Hd as (h1 & h2 & h3 & _ & _ & _ & _ & _ & ->); rewrite <- !app_assoc; eauto.
    - destruct Z. cbn [concat]. rewrite <- !app_assoc. eauto.
  Qed.
  Lemma ether_open t : ethertype_text isalnum t -> exists q, t = u "access-list" ++ q.
  Proof using. clear. intros [ts rems id g g' x F]. destruct F as [|z tz l ts Z F]; [cbn [concat app]; eauto|]. destruct Z. cbn [concat]. rewrite <- !app_assoc. eauto. Qed.
  Lemma opening other T c t r : command_text other T c t r ->
    (c = CEmpty /\ eol_text t) \/ exists w q, In w command_words /\ t = u w ++ q /\ (w = "access-list"%string -> is_acl c = true).
  Proof using.
    clear. assert (W : forall w c q, In w (firstn 12 command_words) -> (w = "access-list"%string -> is_acl c = true) ->
      (c = CEmpty /\ eol_text (u w ++ q)) \/ exists w' q', In w' command_words /\ u w ++ q = u w' ++ q' /\ (w' = "access-list"%string -> is_acl c = true)).
    { intros w c' q I A. right. exists w, q. split; [|auto]. rewrite <- (firstn_skipn 12 command_words). apply in_app_iff. now left. }
    intros [x t' r' X _|bare d t' r' X _|d t' r' X|x t' r' X|t' r' X|l ts r' N X _|a n t' r' X _|t' r' X _|t' r' X|t' r' X].
    - destruct X as [w t0 W' O| | | | | | | | | ];
        [destruct W' as (w0 & [<-|[<-|[]]] & ->)|..]; apply W; try discriminate; cbn; tauto.
    - destruct X; apply W; try discriminate; cbn; tauto.
    - destruct X; apply W; try discriminate; cbn; tauto.
    - apply rule_open in X as (q & ->). apply W; [cbn; tauto|auto].
    - apply ether_open in X as (q & ->). apply W; [cbn; tauto|auto].
    - destruct (remarks_open _ _ N X) as (q & ->). apply W; [cbn; tauto|auto].
    - destruct X; apply W; try discriminate; cbn; tauto.
    - destruct X; apply W; try discriminate; cbn; tauto.
    - destruct X as [w l t0 (y & -> & A & _) _ _]. right. exists w, (y ++ t0). rewrite <- app_assoc. assert (I : In w (map word_of skip_table)).
      { assert (I' : exists k b, In (w, k, b) skip_table). { apply entry_of. rewrite !in_app_iff. cbn [In]. destruct A as [w q W' O|w g q [W'|W'] _ _|w z [W'|W'] _]; auto. }
        destruct I' as (k & b & I'). apply in_map_iff. exists (w, k, b). auto. }
      split; [apply in_app_iff; now right|]. split; [auto|]. intros ->. exfalso. revert I. clear. cbn. intros H. repeat (destruct H as [H|H]; [discriminate H|]). destruct H.
    - now left.
  Qed.

  (** ** What every configuration begins with *)
  Definition fresh (r : pystr) : Prop :=
    ~ opens_blank r /\ (forall z r', eol_text z -> r = z ++ r' -> ~ opens_blank r') /\
    (forall w, In w ["description"; "port-object"; "group-object"]%string -> forall q, r <> u w ++ q).
  Lemma words_start : forallb (fun w => match u w with [] => false | c :: _ => negb (existsb (N.eqb c) [32; 9; 10; 13]%N) end &&
    forallb (fun v => clash (u v) (u w)) ["description"; "port-object"; "group-object"]%string) command_words = true.
  Proof using. vm_compute. reflexivity. Qed.
  Lemma word_start w q : In w command_words -> exists c q', u w ++ q = c :: q' /\ c <> 32%N /\ c <> 9%N /\ c <> 10%N /\ c <> 13%N.
  Proof using.
    clear. intros I. pose proof words_start as H. rewrite forallb_forall in H. apply H in I. apply andb_true_iff in I as (I & _). destruct (u w) as [|c w']; [discriminate|].
    exists c, (w' ++ q). split; [auto|]. apply negb_true_iff in I. cbn [existsb] in I. rewrite !orb_false_iff, !N.eqb_neq in I. tauto.
  Qed.
  Lemma eol_unique z z' r r' : eol_text z -> eol_text z' -> z ++ r = z' ++ r' -> z = z' /\ r = r'.
  Proof using. clear. intros [-> | ->] [-> | ->] E; cbn in E; try discriminate E; injection E as ->; auto. Qed.
  Lemma file_blank other T cs ms T' r : file_text other T cs ms T' r -> ~ opens_blank r.
  Proof using.
    clear. intros [T0|T0 c t r0 T1 m cs' ms' T2 C _ _] (d & q & E & D); [discriminate E|]. apply opening in C as [(_ & Z)|(w & q' & I & -> & _)].
    - destruct Z as [-> | ->]; cbn in E; injection E as <- _; destruct D; discriminate.
    - destruct (word_start w (q' ++ r0) I) as (c0 & q0 & E0 & N). rewrite <- app_assoc, E0 in E. injection E as -> _. tauto.
  Qed.
  Lemma file_fresh other T cs ms T' r : file_text other T cs ms T' r -> fresh r.
  Proof using.
    clear. intros F. pose proof (file_blank _ _ _ _ _ _ F) as B. destruct F as [T0|T0 c t r0 T1 m cs' ms' T2 C _ F].
    - split; [auto|]. split; [intros z r' [-> | ->] [=]|]. intros w I q E. cbn [In] in I. destruct I as [<-|[<-|[<-|[]]]]; discriminate E.
    - split; [auto|]. apply opening in C as [(_ & Z)|(w & q' & I & -> & _)].
      + split; [intros z r' Z' E; destruct (eol_unique _ _ _ _ Z Z' E) as (_ & <-); eapply file_blank; eauto|].
        intros w I q E. cbn [In] in I. destruct Z as [-> | ->]; destruct I as [<-|[<-|[<-|[]]]]; discriminate E.
      + rewrite <- app_assoc. split.
        * intros z r' Z E. destruct (word_start w (q' ++ r0) I) as (c0 & q0 & E0 & N). rewrite E0 in E. destruct Z as [-> | ->]; injection E as -> _; tauto.
        * intros v J q E. pose proof words_start as H. rewrite forallb_forall in H. apply H in I. apply andb_true_iff in I as (_ & I). rewrite forallb_forall in I. apply I in J.
          symmetry in E. now apply clash_neq in E.
  Qed.

  (** ** Commands that are something else *)
  Lemma kw_none w s : strip_prefix (u w) s = None -> kw w s = PFail.
  Proof using. clear. intros H. unfold AclText.kw. apply pbind_fail. unfold Peg.token. now rewrite H. Qed.
  Lemma lit_none t s : strip_prefix t s = None -> lit t s = PFail.
  Proof using. clear. unfold lit. now intros ->. Qed.
  Definition not_word (l : list string) (s : pystr) : Prop := Forall (fun w => strip_prefix (u w) s = None) l.
  Lemma not_clash l v r : forallb (fun w => clash (u w) v) l = true -> not_word l (v ++ r).
  Proof using. clear. intros H. apply Forall_forall. intros w I. rewrite forallb_forall in H. now apply strip_clash, H. Qed.
  Ltac one H := inversion H as [|? ? ? ?]; subst; clear H.
  Lemma m_version s : not_word ["ASA Version "; "FWSM Version "]%string s -> version s = PFail.
  Proof using. clear. intros H. inversion H as [|? ? A H']; subst. inversion H' as [|? ? B _]; subst. unfold version. apply por_r; apply pbind_fail; now apply lit_none. Qed.
  Lemma m_host s : not_word ["hostname"]%string s -> hostname isalpha isalnum s = PFail.
  Proof using. clear. intros H. inversion H as [|? ? A H']; subst. unfold hostname. now apply pbind_fail, kw_none. Qed.
  Lemma m_domain s : not_word ["domain-name"]%string s -> domain_name isalpha isalnum s = PFail.
  Proof using. clear. intros H. inversion H as [|? ? A H']; subst. unfold domain_name. now apply pbind_fail, kw_none. Qed.
  Lemma m_iface s : not_word ["interface"]%string s -> interface_ isalpha isalnum isspace s = PFail.
  Proof using. clear. intros H. inversion H as [|? ? A H']; subst. unfold interface_. now apply pbind_fail, kw_none. Qed.
  Lemma m_name s : not_word ["name"]%string s -> name isalpha isalnum s = PFail.
  Proof using. clear. intros H. inversion H as [|? ? A H']; subst. unfold name. now apply pbind_fail, kw_none. Qed.
  Lemma m_time s : not_word ["time-range"]%string s -> time_range isalpha isalnum isspace s = PFail.
  Proof using. clear. intros H. inversion H as [|? ? A H']; subst. unfold time_range. now apply pbind_fail, kw_none. Qed.
  Lemma m_object E IF s : not_word ["object"]%string s -> object_ isalpha isalnum isspace py_int E IF s = PFail.
  Proof using. clear. intros H. inversion H as [|? ? A H']; subst. unfold object_. now apply pbind_fail, kw_none. Qed.
  Lemma m_group E s : not_word ["object-group"]%string s -> object_group isalpha isalnum py_int E s = PFail.
  Proof using. clear. intros H. inversion H as [|? ? A H']; subst. unfold object_group. now apply pbind_fail, kw_none. Qed.
  Lemma m_remark s : not_word ["access-list"]%string s -> access_list_remark s = PFail.
  Proof using. clear. intros H. inversion H as [|? ? A H']; subst. unfold AclText.access_list_remark. now apply pbind_fail, kw_none. Qed.
  Lemma m_remarks s : not_word ["access-list"]%string s -> many1 access_list_remark s = PFail.
  Proof using. clear. intros H. unfold many1. now apply pbind_fail, m_remark. Qed.
  Lemma m_access E s : not_word ["access-list"]%string s -> access_list E s = PFail.
  Proof using.
    clear. intros H. pose proof (m_remarks s H) as M. inversion H as [|? ? A H']; subst. unfold AclText.access_list, choice. cbn [fold_right].
    assert (R : forall r, rule_extended isalpha isalnum py_int E r s = PFail /\ rule_standard isalpha isalnum E r s = PFail /\ rule_webtype isalpha isalnum isspace py_int E r s = PFail /\ rule_ethertype isalpha isalnum s = PFail).
    { assert (Hd : forall k, rule_head isalpha isalnum k s = PFail) by (intros k; unfold rule_head; now apply pbind_fail, kw_none).
      intros r. split; [|split; [|split]]; unfold rule_extended, rule_standard, rule_webtype, rule_ethertype; [apply por_r|..|apply por_r|]; apply pbind_fail; auto. now apply kw_none. }
    destruct (R []) as (R1 & R2 & R3 & R4). repeat (apply por_r; [apply pbind_fail; auto|]). reflexivity.
  Qed.
  Lemma m_bind s : not_word ["access-group"]%string s -> access_group isalpha isalnum s = PFail.
  Proof using. clear. intros H. inversion H as [|? ? A H']; subst. unfold access_group. apply por_r; now apply pbind_fail, kw_none. Qed.
  Lemma m_nat E IF s : not_word ["nat"]%string s -> nat_command isalpha isalnum E IF s = PFail.
  Proof using. clear. intros H. inversion H as [|? ? A H']; subst. unfold NatText.nat_command. apply act_fail. unfold NatText.nat_line. repeat apply por_r; now apply pbind_fail, kw_none. Qed.
  Lemma m_ignored s : not_word (map word_of skip_table) s -> ignored isalpha isalnum s = PFail.
  Proof using.
    clear. unfold ignored. generalize skip_table as l. induction l as [|((w & k) & b) l IH]; intros H; [reflexivity|]. inversion H as [|? ? A H']; subst.
    unfold choice. cbn [map fold_right]. apply por_r; [|now apply IH]. unfold skip_line. now apply pbind_fail, kw_none.
  Qed.

  (** ** Every command is read *)
  Definition tables_ok (T : tables) : Prop := env_ok (env_of T) /\ ifaces_ok isalnum (tb_if T).
  Definition skip_keys : list string :=
    ["ASA Version "; "FWSM Version "; "hostname"; "domain-name"; "interface"; "time-range"; "object"; "object-group"; "access-list"; "access-group"]%string.
  Lemma skip_clash : forallb (fun e => forallb (fun w => clash (u w) (u (word_of e))) skip_keys &&
      (clash (u "name") (u (word_of e)) || String.eqb (word_of e) "names") && (clash (u "nat") (u (word_of e)) || String.eqb (word_of e) "nat-control")) skip_table = true.
  Proof using. vm_compute. reflexivity. Qed.
  Lemma names_fail r : name isalpha isalnum (u "names" ++ r) = PFail.
  Proof using OK.
    unfold name. apply pbind_fail. unfold AclText.kw. apply pbind_fail. unfold Peg.token. change (strip_prefix (u "name") (u "names" ++ r)) with (Some (115%N :: r)). cbv iota.
    assert (L : name_like isalpha isalnum (u "name") = true) by (rewrite (name_like_ok _ _ _ OK); reflexivity).
    assert (A : next_alnum isalnum (115%N :: r) = true) by (cbn; rewrite (alnum_ok _ _ _ OK); reflexivity). now rewrite L, A.
  Qed.
  Lemma control_fail E IF r : nat_command isalpha isalnum E IF (u "nat-control" ++ r) = PFail.
  Proof using OK.
    unfold NatText.nat_command. apply act_fail. unfold NatText.nat_line. change (u "nat-control" ++ r) with (u "nat" ++ (u "-control" ++ r)).
    assert (K : kw "nat" (u "nat" ++ u "-control" ++ r) = POk tt (u "-control" ++ r)).
    { apply kw_ok. unfold stop. cbn. rewrite (alnum_ok _ _ _ OK) by reflexivity. reflexivity. }
    apply por_r; (eapply pbind_step; [exact K|]; apply pbind_fail, ws_fail; now apply nostart).
  Qed.
  Lemma group_object E IF g t : gap g -> object_ isalpha isalnum isspace py_int E IF (u "object-group" ++ t) = PFail.
  Proof using OK.
    intros G. unfold object_. change (u "object-group" ++ t) with (u "object" ++ (u "-group" ++ t)). eapply pbind_step.
    - apply kw_ok. unfold stop. cbn. rewrite (alnum_ok _ _ _ OK) by reflexivity. reflexivity.
    - apply pbind_fail, ws_fail. now apply nostart.
  Qed.
  Ltac miss := apply por_r; [apply pbind_fail;
    first [apply m_version|apply m_host|apply m_domain|apply m_iface|apply m_name|apply m_time|apply m_object|apply m_group|apply m_access|apply m_remarks|apply m_bind|apply m_nat]; apply not_clash; reflexivity|].
  Ltac hit H := apply por_l; eapply pbind_step; [exact H|]; reflexivity.

  Lemma fresh_fresh r : fresh r -> fresh_line r.
  Proof using.
    clear. intros (A & B & _). split; [intros (q & ->); apply A; exists 32%N, q; auto|]. intros z r' Z E (q & ->). apply (B z _ Z E). exists 32%N, q. auto.
  Qed.
  Lemma fresh_indent r : fresh r -> ~ indented r.
  Proof using. clear. intros F. apply fresh_fresh in F. apply F. Qed.

  Lemma remarks_miss E l ts r : l <> [] -> Forall2 remark_text l ts -> (forall q, r <> u "access-list" ++ q) ->
    access_list E (concat ts ++ r) = PFail /\ many1 access_list_remark (concat ts ++ r) = POk l r.
  Proof using OK.
    intros N F R. assert (Nr : not_word ["access-list"]%string r).
    { constructor; [|constructor]. destruct (strip_prefix (u "access-list") r) as [q|] eqn:S; [|auto]. apply strip_spec in S as ->. now destruct (R q). }
    assert (M : access_list_remark r = PFail) by now apply m_remark. pose proof (m_access E r Nr) as A.
    destruct l as [|x l]; [congruence|]. split; [|eapply remarks_ok; eauto].
    unfold AclText.access_list, choice in *. cbn [fold_right] in *.
    inversion Nr as [|? ? K _]; subst. assert (Hd : forall k, rule_head isalpha isalnum k r = PFail) by (intros k; unfold rule_head; now apply pbind_fail, kw_none).
    erewrite pair_miss; eauto using ext_remark; [|intros; unfold rule_extended; apply por_r; apply pbind_fail; auto].
    erewrite pair_miss; eauto using std_remark; [|intros; unfold rule_standard; apply pbind_fail; auto].
    erewrite pair_miss; eauto using web_remark; [|intros; unfold rule_webtype; apply por_r; apply pbind_fail; auto].
    apply por_r; [eapply pbind_step; [eapply remarks_ok; [eauto|exact F|exact M]|apply pbind_fail; unfold rule_ethertype; now apply pbind_fail, kw_none]|].
    apply por_r; [|reflexivity]. apply pbind_fail. inversion F as [|? t ? ts' T F']; subst. cbn [concat]. rewrite <- app_assoc.
    destruct (remark_begins _ _ T (concat ts' ++ r)) as (q' & Bq). eapply ethertype_miss; [eauto|exact Bq|reflexivity|now apply nostart].
  Qed.

  Lemma read_command T c t r : command_text other_line T c t r -> tables_ok T -> fresh r -> command_ T (t ++ r) = POk c r.
  Proof using OK PI1 PI2.
    intros C (HE & HI) F. unfold FileText.command_, choice. cbn [fold_right].
    destruct C as [x t r X D|bare d t r X D|d t r X|x t r X|t r X|l ts r N X D|a n t r X A|t r X D|t r X|t r X].
    - assert (R : simple_rest x r).
      { destruct x; cbn [simple_rest]; auto; [apply (D _ eq_refl)| |]; intros (q & ->); apply (proj1 F); exists 32%N, q; auto. }
      pose proof (command_ok _ _ _ OK x t r X R) as H.
      destruct X as [w t W O|g n z G I Z|g n G I|g a t g1 n z G T0 G1 I Z|g a t g1 n g2 d G T0 G1 I G2 O Nd Al|g n g1 d g2 g3 i z G Nn G1 Nd G2 G3 Ni Z|g n g1 d g2 g3 z G Nn G1 Nd G2 G3 Z|g n g1 z G Nn G1 Z|g a z l t G U Z Dt|g n z l t G U Z Dt];
        cbn [parser_of] in H; rewrite <- !app_assoc in *; [hit H|..]; do 10 (try miss); hit H.
    - pose proof (C54_complete _ _ _ OK _ PI1 PI2 _ HE _ HI _ _ _ r X) as H. assert (R : obj_rest bare r).
      { unfold obj_rest. destruct bare.
        - split; [auto|]. split; [apply F|]. intros z r' Z E (q & ->). apply (proj1 (proj2 F) z _ Z E). exists 32%N, q. auto.
        - now apply fresh_indent. }
      specialize (H R). destruct X; rewrite <- !app_assoc in *; do 6 miss; hit H.
    - assert (R : new_command r) by (split; [now apply fresh_indent|apply F]). pose proof (C53_complete _ _ _ OK _ PI1 PI2 _ HE _ _ r X R) as H.
      assert (E : exists g q, gap g /\ t = u "object-group" ++ g ++ q) by (destruct X; eauto). destruct E as (g & q & G & ->). rewrite <- !app_assoc in *.
      do 6 miss. apply por_r; [apply pbind_fail; eapply group_object; eauto|]. hit H.
    - assert (H : access_list (env_of T) (t ++ r) = POk (Some x) r) by (eapply C52_reads; eauto). destruct (rule_open _ _ _ X) as (q & ->). rewrite <- !app_assoc in *. do 8 miss. hit H.
    - assert (H : access_list (env_of T) (t ++ r) = POk None r) by (eapply C52_ethertype; eauto). destruct (ether_open _ X) as (q & ->). rewrite <- !app_assoc in *. do 8 miss. hit H.
    - destruct (remarks_miss (env_of T) l ts r N X D) as (A & M). destruct (remarks_open _ _ N X) as (q & E). rewrite E in *. rewrite <- !app_assoc in *.
      do 8 miss. apply por_r; [now apply pbind_fail|]. hit M.
    - assert (H : nat_command isalpha isalnum (env_of T) (tb_if T) (t ++ r) = POk (Some n) r) by (eapply C56_object; eauto). destruct X. rewrite <- !app_assoc in *. do 11 miss. hit H.
    - assert (H : nat_command isalpha isalnum (env_of T) (tb_if T) (t ++ r) = POk None r) by (eapply C56_pix; eauto; right; auto). destruct X. rewrite <- !app_assoc in *. do 11 miss. hit H.
    - pose proof (ignored_ok _ _ _ OK t r X (fresh_fresh r F)) as H. destruct X as [w l t (y & -> & A & _) _ _]. rewrite <- !app_assoc in *.
      assert (I' : exists k b, In (w, k, b) skip_table).
      { apply entry_of. rewrite !in_app_iff. cbn [In]. destruct A as [w q W' O|w g q [W'|W'] _ _|w z [W'|W'] _]; auto. }
      destruct I' as (k & b & I). pose proof skip_clash as K. rewrite forallb_forall in K. apply K in I. unfold word_of in I. cbn [fst] in I. apply andb_true_iff in I as (I & Kn). apply andb_true_iff in I as (I & Km).
      assert (Q : forall l s, (forall w', In w' l -> In w' skip_keys) -> not_word l (u w ++ s)).
      { intros l0 s L. apply Forall_forall. intros w' J. apply strip_clash. rewrite forallb_forall in I. apply I. auto. }
      do 4 (apply por_r; [apply pbind_fail; first [apply m_version|apply m_host|apply m_domain|apply m_iface]; apply Q; intros w'; cbn; tauto|]).
      apply por_r; [apply pbind_fail; apply orb_true_iff in Km as [Km|Km]; [apply m_name; constructor; [now apply strip_clash|constructor]|apply String.eqb_eq in Km as ->; apply names_fail]|].
      do 6 (apply por_r; [apply pbind_fail; first [apply m_time|apply m_object|apply m_group|apply m_access|apply m_remarks|apply m_bind]; apply Q; intros w'; cbn; tauto|]).
      apply por_r; [apply pbind_fail; apply orb_true_iff in Kn as [Kn|Kn]; [apply m_nat; constructor; [now apply strip_clash|constructor]|apply String.eqb_eq in Kn as ->; apply control_fail]|].
      hit H.
    - assert (Z : forall l, forallb (fun w => clash (u w) [10%N] && clash (u w) [13%N; 10%N]) l = true -> not_word l (t ++ r)).
      { intros l L. apply not_clash. rewrite forallb_forall in *. intros w I. apply L in I. apply andb_true_iff in I. destruct X as [-> | ->]; tauto. }
      do 13 (apply por_r; [apply pbind_fail;
        first [apply m_version|apply m_host|apply m_domain|apply m_iface|apply m_name|apply m_time|apply m_object|apply m_group|apply m_access|apply m_remarks|apply m_bind|apply m_nat|apply m_ignored]; apply Z; vm_compute; reflexivity|]).
      apply por_l. eapply pbind_step; [now apply nl_ok|]. reflexivity.
  Qed.
  Lemma read_nothing T : command_ T [] = PFail.
  Proof using.
    clear. assert (Z : forall l, forallb (fun w => match u w with [] => false | _ => true end) l = true -> not_word l []).
    { intros l L. apply Forall_forall. intros w I. rewrite forallb_forall in L. apply L in I. destruct (u w); [discriminate|reflexivity]. }
    unfold FileText.command_, choice. cbn [fold_right]. do 13 (apply por_r; [apply pbind_fail;
        first [apply m_version|apply m_host|apply m_domain|apply m_iface|apply m_name|apply m_time|apply m_object|apply m_group|apply m_access|apply m_remarks|apply m_bind|apply m_nat|apply m_ignored]; apply Z; vm_compute; reflexivity|]).
    reflexivity.
  Qed.
End Commands.
