(** C55: the commands version, hostname, domain-name, name, access-group, interface and
    time-range of ASA/FWSM configurations as text.  Every command of Spec/LineTextSpec.v is
    read as what it says (C55_complete), whatever is read is such a command (C55_reads), and
    a text has one meaning and one extent (C55_unique). *)
From Coq Require Import Lia String Arith.
From Verif.Model Require Import Base Ip Hosts Groups Rules Nat Iface Peg Ids AddrText Ports AclText Define GroupText ObjText LineText.
From Verif.Spec Require Import AddrSpec RefSpec AddrTextSpec CafTextSpec CafMeanSpec AclTextSpec GroupTextSpec ObjTextSpec LineTextSpec.
From Verif.Proofs Require Import GroupOps DictFacts PegFacts AddrTextFacts CafTextFacts TokFacts CafMean LineFacts AclTextFacts AclOptFacts GroupTextFacts ObjTextFacts LineTextFacts.
From Verif.Props Require Import CafText AclText.
Local Open Scope list_scope.

Section Commands.
  Context (isalpha isalnum isspace : N -> bool) (OK : classes_ok isalpha isalnum isspace).
  Notation kw := (kw isalpha isalnum).
  Notation simple_command := (simple_command isalpha isalnum isspace).
  Notation simple_text := (simple_text isalnum isspace).
  Notation reads p := (forall s x r, ended s -> p s = POk x r -> exists t, s = t ++ r /\ simple_text other_line x t).

  Lemma not_lf_span s d r : pat1 not_lf s = POk d r <-> s = d ++ r /\ d <> [] /\ one_line d /\ ~ starts not_lf r.
  Proof using.
    clear. unfold pat1. destruct (span not_lf s) as [a b] eqn:S. pose proof S as S'. apply span_iff in S' as (-> & F & N).
    assert (L : forall d, forallb not_lf d = true <-> one_line d).
    { intros x. rewrite forallb_forall. unfold one_line, not_lf. split; [intros H I; now specialize (H _ I)|]. intros H c I. apply negb_true_iff, N.eqb_neq. intros ->. now apply H. }
    split.
    - destruct a as [|c a]; [discriminate|]. intros [= <- <-]. split; [auto|]. split; [discriminate|]. split; [now apply L|auto].
    - intros (E & Nd & O & R). assert (S2 : span not_lf (a ++ b) = (d, r)) by (apply span_iff; rewrite L; auto). rewrite S in S2. injection S2 as <- <-. destruct a; [congruence|auto].
  Qed.
  Lemma not_lf_start r : ~ starts not_lf r <-> r = [] \/ exists q, r = lf ++ q.
  Proof using.
    clear. destruct r as [|c r]; [split; [now left|intros _ (c & q & [=] & _)]|]. rewrite starts_cons. unfold not_lf. rewrite not_true_iff_false, negb_false_iff, N.eqb_eq. split.
    - intros ->. right. exists r. auto.
    - intros [[=]|(q & [= -> _])]. auto.
  Qed.
  Lemma version_sound : reads version.
  Proof using.
    clear. intros s x r _ H. unfold version in H. apply por_sound in H as [H|H]; pinv H; apply ret_ok in H as (<- & ->); apply lit_sound in P as (-> & ->);
      destruct (toeol_nl_sound _ _ _ _ _ P0 P1) as (-> & O).
    - exists (u "ASA Version " ++ a0 ++ lf). split; [now rewrite <- !app_assoc|]. apply ST_version; [|auto]. eexists; split; [left|]; reflexivity.
    - exists (u "FWSM Version " ++ a0 ++ lf). split; [now rewrite <- !app_assoc|]. apply ST_version; [|auto]. eexists; split; [right; left|]; reflexivity.
  Qed.
  Lemma hostname_sound : reads (hostname isalpha isalnum).
  Proof using.
    clear. intros s x r _ H. unfold hostname in H. pinv H. apply ret_ok in H as (<- & ->). apply kw_sound in P as ->. apply ws_sound in P0 as (g & -> & G). apply ident_iff in P1 as (-> & I & _). apply nl_sound in P2 as (z & -> & Z).
    exists (u "hostname" ++ g ++ a1 ++ z). split; [now rewrite <- !app_assoc|]. now constructor.
  Qed.
  Lemma domain_sound : reads (domain_name isalpha isalnum).
  Proof using.
    clear. intros s x r _ H. unfold domain_name in H. pinv H. apply ret_ok in H as (<- & ->). apply kw_sound in P as ->. apply ws_sound in P0 as (g & -> & G). apply ident_iff in P1 as (-> & I & _).
    exists (u "domain-name" ++ g ++ a1). split; [now rewrite <- !app_assoc|]. now constructor.
  Qed.
  Lemma descr_passes s x r : kw "description" s = POk x r -> s = u "description" ++ r /\ ~ opens_alnum isalnum r.
  Proof using OK.
    unfold AclText.kw. intros H. apply pbind_ok in H as (n & s1 & T & H). apply ret_ok in H as (_ & ->). apply token_ok in T as (_ & -> & Ps). split; [auto|]. intros (c & q & -> & C).
    unfold passes in Ps. rewrite (name_like_ok _ _ _ OK) in Ps by reflexivity. cbn [next_alnum] in Ps. rewrite C in Ps. discriminate Ps.
  Qed.
  Lemma name_sound : reads (name isalpha isalnum).
  Proof using OK.
    intros s x r _ H. unfold name in H. pinv H. apply ret_ok in H as (<- & ->). apply kw_sound in P as ->. apply ws_sound in P0 as (g & -> & G). apply addr_sound in P1 as (t & -> & T). apply ws_sound in P2 as (g1 & -> & G1).
    apply ident_iff in P3 as (-> & I & _). apply popt_ok in P4 as [(d & -> & P4)|(-> & <- & _)].
    - pinv P4. apply ws_sound in P as (g2 & -> & G2). apply descr_passes in P0 as (-> & A). apply not_lf_span in P4 as (-> & Nd & O & S). apply nl_iff in P5 as (z & Z & ->).
      assert (z = lf) as -> by (destruct Z as [-> | ->]; [auto|apply not_lf_start in S as [[=]|(q & [=])]]).
      match goal with |- context [mkname ?n ?a _] => exists (u "name" ++ g ++ t ++ g1 ++ n ++ g2 ++ u "description" ++ d ++ lf) end. split; [now rewrite <- !app_assoc|].
      apply ST_name_descr; auto. intros (c & q & -> & C). apply A. exists c, (q ++ lf ++ r). auto.
    - apply nl_sound in P5 as (z & -> & Z). match goal with |- context [mkname ?n ?a _] => exists (u "name" ++ g ++ t ++ g1 ++ n ++ z) end. split; [now rewrite <- !app_assoc|]. now constructor.
  Qed.
  Lemma named s n s1 x s2 : ~ starts is_blank s -> obj_name s = POk n s1 -> ws s1 = POk x s2 -> name_text n /\ s = n ++ s1.
  Proof using.
    clear. intros B H W. apply obj_name_sound in H as (-> & [-> |H]); [|auto]. apply ws_sound in W as (g & -> & G). destruct B. cbn [app]. now apply gap_nonblank.
  Qed.
  Lemma bind_sound : reads (access_group isalpha isalnum).
  Proof using.
    clear. intros s x r _ H. unfold access_group in H. apply por_sound in H as [H|H]; pinv H; apply ret_ok in H as (<- & ->); apply kw_sound in P as ->; apply ws_iff in P0 as (g & G & -> & B).
    - apply (named _ _ _ _ _ B P1) in P2 as Q. destruct Q as (Nn & ->). apply ws_iff in P2 as (g1 & G1 & -> & B1). apply (named _ _ _ _ _ B1 P3) in P4 as Q. destruct Q as (Nd & ->). apply ws_sound in P4 as (g2 & -> & G2).
      apply kw_sound in P5 as ->. apply ws_iff in P6 as (g3 & G3 & -> & B3). apply obj_name_sound in P7 as (-> & [-> |Ni]); apply line_end_sound in P8 as (z & -> & Z).
      + exists (u "access-group" ++ g ++ a1 ++ g1 ++ a3 ++ g2 ++ u "interface" ++ g3 ++ z). split; [now rewrite <- !app_assoc|]. apply ST_bind_none; auto.
        apply end_word in Z as (q & e & -> & [-> |Q] & Ez); [auto|]. destruct B3. cbn [app]. rewrite <- app_assoc. now apply gap_nonblank.
      + match goal with |- context [SBind ?n ?d ?i] => exists (u "access-group" ++ g ++ n ++ g1 ++ d ++ g2 ++ u "interface" ++ g3 ++ i ++ z) end. split; [now rewrite <- !app_assoc|]. now apply ST_bind.
    - apply (named _ _ _ _ _ B P1) in P2 as Q. destruct Q as (Nn & ->). apply ws_iff in P2 as (g1 & G1 & -> & B1). apply kw_sound in P3 as ->. apply line_end_sound in P4 as (z & -> & Z).
      exists (u "access-group" ++ g ++ a1 ++ g1 ++ u "global" ++ z). split; [now rewrite <- !app_assoc|]. now apply ST_global.
  Qed.
  Lemma interface_sound : reads (interface_ isalpha isalnum isspace).
  Proof using OK.
    intros s x r En H. unfold interface_ in H. pinv H. apply ret_ok in H as (<- & ->). apply kw_sound in P as ->. apply ws_sound in P0 as (g & -> & G). apply string_iff in P1 as (-> & U & _). apply nl_sound in P2 as (z & -> & Z).
    do 4 apply ended_app in En. apply (details_sound _ _ _ OK) in P3 as (t & -> & T); [|auto].
    exists (u "interface" ++ g ++ a1 ++ z ++ t). split; [now rewrite <- !app_assoc|]. now constructor.
  Qed.
  Lemma time_range_sound : reads (time_range isalpha isalnum isspace).
  Proof using OK.
    intros s x r En H. unfold time_range in H. pinv H. apply ret_ok in H as (<- & ->). apply kw_sound in P as ->. apply ws_sound in P0 as (g & -> & G). apply string_iff in P1 as (-> & U & _). apply nl_sound in P2 as (z & -> & Z).
    apply (timeobjs_sound _ _ _ OK) in P3 as (t & -> & T).
    exists (u "time-range" ++ g ++ a1 ++ z ++ t). split; [now rewrite <- !app_assoc|]. now constructor.
  Qed.
  (** C55: what is read is a command. *)
  Theorem C55_reads : forall s x r, simple_command (s ++ lf) = POk x r -> exists t, s ++ lf = t ++ r /\ simple_text other_line x t.
  Proof using OK.
    intros s x r H. assert (En : ended (s ++ lf)) by (right; eauto). unfold LineText.simple_command, choice in H. cbn [fold_right] in H.
    apply por_sound in H as [H|H]; [now apply version_sound|]. apply por_sound in H as [H|H]; [now apply hostname_sound|]. apply por_sound in H as [H|H]; [now apply domain_sound|].
    apply por_sound in H as [H|H]; [now apply interface_sound|]. apply por_sound in H as [H|H]; [now apply name_sound|]. apply por_sound in H as [H|H]; [now apply time_range_sound|].
    apply por_sound in H as [H|H]; [now apply bind_sound|discriminate H].
  Qed.

  Definition parser_of (x : simple) : parser simple :=
    match x with
    | SVersion _ => version | SHostname _ => hostname isalpha isalnum | SDomain _ => domain_name isalpha isalnum | SName _ => name isalpha isalnum
    | SBind _ _ _ | SGlobal _ => access_group isalpha isalnum | SInterface _ _ => interface_ isalpha isalnum isspace | STime _ _ => time_range isalpha isalnum isspace
    end.
  Lemma id_rest r : (forall c q, r = c :: q -> ~ (letter c \/ digit c \/ c = 95%N \/ c = 45%N \/ c = 46%N)) -> ~ starts is_id_char r.
  Proof using. clear. intros H (c & q & -> & C). apply id_char_spec in C. now apply (H c q). Qed.
  Lemma name_noblank n r : name_text n -> ~ starts is_blank (n ++ r).
  Proof using. clear. intros H. apply freew_noblank; [apply H|now apply letter_name]. Qed.
  Ltac kws := eapply pbind_step; [now apply (kw_then _ _ _ OK)|].
  Ltac gapped := eapply pbind_step; [apply ws_gap; [auto|]|].
  Lemma command_ok x t r : simple_text other_line x t -> simple_rest x r -> parser_of x (t ++ r) = POk x r.
  Proof using OK.
    intros T R. destruct T as [w t W O|g n z G I Z|g n G I|g a t g1 n z G T G1 I Z|g a t g1 n g2 d G T G1 I G2 O Nd Al|g n g1 d g2 g3 i z G Nn G1 Nd G2 G3 Ni Z|g n g1 d g2 g3 z G Nn G1 Nd G2 G3 Z|g n g1 z G Nn G1 Z|g a z l t G U Z D|g n z l t G U Z D];
      cbn [parser_of]; rewrite <- !app_assoc; cbn [simple_rest] in R.
    - destruct W as (w0 & [<-|[<-|[]]] & ->); unfold version.
      + apply por_l. eapply pbind_step; [apply lit_ok|]. eapply pbind_step; [now apply toeol_ok|]. reflexivity.
      + apply por_r; [apply pbind_fail, lit_clash; reflexivity|]. eapply pbind_step; [apply lit_ok|]. eapply pbind_step; [now apply toeol_ok|]. reflexivity.
    - unfold hostname. kws. gapped; [now apply ident_noblank|]. eapply pbind_step; [apply ident_ok; [auto|now apply eol_sep]|]. eapply pbind_step; [now apply nl_ok|]. reflexivity.
    - unfold domain_name. kws. gapped; [now apply ident_noblank|]. eapply pbind_step; [apply ident_iff; split; [reflexivity|]; split; [auto|now apply id_rest]|]. reflexivity.
    - unfold name. kws. gapped; [eapply addr_noblank; eauto|]. eapply pbind_step; [apply addr_ok; [eauto|now apply gap_sep]|]. gapped; [now apply ident_noblank|]. eapply pbind_step; [apply ident_ok; [auto|now apply eol_sep]|].
      eapply pbind_step; [apply popt_none, pbind_fail, ws_fail; now apply eol_noblank|]. eapply pbind_step; [now apply nl_ok|]. reflexivity.
    - unfold name. kws. gapped; [eapply addr_noblank; eauto|]. eapply pbind_step; [apply addr_ok; [eauto|now apply gap_sep]|]. gapped; [now apply ident_noblank|]. eapply pbind_step; [apply ident_ok; [auto|now apply gap_sep]|].
      eapply pbind_step; [apply popt_some; gapped; [now apply nostart|]; eapply pbind_step|].
      + apply kw_ok. destruct d as [|c d]; [congruence|]. unfold stop. cbn [app next_alnum]. destruct (isalnum c) eqn:C; [|auto]. destruct Al. exists c, d. auto.
      + apply not_lf_span. split; [reflexivity|]. split; [auto|]. split; [auto|]. apply not_lf_start. right. eexists; reflexivity.
      + eapply pbind_step; [apply lf_ok|]. reflexivity.
    - unfold access_group. apply por_l. kws. gapped; [now apply name_noblank|]. eapply pbind_step; [apply obj_name_ok; [auto|now apply sep_no_obj, gap_sep]|]. gapped; [now apply name_noblank|].
      eapply pbind_step; [apply obj_name_ok; [auto|now apply sep_no_obj, gap_sep]|]. gapped; [now apply nostart|]. kws. gapped; [now apply name_noblank|].
      eapply pbind_step; [apply obj_name_ok; [auto|now apply sep_no_obj, end_sep]|]. eapply pbind_step; [now apply line_end_ok|]. reflexivity.
    - unfold access_group. apply por_l. kws. gapped; [now apply name_noblank|]. eapply pbind_step; [apply obj_name_ok; [auto|now apply sep_no_obj, gap_sep]|]. gapped; [now apply name_noblank|].
      eapply pbind_step; [apply obj_name_ok; [auto|now apply sep_no_obj, gap_sep]|]. gapped; [now apply nostart|]. kws. gapped; [now apply eol_noblank|].
      eapply pbind_step; [apply (obj_name_chars []); [intros c []|now apply sep_no_obj, eol_sep]|]. eapply pbind_step; [apply line_end_ok; now apply eol_end|]. reflexivity.
    - unfold access_group. apply por_r.
      + kws. gapped; [now apply name_noblank|]. eapply pbind_step; [apply obj_name_ok; [auto|now apply sep_no_obj, gap_sep]|]. gapped; [now apply nostart|].
        eapply pbind_step; [apply obj_name_ok; [|now apply sep_no_obj, end_sep]|].
        { split; [discriminate|]. intros c Ic. left. left. cbn in Ic. repeat (destruct Ic as [<-|Ic]; [split; discriminate|]). destruct Ic. }
        apply end_word in Z as (q & e & -> & [-> |Q] & Ez).
        * apply pbind_fail, ws_fail. now apply eol_noblank.
        * rewrite <- app_assoc. gapped; [now apply eol_noblank|]. apply pbind_fail. now apply kw_eol.
      + kws. gapped; [now apply name_noblank|]. eapply pbind_step; [apply obj_name_ok; [auto|now apply sep_no_obj, gap_sep]|]. gapped; [now apply nostart|].
        eapply pbind_step; [apply kw_ok, (sep_stop _ _ _ OK); now apply end_sep|]. eapply pbind_step; [now apply line_end_ok|]. reflexivity.
    - unfold interface_. kws. gapped; [eapply url_noblank; eauto|]. eapply pbind_step; [eapply fqdn_space; eauto|]. eapply pbind_step; [now apply nl_ok|].
      eapply pbind_step; [eapply details_ok; eauto|]. reflexivity.
    - unfold time_range. kws. gapped; [eapply url_noblank; eauto|]. eapply pbind_step; [eapply fqdn_space; eauto|]. eapply pbind_step; [now apply nl_ok|].
      destruct (timeobjs_ok _ _ _ OK l t r D R) as (l' & M & <-). eapply pbind_step; [exact M|]. reflexivity.
  Qed.
  (** C55: every command is read. *)
  Theorem C55_complete : forall x t r, simple_text other_line x t -> simple_rest x r -> simple_command (t ++ r) = POk x r.
  Proof using OK.
    intros x t r T R. pose proof (command_ok x t r T R) as H. unfold LineText.simple_command, choice. cbn [fold_right].
    Ltac no := apply por_r; [first [apply pbind_fail, kw_clash; reflexivity | apply por_r; [apply pbind_fail, lit_clash; reflexivity|apply pbind_fail, lit_clash; reflexivity]]|].
    destruct T as [w t W O|g n z G I Z|g n G I|g a t g1 n z G T G1 I Z|g a t g1 n g2 d G T G1 I G2 O Nd Al|g n g1 d g2 g3 i z G Nn G1 Nd G2 G3 Ni Z|g n g1 d g2 g3 z G Nn G1 Nd G2 G3 Z|g n g1 z G Nn G1 Z|g a z l t G U Z D|g n z l t G U Z D];
      cbn [parser_of] in H; rewrite <- !app_assoc in *.
    - apply por_l. exact H.
    - no. apply por_l. exact H.
    - no. no. apply por_l. exact H.
    - do 4 no. apply por_l. exact H.
    - do 4 no. apply por_l. exact H.
    - do 6 no. apply por_l. exact H.
    - do 6 no. apply por_l. exact H.
    - do 6 no. apply por_l. exact H.
    - do 3 no. apply por_l. exact H.
    - do 5 no. apply por_l. exact H.
  Qed.
  (** C55: a text has one meaning and one extent. *)
  Theorem C55_unique : forall x t r x' t' r', simple_text other_line x t -> simple_rest x r -> simple_text other_line x' t' -> simple_rest x' r' ->
    t ++ r = t' ++ r' -> x = x' /\ r = r'.
  Proof using OK.
    intros x t r x' t' r' T R T' R' E. pose proof (C55_complete x t r T R) as A. rewrite E, (C55_complete x' t' r' T' R') in A. now injection A as -> ->.
  Qed.
End Commands.

(** ** Examples *)
Notation rs := (simple_command ascii_alpha ascii_alnum ascii_space).
Definition C55_if : pystr := line "interface Vlan10" ++ line " description to the office" ++ line " nameif inside" ++ line " security-level 100" ++
  line " ip address 10.0.0.1 255.255.255.0 standby 10.0.0.2 " ++ line " ipv6 address 2001:db8::1/64 standby 2001:db8::2" ++ line " no shutdown".
Definition C55_ifread : simple := SInterface (u "Vlan10") [DDescription (u "to the office"); DNameif (u "inside"); DNone;
  DAddr4 (mkaddr V4 167772161) 4294967040; DAddr6 (mkaddr V6 42540766411282592856903984951653826561) (Some 64%N); DNone].
Example C55_ex_interface : rs (C55_if ++ line "!") = POk C55_ifread (line "!").
Proof. vm_compute. reflexivity. Qed.
Lemma kept_of d s : interface_detail ascii_alpha ascii_alnum (s ++ lf) = POk d [] -> d <> DNone -> one_line s -> kept_text d (s ++ lf).
Proof.
  intros H N O. apply (detail_sound _ _ _ C41_classes) with (r := []) in H as [(t & E & K)|(-> & _)]; [|congruence|auto]. rewrite !app_nil_r in E. now rewrite E.
Qed.
Lemma other_of s : interface_detail ascii_alpha ascii_alnum (s ++ lf) = POk DNone [] -> one_line s -> other_line s.
Proof.
  intros H O. apply (detail_sound _ _ _ C41_classes) with (r := []) in H as [(t & E & K)|(_ & _ & H)]; [inversion K|exact H|exact O].
Qed.
Example C55_ex_interface' : simple_text ascii_alnum ascii_space other_line C55_ifread C55_if /\ simple_rest C55_ifread (line "!").
Proof.
  split; [|intros (q & [=])]. change C55_if with (u "interface" ++ u " " ++ u "Vlan10" ++ lf ++ (u " " ++ (u "description to the office" ++ lf) ++ u " " ++ (u "nameif inside" ++ lf) ++
    u " " ++ u "security-level 100" ++ lf ++ u " " ++ (u "ip address 10.0.0.1 255.255.255.0 standby 10.0.0.2 " ++ lf) ++ u " " ++ (u "ipv6 address 2001:db8::1/64 standby 2001:db8::2" ++ lf) ++ u " " ++ u "no shutdown" ++ lf ++ [])).
  assert (L : forall s : string, forallb (fun c => negb (N.eqb c 10)) (u s) = true -> one_line (u s)).
  { intros s F I. rewrite forallb_forall in F. specialize (F _ I). discriminate F. }
  assert (G : gap (u " ")) by (split; [discriminate|intros c [<-|[]]; now left]).
  constructor; [auto| |now left|].
  - split; [discriminate|]. intros c I. cbn in I. repeat (destruct I as [<-|I]; [reflexivity|]). destruct I.
  - apply DL_kept; [apply kept_of; [vm_compute; reflexivity|discriminate|now apply L]|]. apply DL_kept; [apply kept_of; [vm_compute; reflexivity|discriminate|now apply L]|].
    apply DL_other; [now apply L|apply other_of; [vm_compute; reflexivity|now apply L]|]. apply DL_kept; [apply kept_of; [vm_compute; reflexivity|discriminate|now apply L]|]. apply DL_kept; [apply kept_of; [vm_compute; reflexivity|discriminate|now apply L]|].
    apply DL_other; [now apply L|apply other_of; [vm_compute; reflexivity|now apply L]|]. constructor.
Qed.
Definition C55_time : pystr := line "time-range night" ++ line " absolute start 00:00 1 January 2020 end 23:59 29 February 2024" ++ line " periodic Monday 9:00 to Friday 17:30" ++
  line " periodic weekend 00:00 to 23:59" ++ line " no periodic daily 1:00 to 2:00".
Definition C55_timeread : simple := STime (u "night") [
  TAbsolute (Some (mkmoment (mktod 0 0) 1 1 2020)) (Some (mkmoment (mktod 23 59) 29 2 2024));
  TPeriodic [u "Monday"] (mktod 9 0) (Some (u "Friday")) (mktod 17 30); TPeriodic [u "weekend"] (mktod 0 0) None (mktod 23 59)].
Example C55_ex_time : rs (C55_time ++ u "!") = POk C55_timeread (u "!").
Proof. vm_compute. reflexivity. Qed.
Example C55_ex_time' : exists t, C55_time ++ u "!" = t ++ u "!" /\ simple_text ascii_alnum ascii_space other_line C55_timeread t /\ simple_rest C55_timeread (u "!").
Proof.
  exists C55_time. split; [auto|]. split; [|intros (q & [=])].
  assert (H : time_range ascii_alpha ascii_alnum ascii_space (C55_time ++ []) = POk C55_timeread []) by (vm_compute; reflexivity).
  apply (time_range_sound _ _ _ C41_classes) in H as (t & E & T); [|right; exists (removelast C55_time); vm_compute; reflexivity].
  - rewrite !app_nil_r in E. rewrite E. inversion T; subst. now constructor.
Qed.
Example C55_ex_version : rs (line "ASA Version 9.1(2) " ++ line "!") = POk (SVersion (u "ASA Version 9.1(2) ")) (line "!").
Proof. vm_compute. reflexivity. Qed.
Example C55_ex_hostname : rs (line "hostname fw-1" ++ line "!") = POk (SHostname (u "fw-1")) (line "!").
Proof. vm_compute. reflexivity. Qed.
Example C55_ex_name : rs (line "name 10.1.2.3 web description the web server" ++ line "!") = POk (SName (mkname (u "web") (mkaddr V4 167838211) (Some (u " the web server")))) (line "!").
Proof. vm_compute. reflexivity. Qed.
Example C55_ex_bind : rs (line "access-group from-inside in interface inside" ++ line "!") = POk (SBind (u "from-inside") (u "in") (u "inside")) (line "!").
Proof. vm_compute. reflexivity. Qed.
Example C55_ex_global : rs (line "access-group all global" ++ line "!") = POk (SGlobal (u "all")) (line "!").
Proof. vm_compute. reflexivity. Qed.

(** ** Findings *)
(** An address without a standby address is not kept: an ASA that has no failover unit has
    no interface addresses. *)
Example C55_no_standby : rs (line "interface Vlan10" ++ line " nameif inside" ++ line " ip address 10.0.0.1 255.255.255.0") =
  POk (SInterface (u "Vlan10") [DNameif (u "inside"); DNone]) [].
Proof. vm_compute. reflexivity. Qed.
(** Several days on one line, as the ASA writes them, are not read. *)
Example C55_several_days : rs (line "time-range t" ++ line " periodic Monday Tuesday 9:00 to 17:00") = POk (STime (u "t") []) (line " periodic Monday Tuesday 9:00 to 17:00").
Proof. vm_compute. reflexivity. Qed.
(** A line that takes a condition back is dropped, and the condition stays. *)
Example C55_no_periodic : rs (line "time-range t" ++ line " periodic daily 9:00 to 17:00" ++ line " no periodic daily 9:00 to 17:00") =
  rs (line "time-range t" ++ line " periodic daily 9:00 to 17:00").
Proof. vm_compute. reflexivity. Qed.
(** A time that is none ends the reading of the whole configuration with a ValueError. *)
Example C55_midnight : rs (line "time-range t" ++ line " periodic daily 0:00 to 24:00") = PErr ValueError.
Proof. vm_compute. reflexivity. Qed.
Example C55_no_leap : rs (line "time-range t" ++ line " absolute end 12:00 29 February 1900") = PErr ValueError.
Proof. vm_compute. reflexivity. Qed.
(** A blank after a host name makes the command unreadable; one after an interface name in an
    interface does not. *)
Example C55_trailing_blank : rs (line "hostname fw ") = PFail.
Proof. vm_compute. reflexivity. Qed.
(** The end of the line is not part of a domain-name command. *)
Example C55_domain_rest : rs (line "domain-name example.org and more") = POk (SDomain (u "example.org")) (line " and more").
Proof. vm_compute. reflexivity. Qed.
(** A named host whose description begins with a letter or digit right after the word is not read. *)
Example C55_name_descr : rs (line "name 10.1.2.3 web descriptionx") = PFail.
Proof. vm_compute. reflexivity. Qed.
Print Assumptions C55_reads.
Print Assumptions C55_complete.
Print Assumptions C55_unique.
