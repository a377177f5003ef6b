(** C63: object groups of IOS configurations as text.
    Every definition of Spec/IosFileSpec.v is read as the definition it stands for
    (C63_complete), whatever is read is such a definition (C63_reads), a definition read with
    the tables of the configuration so far can be carried out (C63_defines), and a member line
    "range" stops the reading of the file (C63_range). *)
From Coq Require Import Lia String.
From Verif.Model Require Import Base Ip Hosts Groups Iface Peg Ids AddrText Ports AclText Define GroupText IosFile.
From Verif.Spec Require Import AddrSpec RefSpec AddrTextSpec CafTextSpec CafMeanSpec AclTextSpec GroupTextSpec IosTextSpec IosFileSpec.
From Verif.Proofs Require Import GroupOps DictFacts PegFacts AddrTextFacts CafTextFacts TokFacts CafMean LineFacts AclTextFacts AclOptFacts GroupTextFacts.
From Verif.Props Require Import Refs AddrText CafText AclText Define GroupText.
Local Open Scope list_scope.

(** An address begins with no letter of another word. *)
Lemma hdc_clash w t r : forallb is_hexdotcolon t = true -> t <> [] -> match u w with c :: _ => is_hexdotcolon c = false | [] => False end ->
  strip_prefix (u w) (t ++ r) = None.
Proof.
  intros F N W. destruct t as [|c t]; [congruence|]. cbn [forallb] in F. apply andb_true_iff in F as (F & _). destruct (u w) as [|x v]; [easy|]. cbn [app strip_prefix].
  destruct (N.eqb_spec x c) as [->|]; [congruence|reflexivity].
Qed.
Lemma hdc_kw isalpha isalnum w t r : forallb is_hexdotcolon t = true -> t <> [] -> match u w with c :: _ => is_hexdotcolon c = false | [] => False end ->
  kw isalpha isalnum w (t ++ r) = PFail.
Proof. intros F N W. unfold AclText.kw. apply pbind_fail. unfold Peg.token. now rewrite hdc_clash. Qed.

Section Group.
  Context (isalpha isalnum isspace : N -> bool) (OK : classes_ok isalpha isalnum isspace).
  Context (py_int : pystr -> option Z)
          (PI1 : forall n, n <> [] -> forallb AddrText.is_digit n = true -> py_int n <> None)
          (PI2 : forall n, In n port_code -> py_int n = None).
  (** IOS has no command that names an address. *)
  Variables (E : env) (HE : env_ok E) (NE : e_names E = []).
  Notation kw := (kw isalpha isalnum).
  Notation tokens := (tokens isalpha isalnum).
  Notation group_head := (group_head isalpha isalnum).
  Notation net_member := (ios_net_member isalpha isalnum E).
  Notation service_member := (ios_service_member isalpha isalnum py_int E).
  Notation object_group := (ios_object_group isalpha isalnum py_int E).
  Ltac env := destruct HE as (Kn & Kno & Kng & Kso & Ksg & Kpg & Kig & Kpr & Kt & Kv & C1 & C2 & C3 & C4 & C5 & C6).

  Lemma no_name v a x t : address_ref E v a x t -> v (a_ver a) /\ address_text t a /\ x = None.
  Proof using NE. intros [n y D|b s V A]; [|auto]. rewrite NE in D. discriminate D. Qed.
  Lemma ios_net_sound s m r : net_member s = POk m r -> exists t, s = t ++ r /\ ios_net_text E m t.
  Proof using OK HE NE.
    unfold ios_net_member, choice, named_addr. cbn [fold_right]. intros H.
    apply por_sound in H as [H|H]; [pinv H|].
    { apply ret_ok in H as (<- & ->). apply kw_sound in P as ->. apply ws_sound in P0 as (g & -> & G).
      apply (named_any_sound _ _ _ OK E HE) in P1 as (t & -> & A). apply no_name in A as (_ & A & _). apply line_end_sound in P2 as (z & -> & Z).
      exists (u "host" ++ g ++ t ++ z). split; [now rewrite <- !app_assoc|]. now apply IN_host. }
    apply por_sound in H as [H|H]; [pinv H; discriminate H|].
    apply por_sound in H as [H|H]; [pinv H|].
    { eapply (named_mask_sound _ _ _ OK E HE) in P; eauto. destruct P as (t & -> & A).
      apply ws_sound in P0 as (g' & -> & G'). apply act_ok in H as (x & H & F). pinv H. apply ret_ok in H as (<- & ->).
      apply C50_ip4_read in P as (V & W & -> & _). apply line_end_sound in P0 as (z & -> & Z).
      destruct (network a (MaskQuad (a_val a1))) as [h|] eqn:Nw; [|discriminate]. injection F as <-.
      assert (Lm : (a_val a1 < 2 ^ 32)%N) by (destruct a1 as [v n]; cbn [a_ver a_val] in *; subst v; exact W).
      apply network_sound in Nw as (n & -> & No); [|eapply ref_valid; eauto|exact Lm]. apply no_name in A as (Va & A & _).
      exists (t ++ g' ++ quad (a_val a1) ++ z). split; [now rewrite <- !app_assoc|]. cbn [th_host]. eapply IN_mask; eauto. split; auto. }
    apply por_sound in H as [H|H]; [pinv H|].
    { eapply (named_len_sound _ _ _ OK E HE) in P; eauto. destruct P as (t & -> & A).
      destruct a0. apply char_ok in P0. subst. apply act_ok in H as (x & H & F). pinv H. apply ret_ok in H as (<- & ->).
      apply int_iff in P as (-> & Nd & Fd & _). apply line_end_sound in P0 as (z & -> & Z).
      destruct (network a (MaskLen (int10 a0))) as [h|] eqn:Nw; [|discriminate]. injection F as <-.
      apply network_sound in Nw as (n & -> & No); [|eapply ref_valid; eauto|exact Logic.I]. apply no_name in A as (Va & A & _).
      exists (t ++ u "/" ++ a0 ++ z). split; [rewrite <- !app_assoc; reflexivity|]. cbn [th_host]. eapply IN_length; eauto; [split; auto|]. apply decimal_text_spec. auto. }
    apply por_sound in H as [H|H].
    { apply (groupref_sound _ _ _ OK _ _ eol_text) in H; [|env; auto|exact nl_sound]. destruct H as (t & -> & T). exists t. split; [auto|]. now apply IN_group. }
    apply por_sound in H as [H|H]; discriminate H.
  Qed.
  Lemma addr_kw {A} w t a r (k : parser A) : address_text t a -> match u w with c :: _ => is_hexdotcolon c = false | [] => False end ->
    (let% _ := kw w in k) (t ++ r) = PFail.
  Proof using. clear. intros T W. apply pbind_fail. apply address_hdc in T as (F & N). now apply hdc_kw. Qed.
  Lemma ios_net_ok m t r : ios_net_text E m t -> net_member (t ++ r) = POk m r.
  Proof using OK HE NE.
    intros H. unfold ios_net_member, choice, named_addr. cbn [fold_right].
    destruct H as [g t a z G A Z|t a g' m n z (V & A) G' L No Z|t a d p n z (V & A) Dd No Z|m t T]; rewrite <- ?app_assoc.
    - apply por_l. assert (R : address_ref E (fun _ => True) a None t) by now constructor. destruct (ref_free E HE _ _ _ _ R) as (Nt & Ft).
      apply (kwws_step isalpha isalnum isspace OK); auto using freew_noblank.
      eapply pbind_step; [apply (named_any_ok _ _ _ OK E HE); eauto using end_sep|]. cbn beta. eapply pbind_step; [now apply line_end_ok|reflexivity].
    - assert (R : address_ref E (eq V4) a None t) by now constructor. destruct (ref_free E HE _ _ _ _ R) as (Nt & Ft).
      do 2 (apply por_r; [eapply addr_kw; [eauto|reflexivity]|]).
      apply por_l. eapply pbind_step; [apply (named_mask_ok _ _ _ OK E HE); eauto using gap_sep|]. cbn beta.
      eapply pbind_step; [apply ws_gap; auto; now apply quad_noblank|]. apply act_ok. exists (mkaddr V4 m). split.
      + eapply pbind_step; [apply ip4_ok; auto; now apply sep_no_digit, end_sep|]. eapply pbind_step; [now apply line_end_ok|reflexivity].
      + cbn [a_val]. rewrite (network_ok a None (MaskQuad m) n); auto. eapply ref_valid; eauto.
    - assert (R : address_ref E (eq V6) a None t) by now constructor. destruct (ref_free E HE _ _ _ _ R) as (Nt & Ft).
      change (u "/" ++ d ++ z ++ r) with (47%N :: d ++ z ++ r).
      do 2 (apply por_r; [eapply addr_kw; [eauto|reflexivity]|]).
      apply por_r. { apply pbind_fail. eapply (named_mask_slash _ _ _ OK E HE); eauto. }
      apply por_l. eapply pbind_step; [apply (named_len_ok _ _ _ OK E HE); eauto|]. cbn beta.
      eapply pbind_step; [apply char_ok; reflexivity|]. apply decimal_text_spec in Dd as (Nd & Fd & Id). apply act_ok. exists d. split.
      + eapply pbind_step; [apply int_iff; split; [reflexivity|]; split; [auto|]; split; [auto|]; now apply sep_no_digit, end_sep|]. eapply pbind_step; [now apply line_end_ok|reflexivity].
      + rewrite Id, (network_ok a None (MaskLen p) n); auto; [eapply ref_valid; eauto|exact Logic.I].
    - apply por_r; [eapply groupref_kw; eauto; reflexivity|]. apply por_r; [eapply groupref_kw; eauto; reflexivity|].
      destruct T as [g n z G I Z]. rewrite <- !app_assoc.
      assert (Rn : forall q, reference isalpha isalnum (e_names E) q = PFail) by (intros q; rewrite NE; reflexivity).
      assert (Sn : forall q, name_slash isalpha isalnum (e_names E) q = PFail) by (intros q; rewrite NE; reflexivity).
      apply por_r. { apply pbind_fail, por_r; apply pbind_fail; [apply Rn|reflexivity]. }
      apply por_r. { apply pbind_fail, por_r; apply pbind_fail; [apply Sn|reflexivity]. }
      apply por_l. assert (T : groupref_text (e_netgrp E) eol_text (@Ref host n) (u "group-object" ++ g ++ n ++ z)) by now constructor.
      eapply (groupref_ok _ _ _ OK) in T; [rewrite <- !app_assoc in T; exact T|env; auto|exact nl_ok|intros; now apply eol_sep].
  Qed.

  (** ** Services *)
  Lemma ios_service_sound s m r : service_member s = POk m r -> exists t, s = t ++ r /\ ios_service_text E m t.
  Proof using OK HE PI1 PI2.
    unfold ios_service_member, choice. cbn [fold_right]. intros H.
    apply por_sound in H as [H|H]; [pinv H|].
    { apply ret_ok in H as (<- & ->). apply (icmp_service_sound _ _ _ _ _ _ _ line_end_sound) in P as (t & -> & T). exists t. split; [auto|]. now apply IS_service. }
    apply por_sound in H as [H|H]; [pinv H|].
    { apply ret_ok in H as (<- & ->). eapply (port_service_sound _ _ _ OK _ PI1 PI2 end_line) in P as (t & -> & T). exists t. split; [auto|]. now apply IS_service. }
    apply por_sound in H as [H|H]; [pinv H|].
    { apply ret_ok in H as (<- & ->). apply line_end_sound in P0 as (z & -> & Z). exists (a ++ z).
      apply por_sound in P as [P|P]; [apply tokens_sound in P as (I & -> & _)|apply bounded_sound in P as (-> & N)]; (split; [now rewrite <- app_assoc|]); apply IS_proto; auto. }
    apply por_sound in H as [H|H].
    { apply (groupref_sound _ _ _ OK _ _ end_line) in H; [|env; auto|exact line_end_sound]. destruct H as (t & -> & T). exists t. split; [auto|]. now apply IS_group. }
    apply por_sound in H as [H|H]; discriminate H.
  Qed.
  Lemma ios_service_line s t r : service_text end_line s t -> service_member (t ++ r) = POk (Lit (SService s)) r.
  Proof using OK PI1 PI2.
    intros T. unfold ios_service_member, choice. cbn [fold_right]. destruct (service_ok _ _ _ OK _ PI1 PI2 s t r T) as (B & [I|(I & P)]).
    - apply por_l. eapply pbind_step; [exact I|reflexivity].
    - apply por_r; [now apply pbind_fail|]. apply por_l. eapply pbind_step; [exact P|reflexivity].
  Qed.
  Lemma ios_service_ok m t r : ios_service_text E m t -> service_member (t ++ r) = POk m r.
  Proof using OK HE PI1 PI2.
    intros [s t' T|p z Pr Z|m' t' T].
    - now apply ios_service_line.
    - assert (X := other_proto _ _ _ OK p (z ++ r) Pr (end_sep z r Z)). destruct X as [X|[X|(X2 & X3)]].
      + apply ios_service_line; auto. change (p ++ z) with (p ++ [] ++ z). apply SV_icmp; [now apply two_words|constructor|auto].
      + apply ios_service_line; auto. apply SV_ports; [now apply three_words|now constructor].
      + unfold ios_service_member, choice. cbn [fold_right]. rewrite <- !app_assoc.
        do 2 (apply por_r; [apply pbind_fail; now apply pbind_fail|]).
        apply por_l. eapply pbind_step; [apply (proto_tokens _ _ _ OK); auto using end_sep|]. eapply pbind_step; [now apply line_end_ok|reflexivity].
    - unfold ios_service_member, choice. cbn [fold_right]. 
      assert (K : exists q, t' ++ r = u "group-object" ++ q) by (destruct T; rewrite <- !app_assoc; eauto). destruct K as (q & K).
      do 2 (apply por_r; [rewrite K; apply pbind_fail, pbind_fail; now apply tokens_clash|]).
      apply por_r. { rewrite K. apply pbind_fail, por_r; [now apply tokens_clash|apply act_fail, int_fail; now apply nostart]. }
      apply por_l. eapply (groupref_ok _ _ _ OK); eauto using line_end_ok, end_sep. env; auto.
  Qed.

  (** ** No member line is a description *)
  Lemma addr_ne t a c q q' : address_text t a -> is_hexdotcolon c = false -> c <> 115%N -> (t ++ c :: q) <> u "description" ++ q'.
  Proof using.
    clear. intros T C Ns Eq. apply address_hdc in T as (F & N). change (u "description") with (100 :: 101 :: 115 :: u "cription")%N in Eq.
    destruct t as [|c1 [|c2 [|c3 t]]]; cbn [app] in Eq; injection Eq as; subst; cbn in F, C; try congruence.
  Qed.
  Lemma gap_head g q : gap g -> exists c g', g ++ q = c :: g' /\ is_hexdotcolon c = false /\ c <> 115%N.
  Proof using. clear. intros (N & b). destruct g as [|c g]; [congruence|]. exists c, (g ++ q). split; [auto|]. destruct (b c (or_introl eq_refl)) as [-> | ->]; split; (reflexivity || discriminate). Qed.
  Lemma ios_net_ne m t : ios_net_text E m t -> forall q q', t ++ q <> u "description" ++ q'.
  Proof using.
    clear. intros [g t' a z G A Z|t' a g m' n z (V & A) G L No Z|t' a d p n z (V & A) D No Z|m' t' T] q q'.
    - now apply clash_ne.
    - rewrite <- app_assoc. rewrite <- !app_assoc. destruct (gap_head g (quad m' ++ z ++ q) G) as (c & g' & -> & C & Ns). eapply addr_ne; eauto.
    - rewrite <- !app_assoc. apply (addr_ne t' a 47%N (d ++ z ++ q)); auto. discriminate.
    - eapply groupref_ne; eauto.
  Qed.
  Lemma digits_ne p q q' : p <> [] -> forallb AddrText.is_digit p = true -> p ++ q <> u "description" ++ q'.
  Proof using. clear. intros N F Eq. destruct p as [|c p]; [congruence|]. cbn [app] in Eq. injection Eq as -> _. discriminate F. Qed.
  Lemma ios_service_ne m t : ios_service_text E m t -> forall q q', t ++ q <> u "description" ++ q'.
  Proof using.
    clear. intros [s t' [p ty c i z W M Z|p src dst t'' W Po]|p z Pr Z|m' t' T] q q'.
    - apply two_words in W. rewrite <- app_assoc. destruct W as [<-|[<-|[]]]; rewrite app_assoc; intros Eq; discriminate Eq.
    - apply three_words in W. apply ports_head in Po as (x & ->). rewrite <- app_assoc. destruct W as [<-|[<-|[<-|[]]]]; intros Eq; discriminate Eq.
    - destruct Pr as [I|N].
      + apply clash_ne. assert (K : forallb (clash (u "description")) protocol_codes = true) by reflexivity. rewrite forallb_forall in K. now apply K.
      + apply number_digits in N as (N & D). rewrite <- app_assoc. now apply digits_ne.
    - eapply groupref_ne; eauto.
  Qed.
  Lemma ios_net_nofail s : net_member s <> PFail.
  Proof using. clear. exact (asserts_nofail [_; _; _; _; _] s). Qed.
  Lemma ios_service_nofail s : service_member s <> PFail.
  Proof using. clear. exact (asserts_nofail [_; _; _; _] s). Qed.

  (** C63: what is read is a definition, and it is read to its end. *)
  Theorem C63_reads : forall s d r, object_group s = POk d r -> exists t, s = t ++ r /\ ios_group_text E d t /\ ~ indented r.
  Proof using OK HE NE PI1 PI2.
    intros s d r H. unfold ios_object_group in H. pinv H. apply kw_sound in P as ->. apply ws_sound in P0 as (g & -> & G).
    unfold ios_group_type, choice in H. cbn [fold_right] in H.
    apply por_sound in H as [H|H].
    { apply (plain_sound _ _ _ _ (ios_net_text E)) in H as (x & t & -> & -> & T & N); [|exact ios_net_sound|exact ios_net_nofail].
      exists (u "object-group" ++ g ++ t). split; [now rewrite <- !app_assoc|]. split; [now apply IG_net|auto]. }
    apply por_sound in H as [H|H].
    { pinv H. apply ret_ok in H as (<- & ->). apply kw_sound in P as ->. apply ws_iff in P0 as (g1 & G1 & -> & B1). apply obj_name_sound in P1 as (-> & Nn).
      apply ws_sound in P2 as (g2 & -> & G2). apply tokens_sound in P3 as (I & -> & _). apply line_end_sound in P4 as (z & -> & Z). apply descr_sound in P5 as (td & -> & Td).
      apply (ragged_sound (port_member_text E)) in P6 as (tm & -> & Tm & N); [|eapply port_member_sound; eauto|apply port_nofail].
      exists (u "object-group" ++ g ++ u "service" ++ g1 ++ a3 ++ g2 ++ a5 ++ z ++ td ++ tm). split; [now rewrite <- !app_assoc|]. split; [|auto].
      apply IG_port; auto; [|now apply three_words]. destruct Nn as [-> |Nn]; [|auto]. exfalso. apply B1. cbn [app]. now apply gap_nonblank. }
    apply por_sound in H as [H|H].
    { apply (plain_sound _ _ _ _ (ios_service_text E)) in H as (x & t & -> & -> & T & N); [|exact ios_service_sound|exact ios_service_nofail].
      exists (u "object-group" ++ g ++ t). split; [now rewrite <- !app_assoc|]. split; [now apply IG_service|auto]. }
    apply por_sound in H as [H|H].
    { apply (plain_sound _ _ _ _ (icmp_member_text E)) in H as (x & t & -> & -> & T & N); [|eapply icmp_member_sound; eauto|apply icmp_nofail].
      exists (u "object-group" ++ g ++ t). split; [now rewrite <- !app_assoc|]. split; [now apply IG_icmp|auto]. }
    apply por_sound in H as [H|H]; [|discriminate H].
    apply (plain_sound _ _ _ _ (proto_member_text E)) in H as (x & t & -> & -> & T & N); [|eapply proto_member_sound; eauto|apply proto_nofail].
    exists (u "object-group" ++ g ++ t). split; [now rewrite <- !app_assoc|]. split; [now apply IG_proto|auto].
  Qed.

  (** C63: every definition is read as what it stands for. *)
  Theorem C63_complete : forall d t r, ios_group_text E d t -> new_command r -> object_group (t ++ r) = POk d r.
  Proof using OK HE NE PI1 PI2.
    intros d t r H (N & NC). unfold ios_object_group, ios_group_type, choice. cbn [fold_right].
    destruct H as [g d t G T|g d t G T|g d t G T|g d t G T|g g1 n g2 p z d td ms tm G G1 Nn G2 Pw Z Td Tm]; rewrite <- ?app_assoc;
      try (pose proof (plain_head _ _ _ _ T) as (q & Hq)); (apply (kwws_step isalpha isalnum isspace OK); [auto|try (rewrite Hq, <- app_assoc); now apply nostart|]); clear q Hq || idtac.
    - apply por_l. eapply (plain_ok _ _ _ OK); eauto using ios_net_ne, ios_net_ok.
    - apply por_r; [eapply plain_clash; eauto; reflexivity|]. apply por_r.
      { destruct T as [n h de td ms tm Hh Td Tm]. rewrite <- (app_assoc h). apply (not_port_head _ _ _ OK n h _ _ Hh). }
      apply por_l. eapply (plain_ok _ _ _ OK); eauto using ios_service_ne, ios_service_ok.
    - apply por_r; [eapply plain_clash; eauto; reflexivity|]. apply por_r.
      { apply plain_head in T as (q & ->). rewrite <- app_assoc. apply pbind_fail. now apply kw_clash. }
      apply por_r; [eapply plain_clash; eauto; reflexivity|]. apply por_l. eapply (plain_ok _ _ _ OK); eauto using icmp_ne. intros; eapply icmp_member_ok; eauto.
    - apply por_r; [eapply plain_clash; eauto; reflexivity|]. apply por_r.
      { apply plain_head in T as (q & ->). rewrite <- app_assoc. apply pbind_fail. now apply kw_clash. }
      do 2 (apply por_r; [eapply plain_clash; eauto; reflexivity|]). apply por_l. eapply (plain_ok _ _ _ OK); eauto using proto_ne. intros; eapply proto_member_ok; eauto.
    - apply three_words in Pw. assert (Bp : ~ starts is_blank (p ++ z ++ td ++ tm ++ r)) by (destruct Pw as [<-|[<-|[<-|[]]]]; now apply nostart).
      apply por_r. { apply pbind_fail. unfold GroupText.group_head. apply pbind_fail. now apply kw_clash. }
      apply por_l. apply (kwws_step isalpha isalnum isspace OK); [auto|apply freew_noblank; [apply Nn|now apply letter_name]|].
      eapply pbind_step; [apply obj_name_ok; auto; now apply sep_no_obj, gap_sep|]. eapply pbind_step; [now apply ws_gap|].
      eapply pbind_step; [apply (tokens_ok _ _ _ OK); auto; now apply sep_sepw, end_sep|]. eapply pbind_step; [now apply line_end_ok|].
      assert (R1 : forall m t r, port_member_text E m t -> port_member isalpha isalnum py_int E (t ++ r) = POk (Some m) r) by (intros; eapply port_member_ok; eauto).
      assert (R2 : port_member isalpha isalnum py_int E r = POk None r) by (apply port_member_none; intros w I; apply NC; now right).
      assert (R3 : forall q, port_member isalpha isalnum py_int E (32%N :: q) = POk None (32%N :: q)).
      { intros q. apply port_member_none. intros w [<-|[<-|[]]] q' X; discriminate X. }
      destruct (ragged_ok (port_member_text E) _ tm ms r R1 N R2 R3 Tm) as (l & M & <-).
      destruct Td as [|g' de G' Ne Nl B]; cbn [app].
      + eapply pbind_step; [apply descr_none|eapply pbind_step; [exact M|reflexivity]].
        intros q Eq. destruct Tm as [|l' t L|m t l' t' Pm L]; cbn [app] in Eq.
        * subst r. apply N. eexists. reflexivity.
        * apply (f_equal (@tl BinNums.N)) in Eq. destruct L as [|l' t L|m t l' t' Pm L]; [|discriminate Eq|discriminate Eq].
          exact (NC "description"%string (or_introl eq_refl) q Eq).
        * rewrite <- app_assoc in Eq. exact (port_ne _ _ _ Pm _ q (f_equal (@tl BinNums.N) Eq)).
      + eapply pbind_step; [eapply (descr_some _ _ _ OK); eauto|]. eapply pbind_step; [exact M|reflexivity].
  Qed.

  (** C63: a definition has one meaning and one extent. *)
  Theorem C63_unique : forall d d' t t' r r', ios_group_text E d t -> ios_group_text E d' t' -> new_command r -> new_command r' ->
    t ++ r = t' ++ r' -> d = d' /\ t = t' /\ r = r'.
  Proof using OK HE NE PI1 PI2.
    intros d d' t t' r r' T T' N N' Eq. pose proof (C63_complete _ _ _ T N) as A. rewrite Eq, (C63_complete _ _ _ T' N') in A. injection A as -> ->.
    split; [auto|]. apply app_inv_tail in Eq. auto.
  Qed.

  (** C63: a definition read with the tables of the configuration so far can be carried out. *)
  Theorem C63_defines : forall w s d r, same_tables E w -> object_group s = POk d r -> exists w', define_any w d = Ok w'.
  Proof using OK HE NE PI1 PI2.
    intros w s d r (S1 & S2 & S3 & S4 & S5) H. apply C63_reads in H as (t & _ & T & _).
    destruct T as [g d t G T|g d t G T|g d t G T|g d t G T|g g1 n g2 p z d td ms tm G G1 Nn G2 Pw Z Td Tm]; cbn [define_any].
    - destruct (define_ok HGrp net_allowed (w_net w) d) as (w' & ->); [reflexivity| |cbn [bind]; eauto].
      destruct T as [n h de td ms tm Hh Td Tm]. cbn [gd_members]. eapply lines_all; [|exact Tm]. intros m q []; cbn; auto.
      match goal with Hg : groupref_text _ _ _ _ |- _ => destruct Hg end. cbn. auto.
    - destruct (define_ok SGrp any_allowed (w_service w) d) as (w' & ->); [reflexivity| |cbn [bind]; eauto].
      destruct T as [n h de td ms tm Hh Td Tm]. cbn [gd_members]. eapply lines_all; [|exact Tm]. intros m q []; cbn; auto.
      match goal with Hg : groupref_text _ _ _ _ |- _ => destruct Hg end. cbn. auto.
    - destruct (define_ok IcGrp any_allowed (w_icmp w) d) as (w' & ->); [reflexivity| |cbn [bind]; eauto].
      destruct T as [n h de td ms tm Hh Td Tm]. cbn [gd_members]. eapply lines_all; [|exact Tm]. intros m q []; cbn; auto.
      match goal with Hg : groupref_text _ _ _ _ |- _ => destruct Hg end. cbn. auto.
    - destruct (define_ok PrGrp any_allowed (w_proto w) d) as (w' & ->); [reflexivity| |cbn [bind]; eauto].
      destruct T as [n h de td ms tm Hh Td Tm]. cbn [gd_members]. eapply lines_all; [|exact Tm]. intros m q []; cbn; auto.
      match goal with Hg : groupref_text _ _ _ _ |- _ => destruct Hg end. cbn. auto.
    - destruct (define_ok PGrp any_allowed (w_port w) (mkgdef n d p ms)) as (w' & ->); [reflexivity| |cbn [bind]; eauto].
      cbn [gd_members]. eapply ragged_all; [|exact Tm]. intros m q []; cbn; auto.
      match goal with Hg : groupref_text _ _ _ _ |- _ => destruct Hg end. cbn. auto.
  Qed.

  (** C63: a group of which some line is a range of addresses cannot be read. *)
  Theorem C63_range : forall g0 n h de td ms tm g a ta g' b tb z r,
    gap g0 -> group_text "network" n h -> descr_text de td -> lines_text (ios_net_text E) ms tm ->
    gap g -> address_text ta a -> gap g' -> address_text tb b -> end_line z ->
    object_group (u "object-group" ++ g0 ++ h ++ td ++ tm ++ u " range" ++ g ++ ta ++ g' ++ tb ++ z ++ r) = PErr ValueError.
  Proof using OK HE NE PI1 PI2.
    intros g0 n h de td ms tm g a ta g' b tb z r G0 Hh Td Tm G A G' B Z. unfold ios_object_group, ios_group_type, choice. cbn [fold_right].
    assert (Hs : exists q, h = u "network" ++ q) by (destruct Hh as (gg & zz & _ & _ & _ & ->); eauto). destruct Hs as (qh & Hq).
    apply (kwws_step isalpha isalnum isspace OK); [auto|rewrite Hq, <- app_assoc; now apply nostart|].
    assert (K : forall x p q (s : pystr) (A := anydef), x s = PErr p -> por x q s = @PErr A p) by (intros; unfold por; now rewrite H). apply K. clear K.
    eapply pbind_step; [eapply (ghead_ok _ _ _ OK); eauto|]. unfold GroupText.body.
    set (R := u " range" ++ g ++ ta ++ g' ++ tb ++ z ++ r).
    assert (M : many (then_ sp net_member) (tm ++ R) = PErr ValueError).
    { assert (L : then_ sp net_member R = PErr ValueError).
      { unfold then_, R. change (u " range" ++ g ++ ta ++ g' ++ tb ++ z ++ r) with (32%N :: u "range" ++ g ++ ta ++ g' ++ tb ++ z ++ r).
        eapply pbind_step; [apply sp_cons|]. unfold ios_net_member, choice. cbn [fold_right]. unfold por at 1.
        replace ((let% _ := kw "host" in _) (u "range" ++ g ++ ta ++ g' ++ tb ++ z ++ r)) with (@PFail (member host)) by (symmetry; apply pbind_fail; now apply kw_clash).
        assert (K : forall x p q (s : pystr) (A := member host), x s = PErr p -> por x q s = @PErr A p) by (intros; unfold por; now rewrite H). apply K. clear K.
        assert (Ra : address_ref E (fun _ => True) a None ta) by now constructor. destruct (ref_free E HE _ _ _ _ Ra) as (Na & Fa).
        assert (Rb : address_ref E (fun _ => True) b None tb) by now constructor. destruct (ref_free E HE _ _ _ _ Rb) as (Nb & Fb).
        apply (kwws_step isalpha isalnum isspace OK); [auto|now apply freew_noblank|]. unfold named_addr.
        eapply pbind_step; [apply (named_any_ok _ _ _ OK E HE); eauto using gap_sep|]. cbn beta. eapply pbind_step; [apply ws_gap; auto using freew_noblank|].
        eapply pbind_step; [apply (named_any_ok _ _ _ OK E HE); eauto using end_sep|]. cbn beta. eapply pbind_step; [now apply line_end_ok|reflexivity]. }
      clearbody R. clear -L Tm OK HE NE. induction Tm as [|m t l t' Pm Tm IH].
      - cbn [app]. now rewrite many_unfold, L.
      - cbn [app]. rewrite <- app_assoc, many_unfold. unfold then_ at 1. erewrite pbind_step; [|apply sp_cons|apply ios_net_ok, Pm].
        assert (Lt : (length (t' ++ R) <? length (32%N :: t ++ t' ++ R))%nat = true) by (apply Nat.ltb_lt; cbn; rewrite !app_length; lia).
        cbv zeta. unfold pystr in *. now rewrite Lt, IH. }
    destruct Td as [|g1 de G1 Ne Nl B1]; cbn [app].
    - eapply pbind_step; [apply descr_none|unfold pbind at 1; now rewrite M].
      intros q Eq. destruct Tm as [|m t l t' Pm Tm]; cbn [app] in Eq; [discriminate Eq|]. rewrite <- app_assoc in Eq.
      exact (ios_net_ne m t Pm (t' ++ R) q (f_equal (@tl BinNums.N) Eq)).
    - eapply pbind_step; [eapply (descr_some _ _ _ OK); eauto|]. unfold pbind at 1. now rewrite M.
  Qed.
End Group.

(** ** Witnesses *)
Definition C63_env : env :=
  mkenv [] [] [(u "dmz-hosts", 0%nat)] [] [(u "svcs", 1%nat)] [(u "webports", 2%nat)] [(u "pings", 3%nat)] [(u "protos", 4%nat)] [] [].
Notation rg := (ios_object_group ascii_alpha ascii_alnum C52_int C63_env).
Definition C63_lines : pystr := line "object-group network servers " ++ line " description the servers" ++ line " host 10.0.0.80 " ++
  line " 10.1.2.0 255.255.255.0" ++ line " 2001:db8::/32" ++ line " host 2001:db8::1" ++ line " group-object dmz-hosts".
Example C63_ex_net : rg (C63_lines ++ u "access-list") =
  POk (DNet (mkgdef (u "servers") (u "the servers") []
    [Lit (HLeaf (LHost (mkaddr V4 167772240))); Lit (HLeaf (LNet (mknet V4 167838208 24)));
     Lit (HLeaf (LNet (mknet V6 42540766411282592856903984951653826560 32))); Lit (HLeaf (LHost (mkaddr V6 42540766411282592856903984951653826561)));
     Ref (u "dmz-hosts")])) (u "access-list").
Proof. vm_compute. reflexivity. Qed.
Example C63_ex_service : rg (line "object-group service mgmt" ++ line " tcp source gt 1023 destination range 22 23 " ++
  line " tcp-udp destination eq domain" ++ line " icmp echo 0" ++ line " 89" ++ line " tcp" ++ line " group-object svcs ") =
  POk (DService (mkgdef (u "mgmt") [] []
    [Lit (SService (mkservice (u "tcp") (Some (PPort (Some (u "gt")) (Some (u "1023")))) (Some (PRange (Some (u "22")) (Some (u "23")))) None None));
     Lit (SService (mkservice (u "tcp-udp") None (Some (PPort (Some (u "eq")) (Some (u "domain")))) None None));
     Lit (SService (mkservice (u "icmp") None None (Some (u "echo")) (Some (u "0"))));
     Lit (SService (mkservice (u "89") None None None None)); Lit (SService (mkservice (u "tcp") None None None None)); Ref (u "svcs")])) [].
Proof. vm_compute. reflexivity. Qed.
Example C63_env_ok : env_ok C63_env /\ e_names C63_env = [].
Proof.
  split; [|reflexivity]. unfold C63_env, env_ok. cbn [e_names e_netobj e_netgrp e_svcobj e_svcgrp e_portgrp e_icmpgrp e_protogrp e_time].
  assert (K : forall V (d : dict V), forallb (fun n => match n with [] => false | _ => forallb is_obj_char n end) (map fst d) = true -> keys name_text d).
  { intros V d. rewrite forallb_forall. intros H. apply keys_in. intros n I. specialize (H n I). destruct n; [discriminate|]. apply name_textb; [discriminate|auto]. }
  split; [apply keys_in; intros n []|]. do 7 (split; [apply K; reflexivity|]). split; [apply keys_in; intros n []|].
  split; [intros n x H; discriminate H|]. repeat (split; [now apply no_common_in|]). now apply no_common_in.
Qed.
(** the lines of the example are a definition of Spec/IosFileSpec.v *)
Example C63_ex_text : exists d, ios_group_text C63_env d C63_lines.
Proof.
  pose proof C63_ex_net as H. apply (C63_reads _ _ _ C41_classes _ C52_int1 C52_int2 _ (proj1 C63_env_ok) (proj2 C63_env_ok)) in H as (t & X & T & _). apply app_inv_tail in X. rewrite X. eauto.
Qed.
Example C63_same : same_tables C63_env C53_world.
Proof.
  unfold same_tables, is_known. cbn [C63_env e_netgrp e_portgrp e_svcgrp e_protogrp e_icmpgrp C53_world w_net w_port w_service w_proto w_icmp fst].
  repeat split; intros n (x & H); cbn [dget] in H |- *; repeat match goal with |- context [str_eqb ?a n] => destruct (str_eqb a n); [eexists; reflexivity|] end; discriminate H.
Qed.

(** ** Findings *)
(** Services as IOS writes them ("tcp eq 80") are an AssertionError. *)
Example C63_ios_syntax : rg (line "object-group service web" ++ line " tcp eq 80") = PErr AssertionError.
Proof. vm_compute. reflexivity. Qed.
(** So is a blank at the end of a member group of a network group, and "any". *)
Example C63_trailing_blank : rg (line "object-group network n" ++ line " group-object dmz-hosts ") = PErr AssertionError.
Proof. vm_compute. reflexivity. Qed.
Example C63_any : rg (line "object-group network n" ++ line " any") = PErr AssertionError.
Proof. vm_compute. reflexivity. Qed.
(** A range of addresses. *)
Example C63_range_ex : rg (line "object-group network n" ++ line " range 10.0.0.1 10.0.0.9") = PErr ValueError.
Proof. vm_compute. reflexivity. Qed.
Print Assumptions C63_reads.
Print Assumptions C63_complete.
Print Assumptions C63_unique.
Print Assumptions C63_defines.
Print Assumptions C63_range.
