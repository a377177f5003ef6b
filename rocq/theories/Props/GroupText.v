(** C53: object-group definitions of ASA/FWSM configurations as text.
    Every definition of Spec/GroupTextSpec.v is read as the definition it stands for
    (C53_complete), whatever is read is such a definition (C53_reads), and a definition read
    with the tables of the configuration so far can be carried out (C53_defines). *)
From Coq Require Import Lia String.
From Verif.Model Require Import Base Ip Hosts Groups Iface Peg Ids AddrText Ports AclText Define GroupText.
From Verif.Spec Require Import AddrSpec RefSpec AddrTextSpec CafTextSpec CafMeanSpec AclTextSpec GroupTextSpec.
From Verif.Proofs Require Import GroupOps DictFacts PegFacts AddrTextFacts CafTextFacts TokFacts CafMean LineFacts AclTextFacts AclOptFacts GroupTextFacts.
From Verif.Props Require Import Refs AddrText CafText AclText Define.
Local Open Scope list_scope.

(** What may follow a definition: nothing indented, no line of a port group. *)
Definition new_command (r : pystr) : Prop :=
  ~ indented r /\ (forall w, In w ["description"; "port-object"; "group-object"]%string -> forall q, r <> u w ++ q).

Section Group.
  Context (isalpha isalnum isspace : N -> bool) (OK : classes_ok isalpha isalnum isspace).
  Context (py_int : pystr -> option Z)
          (PI1 : forall n, n <> [] -> forallb AddrText.is_digit n = true -> py_int n <> None)
          (PI2 : forall n, In n port_code -> py_int n = None).
  Variables (E : env) (HE : env_ok E).
  Notation kw := (kw isalpha isalnum).
  Notation body := (body isalpha isalnum).
  Notation group_head := (group_head isalpha isalnum).
  Notation object_group := (object_group isalpha isalnum py_int E).

  (** The members of a group without port lines. *)
  Lemma body_sound {X} (p : parser (member X)) (P : member X -> pystr -> Prop) f n s d r :
    (forall s m r, p s = POk m r -> exists t, s = t ++ r /\ P m t) -> (forall s, p s <> PFail) ->
    body p f n [] s = POk d r ->
    exists de ms td tm, d = f (mkgdef n de [] ms) /\ s = (td ++ tm) ++ r /\ descr_text de td /\ lines_text P ms tm /\ ~ indented r.
  Proof using.
    clear. intros H F B. unfold GroupText.body in B. pinv B. apply ret_ok in B as (<- & ->). apply descr_sound in P0 as (td & -> & Td).
    apply (lines_sound P) in P1 as (tm & -> & Tm & N); [|exact H|exact F]. eexists; eexists; exists td, tm. split; [reflexivity|]. split; [now rewrite <- app_assoc|auto].
  Qed.
  Lemma body_ok {X} (p : parser (member X)) (P : member X -> pystr -> Prop) f n de ms td tm r :
    (forall m t r, P m t -> p (t ++ r) = POk m r) -> (forall m t, P m t -> forall q q', t ++ q <> u "description" ++ q') ->
    descr_text de td -> lines_text P ms tm -> ~ indented r ->
    body p f n [] ((td ++ tm) ++ r) = POk (f (mkgdef n de [] ms)) r.
  Proof using OK.
    intros H C Td Tm N. unfold GroupText.body. rewrite <- app_assoc. pose proof (lines_ok P p tm ms r H N Tm) as M.
    destruct Td as [|g de G Ne Nl B].
    - cbn [app]. eapply pbind_step; [apply descr_none|].
      + intros q. destruct Tm as [|m t l t' Pm _]; cbn [app].
        * intros ->. apply N. eexists. reflexivity.
        * rewrite <- app_assoc. intros X0. exact (C m t Pm (t' ++ r) q (f_equal (@tl BinNums.N) X0)).
      + eapply pbind_step; [exact M|reflexivity].
    - eapply pbind_step; [eapply descr_some; eauto|]. eapply pbind_step; [exact M|reflexivity].
  Qed.
  (** Members never fail: what is no member raises. *)
  Lemma asserts_nofail {X} (l : list (parser (member X))) s : choice (l ++ [none_asserts]) s <> PFail.
  Proof using. clear. unfold choice. induction l as [|p l IH]; cbn [app fold_right]; unfold por at 1; [discriminate|]. destruct (p s); [exact IH|discriminate|discriminate]. Qed.
  Lemma net_nofail s : net_member isalpha isalnum E s <> PFail.
  Proof using. exact (asserts_nofail [_; _; _; _; _] s). Qed.
  Lemma service_nofail s : service_member isalpha isalnum py_int E s <> PFail.
  Proof using. exact (asserts_nofail [_; _; _; _; _] s). Qed.
  Lemma icmp_nofail s : icmp_member isalpha isalnum E s <> PFail.
  Proof using. exact (asserts_nofail [_; _] s). Qed.
  Lemma proto_nofail s : proto_member isalpha isalnum E s <> PFail.
  Proof using. exact (asserts_nofail [_; _] s). Qed.
  Lemma port_nofail s : port_member isalpha isalnum py_int E s <> PFail.
  Proof using.
    clear. unfold port_member, choice. cbn [fold_right]. unfold por. match goal with |- match ?x with _ => _ end <> _ => destruct x end; try discriminate.
    match goal with |- match ?x with _ => _ end <> _ => destruct x end; try discriminate.
    match goal with |- match ?x with _ => _ end <> _ => destruct x end; discriminate.
  Qed.

  Lemma plain_sound {X} w (p : parser (member X)) (P : member X -> pystr -> Prop) f s d r :
    (forall s m r, p s = POk m r -> exists t, s = t ++ r /\ P m t) -> (forall s, p s <> PFail) ->
    (let% n := group_head w in body p f n []) s = POk d r ->
    exists g t, d = f g /\ s = t ++ r /\ plain_group w P g t /\ ~ indented r.
  Proof using.
    clear. intros H F B. pinv B. apply ghead_sound in P0 as (h & -> & Hh). apply (body_sound p P) in B as (de & ms & td & tm & -> & -> & Td & Tm & N); [|exact H|exact F].
    exists (mkgdef a de [] ms), (h ++ td ++ tm). split; [auto|]. split; [now rewrite <- !app_assoc|]. split; [now constructor|auto].
  Qed.
  Lemma plain_ok {X} w (p : parser (member X)) (P : member X -> pystr -> Prop) (f : gdef X -> anydef) d t r :
    (forall m t r, P m t -> p (t ++ r) = POk m r) -> (forall m t, P m t -> forall q q', t ++ q <> u "description" ++ q') ->
    plain_group w P d t -> ~ indented r -> (let% n := group_head w in body p f n []) (t ++ r) = POk (f d) r.
  Proof using OK.
    intros H C [n h de td ms tm Hh Td Tm] N. rewrite <- (app_assoc h). eapply pbind_step; [eapply ghead_ok; eauto|]. now apply (body_ok p P).
  Qed.
  Lemma plain_head {X} w (P : member X -> pystr -> Prop) d t : plain_group w P d t -> exists q, t = u w ++ q.
  Proof using. clear. intros [n h de td ms tm (g & z & G & N & Z & ->) Td Tm]. rewrite <- !app_assoc. eauto. Qed.
  Lemma plain_clash {X A} w v (P : member X -> pystr -> Prop) d t r (k : pystr -> parser A) : plain_group v P d t -> clash (u w) (u v) = true ->
    (let% n := group_head w in k n) (t ++ r) = PFail.
  Proof using. clear. intros H C. apply plain_head in H as (q & ->). rewrite <- app_assoc. apply pbind_fail. unfold GroupText.group_head. apply pbind_fail. now apply kw_clash. Qed.

  (** No member line is a description. *)
  Lemma clash_ne w t q q' : clash (u "description") w = true -> (w ++ t) ++ q <> u "description" ++ q'.
  Proof using.
    clear. intros C Eq. pose proof (clash_strip (u "description") w (t ++ q) C) as S. rewrite app_assoc, Eq in S.
    assert (X : strip_prefix (u "description") (u "description" ++ q') = Some q') by (now apply strip_spec). congruence.
  Qed.
  Lemma groupref_ne {V X} (d : dict V) endp (m : member X) t : groupref_text d endp m t -> forall q q', t ++ q <> u "description" ++ q'.
  Proof using. clear. intros [g n z G I Z] q q'. now apply clash_ne. Qed.
  Lemma net_ne m t : net_member_text E m t -> forall q q', t ++ q <> u "description" ++ q'.
  Proof using. clear. intros [] q q'; try (now apply clash_ne). eapply groupref_ne; eauto. Qed.
  Lemma service_ne m t : service_member_text E m t -> forall q q', t ++ q <> u "description" ++ q'.
  Proof using. clear. intros [] q q'; try (now apply clash_ne). eapply groupref_ne; eauto. Qed.
  Lemma icmp_ne m t : icmp_member_text E m t -> forall q q', t ++ q <> u "description" ++ q'.
  Proof using. clear. intros [] q q'; try (now apply clash_ne). eapply groupref_ne; eauto. Qed.
  Lemma proto_ne m t : proto_member_text E m t -> forall q q', t ++ q <> u "description" ++ q'.
  Proof using. clear. intros [] q q'; try (now apply clash_ne). eapply groupref_ne; eauto. Qed.
  Lemma port_ne m t : port_member_text E m t -> forall q q', t ++ q <> u "description" ++ q'.
  Proof using. clear. intros [] q q'; try (now apply clash_ne). eapply groupref_ne; eauto. Qed.

  (** C53: what is read is a definition, and it is read to its end. *)
  Theorem C53_reads : forall s d r, object_group s = POk d r -> exists t, s = t ++ r /\ def_text E d t /\ ~ indented r.
  Proof using OK HE PI1 PI2.
    intros s d r H. unfold GroupText.object_group in H. pinv H. apply kw_sound in P as ->. apply ws_sound in P0 as (g & -> & G).
    unfold object_group_type, choice in H. cbn [fold_right] in H.
    apply por_sound in H as [H|H].
    { apply (plain_sound _ _ (net_member_text E)) in H as (x & t & -> & -> & T & N); [|eapply net_member_sound; eauto|apply net_nofail].
      exists (u "object-group" ++ g ++ t). split; [now rewrite <- !app_assoc|]. split; [now apply DT_net|auto]. }
    apply por_sound in H as [H|H].
    { pinv H. apply ret_ok in H as (<- & ->). apply kw_sound in P as ->. apply ws_iff in P0 as (g1 & G1 & -> & B1). apply obj_name_sound in P1 as (-> & Nn).
      apply ws_sound in P2 as (g2 & -> & G2). apply tokens_sound in P3 as (I & -> & _). apply line_end_sound in P4 as (z & -> & Z). apply descr_sound in P5 as (td & -> & Td).
      apply (ragged_sound (port_member_text E)) in P6 as (tm & -> & Tm & N); [|eapply port_member_sound; eauto|apply port_nofail].
      exists (u "object-group" ++ g ++ u "service" ++ g1 ++ a3 ++ g2 ++ a5 ++ z ++ td ++ tm). split; [now rewrite <- !app_assoc|]. split; [|auto].
      apply DT_port; auto; [|now apply three_words]. destruct Nn as [-> |Nn]; [|auto]. exfalso. apply B1. cbn [app]. now apply gap_nonblank. }
    apply por_sound in H as [H|H].
    { apply (plain_sound _ _ (service_member_text E)) in H as (x & t & -> & -> & T & N); [|eapply service_member_sound; eauto|apply service_nofail].
      exists (u "object-group" ++ g ++ t). split; [now rewrite <- !app_assoc|]. split; [now apply DT_service|auto]. }
    apply por_sound in H as [H|H].
    { apply (plain_sound _ _ (icmp_member_text E)) in H as (x & t & -> & -> & T & N); [|eapply icmp_member_sound; eauto|apply icmp_nofail].
      exists (u "object-group" ++ g ++ t). split; [now rewrite <- !app_assoc|]. split; [now apply DT_icmp|auto]. }
    apply por_sound in H as [H|H]; [|discriminate H].
    apply (plain_sound _ _ (proto_member_text E)) in H as (x & t & -> & -> & T & N); [|eapply proto_member_sound; eauto|apply proto_nofail].
    exists (u "object-group" ++ g ++ t). split; [now rewrite <- !app_assoc|]. split; [now apply DT_proto|auto].
  Qed.

  (** The head of a service group is not the head of a port group. *)
  Lemma not_port_head {A} n h r (k : pystr -> pystr -> parser A) : group_text "service" n h ->
    (let% _ := kw "service" in let% _ := ws in let% n := obj_name in let% _ := ws in
     let% t := tokens isalpha isalnum three in let% _ := line_end in k n t) (h ++ r) = PFail.
  Proof using OK.
    intros H. apply head_shape in H as (g & z & -> & G & N & Z & Y). rewrite <- !app_assoc. apply (kwws_step isalpha isalnum isspace OK); [auto|now apply name_end|].
    eapply pbind_step; [apply obj_name_chars; auto; now apply sep_no_obj, end_sep|]. apply end_word in Z as (b & e & -> & [-> |B] & Z).
    - apply pbind_fail, ws_fail. now apply eol_noblank.
    - rewrite <- app_assoc. eapply pbind_step; [apply ws_gap; auto; now apply eol_noblank|]. apply pbind_fail. destruct Z as [-> | ->]; now apply tokens_clash.
  Qed.
  (** C53: every definition is read as what it stands for. *)
  Theorem C53_complete : forall d t r, def_text E d t -> new_command r -> object_group (t ++ r) = POk d r.
  Proof using OK HE PI1 PI2.
    intros d t r H (N & NC). unfold GroupText.object_group, object_group_type, choice. cbn [fold_right].
    destruct H as [g d t G T|g d t G T|g d t G T|g d t G T|g g1 n g2 p z d td ms tm G G1 Nn G2 Pw Z Td Tm]; rewrite <- ?app_assoc;
      try (pose proof (plain_head _ _ _ _ T) as (q & Hq)); (apply (kwws_step isalpha isalnum isspace OK); [auto|try (rewrite Hq, <- app_assoc); now apply nostart|]); clear q Hq || idtac.
    - apply por_l. eapply plain_ok; eauto using net_ne. intros; eapply net_member_ok; eauto.
    - apply por_r; [eapply plain_clash; eauto; reflexivity|]. apply por_r.
      { destruct T as [n h de td ms tm Hh Td Tm]. rewrite <- (app_assoc h). apply (not_port_head n h _ _ Hh). }
      apply por_l. eapply plain_ok; eauto using service_ne. intros; eapply service_member_ok; eauto.
    - apply por_r; [eapply plain_clash; eauto; reflexivity|]. apply por_r.
      { apply plain_head in T as (q & ->). rewrite <- app_assoc. apply pbind_fail. now apply kw_clash. }
      apply por_r; [eapply plain_clash; eauto; reflexivity|]. apply por_l. eapply plain_ok; eauto using icmp_ne. intros; eapply icmp_member_ok; eauto.
    - apply por_r; [eapply plain_clash; eauto; reflexivity|]. apply por_r.
      { apply plain_head in T as (q & ->). rewrite <- app_assoc. apply pbind_fail. now apply kw_clash. }
      do 2 (apply por_r; [eapply plain_clash; eauto; reflexivity|]). apply por_l. eapply plain_ok; eauto using proto_ne. intros; eapply proto_member_ok; eauto.
    - apply three_words in Pw. assert (Bp : ~ starts is_blank (p ++ z ++ td ++ tm ++ r)) by (destruct Pw as [<-|[<-|[<-|[]]]]; now apply nostart).
      apply por_r. { apply pbind_fail. unfold GroupText.group_head. apply pbind_fail. now apply kw_clash. }
      apply por_l. apply (kwws_step isalpha isalnum isspace OK); [auto|apply freew_noblank; [apply Nn|now apply letter_name]|].
      eapply pbind_step; [apply obj_name_ok; auto; now apply sep_no_obj, gap_sep|]. eapply pbind_step; [now apply ws_gap|].
      eapply pbind_step; [apply (tokens_ok _ _ _ OK); auto; now apply sep_sepw, end_sep|]. eapply pbind_step; [now apply line_end_ok|].
      assert (R1 : forall m t r, port_member_text E m t -> port_member isalpha isalnum py_int E (t ++ r) = POk (Some m) r) by (intros; eapply port_member_ok; eauto).
      assert (R2 : port_member isalpha isalnum py_int E r = POk None r) by (apply port_member_none; intros w I; apply NC; now right).
      assert (R3 : forall q, port_member isalpha isalnum py_int E (32%N :: q) = POk None (32%N :: q)).
      { intros q. apply port_member_none. intros w [<-|[<-|[]]] q' X; discriminate X. }
      destruct (ragged_ok (port_member_text E) _ tm ms r R1 N R2 R3 Tm) as (l & M & <-).
      destruct Td as [|g' de G' Ne Nl B]; cbn [app].
      + eapply pbind_step; [apply descr_none|eapply pbind_step; [exact M|reflexivity]].
        intros q Eq. destruct Tm as [|l' t L|m t l' t' Pm L]; cbn [app] in Eq.
        * subst r. apply N. eexists. reflexivity.
        * apply (f_equal (@tl BinNums.N)) in Eq. destruct L as [|l' t L|m t l' t' Pm L]; [|discriminate Eq|discriminate Eq].
          exact (NC "description"%string (or_introl eq_refl) q Eq).
        * rewrite <- app_assoc in Eq. exact (port_ne _ _ Pm _ q (f_equal (@tl BinNums.N) Eq)).
      + eapply pbind_step; [eapply descr_some; eauto|]. eapply pbind_step; [exact M|reflexivity].
  Qed.

  (** C53: a definition has one meaning and one extent. *)
  Theorem C53_unique : forall d d' t t' r r', def_text E d t -> def_text E d' t' -> new_command r -> new_command r' ->
    t ++ r = t' ++ r' -> d = d' /\ t = t' /\ r = r'.
  Proof using OK HE PI1 PI2.
    intros d d' t t' r r' T T' N N' Eq. pose proof (C53_complete _ _ _ T N) as A. rewrite Eq, (C53_complete _ _ _ T' N') in A. injection A as -> ->.
    split; [auto|]. apply app_inv_tail in Eq. auto.
  Qed.

  (** C53: a definition read with the tables of the configuration so far can be carried out. *)
  Definition same_tables (w : world) : Prop :=
    (forall n, is_known (e_netgrp E) n -> is_known (fst (w_net w)) n) /\ (forall n, is_known (e_portgrp E) n -> is_known (fst (w_port w)) n) /\
    (forall n, is_known (e_svcgrp E) n -> is_known (fst (w_service w)) n) /\ (forall n, is_known (e_protogrp E) n -> is_known (fst (w_proto w)) n) /\
    (forall n, is_known (e_icmpgrp E) n -> is_known (fst (w_icmp w)) n).
  Definition readable {X} (allowed : X -> bool) (t : dict gid) (m : member X) : Prop :=
    match m with Lit x => allowed x = true | Ref n => is_known t n end.
  Lemma define_ok {X} (mk : gid -> X) allowed (w : gworld X) d : (forall g, allowed (mk g) = true) ->
    Forall (readable allowed (fst w)) (gd_members d) -> exists w', define mk allowed w d = Ok w'.
  Proof using.
    clear. intros A F. destruct w as [t h]. cbn [fst] in F. unfold define.
    assert (R : exists ms, map_r (read_member mk t) (gd_members d) = Ok ms /\ Forall (fun x => allowed x = true) ms).
    { induction F as [|m l M F IH]; [exists []; split; [reflexivity|constructor]|]. destruct IH as (ms & IH & Al). cbn [map_r].
      destruct m as [x|n]; cbn in M |- *; [|destruct M as (g & ->)]; cbn [bind]; rewrite IH; eexists; (split; [reflexivity|constructor; auto]). }
    destruct R as (ms & -> & Al). cbn [bind]. destruct (h_alloc h _) as [h1 g]. 
    assert (K : exists h2, fold_r (fun h x => group_add allowed h g x) ms h1 = Ok h2).
    { clear -Al. revert h1. induction Al as [|x l Ax Al IH]; intros h1; cbn [fold_r]; [eauto|]. unfold group_add at 1. rewrite Ax. cbn [bind]. apply IH. }
    destruct K as (h2 & ->). eexists; reflexivity.
  Qed.
  Lemma lines_all {X} (P : X -> pystr -> Prop) (Q : X -> Prop) ms t : (forall m t, P m t -> Q m) -> lines_text P ms t -> Forall Q ms.
  Proof using. clear. intros H L. induction L; constructor; eauto. Qed.
  Lemma ragged_all {X} (P : X -> pystr -> Prop) (Q : X -> Prop) ms t : (forall m t, P m t -> Q m) -> ragged_text P ms t -> Forall Q ms.
  Proof using. clear. intros H L. induction L; auto; constructor; eauto. Qed.
  Theorem C53_defines : forall w s d r, same_tables w -> (forall n o, dget (e_netobj E) n = Some o -> net_allowed (HObj o) = true) ->
    object_group s = POk d r -> exists w', define_any w d = Ok w'.
  Proof using OK HE PI1 PI2.
    intros w s d r (S1 & S2 & S3 & S4 & S5) NO H. apply C53_reads in H as (t & _ & T & _).
    destruct T as [g d t G T|g d t G T|g d t G T|g d t G T|g g1 n g2 p z d td ms tm G G1 Nn G2 Pw Z Td Tm]; cbn [define_any].
    - destruct (define_ok HGrp net_allowed (w_net w) d) as (w' & ->); [reflexivity| |cbn [bind]; eauto].
      destruct T as [n h de td ms tm Hh Td Tm]. cbn [gd_members]. eapply lines_all; [|exact Tm]. intros m q []; cbn; auto.
      match goal with Hg : groupref_text _ _ _ _ |- _ => destruct Hg end. cbn. auto.
    - destruct (define_ok SGrp any_allowed (w_service w) d) as (w' & ->); [reflexivity| |cbn [bind]; eauto].
      destruct T as [n h de td ms tm Hh Td Tm]. cbn [gd_members]. eapply lines_all; [|exact Tm]. intros m q []; cbn; auto.
      match goal with Hg : groupref_text _ _ _ _ |- _ => destruct Hg end. cbn. auto.
    - destruct (define_ok IcGrp any_allowed (w_icmp w) d) as (w' & ->); [reflexivity| |cbn [bind]; eauto].
      destruct T as [n h de td ms tm Hh Td Tm]. cbn [gd_members]. eapply lines_all; [|exact Tm]. intros m q []; cbn; auto.
      match goal with Hg : groupref_text _ _ _ _ |- _ => destruct Hg end. cbn. auto.
    - destruct (define_ok PrGrp any_allowed (w_proto w) d) as (w' & ->); [reflexivity| |cbn [bind]; eauto].
      destruct T as [n h de td ms tm Hh Td Tm]. cbn [gd_members]. eapply lines_all; [|exact Tm]. intros m q []; cbn; auto.
      match goal with Hg : groupref_text _ _ _ _ |- _ => destruct Hg end. cbn. auto.
    - destruct (define_ok PGrp any_allowed (w_port w) (mkgdef n d p ms)) as (w' & ->); [reflexivity| |cbn [bind]; eauto].
      cbn [gd_members]. eapply ragged_all; [|exact Tm]. intros m q []; cbn; auto.
      match goal with Hg : groupref_text _ _ _ _ |- _ => destruct Hg end. cbn. auto.
  Qed.
End Group.

(** ** Witnesses *)
Notation rg := (object_group ascii_alpha ascii_alnum C52_int C52_env).
Definition C53_net_lines : pystr := line "object-group network servers  " ++ line " description the servers" ++ line " network-object host web" ++
  line " network-object 10.1.2.0 255.255.255.0" ++ line " network-object object srv.1" ++ line " network-object 2001:db8::/32" ++ line " group-object dmz-hosts".
Example C53_ex_net : rg (C53_net_lines ++ u "access-list") =
  POk (DNet (mkgdef (u "servers") (u "the servers") []
    [Lit (HLeaf (LHost (mkaddr V4 167772240))); Lit (HLeaf (LNet (mknet V4 167838208 24)));
     Lit (HObj (mkobj (u "srv.1") [] None [LHost (mkaddr V4 1)])); Lit (HLeaf (LNet (mknet V6 42540766411282592856903984951653826560 32)));
     Ref (u "dmz-hosts")])) (u "access-list").
Proof. vm_compute. reflexivity. Qed.
Example C53_new_command : new_command (u "access-list").
Proof.
  split; [intros (r & H); discriminate H|]. intros w [<-|[<-|[<-|[]]]] q H; discriminate H.
Qed.
Example C53_ex_net' : exists d, def_text C52_env d C53_net_lines.
Proof.
  pose proof C53_ex_net as H. apply (C53_reads _ _ _ C41_classes _ C52_int1 C52_int2 _ C52_env_ok) in H as (t & X & T & _). apply app_inv_tail in X. rewrite X. eauto.
Qed.
Example C53_ex_service : rg (line "object-group service mgmt" ++ line " service-object tcp source gt 1023 destination range 22 23 " ++
  line " service-object tcp-udp destination eq domain" ++ line " service-object icmp echo 0" ++ line " service-object 89" ++ line " service-object object dns" ++ line " group-object svcs ") =
  POk (DService (mkgdef (u "mgmt") [] []
    [Lit (SService (mkservice (u "tcp") (Some (PPort (Some (u "gt")) (Some (u "1023")))) (Some (PRange (Some (u "22")) (Some (u "23")))) None None));
     Lit (SService (mkservice (u "tcp-udp") None (Some (PPort (Some (u "eq")) (Some (u "domain")))) None None));
     Lit (SService (mkservice (u "icmp") None None (Some (u "echo")) (Some (u "0"))));
     Lit (SService (mkservice (u "89") None None None None));
     Lit (SObject (u "dns") [] (mkservice (u "udp") None (Some (PPort (Some (u "eq")) (Some (u "53")))) None None)); Ref (u "svcs")])) [].
Proof. vm_compute. reflexivity. Qed.
(** The port of "port-object eq" is lost (C46); indentation may be deeper in port groups. *)
Example C53_ex_port : rg (line "object-group service web tcp" ++ line " port-object eq www" ++ line "   port-object range 8000 8080" ++ line " group-object webports") =
  POk (DPort (mkgdef (u "web") [] (u "tcp") [Lit (PPort (Some (u "eq")) None); Lit (PRange (Some (u "8000")) (Some (u "8080"))); Ref (u "webports")])) [].
Proof. vm_compute. reflexivity. Qed.
Example C53_ex_icmp : rg (line "object-group icmp-type p" ++ line " icmp-object echo" ++ line " icmp-object 8" ++ line " group-object pings") =
  POk (DIcmp (mkgdef (u "p") [] [] [Lit (IcmpType (u "echo") None); Lit (IcmpType (u "8") None); Ref (u "pings")])) [].
Proof. vm_compute. reflexivity. Qed.
Example C53_ex_proto : rg (line "object-group protocol p" ++ line " protocol-object tcp" ++ line " protocol-object what.ever" ++ line " group-object protos") =
  POk (DProto (mkgdef (u "p") [] [] [Lit (PrProto (u "tcp")); Lit (PrProto (u "what.ever")); Ref (u "protos")])) [].
Proof. vm_compute. reflexivity. Qed.
Definition C53_world : world := let g : dict gid := [(u "dmz-hosts", 0%nat); (u "svcs", 1%nat); (u "webports", 2%nat); (u "pings", 3%nat); (u "protos", 4%nat)] in
  mkworld (g, snd (@gworld_init host)) (g, snd (@gworld_init pmember)) (g, snd (@gworld_init smember)) (g, snd (@gworld_init prmember)) (g, snd (@gworld_init imember)).
Example C53_same : same_tables C52_env C53_world.
Proof.
  unfold same_tables, is_known. cbn [C52_env e_netgrp e_portgrp e_svcgrp e_protogrp e_icmpgrp C53_world w_net w_port w_service w_proto w_icmp fst].
  repeat split; intros n (x & H); cbn [dget] in H |- *; repeat match goal with |- context [str_eqb ?a n] => destruct (str_eqb a n); [eexists; reflexivity|] end; discriminate H.
Qed.
(** ** Findings *)
(** A blank at the end of a network-object line is an AssertionError. *)
Example C53_trailing_blank : rg (line "object-group network n" ++ line " network-object host web ") = PErr AssertionError.
Proof. vm_compute. reflexivity. Qed.
(** So is a member group that is not known yet, and one indented by two blanks. *)
Example C53_unknown_member : rg (line "object-group network n" ++ line " group-object nosuch") = PErr AssertionError.
Proof. vm_compute. reflexivity. Qed.
Example C53_deep_indent : rg (line "object-group network n" ++ line "  network-object host web") = PErr AssertionError.
Proof. vm_compute. reflexivity. Qed.
(** A group without a name is accepted. *)
Example C53_no_name : rg (line "object-group network " ++ line " network-object host web") =
  POk (DNet (mkgdef [] [] [] [Lit (HLeaf (LHost (mkaddr V4 167772240)))])) [].
Proof. vm_compute. reflexivity. Qed.
(** Words may run together after "tcp-udp" and after port numbers. *)
Example C53_run_together : rg (line "object-group service s" ++ line " service-object tcp-udpsource eq 53destination eq 54") =
  POk (DService (mkgdef (u "s") [] [] [Lit (SService (mkservice (u "tcp-udp") (Some (PPort (Some (u "eq")) (Some (u "53")))) (Some (PPort (Some (u "eq")) (Some (u "54")))) None None))])) [].
Proof. vm_compute. reflexivity. Qed.
(** A "description" line without a text is an AssertionError. *)
Example C53_empty_description : rg (line "object-group network n" ++ line " description") = PErr AssertionError.
Proof. vm_compute. reflexivity. Qed.
Print Assumptions C53_reads.
Print Assumptions C53_complete.
Print Assumptions C53_unique.
Print Assumptions C53_defines.
