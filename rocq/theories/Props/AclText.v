(** C52: access-list lines of an ASA/FWSM configuration as text. *)
From Coq Require Import Lia String.
From Verif.Model Require Import Base Ip Hosts Groups Iface Peg Ids AddrText Ports AclText.
From Verif.Spec Require Import AddrSpec RefSpec AddrTextSpec CafTextSpec CafMeanSpec AclTextSpec.
From Verif.Proofs Require Import GroupOps DictFacts PegFacts AddrTextFacts CafTextFacts TokFacts CafMean LineFacts AclTextFacts AclOptFacts.
From Verif.Props Require Import Refs AddrText CafText.
Local Open Scope list_scope.

Section Lines.
  Context (isalpha isalnum isspace : N -> bool) (OK : classes_ok isalpha isalnum isspace).
  Context (py_int : pystr -> option Z)
          (PI1 : forall n, n <> [] -> forallb AddrText.is_digit n = true -> py_int n <> None)
          (PI2 : forall n, In n port_code -> py_int n = None).
  Variables (E : env) (HE : env_ok E).
  Notation kw := (kw isalpha isalnum).
  Notation tokens := (tokens isalpha isalnum).
  Notation rule_head := (rule_head isalpha isalnum).
  Notation rule_end := (rule_end isalpha isalnum E).
  Notation rule_extended := (rule_extended isalpha isalnum py_int E).
  Notation rule_standard := (rule_standard isalpha isalnum E).
  Notation rule_webtype := (rule_webtype isalpha isalnum isspace py_int E).
  Notation rule_ethertype := (rule_ethertype isalpha isalnum).
  Notation access_list_remark := (access_list_remark isalpha isalnum).
  Notation access_list := (access_list isalpha isalnum isspace py_int E).
  Notation line_text := (line_text E isspace).
  Notation rule_text := (rule_text E isspace).

  (** ** The beginning of a line *)
  Definition begins (k q s : pystr) : Prop := exists g1 id g2, gap g1 /\ gap g2 /\ name_text id /\
    s = u "access-list" ++ g1 ++ id ++ g2 ++ k ++ q.
  Lemma begin_step {A} (f : pystr -> parser A) k q g1 id g2 x : gap g1 -> gap g2 -> name_text id -> ~ starts is_blank (k ++ q) -> f id (k ++ q) = x ->
    (let% _ := kw "access-list" in let% _ := ws in let% id := obj_name in let% _ := ws in f id) (u "access-list" ++ g1 ++ id ++ g2 ++ k ++ q) = x.
  Proof using OK.
    intros G1 G2 I N H. assert (Fi : id <> [] /\ freew id) by (split; [apply I|now apply letter_name]). destruct Fi.
    eapply pbind_step; [apply kw_ok; eapply gap_stop; eauto|]. eapply pbind_step; [apply ws_gap; auto using freew_noblank|].
    eapply pbind_step; [apply obj_name_ok; auto; now apply sep_no_obj, gap_sep|]. eapply pbind_step; [apply ws_gap; auto|]. exact H.
  Qed.
  Lemma begin_sound {A} (f : pystr -> parser A) s a r :
    (let% _ := kw "access-list" in let% _ := ws in let% id := obj_name in let% _ := ws in f id) s = POk a r ->
    exists g1 id g2 q, s = u "access-list" ++ g1 ++ id ++ g2 ++ q /\ gap g1 /\ gap g2 /\ name_text id /\ f id q = POk a r.
  Proof using.
    intros H. apply pbind_ok in H as (? & s1 & P & H). apply pbind_ok in H as (? & s2 & P0 & H). apply pbind_ok in H as (id & s3 & P1 & H).
    apply pbind_ok in H as (? & s4 & P2 & H). apply kw_sound in P as ->. apply ws_iff in P0 as (g1 & G1 & -> & N1).
    apply obj_name_sound in P1 as (-> & I). apply ws_sound in P2 as (g2 & -> & G2).
    destruct I as [-> |I]; [exfalso; exact (N1 (gap_nonblank g2 s4 G2))|]. exists g1, id, g2, s4. auto.
  Qed.
  Lemma begin_fail {A} kind (f : pystr -> parser A) k q s : begins k q s -> clash (u kind) k = true -> ~ starts is_blank (k ++ q) ->
    (let% _ := kw "access-list" in let% _ := ws in let% id := obj_name in let% _ := ws in let% _ := kw kind in f id) s = PFail.
  Proof using OK.
    intros (g1 & id & g2 & G1 & G2 & I & ->) C N. apply begin_step; auto. apply pbind_fail. now apply kw_clash.
  Qed.

  Lemma head_sound kind s id mode r : rule_head kind s = POk (id, mode) r ->
    exists hd g, s = hd ++ g ++ r /\ gap g /\ head_text kind id mode hd.
  Proof using.
    unfold AclText.rule_head. intros H. apply begin_sound in H as (g1 & id' & g2 & q & -> & G1 & G2 & I & H). pinv H.
    apply kw_sound in P as ->. apply ws_sound in P0 as (g3 & -> & G3). apply tokens_sound in P1 as (M & -> & _). apply ws_sound in P2 as (g4 & -> & G4).
    apply ret_ok in H as ([= <- <-] & ->). exists (u "access-list" ++ g1 ++ id' ++ g2 ++ u kind ++ g3 ++ a1), g4.
    split; [now rewrite <- !app_assoc|]. split; [auto|]. exists g1, g2, g3. split; [exact G1|]. split; [exact G2|]. split; [exact G3|]. split; [exact I|]. split; [|auto].
    destruct M as [<-|[<-|[]]]; eexists; (split; [|reflexivity]); cbn; auto.
  Qed.
  Definition kinds : list string := ["extended"; "standard"; "webtype"]%string.
  Lemma head_ok kind id mode hd g r : In kind kinds -> head_text kind id mode hd -> gap g -> ~ starts is_blank r -> rule_head kind (hd ++ g ++ r) = POk (id, mode) r.
  Proof using OK.
    intros K (g1 & g2 & g3 & G1 & G2 & G3 & I & M & ->) G N. unfold AclText.rule_head. rewrite <- !app_assoc.
    assert (Nk : ~ starts is_blank (u kind ++ g3 ++ mode ++ g ++ r)) by (apply nostart; cbn in K; destruct K as [<-|[<-|[<-|[]]]]; reflexivity).
    apply begin_step; auto. destruct M as (m & M & ->).
    assert (Nm : ~ starts is_blank (u m ++ g ++ r)) by (apply nostart; cbn in M; destruct M as [<-|[<-|[]]]; reflexivity).
    eapply pbind_step; [apply kw_ok; eapply gap_stop; eauto|]. eapply pbind_step; [apply ws_gap; auto|].
    eapply pbind_step; [eapply tokens_ok; eauto using gap_sepw|].
    { cbn in M. destruct M as [<-|[<-|[]]]; [now left|right; now left]. }
    eapply pbind_step; [apply ws_gap; auto|reflexivity].
  Qed.
  Lemma head_begins kind id mode hd q : head_text kind id mode hd -> exists q', begins (u kind) q' (hd ++ q).
  Proof using. intros (g1 & g2 & g3 & G1 & G2 & G3 & I & M & ->). exists (g3 ++ mode ++ q). exists g1, id, g2. rewrite <- !app_assoc. auto 10. Qed.
  Lemma head_other kind k q s : begins (u k) q s -> clash (u kind) (u k) = true -> ~ starts is_blank (u k ++ q) -> rule_head kind s = PFail.
  Proof using OK. intros B C N. unfold AclText.rule_head. eapply begin_fail; eauto. Qed.

  (** ** The kinds of lines *)
  Lemma extended_sound rem s x r : rule_extended rem s = POk x r -> exists t, s = t ++ r /\ line_text rem x t /\ ar_remark x = rem.
  Proof using OK HE PI1 PI2.
    unfold AclText.rule_extended. intros H. apply por_sound in H as [H|H]; pinv H; apply ret_ok in H as (<- & ->); destruct a as (id, mode).
    - apply head_sound in P as (hd & g & -> & G & Hd). apply tokens_sound in P0 as (I & -> & _). apply ws_sound in P1 as (g1 & -> & G1).
      eapply icmp_node_sound in P2; eauto. destruct P2 as (src & t1 & -> & -> & T1). apply ws_sound in P3 as (g2 & -> & G2).
      eapply icmp_node_sound in P4; eauto. destruct P4 as (dst & t2 & -> & -> & T2). eapply icmp_options_sound in P5; eauto. destruct P5 as (i & -> & Ti).
      eapply rule_end_sound in P6; eauto. destruct P6 as (z & -> & Tz).
      exists (hd ++ g ++ a0 ++ g1 ++ t1 ++ g2 ++ t2 ++ i ++ z). split; [now rewrite <- !app_assoc|]. split; [|auto]. cbn [fst snd]. apply LN_icmp; auto.
      destruct I as [<-|[<-|[]]]; eexists; (split; [|reflexivity]); cbn; auto.
    - apply head_sound in P as (hd & g & -> & G & Hd). eapply proto_sound in P0; eauto. destruct P0 as (p & -> & Tp). apply ws_sound in P1 as (g1 & -> & G1).
      eapply node_sound in P2; eauto. destruct P2 as (t1 & -> & T1). apply ws_sound in P3 as (g2 & -> & G2).
      eapply node_sound in P4; eauto. destruct P4 as (t2 & -> & T2). eapply rule_end_sound in P5; eauto. destruct P5 as (z & -> & Tz).
      exists (hd ++ g ++ p ++ g1 ++ t1 ++ g2 ++ t2 ++ z). split; [now rewrite <- !app_assoc|]. split; [|auto]. cbn [fst snd]. now apply LN_extended.
  Qed.
  Lemma standard_sound rem s x r : rule_standard rem s = POk x r -> exists t, s = t ++ r /\ line_text rem x t /\ ar_remark x = rem.
  Proof using OK HE.
    unfold AclText.rule_standard. intros H. pinv H; apply ret_ok in H as (<- & ->); destruct a as (id, mode).
    apply head_sound in P as (hd & g & -> & G & Hd). eapply host_sound in P0; eauto. destruct P0 as (t & -> & T). apply nl_iff in P2 as (z & Z & ->).
    assert (W : exists g1, blanks g1 /\ s1 = g1 ++ z ++ r).
    { apply popt_ok in P1 as [(? & _ & W)|(_ & W & _)]; [apply ws_sound in W as (g1 & -> & G1); exists g1; split; [apply G1|auto]|exists []; split; [intros c []|]].
      cbn [app]. congruence. }
    destruct W as (g1 & B & ->). exists (hd ++ g ++ t ++ g1 ++ z). split; [now rewrite <- !app_assoc|]. split; [|auto]. cbn [fst snd]. now apply LN_standard.
  Qed.
  Lemma string_iff s n r : string_ isspace s = POk n r <-> s = n ++ r /\ url_text isspace n /\ ~ starts (fun c => negb (isspace c)) r.
  Proof using.
    unfold string_, pat1. destruct (span _ s) as [a b] eqn:S. pose proof S as S'. apply span_iff in S' as (-> & F & N). split.
    - destruct a as [|c a]; [discriminate|]. intros [= <- <-]. split; [auto|]. split; [|auto]. split; [discriminate|].
      rewrite forallb_forall in F. intros x I. apply negb_true_iff, F, I.
    - intros (En & (Nn & Fn) & Nr). assert (S2 : span (fun c => negb (isspace c)) (a ++ b) = (n, r)).
      { apply span_iff. split; [auto|]. split; [|auto]. apply forallb_forall. intros c I. apply negb_true_iff, Fn, I. }
      rewrite S2 in S. injection S as <- <-. destruct n; [congruence|reflexivity].
  Qed.
  Lemma webtype_sound rem s x r : rule_webtype rem s = POk x r -> exists t, s = t ++ r /\ line_text rem x t /\ ar_remark x = rem.
  Proof using OK HE PI1 PI2.
    unfold AclText.rule_webtype. intros H. apply por_sound in H as [H|H]; pinv H; apply ret_ok in H as (<- & ->); destruct a as (id, mode).
    - apply head_sound in P as (hd & g & -> & G & Hd). apply kw_sound in P0 as ->. apply ws_sound in P1 as (g1 & -> & G1).
      eapply rule_end_sound in P3; eauto. destruct P3 as (z & -> & Tz).
      assert (U : s2 = a2 ++ z ++ r /\ url_text isspace a2).
      { apply por_sound in P2 as [P2|P2]; [apply string_iff in P2; tauto|]. apply token_ok in P2 as (-> & -> & _). split; [auto|].
        split; [discriminate|]. intros c I. change (u "any") with [97; 110; 121]%N in I. cbn in I.
        destruct I as [<-|[<-|[<-|[]]]]; (rewrite (space_ok _ _ _ OK); reflexivity). }
      destruct U as (-> & U). exists (hd ++ g ++ u "url" ++ g1 ++ a2 ++ z). split; [now rewrite <- !app_assoc|]. split; [|auto]. cbn [fst snd]. now apply LN_url.
    - apply head_sound in P as (hd & g & -> & G & Hd). apply kw_sound in P0 as ->. apply ws_sound in P1 as (g1 & -> & G1).
      eapply node_sound in P2; eauto. destruct P2 as (t2 & -> & T2). eapply rule_end_sound in P3; eauto. destruct P3 as (z & -> & Tz).
      exists (hd ++ g ++ u "tcp" ++ g1 ++ t2 ++ z). split; [now rewrite <- !app_assoc|]. split; [|auto]. cbn [fst snd]. now apply LN_tcp.
  Qed.

  Lemma extended_icmp rem id mode hd p g g1 src s g2 dst d icmp i o z r :
    head_text "extended"%string id mode hd -> gap g -> words ["icmp"; "icmp6"]%string p -> gap g1 -> host_text E src s ->
    gap g2 -> host_text E dst d -> icmp_text E icmp i -> tail_text E o z ->
    rule_extended rem ((hd ++ g ++ p ++ g1 ++ s ++ g2 ++ d ++ i ++ z) ++ r) =
      POk (mkaclrule id (u "extended") mode (APName p) (mkanode src None) (mkanode dst None) icmp o rem) r.
  Proof using OK HE.
    intros Hd G (w & W & ->) G1 S G2 D I T. rewrite <- !app_assoc. unfold AclText.rule_extended. apply por_l.
    assert (Tz : tail_start (z ++ r)) by (eapply tail_starts; eauto).
    assert (Sz : sep_start (i ++ z ++ r)).
    { destruct I; rewrite <- ?app_assoc; auto using gap_sep. apply Tz. }
    eapply pbind_step; [apply head_ok; eauto; [cbn; tauto|]|].
    { apply nostart. cbn in W. destruct W as [<-|[<-|[]]]; reflexivity. }
    eapply pbind_step; [eapply tokens_ok; eauto using gap_sepw|].
    { cbn in W. destruct W as [<-|[<-|[]]]; [now left|right; now left]. }
    eapply pbind_step; [apply ws_gap; auto; eapply host_start; eauto using gap_sep|].
    eapply pbind_step; [eapply icmp_node_ok; eauto using gap_sep|].
    eapply pbind_step; [apply ws_gap; auto; eapply host_start; eauto|].
    eapply pbind_step; [eapply icmp_node_ok; eauto|].
    eapply pbind_step; [eapply icmp_options_ok; eauto|].
    eapply pbind_step; [eapply rule_end_ok; eauto|reflexivity].
  Qed.
  Lemma extended_ok rem id mode hd proto p g g1 src s g2 dst d o z r :
    head_text "extended"%string id mode hd -> gap g -> proto_text E proto p -> gap g1 -> node_text E src s ->
    gap g2 -> node_text E dst d -> tail_text E o z ->
    rule_extended rem ((hd ++ g ++ p ++ g1 ++ s ++ g2 ++ d ++ z) ++ r) = POk (mkaclrule id (u "extended") mode proto src dst None o rem) r.
  Proof using OK HE PI1 PI2.
    intros Hd G P G1 S G2 D T.
    assert (Tz : tail_start (z ++ r)) by (eapply tail_starts; eauto). pose proof Tz as (Sz & _).
    assert (NP : ~ starts is_blank (p ++ g1 ++ s ++ g2 ++ d ++ z ++ r)) by (eapply proto_start; eauto).
    assert (NS : ~ starts is_blank (s ++ g2 ++ d ++ z ++ r)) by (eapply node_start; eauto using gap_sep).
    assert (ND : ~ starts is_blank (d ++ z ++ r)) by (eapply node_start; eauto).
    assert (Kx : In "extended"%string kinds) by (cbn; tauto).
    (* the second alternative reads the line *)
    assert (A2 : (let% hd := rule_head "extended" in
       let% proto := acl_protocol isalpha isalnum E in let% _ := ws in
       let% src := node isalpha isalnum py_int E in let% _ := ws in let% dst := node isalpha isalnum py_int E in
       let% o := rule_end in
       ret (mkaclrule (fst hd) (u "extended") (snd hd) proto src dst None o rem)) ((hd ++ g ++ p ++ g1 ++ s ++ g2 ++ d ++ z) ++ r)
      = POk (mkaclrule id (u "extended") mode proto src dst None o rem) r).
    { rewrite <- !app_assoc. eapply pbind_step; [apply head_ok; eauto|]. eapply pbind_step; [eapply proto_ok; eauto using gap_sep|].
      eapply pbind_step; [apply ws_gap; auto|]. eapply pbind_step; [eapply node_ok; eauto using gap_sep|].
      { apply then_ws_step; auto. eapply node_no_port; eauto. }
      eapply pbind_step; [apply ws_gap; auto|]. eapply pbind_step; [eapply node_ok; eauto|].
      { now apply tail_no_port. }
      eapply pbind_step; [eapply rule_end_ok; eauto|reflexivity]. }
    assert (Other : forall w q, freew w -> sepw q -> p ++ g1 ++ s ++ g2 ++ d ++ z ++ r = w ++ q -> ~ In w [u "icmp"; u "icmp6"] ->
      rule_extended rem ((hd ++ g ++ p ++ g1 ++ s ++ g2 ++ d ++ z) ++ r) = POk (mkaclrule id (u "extended") mode proto src dst None o rem) r).
    { intros w q Fw Sq Eq Nw. unfold AclText.rule_extended. apply por_r; [|exact A2]. rewrite <- !app_assoc.
      eapply pbind_step; [apply head_ok; eauto|]. rewrite Eq.
      apply (tokws_fail isalpha isalnum [u "icmp"; u "icmp6"]); auto. }
    destruct P as [p Ip|g0 n o0 G0 D0|g0 n y G0 D0|g0 n y G0 D0].
    - assert (Fp : freew p).
      { destruct Ip as [Ip|Ip]; [|apply number_digits in Ip as (_ & F); now apply digits_freew].
        assert (K : forallb freewb protocol_codes = true) by reflexivity. rewrite forallb_forall in K. now apply freewb_ok, K. }
      destruct (in_dec (list_eq_dec N.eq_dec) p [u "icmp"; u "icmp6"]) as [Ii|Ni]; [|eapply (Other p); [exact Fp| |reflexivity|exact Ni]; now apply gap_sepw].
      assert (W : words ["icmp"; "icmp6"]%string p).
      { destruct Ii as [<-|[<-|[]]]; eexists; (split; [|reflexivity]); cbn; auto. }
      destruct S as [h s Hs|h s g3 q s' Hs G3 Q]; destruct D as [h' d Hd'|h' d g4 q' d' Hd' G4 Q'].
      + replace ((hd ++ g ++ p ++ g1 ++ s ++ g2 ++ d ++ z) ++ r) with ((hd ++ g ++ p ++ g1 ++ s ++ g2 ++ d ++ [] ++ z) ++ r) by reflexivity.
        apply extended_icmp; auto. constructor.
      + unfold AclText.rule_extended. apply por_r; [|exact A2]. clear A2 Other. rewrite <- ?app_assoc in NP. rewrite <- ?app_assoc in NS. rewrite <- ?app_assoc in ND. rewrite <- !app_assoc.
        eapply pbind_step; [apply head_ok; eauto|]. eapply pbind_step; [eapply tokens_ok; eauto using gap_sepw|].
        eapply pbind_step; [apply ws_gap; auto; eapply host_start; eauto using gap_sep|]. eapply pbind_step; [eapply icmp_node_ok; eauto using gap_sep|].
        eapply pbind_step; [apply ws_gap; auto; eapply host_start; eauto using gap_sep|]. eapply pbind_step; [eapply icmp_node_ok; eauto using gap_sep|].
        eapply pbind_step; [eapply port_no_icmp; eauto|]. apply pbind_fail. eapply rule_end_port; eauto.
      + unfold AclText.rule_extended. apply por_r; [|exact A2]. clear A2 Other. rewrite <- ?app_assoc in NP. rewrite <- ?app_assoc in NS. rewrite <- ?app_assoc in ND. rewrite <- !app_assoc.
        eapply pbind_step; [apply head_ok; eauto|]. eapply pbind_step; [eapply tokens_ok; eauto using gap_sepw|].
        eapply pbind_step; [apply ws_gap; auto; eapply host_start; eauto using gap_sep|]. eapply pbind_step; [eapply icmp_node_ok; eauto using gap_sep|].
        eapply pbind_step; [apply ws_gap; auto; eapply port_start; eauto using gap_sep|]. apply pbind_fail. unfold icmp_node. apply pbind_fail.
        eapply port_no_host; eauto using gap_sep.
      + unfold AclText.rule_extended. apply por_r; [|exact A2]. clear A2 Other. rewrite <- ?app_assoc in NP. rewrite <- ?app_assoc in NS. rewrite <- ?app_assoc in ND. rewrite <- !app_assoc.
        eapply pbind_step; [apply head_ok; eauto|]. eapply pbind_step; [eapply tokens_ok; eauto using gap_sepw|].
        eapply pbind_step; [apply ws_gap; auto; eapply host_start; eauto using gap_sep|]. eapply pbind_step; [eapply icmp_node_ok; eauto using gap_sep|].
        eapply pbind_step; [apply ws_gap; auto; eapply port_start; eauto using gap_sep|]. apply pbind_fail. unfold icmp_node. apply pbind_fail.
        eapply port_no_host; eauto using gap_sep.
    - eapply (Other (u "object")); [now apply freewb_ok| |rewrite <- !app_assoc; reflexivity|intros [X|[X|[]]]; discriminate X]. now apply gap_sepw.
    - eapply (Other (u "object-group")); [now apply freewb_ok| |rewrite <- !app_assoc; reflexivity|intros [X|[X|[]]]; discriminate X]. now apply gap_sepw.
    - eapply (Other (u "object-group")); [now apply freewb_ok| |rewrite <- !app_assoc; reflexivity|intros [X|[X|[]]]; discriminate X]. now apply gap_sepw.
  Qed.

  Lemma standard_ok rem id mode hd g src s g1 z r :
    head_text "standard"%string id mode hd -> gap g -> host_text E src s -> blanks g1 -> eol_text z ->
    rule_standard rem ((hd ++ g ++ s ++ g1 ++ z) ++ r) =
      POk (mkaclrule id (u "standard") mode (APName (u "ip")) (mkanode src None) any_end None (mkaopts None None false) rem) r.
  Proof using OK HE.
    intros Hd G S B Z. unfold AclText.rule_standard. rewrite <- !app_assoc.
    assert (Sz : sep_start (g1 ++ z ++ r)) by (apply blank_ends; auto; now apply eol_sep).
    eapply pbind_step; [apply head_ok; eauto; [cbn; tauto|eapply host_start; eauto]|].
    eapply pbind_step; [eapply host_ok; eauto|].
    assert (W : exists x, popt ws (g1 ++ z ++ r) = POk x (z ++ r)).
    { destruct g1 as [|c g1]; [exists None; apply popt_none, ws_fail; now apply eol_noblank|].
      exists (Some tt). apply popt_some, ws_gap; [split; [discriminate|auto]|now apply eol_noblank]. }
    destruct W as (x & W). eapply pbind_step; [exact W|]. eapply (pbind_step _ _ _ tt r); [apply nl_iff; eauto|reflexivity].
  Qed.
  Lemma url_ok rem id mode hd g g1 url o z r :
    head_text "webtype"%string id mode hd -> gap g -> gap g1 -> url_text isspace url -> tail_text E o z ->
    rule_webtype rem ((hd ++ g ++ u "url" ++ g1 ++ url ++ z) ++ r) =
      POk (mkaclrule id (u "webtype") mode (APName (u "url")) any_end (mkanode (mkthost (HLeaf (LWebtype url)) None) None) None o rem) r.
  Proof using OK HE.
    intros Hd G G1 U T. unfold AclText.rule_webtype. rewrite <- !app_assoc. apply por_l.
    assert (Tz : tail_start (z ++ r)) by (eapply tail_starts; eauto). destruct Tz as (Sz & _).
    assert (Sp : forall c, c = 32%N \/ c = 9%N \/ c = 10%N \/ c = 13%N -> isspace c = true).
    { intros c [-> |[-> |[-> | ->]]]; (rewrite (space_ok _ _ _ OK); reflexivity). }
    assert (Nu : ~ starts is_blank (url ++ z ++ r)).
    { destruct U as (N & F). destruct url as [|c url]; [congruence|]. cbn [app]. rewrite starts_cons. intros B. apply is_blank_spec in B.
      specialize (F c (or_introl eq_refl)). rewrite Sp in F by tauto. discriminate. }
    eapply pbind_step; [apply head_ok; eauto; [cbn; tauto|now apply nostart]|].
    eapply pbind_step; [apply kw_ok; eapply gap_stop; eauto|]. eapply pbind_step; [apply ws_gap; auto|].
    eapply pbind_step; [|eapply pbind_step; [eapply rule_end_ok; eauto|reflexivity]].
    apply por_l, string_iff. split; [auto|]. split; [auto|].
    destruct Sz as (q & [-> |[-> |[-> | ->]]]); rewrite starts_cons, Sp by tauto; discriminate.
  Qed.
  Lemma tcp_ok rem id mode hd g g1 dst d o z r :
    head_text "webtype"%string id mode hd -> gap g -> gap g1 -> node_text E dst d -> tail_text E o z ->
    rule_webtype rem ((hd ++ g ++ u "tcp" ++ g1 ++ d ++ z) ++ r) =
      POk (mkaclrule id (u "webtype") mode (APName (u "tcp")) any_end dst None o rem) r.
  Proof using OK HE PI1 PI2.
    intros Hd G G1 D T. unfold AclText.rule_webtype. rewrite <- !app_assoc.
    assert (Tz : tail_start (z ++ r)) by (eapply tail_starts; eauto). pose proof Tz as (Sz & _).
    assert (Kx : In "webtype"%string kinds) by (cbn; tauto).
    apply por_r.
    - eapply pbind_step; [apply head_ok; eauto; now apply nostart|]. apply pbind_fail. now apply kw_clash.
    - eapply pbind_step; [apply head_ok; eauto; now apply nostart|].
      eapply pbind_step; [apply kw_ok; eapply gap_stop; eauto|]. eapply pbind_step; [apply ws_gap; auto; eapply node_start; eauto|].
      eapply pbind_step; [eapply node_ok; eauto; now apply tail_no_port|]. eapply pbind_step; [eapply rule_end_ok; eauto|reflexivity].
  Qed.

  (** A line of another kind. *)
  Lemma extended_miss rem k q s : begins (u k) q s -> clash (u "extended") (u k) = true -> ~ starts is_blank (u k ++ q) -> rule_extended rem s = PFail.
  Proof using OK. intros B C N. unfold AclText.rule_extended. apply por_r; apply pbind_fail; eapply head_other; eauto. Qed.
  Lemma standard_miss rem k q s : begins (u k) q s -> clash (u "standard") (u k) = true -> ~ starts is_blank (u k ++ q) -> rule_standard rem s = PFail.
  Proof using OK. intros B C N. unfold AclText.rule_standard. apply pbind_fail; eapply head_other; eauto. Qed.
  Lemma webtype_miss rem k q s : begins (u k) q s -> clash (u "webtype") (u k) = true -> ~ starts is_blank (u k ++ q) -> rule_webtype rem s = PFail.
  Proof using OK. intros B C N. unfold AclText.rule_webtype. apply por_r; apply pbind_fail; eapply head_other; eauto. Qed.
  Lemma remark_miss k q s : begins (u k) q s -> clash (u "remark") (u k) = true -> ~ starts is_blank (u k ++ q) -> access_list_remark s = PFail.
  Proof using OK. intros B C N. unfold AclText.access_list_remark. eapply (begin_fail "remark"); eauto. Qed.
  Lemma ethertype_miss k q s : begins (u k) q s -> clash (u "ethertype") (u k) = true -> ~ starts is_blank (u k ++ q) -> rule_ethertype s = PFail.
  Proof using OK. intros B C N. unfold AclText.rule_ethertype. eapply (begin_fail "ethertype"); eauto. Qed.

  (** ** Remarks *)
  Lemma toeol_iff s t r : toeol s = POk t r <-> s = t ++ r /\ ~ In 10%N t /\ (r = [] \/ exists r', r = 10%N :: r').
  Proof using.
    clear. unfold toeol, pat0. destruct (span not_lf s) as [a b] eqn:S. pose proof S as S'. apply span_iff in S' as (-> & F & N).
    assert (Fa : ~ In 10%N a) by (intros I; rewrite forallb_forall in F; apply F in I; discriminate).
    assert (Nb : b = [] \/ exists r', b = 10%N :: r').
    { destruct b as [|c b]; [now left|right]. rewrite starts_cons in N. unfold not_lf in N. destruct (N.eqb_spec c 10) as [-> |]; [eauto|]. now destruct N. }
    split; [intros [= <- <-]; auto|]. intros (Et & Ft & Nr). assert (S2 : span not_lf (a ++ b) = (t, r)); [|rewrite S2 in S; now injection S as <- <-].
    apply span_iff. split; [auto|]. split.
    - apply forallb_forall. intros c I. unfold not_lf. destruct (N.eqb_spec c 10) as [-> |]; [now destruct Ft|auto].
    - intros (c & r' & -> & C). destruct Nr as [Nr|(r'' & Nr)]; [discriminate|]. injection Nr as -> ->. discriminate C.
  Qed.
  Lemma remark_sound s x r : access_list_remark s = POk x r -> exists t, s = t ++ r /\ remark_text x t.
  Proof using.
    unfold AclText.access_list_remark. intros H. apply begin_sound in H as (g1 & id & g2 & q & -> & G1 & G2 & I & H). pinv H.
    apply kw_sound in P as ->. destruct a0. apply char_ok in P0. subst. apply toeol_iff in P1 as (-> & N & E1). apply nl_iff in P2 as (z & Z & ->). apply ret_ok in H as (<- & ->).
    assert (z = [10%N]) as ->. { destruct Z as [-> | ->]; [auto|]. destruct E1 as [E1|(r' & E1)]; discriminate. }
    exists (u "access-list" ++ g1 ++ id ++ g2 ++ u "remark " ++ a1 ++ [10%N]). split; [|now constructor].
    rewrite <- !app_assoc. reflexivity.
  Qed.
  Lemma remark_ok x t r : remark_text x t -> access_list_remark (t ++ r) = POk x r.
  Proof using OK.
    intros [id g g' y G G' I N]. unfold AclText.access_list_remark. rewrite <- !app_assoc.
    apply begin_step; auto; [now apply nostart|].
    change (u "remark " ++ y ++ [10%N] ++ r) with (u "remark" ++ 32%N :: y ++ [10%N] ++ r).
    eapply pbind_step; [apply kw_ok; unfold stop; cbn; apply (white_alnum _ _ _ OK); cbn; auto|].
    eapply pbind_step; [apply char_ok; reflexivity|]. eapply pbind_step; [apply toeol_iff; split; [reflexivity|]; split; [auto|right; eexists; reflexivity]|].
    eapply (pbind_step _ _ _ tt r); [|reflexivity]. apply nl_iff. exists [10%N]. split; [now left|reflexivity].
  Qed.
  Lemma remark_begins x t : remark_text x t -> forall r, exists q, begins (u "remark") q (t ++ r).
  Proof using.
    intros [id g g' y G G' I N] r. exists (32%N :: y ++ [10%N] ++ r), g, id, g'. split; [auto|]. split; [auto|]. split; [auto|].
    rewrite <- !app_assoc. reflexivity.
  Qed.
  Lemma remark_length x t : remark_text x t -> (0 < length t)%nat.
  Proof using. clear. intros []. rewrite app_length. change (length (u "access-list")) with 11%nat. lia. Qed.
  Lemma remarks_chain l s r : chain access_list_remark l s r <-> exists ts, s = concat ts ++ r /\ Forall2 remark_text l ts.
  Proof using OK.
    split.
    - induction 1 as [|a l s s1 r P L C (ts & -> & F)]; [exists []; auto|]. apply remark_sound in P as (t & -> & T).
      exists (t :: ts). cbn [concat]. rewrite <- app_assoc. auto.
    - intros (ts & -> & F). induction F as [|x t l ts T F IH]; [constructor|]. cbn [concat]. rewrite <- app_assoc.
      econstructor; [eapply remark_ok; eauto| |exact IH]. apply remark_length in T. rewrite (app_length t). clear - T. unfold pystr in *. lia.
  Qed.
  Lemma remarks_sound s l r : many1 access_list_remark s = POk l r -> exists ts, s = concat ts ++ r /\ Forall2 remark_text l ts.
  Proof using OK.
    unfold many1. intros H. pinv H. apply ret_ok in H as (<- & ->). apply many_chain, remarks_chain in P0 as (ts & -> & F).
    apply remark_sound in P as (t & -> & T). exists (t :: ts). cbn [concat]. rewrite <- app_assoc. auto.
  Qed.
  Lemma remarks_ok x l ts q : Forall2 remark_text (x :: l) ts -> access_list_remark q = PFail -> many1 access_list_remark (concat ts ++ q) = POk (x :: l) q.
  Proof using OK.
    intros F M. inversion F as [|? t ? ts' T F']; subst. cbn [concat]. rewrite <- app_assoc. unfold many1.
    eapply pbind_step; [eapply remark_ok; eauto|]. eapply pbind_step; [|reflexivity]. apply chain_many; auto. apply remarks_chain. eauto.
  Qed.

  (** ** Alternatives in pairs: with remarks, without remarks *)
  Lemma pair_hit (p : list pystr -> parser aclrule) rest rems ts q x r :
    (forall rem s q, begins (u "remark") q s -> p rem s = PFail) ->
    Forall2 remark_text rems ts -> access_list_remark q = PFail -> p rems q = POk x r ->
    por (let% r := many1 access_list_remark in let% x := p r in ret (Some x)) (por (let% x := p [] in ret (Some x)) rest) (concat ts ++ q) = POk (Some x) r.
  Proof using OK.
    intros B F M P. destruct rems as [|y rems].
    - inversion F; subst ts. cbn [concat app]. apply por_r; [apply pbind_fail; unfold many1; now apply pbind_fail|]. apply por_l.
      eapply pbind_step; [exact P|reflexivity].
    - apply por_l. eapply pbind_step; [apply remarks_ok; [exact F|exact M]|]. eapply pbind_step; [exact P|reflexivity].
  Qed.
  Lemma pair_miss {A B} (p : list pystr -> parser A) (f : A -> parser B) rest rems ts q :
    (forall rem s q, begins (u "remark") q s -> p rem s = PFail) ->
    Forall2 remark_text rems ts -> access_list_remark q = PFail -> (forall rem, p rem q = PFail) ->
    por (let% r := many1 access_list_remark in let% x := p r in f x) (por (let% x := p [] in f x) rest) (concat ts ++ q) = rest (concat ts ++ q).
  Proof using OK.
    intros B0 F M P. destruct rems as [|y rems].
    - inversion F; subst ts. cbn [concat app]. apply por_r; [apply pbind_fail; unfold many1; now apply pbind_fail|]. apply por_r; auto using pbind_fail.
    - apply por_r; [eapply pbind_step; [apply remarks_ok; [exact F|exact M]|apply pbind_fail; auto]|]. apply por_r; [|reflexivity]. apply pbind_fail.
      inversion F as [|? t ? ts' T F']; subst. cbn [concat]. rewrite <- app_assoc. destruct (remark_begins _ _ T (concat ts' ++ q)) as (q' & Bq). eapply B0; eauto.
  Qed.
  Lemma ext_remark rem s q : begins (u "remark") q s -> rule_extended rem s = PFail.
  Proof using OK. intros B. eapply extended_miss; [exact B|reflexivity|now apply nostart]. Qed.
  Lemma std_remark rem s q : begins (u "remark") q s -> rule_standard rem s = PFail.
  Proof using OK. intros B. eapply standard_miss; [exact B|reflexivity|now apply nostart]. Qed.
  Lemma web_remark rem s q : begins (u "remark") q s -> rule_webtype rem s = PFail.
  Proof using OK. intros B. eapply webtype_miss; [exact B|reflexivity|now apply nostart]. Qed.

  Definition kind_of (x : aclrule) (k : string) : Prop := ar_kind x = u k.
  Lemma line_hit rem x t r : line_text rem x t ->
    (exists q, begins (u "extended") q (t ++ r)) /\ rule_extended rem (t ++ r) = POk x r \/
    (exists q, begins (u "standard") q (t ++ r)) /\ rule_standard rem (t ++ r) = POk x r \/
    (exists q, begins (u "webtype") q (t ++ r)) /\ rule_webtype rem (t ++ r) = POk x r.
  Proof using OK HE PI1 PI2.
    intros [id mode hd p g g1 src s g2 dst d icmp i o z Hd G P G1 S G2 D I T|id mode hd proto p g g1 src s g2 dst d o z Hd G P G1 S G2 D T
      |id mode hd g src s g1 z Hd G S G1 Z|id mode hd g g1 url o z Hd G G1 U T|id mode hd g g1 dst d o z Hd G G1 D T].
    - left. split; [rewrite <- app_assoc; eapply head_begins; eauto|]. now apply extended_icmp.
    - left. split; [rewrite <- app_assoc; eapply head_begins; eauto|]. now apply extended_ok.
    - right; left. split; [rewrite <- app_assoc; eapply head_begins; eauto|]. now apply standard_ok.
    - right; right. split; [rewrite <- app_assoc; eapply head_begins; eauto|]. now apply url_ok.
    - right; right. split; [rewrite <- app_assoc; eapply head_begins; eauto|]. now apply tcp_ok.
  Qed.

  (** C52: the rule read from a text of remark lines and a rule line is the one written there. *)
  Theorem C52_reads s x r : access_list s = POk (Some x) r <-> exists t, s = t ++ r /\ rule_text x t.
  Proof using OK HE PI1 PI2.
    split.
    - unfold AclText.access_list. cbn [choice fold_right]. intros H.
      assert (K : forall p : list pystr -> parser aclrule, (forall rem s x r, p rem s = POk x r -> exists t, s = t ++ r /\ line_text rem x t /\ ar_remark x = rem) ->
        (let% r := many1 access_list_remark in let% x := p r in ret (Some x)) s = POk (Some x) r \/ (let% x := p [] in ret (Some x)) s = POk (Some x) r ->
        exists t, s = t ++ r /\ rule_text x t).
      { clear H. intros p Hp [H|H]; pinv H; apply ret_ok in H as ([= <-] & ->).
        - apply remarks_sound in P as (ts & -> & F). apply Hp in P0 as (t & -> & L & R). subst. exists (concat ts ++ t). split; [now rewrite app_assoc|]. now constructor.
        - apply Hp in P as (t & -> & L & R). exists t. split; [auto|]. change t with (concat [] ++ t). constructor; rewrite R; auto. }
      apply por_sound in H as [H|H]; [eapply K; [apply extended_sound|left; exact H]|].
      apply por_sound in H as [H|H]; [eapply K; [apply extended_sound|right; exact H]|].
      apply por_sound in H as [H|H]; [eapply K; [apply standard_sound|left; exact H]|].
      apply por_sound in H as [H|H]; [eapply K; [apply standard_sound|right; exact H]|].
      apply por_sound in H as [H|H]; [eapply K; [apply webtype_sound|left; exact H]|].
      apply por_sound in H as [H|H]; [eapply K; [apply webtype_sound|right; exact H]|].
      apply por_sound in H as [H|H]; [pinv H; discriminate|]. apply por_sound in H as [H|H]; [pinv H; discriminate|]. discriminate H.
    - intros (t & -> & [y ts l F L]). rewrite <- app_assoc. unfold AclText.access_list. cbn [choice fold_right].
      destruct (line_hit _ _ _ r L) as [((q & B) & H)|[((q & B) & H)|((q & B) & H)]].
      + eapply pair_hit; eauto using ext_remark. eapply remark_miss; [exact B|reflexivity|now apply nostart].
      + assert (M : access_list_remark (l ++ r) = PFail) by (eapply remark_miss; [exact B|reflexivity|now apply nostart]).
        erewrite pair_miss; eauto using ext_remark; [|intros; eapply extended_miss; [exact B|reflexivity|now apply nostart]].
        eapply pair_hit; eauto using std_remark.
      + assert (M : access_list_remark (l ++ r) = PFail) by (eapply remark_miss; [exact B|reflexivity|now apply nostart]).
        erewrite pair_miss; eauto using ext_remark; [|intros; eapply extended_miss; [exact B|reflexivity|now apply nostart]].
        erewrite pair_miss; eauto using std_remark; [|intros; eapply standard_miss; [exact B|reflexivity|now apply nostart]].
        eapply pair_hit; eauto using web_remark.
  Qed.

  (** A text is a way to write at most one rule. *)
  Theorem C52_unique x y t : rule_text x t -> rule_text y t -> x = y.
  Proof using OK HE PI1 PI2.
    intros X Y. assert (A : access_list t = POk (Some x) []) by (apply C52_reads; exists t; rewrite app_nil_r; auto).
    assert (B : access_list t = POk (Some y) []) by (apply C52_reads; exists t; rewrite app_nil_r; auto). congruence.
  Qed.

  (** Ethertype lines are read and dropped. *)
  Lemma ether_sound s y r : rule_ethertype s = POk y r -> exists t, s = t ++ r /\ forall ts rems, Forall2 remark_text rems ts -> ethertype_text isalnum (concat ts ++ t).
  Proof using OK.
    unfold AclText.rule_ethertype. intros H. apply begin_sound in H as (g1 & id & g2 & q & -> & G1 & G2 & I & H).
    apply pbind_ok in H as (? & s1 & P & H). apply pbind_ok in H as (y0 & s2 & P0 & H).
    unfold AclText.kw in P. apply pbind_ok in P as (w & s1' & P & Pr). apply ret_ok in Pr as (_ & ->). apply token_ok in P as (-> & -> & P).
    apply toeol_iff in P0 as (-> & N & E1). apply nl_iff in H as (z & Z & ->).
    assert (z = [10%N]) as ->. { destruct Z as [-> | ->]; [auto|]. destruct E1 as [E1|(r' & E1)]; discriminate. }
    exists (u "access-list" ++ g1 ++ id ++ g2 ++ u "ethertype" ++ y0 ++ [10%N]). split; [now rewrite <- !app_assoc|]. intros ts rems F. apply (ET _ ts rems); auto.
    intros c x' ->. assert (L : name_like isalpha isalnum (u "ethertype") = true) by (rewrite (name_like_ok _ _ _ OK); reflexivity).
    unfold passes in P. rewrite L in P. exact P.
  Qed.
  Lemma ether_ok x id g g' r : gap g -> gap g' -> name_text id -> ~ In 10%N x -> (forall c x', x = c :: x' -> isalnum c = false) ->
    rule_ethertype ((u "access-list" ++ g ++ id ++ g' ++ u "ethertype" ++ x ++ [10%N]) ++ r) = POk tt r.
  Proof using OK.
    intros G G' I N A. unfold AclText.rule_ethertype. rewrite <- !app_assoc. apply (begin_step (fun _ => _)); auto; [now apply nostart|].
    eapply pbind_step; [apply kw_ok|].
    { unfold stop. destruct x as [|c x]; cbn; [apply (white_alnum _ _ _ OK); cbn; auto|eapply A; eauto]. }
    eapply pbind_step; [apply toeol_iff; split; [reflexivity|]; split; [auto|right; eexists; reflexivity]|]. apply nl_iff. exists [10%N]. split; [now left|reflexivity].
  Qed.
  Theorem C52_ethertype s r : access_list s = POk None r <-> exists t, s = t ++ r /\ ethertype_text isalnum t.
  Proof using OK HE PI1 PI2.
    unfold AclText.access_list. cbn [choice fold_right]. split.
    - intros H. do 6 (apply por_sound in H as [H|H]; [pinv H; discriminate|]).
      apply por_sound in H as [H|H].
      + pinv H. apply ret_ok in H as (_ & ->). apply remarks_sound in P as (ts & -> & F). apply ether_sound in P0 as (t & -> & T).
        exists (concat ts ++ t). split; [now rewrite app_assoc|eauto].
      + apply por_sound in H as [H|H]; [|discriminate]. pinv H. apply ret_ok in H as (_ & ->). apply ether_sound in P as (t & -> & T).
        exists t. split; [auto|]. apply (T [] []). auto.
    - intros (t & -> & [ts rems id g g' x F G G' I N A]). rewrite <- (app_assoc (concat ts)).
      set (l := u "access-list" ++ g ++ id ++ g' ++ u "ethertype" ++ x ++ [10%N]).
      assert (B : begins (u "ethertype") (x ++ [10%N] ++ r) (l ++ r)) by (exists g, id, g'; unfold l; rewrite <- !app_assoc; auto).
      assert (M : access_list_remark (l ++ r) = PFail) by (eapply remark_miss; [exact B|reflexivity|now apply nostart]).
      assert (H : rule_ethertype (l ++ r) = POk tt r) by now apply ether_ok.
      erewrite pair_miss; eauto using ext_remark; [|intros; eapply extended_miss; [exact B|reflexivity|now apply nostart]].
      erewrite pair_miss; eauto using std_remark; [|intros; eapply standard_miss; [exact B|reflexivity|now apply nostart]].
      erewrite pair_miss; eauto using web_remark; [|intros; eapply webtype_miss; [exact B|reflexivity|now apply nostart]].
      destruct rems as [|y rems].
      + inversion F; subst. cbn [concat app]. apply por_r; [apply pbind_fail; unfold many1; now apply pbind_fail|]. apply por_l.
        eapply pbind_step; [exact H|reflexivity].
      + apply por_l. eapply pbind_step; [apply remarks_ok; [exact F|exact M]|]. eapply pbind_step; [exact H|reflexivity].
  Qed.
End Lines.

(** A configuration's tables that keep to the naming rules, and lines read with them. *)
Definition C52_int (n : pystr) : option Z :=
  if forallb AddrText.is_digit n then match n with [] => None | _ => Some (Z.of_N (int10 n)) end else None.
Definition C52_env : env := mkenv
  [(u "web", mkname (u "web") (mkaddr V4 167772240) None); (u "web6", mkname (u "web6") (mkaddr V6 1) None)]
  [(u "srv.1", mkobj (u "srv.1") [] None [LHost (mkaddr V4 1)])] [(u "dmz-hosts", 0%nat)]
  [(u "dns", mksvcobj (u "dns") [] (mkservice (u "udp") None (Some (PPort (Some (u "eq")) (Some (u "53")))) None None))] [(u "svcs", 1%nat)] [(u "webports", 2%nat)] [(u "pings", 3%nat)] [(u "protos", 4%nat)]
  [(u "night", 0%nat)] [(u "outside", 0%nat)].
Lemma keys_in {V} (P : pystr -> Prop) (d : dict V) : (forall n, In n (map fst d) -> P n) -> keys P d.
Proof.
  intros H n M. apply H. unfold dmem in M. induction d as [|[k v] d IH]; cbn [dget] in M; [discriminate|]. cbn [map fst].
  destruct (str_eqb_spec k n) as [-> |E]; [now left|right; apply IH; auto]. intros m I. apply H. now right.
Qed.
Lemma no_common_in {V W} (d : dict V) (d' : dict W) : forallb (fun n => negb (dmem d' n)) (map fst d) = true -> no_common d d'.
Proof.
  rewrite forallb_forall. intros H n M. apply negb_true_iff. revert n M. apply (keys_in (fun n => negb (dmem d' n) = true)). exact H.
Qed.
Lemma name_textb n : n <> [] -> forallb is_obj_char n = true -> name_text n.
Proof. intros N F. split; [auto|]. rewrite forallb_forall in F. intros c I. apply obj_char_spec, F, I. Qed.
Example C52_env_ok : env_ok C52_env.
Proof.
  unfold C52_env, env_ok. cbn [e_names e_netobj e_netgrp e_svcobj e_svcgrp e_portgrp e_icmpgrp e_protogrp e_time].
  assert (K : forall V (d : dict V), forallb (fun n => match n with [] => false | _ => forallb is_obj_char n end) (map fst d) = true -> keys name_text d).
  { intros V d. rewrite forallb_forall. intros H. apply keys_in. intros n I. specialize (H n I). destruct n; [discriminate|]. apply name_textb; [discriminate|auto]. }
  split.
  { apply keys_in. intros n I. assert (A : exists n', n = u "web" ++ n' /\ (n' = [] \/ n' = u "6")) by (destruct I as [<-|[<-|[]]]; [exists []|exists (u "6")]; auto).
    destruct A as (n' & -> & A). split; [|split].
    - split; [exists 119%N, (u "eb" ++ n'); split; [reflexivity|left; unfold letter; lia]|]. intros c Ic.
      apply id_char_spec. assert (F : forallb is_id_char (u "web" ++ n') = true) by (destruct A as [-> | ->]; reflexivity). rewrite forallb_forall in F. now apply F.
    - intros w Iw X. destruct A as [-> | ->]; cbn in Iw; repeat (destruct Iw as [<-|Iw]; [discriminate X|]); destruct Iw.
    - intros w c m Iw X. exfalso. cbn in Iw. destruct Iw as [<-|[<-|[<-|[]]]]; discriminate X. }
  do 7 (split; [apply K; reflexivity|]). split.
  { apply keys_in. intros n [<-|[]]. split; [discriminate|]. intros c Ic Iw.
    assert (F : forallb (fun c => negb (existsb (N.eqb c) [32; 9; 10; 13]%N)) (u "night") = true) by reflexivity. rewrite forallb_forall in F. specialize (F c Ic).
    apply negb_true_iff in F. assert (X : existsb (N.eqb c) [32; 9; 10; 13]%N = true); [|congruence]. apply existsb_exists. exists c. split; [auto|apply N.eqb_refl]. }
  split.
  { intros n x. cbn [dget]. destruct (str_eqb (u "web") n); [intros [= <-]; vm_compute; auto|]. destruct (str_eqb (u "web6") n); [intros [= <-]; vm_compute; auto|discriminate]. }
  repeat (split; [now apply no_common_in|]). now apply no_common_in.
Qed.
Lemma C52_int1 : forall n, n <> [] -> forallb AddrText.is_digit n = true -> C52_int n <> None.
Proof. intros n N F. unfold C52_int. rewrite F. destruct n; [congruence|discriminate]. Qed.
Lemma C52_int2 : forall n, In n port_code -> C52_int n = None.
Proof.
  intros n I. unfold C52_int. assert (F : forallb (fun n => negb (forallb AddrText.is_digit n)) port_code = true) by reflexivity.
  rewrite forallb_forall in F. specialize (F n I). apply negb_true_iff in F. now rewrite F.
Qed.
Notation rd := (access_list ascii_alpha ascii_alnum ascii_space C52_int C52_env).
Definition C52_lines : pystr :=
  u "access-list outside_in remark  the web server" ++ [10%N] ++ u "access-list outside_in remark second" ++ [13; 10]%N ++
  u "access-list outside_in extended permit tcp 10.1.2.0" ++ [9%N] ++ u "255.255.255.0 gt 1023 host web eq www log 6 interval 300 time-range night inactive" ++ [10%N].
Definition C52_rule : aclrule :=
  mkaclrule (u "outside_in") (u "extended") (u "permit") (APName (u "tcp"))
    (mkanode (mkthost (HLeaf (LNet (mknet V4 167838208 24))) None) (Some (PPort (Some (u "gt")) (Some (u "1023")))))
    (mkanode (mkthost (HLeaf (LHost (mkaddr V4 167772240))) (Some (mkname (u "web") (mkaddr V4 167772240) None))) (Some (PPort (Some (u "eq")) (Some (u "www")))))
    None (mkaopts (Some [LogWord (u "6"); LogInterval (u "300")]) (Some 0%nat) true) [u " the web server"; u "second" ++ [13%N]].
Example C52_ex1 : rd (C52_lines ++ u "access-list") = POk (Some C52_rule) (u "access-list").
Proof. vm_compute. reflexivity. Qed.
Example C52_ex1' : rule_text C52_env ascii_space C52_rule C52_lines.
Proof.
  pose proof C52_ex1 as H. eapply (C52_reads _ _ _ C41_classes _ C52_int1 C52_int2 _ C52_env_ok) in H. destruct H as (t & X & T).
  apply app_inv_tail in X. now rewrite X.
Qed.
Definition line (s : string) : pystr := u s ++ [10%N].
Example C52_ex2 : rd (line "access-list a extended deny icmp object-group dmz-hosts interface outside echo 8 log") =
  POk (Some (mkaclrule (u "a") (u "extended") (u "deny") (APName (u "icmp"))
    (mkanode (mkthost (HGrp 0%nat) None) None) (mkanode (mkthost (HLeaf (LIface (u "outside"))) None) None)
    (Some (IcmpType (u "echo") (Some (u "8")))) (mkaopts (Some []) None false) [])) [].
Proof. vm_compute. reflexivity. Qed.
Example C52_ex3 : rd (line "access-list a extended permit object dns any6 object srv.1") =
  POk (Some (mkaclrule (u "a") (u "extended") (u "permit") (APSvcObj (mksvcobj (u "dns") [] (mkservice (u "udp") None (Some (PPort (Some (u "eq")) (Some (u "53")))) None None)))
    (mkanode (mkthost (HLeaf LAny6) None) None) (mkanode (mkthost (HObj (mkobj (u "srv.1") [] None [LHost (mkaddr V4 1)])) None) None) None (mkaopts None None false) [])) [].
Proof. vm_compute. reflexivity. Qed.
Example C52_ex4 : rd (line "access-list a webtype deny url http://*.example.com/x?y=z log default") =
  POk (Some (mkaclrule (u "a") (u "webtype") (u "deny") (APName (u "url"))
    any_end (mkanode (mkthost (HLeaf (LWebtype (u "http://*.example.com/x?y=z"))) None) None) None (mkaopts (Some [LogWord (u "default")]) None false) [])) [].
Proof. vm_compute. reflexivity. Qed.
Example C52_ex5 : rd (line "access-list a ethertype permit bpdu") = POk None [].
Proof. vm_compute. reflexivity. Qed.

(** Lines that look well-formed but are not read. *)
Example C52_log_informational : rd (line "access-list a extended permit tcp any any log informational") = PFail.
Proof. vm_compute. reflexivity. Qed.
Example C52_service_group_as_port : rd (line "access-list a extended permit tcp any object-group svcs any") = PErr AssertionError.
Proof. vm_compute. reflexivity. Qed.
Example C52_icmp_type_300 : rd (line "access-list a extended permit icmp any any 300") = PErr AssertionError.
Proof. vm_compute. reflexivity. Qed.
Example C52_range_9_10 : rd (line "access-list a extended permit tcp any any range 9 10") = PErr AssertionError.
Proof. vm_compute. reflexivity. Qed.
(** A host name such as any-srv (excluded by [env_ok]) is never found. *)
Definition C52_env_any : env := mkenv [(u "any-srv", mkname (u "any-srv") (mkaddr V4 1) None)] [] [] [] [] [] [] [] [] [].
Example C52_any_name : access_list ascii_alpha ascii_alnum ascii_space C52_int C52_env_any
  (line "access-list a extended permit tcp any-srv 255.255.255.255 any") = PFail.
Proof. vm_compute. reflexivity. Qed.
Print Assumptions C52_reads.
Print Assumptions C52_unique.
Print Assumptions C52_ethertype.
