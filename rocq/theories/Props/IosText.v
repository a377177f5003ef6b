(** Access lists of an IOS configuration as text. *)
From Coq Require Import Lia String.
From Verif.Model Require Import Base Ip Hosts Groups Iface Peg Ids AddrText Ports AclText IosText.
From Verif.Spec Require Import AddrSpec RefSpec AddrTextSpec CafTextSpec CafMeanSpec AclTextSpec GroupTextSpec ConfigSpec IosTextSpec.
From Verif.Proofs Require Import GroupOps DictFacts MaskFacts PegFacts AddrTextFacts CafTextFacts TokFacts CafMean LineFacts AclTextFacts AclOptFacts GroupTextFacts IosFacts IosNumbers.
From Verif.Props Require Import Refs AddrText CafText AclText.
Local Open Scope list_scope.

Lemma sp_iff s x r : sp s = POk x r <-> s = 32%N :: r.
Proof. unfold sp. destruct x. apply char_ok. Qed.
Lemma chain_snoc {A} (p : parser A) l s s1 : chain p l s s1 -> forall a r, p s1 = POk a r -> length r < length s1 -> chain p (l ++ [a]) s r.
Proof. induction 1; intros; cbn [app]; econstructor; eauto. constructor. Qed.

Section Ios.
  Context (isalpha isalnum isspace : N -> bool) (OK : classes_ok isalpha isalnum isspace).
  Context (py_int : pystr -> option Z)
          (PI1 : forall n, n <> [] -> forallb AddrText.is_digit n = true -> py_int n <> None)
          (PI2 : forall n, In n port_code -> py_int n = None).
  Variables (E : env) (HE : env_ok E).
  Notation kw := (kw isalpha isalnum).
  Notation tokens := (tokens isalpha isalnum).
  Notation acl_port := (acl_port isalpha isalnum py_int E).
  Notation acl_protocol := (acl_protocol isalpha isalnum E).
  Notation std_rule := (std_rule isalpha isalnum E).
  Notation ext_rule := (ext_rule isalpha isalnum py_int E).
  Notation list_remark := (list_remark isalpha isalnum).
  Notation list_item := (list_item isalpha isalnum).
  Notation named_list := (named_list isalpha isalnum).
  Notation mode_ := (mode_ isalpha isalnum).

  (** ** Heads *)
  Lemma head_step {A} (k : pystr -> parser A) q m g r x : seq_text q -> mode_text m -> gap g -> ~ starts is_blank r -> k m r = x ->
    (let% _ := seq_ in let% m := mode_ in let% _ := ws in k m) (q ++ m ++ g ++ r) = x.
  Proof using OK.
    intros Q M G N H. destruct (mode_start m (g ++ r) M). eapply pbind_step; [apply seq_ok; auto|]. eapply pbind_step; [apply (mode_ok _ _ _ OK); auto using gap_sepw|].
    eapply pbind_step; [apply ws_gap; auto|exact H].
  Qed.
  Lemma ext_head_sound {A} (proto : parser A) s x r : ext_head isalpha isalnum proto s = POk x r ->
    exists q g g1 s1, s = q ++ fst x ++ g ++ s1 /\ seq_text q /\ mode_text (fst x) /\ gap g /\ proto s1 = POk (snd x) (g1 ++ r) /\ gap g1.
  Proof using.
    clear. unfold ext_head. intros H. pinv H. apply ret_ok in H as (<- & ->). apply seq_sound in P as (q & -> & Q). apply mode_sound in P0 as (-> & M).
    apply ws_sound in P1 as (g & -> & G). apply ws_sound in P3 as (g1 & -> & G1). eexists q, g, g1, _. cbn [fst snd]. eauto 8.
  Qed.
  Lemma ext_head_ok {A} (proto : parser A) q m g p s1 g1 r : seq_text q -> mode_text m -> gap g -> ~ starts is_blank s1 -> proto s1 = POk p (g1 ++ r) -> gap g1 -> ~ starts is_blank r ->
    ext_head isalpha isalnum proto (q ++ m ++ g ++ s1) = POk (m, p) r.
  Proof using OK. intros Q M G N P G1 N1. unfold ext_head. apply head_step; auto. eapply pbind_step; [exact P|]. eapply pbind_step; [apply ws_gap; auto|reflexivity]. Qed.
  Lemma ext_head_fail {A} (proto : parser A) q m g s1 : seq_text q -> mode_text m -> gap g -> ~ starts is_blank s1 -> (let% p := proto in let% _ := ws in ret (m, p)) s1 = PFail ->
    ext_head isalpha isalnum proto (q ++ m ++ g ++ s1) = PFail.
  Proof using OK. intros Q M G N P. unfold ext_head. apply head_step; auto. Qed.

  (** ** Rules *)
  Lemma std_rule_sound s f r : std_rule s = POk f r -> exists t, s = t ++ r /\ forall id rem, std_rule_text E id rem (f id rem) t.
  Proof using OK HE.
    unfold IosText.std_rule. intros H. pinv H. apply ret_ok in H as (<- & ->). apply seq_sound in P as (q & -> & Q). apply mode_sound in P0 as (-> & M). apply ws_sound in P1 as (g & -> & G).
    apply (host_sound _ _ _ OK E HE) in P2 as (t & -> & T & _). apply std_opts_sound in P3 as (o & -> & O). apply nl_iff in P4 as (z & Z & ->).
    exists (q ++ a0 ++ g ++ t ++ o ++ z). split; [now rewrite <- !app_assoc|]. intros id rem. now constructor.
  Qed.
  Lemma std_rule_ok id rem x t r : std_rule_text E id rem x t -> exists f, std_rule (t ++ r) = POk f r /\ f id rem = x.
  Proof using OK HE.
    intros [q m g h t' o ot z Q M G H O Z]. exists (fun id rem => mkirule id (Some (u "standard")) m (APName (u "ip")) (mkanode h None) any_dst None o rem). split; [|reflexivity]. rewrite <- !app_assoc. pose proof (std_opts_starts _ _ z r O Z) as TS.
    unfold IosText.std_rule. apply head_step; auto; [eapply ihost_free; eauto|]. eapply pbind_step; [eapply (host_ok _ _ _ OK E HE); eauto; [apply TS|]|].
    { intros _. now apply tail_no_ip4. }
    eapply pbind_step; [eapply (std_opts_ok _ _ _ OK); eauto|]. eapply (pbind_step _ _ _ tt r); [apply nl_iff; exists z; split; [exact Z|reflexivity]|reflexivity].
  Qed.
  Lemma apart_sound s g d s1 h r : gap g -> alone s (g ++ s1) -> d <> [] -> (exists t, s1 = d ++ t) -> host_ isalpha isalnum E s1 = POk h r -> apart s d.
  Proof using.
    clear OK PI1 PI2 py_int. intros G A Nd (t & ->) H Q (c & d' & -> & D). specialize (A Q). assert (S : starts AddrText.is_digit ((c :: d') ++ t)) by (cbn [app]; rewrite starts_cons; now apply is_digit_spec).
    refine (host_digit isalpha isalnum E _ h r S H _). rewrite (then_ws_step ip4 g _ (ip4 ((c :: d') ++ t))) in A; auto.
    cbn [app]. rewrite starts_cons. apply is_digit_spec in D. cbn [app] in S. unfold is_blank. unfold AddrText.is_digit, in_range in D. intros B.
    apply andb_true_iff in D as (D1 & D2). apply N.leb_le in D1. apply orb_true_iff in B as [B|B]; apply N.eqb_eq in B; subst; lia.
  Qed.
  Lemma bare_host_of s x r : bare_node isalpha isalnum E s = POk x r -> exists h q, host_ isalpha isalnum E s = POk h q.
  Proof using. clear. unfold bare_node. intros H. pinv H. eauto. Qed.
  Lemma inode_host_of s x r : inode isalpha isalnum py_int E s = POk x r -> exists h q, host_ isalpha isalnum E s = POk h q.
  Proof using. clear. unfold inode, with_port. intros H. apply act_ok in H as (y & H & _). pinv H. eauto. Qed.
  Lemma ext_rule_sound s f r : ext_rule s = POk f r -> exists t, s = t ++ r /\ forall id rem, ext_rule_text E id rem (f id rem) t.
  Proof using OK HE PI1 PI2.
    unfold IosText.ext_rule, choice. cbn [fold_right]. intros H. apply por_sound in H as [H|H]; [|apply por_sound in H as [H|H]; [|apply por_sound in H as [H|H]; [|discriminate H]]]; pinv H; apply ret_ok in H as (<- & ->);
    apply ext_head_sound in P as (q & g & g1 & s' & -> & Q & M & G & P & G1).
    - apply tokens_sound in P as (I & -> & _). destruct (bare_host_of _ _ _ P2) as (hh & qq & HH).
      apply (bare_node_sound _ _ _ OK E HE) in P0 as (src & t1 & -> & -> & T1 & A1). apply ws_sound in P1 as (g2 & -> & G2). 
      apply (bare_node_sound _ _ _ OK E HE) in P2 as (dst & t2 & -> & -> & T2 & A2). eapply icmp_options_sound in P3; eauto. destruct P3 as (i & -> & Ti).
      apply ext_opts_sound in P4 as (o & -> & O). apply nl_iff in P5 as (z & Z & ->).
      exists (q ++ fst a ++ g ++ snd a ++ g1 ++ t1 ++ g2 ++ t2 ++ i ++ o ++ z). split; [now rewrite <- !app_assoc|]. intros id rem. apply ER_icmp; auto.
      + destruct I as [<-|[<-|[]]]; eexists; (split; [|reflexivity]); cbn; auto.
      + eapply apart_sound; eauto. eapply ihost_free; eauto.
    - eapply proto_sound in P; eauto. destruct P as (p & -> & Tp). destruct (inode_host_of _ _ _ P2) as (hh & qq & HH).
      apply (inode_sound _ _ _ OK _ PI1 PI2 E HE) in P0 as (t1 & -> & T1 & A1). apply ws_sound in P1 as (g2 & -> & G2).
      apply (inode_sound _ _ _ OK _ PI1 PI2 E HE) in P2 as (t2 & -> & T2 & A2). apply ext_opts_sound in P3 as (o & -> & O). apply nl_iff in P4 as (z & Z & ->).
      exists (q ++ fst a ++ g ++ p ++ g1 ++ t1 ++ g2 ++ t2 ++ o ++ z). split; [now rewrite <- !app_assoc|]. intros id rem. apply ER_other; auto.
      eapply apart_sound; eauto. eapply inode_free; eauto.
    - eapply proto_sound in P; eauto. destruct P as (p & -> & Tp). destruct (bare_host_of _ _ _ P2) as (hh & qq & HH).
      apply (bare_node_sound _ _ _ OK E HE) in P0 as (src & t1 & -> & -> & T1 & A1). apply ws_sound in P1 as (g2 & -> & G2).
      apply (bare_node_sound _ _ _ OK E HE) in P2 as (dst & t2 & -> & -> & T2 & A2). apply ext_opts_sound in P3 as (o & -> & O). apply nl_iff in P4 as (z & Z & ->).
      exists (q ++ fst a ++ g ++ p ++ g1 ++ t1 ++ g2 ++ t2 ++ o ++ z). split; [now rewrite <- !app_assoc|]. intros id rem. apply ER_other; auto; [now constructor|now constructor|].
      eapply apart_sound; eauto. eapply ihost_free; eauto.
  Qed.
  Lemma icmp_word p : words ["icmp"; "icmp6"]%string p <-> In p [u "icmp"; u "icmp6"].
  Proof using. clear. split; [intros (w & [<-|[<-|[]]] & ->); cbn; auto|intros [<-|[<-|[]]]; eexists; (split; [|reflexivity]); cbn; auto]. Qed.
  Lemma icmp_word_start p r : words ["icmp"; "icmp6"]%string p -> ~ starts is_blank (p ++ r).
  Proof using. clear. intros (w & [<-|[<-|[]]] & ->); now apply nostart. Qed.
  Lemma icmp_sep i t r : icmp_text E i t -> tail_start r -> sep_start (t ++ r).
  Proof using. clear. intros I T. destruct I; rewrite <- ?app_assoc; auto using gap_sep. apply T. Qed.
  Lemma ext_icmp id rem q m g p g1 src s g2 dst d icmp i o ot z r : seq_text q -> mode_text m -> gap g -> words ["icmp"; "icmp6"]%string p -> gap g1 ->
      ihost_text E src s -> gap g2 -> ihost_text E dst d -> apart s d -> icmp_text E icmp i -> ext_options o ot -> eol_text z ->
      exists f, ext_rule ((q ++ m ++ g ++ p ++ g1 ++ s ++ g2 ++ d ++ i ++ ot ++ z) ++ r) = POk f r /\
      f id rem = mkirule id (Some (u "extended")) m (APName p) (mkanode src None) (mkanode dst None) icmp o rem.
  Proof using OK HE.
    intros Q M G W G1 S G2 D A I O Z. exists (fun id rem => mkirule id (Some (u "extended")) m (APName p) (mkanode src None) (mkanode dst None) icmp o rem). split; [|reflexivity]. rewrite <- !app_assoc. pose proof (ext_opts_starts _ _ z r O Z) as TS. pose proof (icmp_sep _ _ _ I TS) as SI.
    unfold IosText.ext_rule, choice. cbn [fold_right]. apply por_l. eapply pbind_step; [apply (ext_head_ok _ q m g p _ g1); [auto|auto|auto|now apply icmp_word_start| |auto|]|].
    { apply (tokens_ok _ _ _ OK); [reflexivity|now apply icmp_word|now apply gap_sepw]. }
    { eapply ihost_free; eauto. }
    eapply pbind_step; [apply (bare_node_ok _ _ _ OK E HE); eauto using gap_sep|].
    { destruct (ihost_free E _ _ (i ++ ot ++ z ++ r) D). now apply apart_alone. }
    eapply pbind_step; [apply ws_gap; auto; eapply ihost_free; eauto|]. eapply pbind_step; [apply (bare_node_ok _ _ _ OK E HE); eauto|].
    { intros _. eapply icmp_no_ip4; eauto. }
    eapply pbind_step; [eapply icmp_options_ok; eauto|]. eapply pbind_step; [eapply (ext_opts_ok _ _ _ OK); eauto|]. eapply (pbind_step _ _ _ tt r); [apply nl_iff; exists z; split; [exact Z|reflexivity]|reflexivity].
  Qed.
  Lemma ext_other id rem q m g p pt g1 src s g2 dst d o ot z r : seq_text q -> mode_text m -> gap g -> proto_text E p pt -> gap g1 ->
      inode_text E src s -> gap g2 -> inode_text E dst d -> apart s d -> ext_options o ot -> eol_text z ->
      exists f, ext_rule ((q ++ m ++ g ++ pt ++ g1 ++ s ++ g2 ++ d ++ ot ++ z) ++ r) = POk f r /\
      f id rem = mkirule id (Some (u "extended")) m p src dst None o rem.
  Proof using OK HE PI1 PI2.
    intros Q M G P G1 S G2 D A O Z. pose proof (ext_opts_starts _ _ z r O Z) as TS. pose proof TS as (SO & _).
    assert (NP : ~ starts is_blank (pt ++ g1 ++ s ++ g2 ++ d ++ ot ++ z ++ r)) by (eapply proto_start; eauto).
    destruct (inode_free E _ _ (g2 ++ d ++ ot ++ z ++ r) S) as (Ns & NS). destruct (inode_free E _ _ (ot ++ z ++ r) D) as (Nd & ND).
    set (rest := fun x : pystr * aproto => let% s := inode isalpha isalnum py_int E in let% _ := ws in let% d := inode isalpha isalnum py_int E in let% o := options (ext_option isalpha isalnum) in let% _ := nl in
     ret (fun (id : pystr) (rem : list pystr) => mkirule id (Some (u "extended")) (fst x) (snd x) s d None o rem)).
    assert (A2 : exists f, pbind (ext_head isalpha isalnum acl_protocol) rest (q ++ m ++ g ++ pt ++ g1 ++ s ++ g2 ++ d ++ ot ++ z ++ r) = POk f r /\
      f id rem = mkirule id (Some (u "extended")) m p src dst None o rem).
    { exists (fun id rem => mkirule id (Some (u "extended")) m p src dst None o rem). split; [|reflexivity]. eapply pbind_step; [eapply ext_head_ok; [exact Q|exact M|exact G|exact NP| |exact G1|exact NS]|].
      { eapply proto_ok; eauto using gap_sep. }
      unfold rest. eapply pbind_step; [eapply (inode_ok _ _ _ OK _ PI1 PI2 E HE); eauto using gap_sep|].
      { apply then_ws_step; auto. eapply inode_no_port; eauto. }
      { now apply apart_alone. }
      eapply pbind_step; [apply ws_gap; auto|]. eapply pbind_step; [eapply (inode_ok _ _ _ OK _ PI1 PI2 E HE); eauto|].
      { now apply tail_no_port. }
      { intros _. now apply tail_no_ip4. }
      eapply pbind_step; [eapply (ext_opts_ok _ _ _ OK); eauto|]. eapply (pbind_step _ _ _ tt r); [apply nl_iff; exists z; split; [exact Z|reflexivity]|reflexivity]. }
    destruct A2 as (f & A2 & Ef).
    assert (Other : forall w q', freew w -> sepw q' -> pt ++ g1 ++ s ++ g2 ++ d ++ ot ++ z ++ r = w ++ q' -> ~ In w [u "icmp"; u "icmp6"] ->
      exists f, ext_rule ((q ++ m ++ g ++ pt ++ g1 ++ s ++ g2 ++ d ++ ot ++ z) ++ r) = POk f r /\ f id rem = mkirule id (Some (u "extended")) m p src dst None o rem).
    { intros w q' Fw Sq Eq Nw. exists f. split; [|exact Ef]. rewrite <- !app_assoc. unfold IosText.ext_rule, choice. cbn [fold_right]. apply por_r; [|apply por_l; exact A2].
      apply pbind_fail, ext_head_fail; auto. rewrite Eq. apply (tokws_fail isalpha isalnum [u "icmp"; u "icmp6"]); auto. }
    destruct P as [p Ip|g0 n o0 G0 D0|g0 n y G0 D0|g0 n y G0 D0].
    - assert (Fp : freew p).
      { destruct Ip as [Ip|Ip]; [|apply number_digits in Ip as (_ & F); now apply digits_freew].
        assert (K : forallb freewb protocol_codes = true) by reflexivity. rewrite forallb_forall in K. now apply freewb_ok, K. }
      destruct (in_dec (list_eq_dec N.eq_dec) p [u "icmp"; u "icmp6"]) as [Ii|Ni]; [|eapply (Other p); [exact Fp| |reflexivity|exact Ni]; now apply gap_sepw].
      assert (W : words ["icmp"; "icmp6"]%string p) by now apply icmp_word.
      destruct S as [h s Hs|h s g3 qq s' Hs G3 Qq]; [destruct D as [h' d Hd'|h' d g4 q' d' Hd' G4 Q']|].
      + change (q ++ m ++ g ++ p ++ g1 ++ s ++ g2 ++ d ++ ot ++ z) with (q ++ m ++ g ++ p ++ g1 ++ s ++ g2 ++ d ++ [] ++ ot ++ z). apply ext_icmp; auto. constructor.
      + exists f. split; [|exact Ef]. clear Other. rewrite <- ?app_assoc in A2. rewrite <- ?app_assoc in NP. rewrite <- ?app_assoc in NS. rewrite <- ?app_assoc in ND. rewrite <- !app_assoc. unfold IosText.ext_rule, choice. cbn [fold_right]. apply por_r; [|apply por_l; exact A2].
        eapply pbind_step; [eapply ext_head_ok; [exact Q|exact M|exact G|exact NP| |exact G1|exact NS]; apply (tokens_ok _ _ _ OK); auto; now apply gap_sepw|].
        eapply pbind_step; [apply (bare_node_ok _ _ _ OK E HE); eauto using gap_sep|].
        { replace (d ++ g4 ++ d' ++ ot ++ z ++ r) with ((d ++ g4 ++ d') ++ ot ++ z ++ r) by now rewrite <- !app_assoc. apply apart_alone; auto. now rewrite <- !app_assoc. }
        eapply pbind_step; [apply ws_gap; auto|]. eapply pbind_step; [apply (bare_node_ok _ _ _ OK E HE); eauto using gap_sep|].
        { intros _. eapply port_no_ip4; eauto. }
        eapply pbind_step; [eapply port_no_icmp; eauto|]. eapply pbind_step; [eapply port_no_ext; eauto|]. apply pbind_fail. now apply nl_gap.
      + exists f. split; [|exact Ef]. clear Other. rewrite <- ?app_assoc in A2. rewrite <- ?app_assoc in NP. rewrite <- ?app_assoc in NS. rewrite <- ?app_assoc in ND. rewrite <- !app_assoc. unfold IosText.ext_rule, choice. cbn [fold_right]. apply por_r; [|apply por_l; exact A2].
        eapply pbind_step; [eapply ext_head_ok; [exact Q|exact M|exact G|exact NP| |exact G1|exact NS]; apply (tokens_ok _ _ _ OK); auto; now apply gap_sepw|].
        eapply pbind_step; [apply (bare_node_ok _ _ _ OK E HE); eauto using gap_sep|].
        { intros _. eapply port_no_ip4; eauto. }
        eapply pbind_step; [apply ws_gap; auto; eapply port_start; eauto|]. apply pbind_fail. unfold bare_node. apply pbind_fail. eapply port_no_ihost; eauto using gap_sep.
    - eapply (Other (u "object")); [now apply freewb_ok| |rewrite <- !app_assoc; reflexivity|intros [X|[X|[]]]; discriminate X]. now apply gap_sepw.
    - eapply (Other (u "object-group")); [now apply freewb_ok| |rewrite <- !app_assoc; reflexivity|intros [X|[X|[]]]; discriminate X]. now apply gap_sepw.
    - eapply (Other (u "object-group")); [now apply freewb_ok| |rewrite <- !app_assoc; reflexivity|intros [X|[X|[]]]; discriminate X]. now apply gap_sepw.
  Qed.
  Lemma ext_rule_ok id rem x t r : ext_rule_text E id rem x t -> exists f, ext_rule (t ++ r) = POk f r /\ f id rem = x.
  Proof using OK HE PI1 PI2. intros []; [now apply ext_icmp|now apply ext_other]. Qed.

  (** ** Remarks and items *)
  Lemma list_remark_sound s x r : then_ sp list_remark s = POk x r -> exists t, s = t ++ r /\ list_remark_text x t.
  Proof using.
    clear. unfold then_, IosText.list_remark. intros H. pinv H. apply sp_iff in P as ->. apply ret_ok in H as (<- & ->). apply seq_sound in P0 as (q & -> & Q). apply kw_sound in P1 as ->.
    apply sp_iff in P2 as ->. apply toeol_iff in P3 as (-> & N & E1). apply nl_iff in P4 as (z & Z & ->).
    assert (z = [10%N]) as ->. { destruct Z as [-> | ->]; [auto|]. destruct E1 as [E1|(r' & E1)]; discriminate. }
    eexists. split; [|apply LR; eauto]. rewrite <- !app_assoc. reflexivity.
  Qed.
  Lemma list_remark_ok x t r : list_remark_text x t -> then_ sp list_remark (t ++ r) = POk x r.
  Proof using OK.
    intros [q y Q N]. rewrite <- !app_assoc. unfold then_, IosText.list_remark. eapply (pbind_step _ _ _ tt); [apply sp_iff; reflexivity|].
    eapply pbind_step; [apply seq_ok; [auto|now apply nostart|now apply nostart]|].
    change (u "remark " ++ y ++ [10%N] ++ r) with (u "remark" ++ 32%N :: y ++ [10%N] ++ r).
    eapply pbind_step; [apply kw_ok; unfold stop; cbn; apply (white_alnum _ _ _ OK); cbn; auto|].
    eapply (pbind_step _ _ _ tt); [apply sp_iff; reflexivity|]. eapply pbind_step; [apply toeol_iff; split; [reflexivity|]; split; [auto|right; eexists; reflexivity]|].
    eapply (pbind_step _ _ _ tt r); [|reflexivity]. apply nl_iff. exists [10%N]. split; [now left|reflexivity].
  Qed.
  Lemma list_remark_length x t : list_remark_text x t -> 0 < length t.
  Proof using. clear. intros [q y Q N]. cbn. lia. Qed.
  Lemma list_remarks_chain l s r : chain (then_ sp list_remark) l s r <-> exists ts, s = concat ts ++ r /\ Forall2 list_remark_text l ts.
  Proof using OK.
    split.
    - induction 1 as [|a l s s1 r P L C (ts & -> & F)]; [exists []; auto|]. apply list_remark_sound in P as (t & -> & T).
      exists (t :: ts). cbn [concat]. rewrite <- app_assoc. auto.
    - intros (ts & -> & F). induction F as [|x t l ts T F IH]; [constructor|]. cbn [concat]. rewrite <- app_assoc.
      econstructor; [eapply list_remark_ok; eauto| |exact IH]. apply list_remark_length in T. rewrite (app_length t). clear - T. unfold pystr in *. lia.
  Qed.
  Lemma list_remarks_sound s l r : many1 (then_ sp list_remark) s = POk l r -> exists ts, s = concat ts ++ r /\ Forall2 list_remark_text l ts.
  Proof using OK.
    unfold many1. intros H. pinv H. apply ret_ok in H as (<- & ->). apply many_chain, list_remarks_chain in P0 as (ts & -> & F).
    apply list_remark_sound in P as (t & -> & T). exists (t :: ts). cbn [concat]. rewrite <- app_assoc. auto.
  Qed.
  Lemma list_remark_miss q m r : seq_text q -> mode_text m -> then_ sp list_remark (32%N :: q ++ m ++ r) = PFail.
  Proof using.
    clear OK PI1 PI2. intros Q M. unfold then_, IosText.list_remark. eapply (pbind_step _ _ _ tt); [apply sp_iff; reflexivity|]. destruct (mode_start m r M). eapply pbind_step; [apply seq_ok; auto|].
    apply pbind_fail. apply mode_cases in M as [-> | ->]; now apply kw_clash.
  Qed.

  (** A way to read rules and the way they are written. *)
  Section Items.
    Context (p : parser rule_in) (rule : pystr -> list pystr -> irule -> pystr -> Prop)
      (p_sound : forall s f r, p s = POk f r -> exists t, s = t ++ r /\ forall id rem, rule id rem (f id rem) t)
      (p_ok : forall id rem x t r, rule id rem x t -> exists f, p (t ++ r) = POk f r /\ f id rem = x)
      (p_remark : forall id rem x t, rule id rem x t -> ir_remark x = rem)
      (p_begin : forall id rem x t, rule id rem x t -> exists q m r, t = q ++ m ++ r /\ seq_text q /\ mode_text m).
    Lemma item_sound s f r : list_item p s = POk f r -> exists t, s = t ++ r /\ forall id, item_text (rule id) (f id) t.
    Proof using OK p_sound p_remark.
      unfold IosText.list_item. intros H. apply por_sound in H as [H|H].
      - pinv H. apply ret_ok in H as (<- & ->). apply sp_iff in P0 as ->. apply p_sound in P1 as (t & -> & T). apply list_remarks_sound in P as (ts & -> & F).
        exists (concat ts ++ u " " ++ t). split; [now rewrite <- !app_assoc|]. intros id. specialize (T id a). constructor; rewrite (p_remark _ _ _ _ T); auto.
      - pinv H. apply ret_ok in H as (<- & ->). apply sp_iff in P as ->. apply p_sound in P0 as (t & -> & T). exists (concat [] ++ u " " ++ t). split; [reflexivity|]. intros id. specialize (T id []).
        constructor; rewrite (p_remark _ _ _ _ T); auto.
    Qed.
    Lemma item_ok id x t r : item_text (rule id) x t -> exists f, list_item p (t ++ r) = POk f r /\ f id = x.
    Proof using OK p_ok p_begin.
      intros [y ts t' F R]. destruct (p_begin _ _ _ _ R) as (q & m & r' & Et & Q & M). destruct (p_ok _ _ _ _ r R) as (f & Pf & Ef). rewrite <- !app_assoc.
      assert (S : sp (u " " ++ t' ++ r) = POk tt (t' ++ r)) by (apply sp_iff; reflexivity).
      assert (N : then_ sp list_remark (u " " ++ t' ++ r) = PFail) by (rewrite Et, <- !app_assoc; now apply (list_remark_miss q m (r' ++ r))).
      unfold IosText.list_item. remember (ir_remark y) as rem eqn:Er. destruct rem as [|z rem].
      - inversion F; subst ts. exists (fun id => f id []). split; [|exact Ef]. cbn [concat app]. apply por_r; [apply pbind_fail; unfold many1; now apply pbind_fail|].
        eapply pbind_step; [exact S|]. eapply pbind_step; [exact Pf|reflexivity].
      - exists (fun id => f id (z :: rem)). split; [|exact Ef]. apply por_l. inversion F as [|? t0 ? ts' T F']; subst. cbn [concat]. rewrite <- app_assoc.
        eapply pbind_step.
        { unfold many1. eapply pbind_step; [eapply list_remark_ok; eauto|]. eapply pbind_step; [|reflexivity]. apply chain_many; [|exact N]. apply list_remarks_chain. eauto. }
        eapply pbind_step; [exact S|]. eapply pbind_step; [exact Pf|reflexivity].
    Qed.
    Lemma item_length id x t : item_text (rule id) x t -> 0 < length t.
    Proof using. clear. intros [y ts t' F R]. rewrite !app_length. cbn. lia. Qed.
    Lemma items_sound s l r : many (list_item p) s = POk l r -> exists ts, s = concat ts ++ r /\ forall id, Forall2 (item_text (rule id)) (map (fun f => f id) l) ts.
    Proof using OK p_sound p_remark.
      intros H. apply many_chain in H. induction H as [|a l s s1 r P L C (ts & -> & F)]; [exists []; split; [auto|constructor]|]. apply item_sound in P as (t & -> & T).
      exists (t :: ts). cbn [concat]. rewrite <- app_assoc. split; [auto|]. intros id. cbn [map]. constructor; auto.
    Qed.
    Lemma items_ok id xs ts r : Forall2 (item_text (rule id)) xs ts -> (forall q, r <> 32%N :: q) -> exists l, many (list_item p) (concat ts ++ r) = POk l r /\ map (fun f => f id) l = xs.
    Proof using OK p_ok p_begin.
      intros F N. assert (C : exists l, chain (list_item p) l (concat ts ++ r) r /\ map (fun f => f id) l = xs).
      { induction F as [|x t xs ts T F (l & C & M)]; [exists []; split; [constructor|auto]|]. cbn [concat]. rewrite <- app_assoc. destruct (item_ok _ _ _ (concat ts ++ r) T) as (f & Pf & <-).
        exists (f :: l). split; [|cbn [map]; now rewrite M]. econstructor; [exact Pf| |exact C]. apply item_length in T. rewrite (app_length t). clear - T. unfold pystr in *. lia. }
      destruct C as (l & C & M). exists l. split; [|exact M]. apply chain_many; [auto|]. assert (S : sp r = PFail).
      { unfold sp, char. destruct r as [|c r]; [auto|]. destruct (N.eqb_spec c 32) as [-> |]; [|auto]. now destruct (N r). }
      unfold IosText.list_item. apply por_r; [|now apply pbind_fail]. apply pbind_fail. unfold many1. apply pbind_fail. unfold then_. now apply pbind_fail.
    Qed.
    Lemma named_sound' kind s xs r : named_list kind p s = POk xs r ->
      exists g n z ts, s = (u kind ++ g ++ n ++ z ++ concat ts) ++ r /\ gap g /\ name_chars n /\ eol_text z /\ Forall2 (item_text (rule n)) xs ts.
    Proof using OK p_sound p_remark.
      unfold IosText.named_list. intros H. pinv H. apply ret_ok in H as (<- & ->). apply kw_sound in P as ->. apply ws_sound in P0 as (g & -> & G). apply obj_name_sound in P1 as (-> & I).
      apply nl_iff in P2 as (z & Z & ->). apply items_sound in P3 as (ts & -> & F). exists g, a1, z, ts. split; [now rewrite <- !app_assoc|]. split; [auto|]. split; [|auto].
      now apply chars_name.
    Qed.
    Lemma named_ok' kind g n z xs ts r : gap g -> name_chars n -> eol_text z -> Forall2 (item_text (rule n)) xs ts -> (forall q, r <> 32%N :: q) ->
      named_list kind p ((u kind ++ g ++ n ++ z ++ concat ts) ++ r) = POk xs r.
    Proof using OK p_ok p_begin.
      intros G N Z F R. rewrite <- !app_assoc. unfold IosText.named_list. assert (B : ~ starts is_blank (n ++ z ++ concat ts ++ r)).
      { apply chars_name in N as [-> |N]; [now apply (eol_noblank z)|]. apply freew_noblank; [apply N|now apply letter_name]. }
      apply (kwws_step isalpha isalnum isspace OK); [auto|exact B|]. eapply pbind_step; [apply obj_name_chars; [exact N|now apply sep_no_obj, eol_sep]|].
      eapply (pbind_step _ _ _ tt); [apply nl_iff; exists z; split; [exact Z|reflexivity]|]. destruct (items_ok _ _ _ r F R) as (l & Pl & <-). eapply pbind_step; [exact Pl|reflexivity].
    Qed.
  End Items.

  Lemma std_begin id rem x t : std_rule_text E id rem x t -> exists q m r, t = q ++ m ++ r /\ seq_text q /\ mode_text m.
  Proof using. clear. intros []. eauto 8. Qed.
  Lemma ext_begin id rem x t : ext_rule_text E id rem x t -> exists q m r, t = q ++ m ++ r /\ seq_text q /\ mode_text m.
  Proof using. clear. intros []; eauto 8. Qed.
  Lemma std_remark_of id rem x t : std_rule_text E id rem x t -> ir_remark x = rem. Proof using. clear. now intros []. Qed.
  Lemma ext_remark_of id rem x t : ext_rule_text E id rem x t -> ir_remark x = rem. Proof using. clear. now intros []. Qed.

  (** ** C60 Named lists *)
  Theorem C60_reads s xs r : ip_access_list isalpha isalnum py_int E s = POk xs r -> exists t, s = t ++ r /\ named_list_text E xs t.
  Proof using OK HE PI1 PI2.
    unfold ip_access_list. intros H. apply por_sound in H as [H|H].
    - eapply (named_sound' _ (std_rule_text E)) in H; [|apply std_rule_sound|apply std_remark_of]. destruct H as (g & n & z & ts & -> & G & N & Z & F). eexists. split; [reflexivity|now constructor].
    - eapply (named_sound' _ (ext_rule_text E)) in H; [|apply ext_rule_sound|apply ext_remark_of]. destruct H as (g & n & z & ts & -> & G & N & Z & F). eexists. split; [reflexivity|]. now apply NL_ext.
  Qed.
  (** A line that is not indented ends the list. *)
  Theorem C60_complete xs t r : named_list_text E xs t -> (forall q, r <> 32%N :: q) -> ip_access_list isalpha isalnum py_int E (t ++ r) = POk xs r.
  Proof using OK HE PI1 PI2.
    intros [g n z ys ts G N Z F|g n z ys ts G N Z F] R; unfold ip_access_list.
    - apply por_l. eapply named_ok'; eauto; [apply std_rule_ok|apply std_begin].
    - apply por_r; [rewrite <- !app_assoc; apply pbind_fail; now apply kw_clash|]. eapply named_ok'; eauto; [apply ext_rule_ok|apply ext_begin].
  Qed.
  Theorem C60_unique xs ys t : named_list_text E xs t -> named_list_text E ys t -> xs = ys.
  Proof using OK HE PI1 PI2.
    intros A B. apply (C60_complete _ _ []) in A; [|discriminate]. apply (C60_complete _ _ []) in B; [|discriminate]. congruence.
  Qed.

  (** ** Lines of numbered lists *)
  Notation line_remark := (line_remark isalpha isalnum).
  Notation std_line := (std_line isalpha isalnum E).
  Notation ext_line := (ext_line isalpha isalnum py_int E).
  Lemma line_head_sound p s x r : line_head isalpha isalnum p s = POk x r -> exists g1 g2 g s1, s = u "access-list" ++ g1 ++ s1 /\ p s1 = POk (fst x) (g2 ++ snd x ++ g ++ r) /\ gap g1 /\ gap g2 /\ gap g /\ mode_text (snd x).
  Proof using.
    clear. unfold line_head. intros H. pinv H. apply ret_ok in H as (<- & ->). apply kw_sound in P as ->. apply ws_sound in P0 as (g1 & -> & G1). apply ws_sound in P2 as (g2 & -> & G2).
    apply mode_sound in P3 as (-> & M). apply ws_sound in P4 as (g & -> & G). eexists g1, g2, g, _. cbn [fst snd]. split; [reflexivity|]. eauto 8.
  Qed.
  Lemma line_head_ok p id m hd g r : line_begin id m hd -> gap g -> ~ starts is_blank r -> id <> [] /\ forallb AddrText.is_digit id = true ->
    (forall g' q, gap g' -> p (id ++ g' ++ q) = POk id (g' ++ q)) -> line_head isalpha isalnum p (hd ++ g ++ r) = POk (id, m) r.
  Proof using OK.
    intros (g1 & g2 & G1 & G2 & M & ->) G N (Ni & Fi) P. rewrite <- !app_assoc. unfold line_head. apply (kwws_step isalpha isalnum isspace OK); [auto|apply freew_noblank; [auto|now apply digits_freew]|].
    eapply pbind_step; [apply P; auto|]. destruct (mode_start m (g ++ r) M). eapply pbind_step; [apply ws_gap; auto|]. eapply pbind_step; [apply (mode_ok _ _ _ OK); auto using gap_sepw|].
    eapply pbind_step; [apply ws_gap; auto|reflexivity].
  Qed.
  Lemma line_head_fail p id m hd g r : line_begin id m hd -> gap g -> id <> [] /\ forallb AddrText.is_digit id = true ->
    (forall g' q, gap g' -> p (id ++ g' ++ q) = PFail) -> line_head isalpha isalnum p (hd ++ g ++ r) = PFail.
  Proof using OK.
    intros (g1 & g2 & G1 & G2 & M & ->) G (Ni & Fi) P. rewrite <- !app_assoc. unfold line_head. apply (kwws_step isalpha isalnum isspace OK); [auto|apply freew_noblank; [auto|now apply digits_freew]|].
    apply pbind_fail. now apply P.
  Qed.
  Lemma line_begin_remark id m hd g r : line_begin id m hd -> gap g -> id <> [] /\ forallb AddrText.is_digit id = true -> line_remark (hd ++ g ++ r) = PFail.
  Proof using OK.
    intros (g1 & g2 & G1 & G2 & M & ->) G (Ni & Fi). rewrite <- !app_assoc. unfold IosText.line_remark. apply (begin_step isalpha isalnum isspace OK); auto.
    - split; [auto|]. intros c I. rewrite forallb_forall in Fi. apply Fi in I. apply is_digit_spec in I. auto.
    - now apply mode_start.
    - apply pbind_fail. apply mode_cases in M as [-> | ->]; now apply kw_clash.
  Qed.
  Lemma std_nums id : list_number 1 99 id \/ list_number 1300 1399 id -> id <> [] /\ forallb AddrText.is_digit id = true.
  Proof using. clear. intros [H|H]; now apply number_word in H. Qed.
  Lemma ext_nums id : list_number 100 199 id \/ list_number 2000 2699 id -> id <> [] /\ forallb AddrText.is_digit id = true.
  Proof using. clear. intros [H|H]; now apply number_word in H. Qed.
  Lemma std_line_sound rem s x r : std_line rem s = POk x r -> exists t, s = t ++ r /\ numbered_text E rem x t /\ ir_remark x = rem.
  Proof using OK HE.
    unfold IosText.std_line. intros H. pinv H. apply ret_ok in H as (<- & ->). apply line_head_sound in P as (g1 & g2 & g & s' & -> & P & G1 & G2 & G & M). apply std_id_sound in P as (-> & L & _).
    apply (host_sound _ _ _ OK E HE) in P0 as (t & -> & T & _). apply std_opts_sound in P1 as (o & -> & O). apply nl_iff in P2 as (z & Z & ->).
    exists ((u "access-list" ++ g1 ++ fst a ++ g2 ++ snd a) ++ g ++ t ++ o ++ z). split; [now rewrite <- !app_assoc|]. split; [|auto]. apply NU_std; auto. exists g1, g2. auto.
  Qed.
  Lemma ext_line_sound rem s x r : ext_line rem s = POk x r -> exists t, s = t ++ r /\ numbered_text E rem x t /\ ir_remark x = rem.
  Proof using OK HE PI1 PI2.
    unfold IosText.ext_line. intros H. apply por_sound in H as [H|H]; pinv H; apply ret_ok in H as (<- & ->); apply line_head_sound in P as (g1 & g2 & g & s' & -> & P & G1 & G2 & G & M); apply ext_id_sound in P as (-> & L & _).
    - apply tokens_sound in P0 as (I & -> & _). apply ws_sound in P1 as (g3 & -> & G3).
      eapply icmp_node_sound in P2; eauto. destruct P2 as (src & t1 & -> & -> & T1). apply ws_sound in P3 as (g4 & -> & G4).
      eapply icmp_node_sound in P4; eauto. destruct P4 as (dst & t2 & -> & -> & T2). eapply icmp_options_sound in P5; eauto. destruct P5 as (i & -> & Ti).
      apply ext_opts_sound in P6 as (o & -> & O). apply nl_iff in P7 as (z & Z & ->).
      exists ((u "access-list" ++ g1 ++ fst a ++ g2 ++ snd a) ++ g ++ a0 ++ g3 ++ t1 ++ g4 ++ t2 ++ i ++ o ++ z). split; [now rewrite <- !app_assoc|]. split; [|auto].
      apply NU_icmp; auto; [exists g1, g2; auto|now apply icmp_word].
    - eapply proto_sound in P0; eauto. destruct P0 as (p & -> & Tp). apply ws_sound in P1 as (g3 & -> & G3).
      eapply node_sound in P2; eauto. destruct P2 as (t1 & -> & T1). apply ws_sound in P3 as (g4 & -> & G4).
      eapply node_sound in P4; eauto. destruct P4 as (t2 & -> & T2). apply ext_opts_sound in P5 as (o & -> & O). apply nl_iff in P6 as (z & Z & ->).
      exists ((u "access-list" ++ g1 ++ fst a ++ g2 ++ snd a) ++ g ++ p ++ g3 ++ t1 ++ g4 ++ t2 ++ o ++ z). split; [now rewrite <- !app_assoc|]. split; [|auto].
      apply NU_ext; auto. exists g1, g2. auto.
  Qed.
  Lemma std_line_ok rem id m hd g h t o ot z r : list_number 1 99 id \/ list_number 1300 1399 id -> line_begin id m hd -> gap g ->
      ihost_text E h t -> std_options o ot -> eol_text z ->
      std_line rem ((hd ++ g ++ t ++ ot ++ z) ++ r) = POk (mkirule id None m (APName (u "ip")) (mkanode h None) any_dst None o rem) r.
  Proof using OK HE.
    intros L B G H O Z. rewrite <- !app_assoc. pose proof (std_opts_starts _ _ z r O Z) as TS. destruct (ihost_free _ _ _ (ot ++ z ++ r) H) as (_ & NH).
    unfold IosText.std_line. eapply pbind_step; [eapply line_head_ok; eauto using std_nums|].
    { intros g' q G'. apply std_id_ok; [auto|now apply gap_nonblank]. }
    eapply pbind_step; [eapply (host_ok _ _ _ OK E HE); eauto; [apply TS|]|].
    { intros _. now apply tail_no_ip4. }
    eapply pbind_step; [eapply (std_opts_ok _ _ _ OK); eauto|]. eapply (pbind_step _ _ _ tt r); [apply nl_iff; exists z; split; [exact Z|reflexivity]|reflexivity].
  Qed.
  Lemma ext_id_gap id g q : list_number 100 199 id \/ list_number 2000 2699 id -> gap g -> ext_id (id ++ g ++ q) = POk id (g ++ q).
  Proof using. clear. intros L G. apply ext_id_ok; [auto|now apply gap_nonblank]. Qed.
  Lemma ext_line_icmp rem id m hd g p g1 src s g2 dst d icmp i o ot z r : list_number 100 199 id \/ list_number 2000 2699 id -> line_begin id m hd -> gap g ->
      words ["icmp"; "icmp6"]%string p -> gap g1 -> host_text E src s -> gap g2 -> host_text E dst d -> icmp_text E icmp i ->
      ext_options o ot -> eol_text z ->
      ext_line rem ((hd ++ g ++ p ++ g1 ++ s ++ g2 ++ d ++ i ++ ot ++ z) ++ r) = POk (mkirule id None m (APName p) (mkanode src None) (mkanode dst None) icmp o rem) r.
  Proof using OK HE.
    intros L B G W G1 S G2 D I O Z. rewrite <- !app_assoc. pose proof (ext_opts_starts _ _ z r O Z) as TS. pose proof (icmp_sep _ _ _ I TS) as SI.
    unfold IosText.ext_line. apply por_l. eapply pbind_step; [eapply line_head_ok; eauto using ext_nums, icmp_word_start, ext_id_gap|].
    eapply pbind_step; [eapply tokens_ok; eauto using gap_sepw; now apply icmp_word|].
    eapply pbind_step; [apply ws_gap; auto; eapply host_start; eauto using gap_sep|].
    eapply pbind_step; [eapply icmp_node_ok; eauto using gap_sep|].
    eapply pbind_step; [apply ws_gap; auto; eapply host_start; eauto|].
    eapply pbind_step; [eapply icmp_node_ok; eauto|].
    eapply pbind_step; [eapply icmp_options_ok; eauto|].
    eapply pbind_step; [eapply (ext_opts_ok _ _ _ OK); eauto|]. eapply (pbind_step _ _ _ tt r); [apply nl_iff; exists z; split; [exact Z|reflexivity]|reflexivity].
  Qed.
  Lemma ext_line_other rem id m hd g p pt g1 src s g2 dst d o ot z r : list_number 100 199 id \/ list_number 2000 2699 id -> line_begin id m hd -> gap g ->
      proto_text E p pt -> gap g1 -> node_text E src s -> gap g2 -> node_text E dst d -> ext_options o ot -> eol_text z ->
      ext_line rem ((hd ++ g ++ pt ++ g1 ++ s ++ g2 ++ d ++ ot ++ z) ++ r) = POk (mkirule id None m p src dst None o rem) r.
  Proof using OK HE PI1 PI2.
    intros L B G P G1 S G2 D O Z. pose proof (ext_opts_starts _ _ z r O Z) as TS. pose proof TS as (SO & _).
    assert (NP : ~ starts is_blank (pt ++ g1 ++ s ++ g2 ++ d ++ ot ++ z ++ r)) by (eapply proto_start; eauto).
    assert (NS : ~ starts is_blank (s ++ g2 ++ d ++ ot ++ z ++ r)) by (eapply node_start; eauto using gap_sep).
    assert (ND : ~ starts is_blank (d ++ ot ++ z ++ r)) by (eapply node_start; eauto).
    assert (LH : forall q, ~ starts is_blank q -> line_head isalpha isalnum ext_id (hd ++ g ++ q) = POk (id, m) q) by (intros q Nq; apply line_head_ok; auto using ext_nums, ext_id_gap).
    set (rest := fun x : pystr * pystr => let% p := acl_protocol in let% _ := ws in
     let% s := node isalpha isalnum py_int E in let% _ := ws in let% d := node isalpha isalnum py_int E in
     let% o := options (ext_option isalpha isalnum) in let% _ := nl in
     ret (mkirule (fst x) None (snd x) p s d None o rem)).
    assert (A2 : pbind (line_head isalpha isalnum ext_id) rest (hd ++ g ++ pt ++ g1 ++ s ++ g2 ++ d ++ ot ++ z ++ r) = POk (mkirule id None m p src dst None o rem) r).
    { eapply pbind_step; [apply LH; auto|]. unfold rest. eapply pbind_step; [eapply proto_ok; eauto using gap_sep|].
      eapply pbind_step; [apply ws_gap; auto|]. eapply pbind_step; [eapply node_ok; eauto using gap_sep|].
      { apply then_ws_step; auto. eapply node_no_port; eauto. }
      eapply pbind_step; [apply ws_gap; auto|]. eapply pbind_step; [eapply node_ok; eauto|].
      { now apply tail_no_port. }
      eapply pbind_step; [eapply (ext_opts_ok _ _ _ OK); eauto|]. eapply (pbind_step _ _ _ tt r); [apply nl_iff; exists z; split; [exact Z|reflexivity]|reflexivity]. }
    assert (Other : forall w q, freew w -> sepw q -> pt ++ g1 ++ s ++ g2 ++ d ++ ot ++ z ++ r = w ++ q -> ~ In w [u "icmp"; u "icmp6"] ->
      ext_line rem ((hd ++ g ++ pt ++ g1 ++ s ++ g2 ++ d ++ ot ++ z) ++ r) = POk (mkirule id None m p src dst None o rem) r).
    { intros w q Fw Sq Eq Nw. unfold IosText.ext_line. rewrite <- !app_assoc. apply por_r; [|exact A2]. 
      eapply pbind_step; [apply LH; auto|]. rewrite Eq. apply (tokws_fail isalpha isalnum [u "icmp"; u "icmp6"]); auto. }
    destruct P as [p Ip|g0 n o0 G0 D0|g0 n y G0 D0|g0 n y G0 D0].
    - assert (Fp : freew p).
      { destruct Ip as [Ip|Ip]; [|apply number_digits in Ip as (_ & F); now apply digits_freew].
        assert (K : forallb freewb protocol_codes = true) by reflexivity. rewrite forallb_forall in K. now apply freewb_ok, K. }
      destruct (in_dec (list_eq_dec N.eq_dec) p [u "icmp"; u "icmp6"]) as [Ii|Ni]; [|eapply (Other p); [exact Fp| |reflexivity|exact Ni]; now apply gap_sepw].
      assert (W : words ["icmp"; "icmp6"]%string p) by now apply icmp_word.
      destruct S as [h s Hs|h s g3 q s' Hs G3 Q]; [destruct D as [h' d Hd'|h' d g4 q' d' Hd' G4 Q']|].
      + change (hd ++ g ++ p ++ g1 ++ s ++ g2 ++ d ++ ot ++ z) with (hd ++ g ++ p ++ g1 ++ s ++ g2 ++ d ++ [] ++ ot ++ z). apply ext_line_icmp; auto. constructor.
      + unfold IosText.ext_line. clear Other. rewrite <- ?app_assoc in A2. rewrite <- ?app_assoc in NP. rewrite <- ?app_assoc in NS. rewrite <- ?app_assoc in ND. rewrite <- !app_assoc. apply por_r; [|exact A2].
        eapply pbind_step; [apply LH; auto|]. eapply pbind_step; [eapply tokens_ok; eauto using gap_sepw|].
        eapply pbind_step; [apply ws_gap; auto; eapply host_start; eauto using gap_sep|]. eapply pbind_step; [eapply icmp_node_ok; eauto using gap_sep|].
        eapply pbind_step; [apply ws_gap; auto; eapply host_start; eauto using gap_sep|]. eapply pbind_step; [eapply icmp_node_ok; eauto using gap_sep|].
        eapply pbind_step; [eapply port_no_icmp; eauto|]. eapply pbind_step; [eapply port_no_ext; eauto|]. apply pbind_fail. now apply nl_gap.
      + unfold IosText.ext_line. clear Other. rewrite <- ?app_assoc in A2. rewrite <- ?app_assoc in NP. rewrite <- ?app_assoc in NS. rewrite <- ?app_assoc in ND. rewrite <- !app_assoc. apply por_r; [|exact A2].
        eapply pbind_step; [apply LH; auto|]. eapply pbind_step; [eapply tokens_ok; eauto using gap_sepw|].
        eapply pbind_step; [apply ws_gap; auto; eapply host_start; eauto using gap_sep|]. eapply pbind_step; [eapply icmp_node_ok; eauto using gap_sep|].
        eapply pbind_step; [apply ws_gap; auto; eapply port_start; eauto using gap_sep|]. apply pbind_fail. unfold icmp_node. apply pbind_fail.
        eapply port_no_host; eauto using gap_sep.
    - eapply (Other (u "object")); [now apply freewb_ok| |rewrite <- !app_assoc; reflexivity|intros [X|[X|[]]]; discriminate X]. now apply gap_sepw.
    - eapply (Other (u "object-group")); [now apply freewb_ok| |rewrite <- !app_assoc; reflexivity|intros [X|[X|[]]]; discriminate X]. now apply gap_sepw.
    - eapply (Other (u "object-group")); [now apply freewb_ok| |rewrite <- !app_assoc; reflexivity|intros [X|[X|[]]]; discriminate X]. now apply gap_sepw.
  Qed.

  Definition remark_line (q s : pystr) : Prop := exists g id g', gap g /\ name_text id /\ gap g' /\ s = u "access-list" ++ g ++ id ++ g' ++ u "remark" ++ q.
  Lemma line_remark_sound s x r : line_remark s = POk x r -> exists t, s = t ++ r /\ line_remark_text x t.
  Proof using.
    clear OK PI1 PI2. unfold IosText.line_remark. intros H. apply begin_sound in H as (g1 & id & g2 & q & -> & G1 & G2 & I & H). pinv H. apply ret_ok in H as (<- & ->).
    apply kw_sound in P as ->. apply ws_iff in P0 as (g & G & -> & N0). apply toeol_iff in P1 as (-> & N & E1). apply nl_iff in P2 as (z & Z & ->).
    assert (z = [10%N]) as ->. { destruct Z as [-> | ->]; [auto|]. destruct E1 as [E1|(r' & E1)]; discriminate. }
    exists (u "access-list" ++ g1 ++ id ++ g2 ++ u "remark" ++ g ++ a1 ++ [10%N]). split.
    - rewrite <- !app_assoc. reflexivity.
    - apply LM; auto. intros c x' -> B. apply N0. cbn [app]. rewrite starts_cons. now apply is_blank_spec.
  Qed.
  Lemma line_remark_ok x t r : line_remark_text x t -> line_remark (t ++ r) = POk x r.
  Proof using OK.
    intros [g id g' g1 y G I G' G1 N B]. unfold IosText.line_remark. rewrite <- !app_assoc.
    apply (begin_step isalpha isalnum isspace OK); auto; [now apply nostart|].
    apply (kwws_step isalpha isalnum isspace OK); [auto| |].
    { destruct y as [|c y]; [now apply (nostart is_blank [10%N] r)|]. cbn [app]. rewrite starts_cons. intros K. apply is_blank_spec in K. exact (B c y eq_refl K). }
    eapply pbind_step; [apply toeol_iff; split; [reflexivity|]; split; [auto|right; eexists; reflexivity]|].
    eapply (pbind_step _ _ _ tt r); [|reflexivity]. apply nl_iff. exists [10%N]. split; [now left|reflexivity].
  Qed.
  Lemma line_remark_length x t : line_remark_text x t -> 0 < length t.
  Proof using. clear. intros []. cbn. lia. Qed.
  Lemma line_remarks_chain l s r : chain line_remark l s r <-> exists ts, s = concat ts ++ r /\ Forall2 line_remark_text l ts.
  Proof using OK.
    split.
    - induction 1 as [|a l s s1 r P L C (ts & -> & F)]; [exists []; auto|]. apply line_remark_sound in P as (t & -> & T).
      exists (t :: ts). cbn [concat]. rewrite <- app_assoc. auto.
    - intros (ts & -> & F). induction F as [|x t l ts T F IH]; [constructor|]. cbn [concat]. rewrite <- app_assoc.
      econstructor; [eapply line_remark_ok; eauto| |exact IH]. apply line_remark_length in T. rewrite (app_length t). clear - T. unfold pystr in *. lia.
  Qed.
  Lemma line_remarks_sound s l r : many1 line_remark s = POk l r -> exists ts, s = concat ts ++ r /\ Forall2 line_remark_text l ts.
  Proof using OK.
    unfold many1. intros H. pinv H. apply ret_ok in H as (<- & ->). apply many_chain, line_remarks_chain in P0 as (ts & -> & F).
    apply line_remark_sound in P as (t & -> & T). exists (t :: ts). cbn [concat]. rewrite <- app_assoc. auto.
  Qed.
  Lemma line_remarks_ok x l ts q : Forall2 line_remark_text (x :: l) ts -> line_remark q = PFail -> many1 line_remark (concat ts ++ q) = POk (x :: l) q.
  Proof using OK.
    intros F M. inversion F as [|? t ? ts' T F']; subst. cbn [concat]. rewrite <- app_assoc. unfold many1.
    eapply pbind_step; [eapply line_remark_ok; eauto|]. eapply pbind_step; [|reflexivity]. apply chain_many; auto. apply line_remarks_chain. eauto.
  Qed.
  Lemma blank_sepw q : starts is_blank q -> sepw q.
  Proof using. clear. intros H. destruct q as [|c q]; [destruct H as (c & q & X & _); discriminate X|]. rewrite starts_cons in H. exists c, q. split; [auto|]. apply is_blank_spec in H as [-> | ->]; cbn; auto. Qed.
  Lemma line_head_remark p x t r : (forall s e, p s <> PErr e) -> (forall s id q, p s = POk id q -> s = id ++ q /\ starts is_blank q /\ id <> [] /\ freew id) -> line_remark_text x t -> line_head isalpha isalnum p (t ++ r) = PFail.
  Proof using OK.
    intros NE PS [g id g' g1 y G I G' G1 N B]. rewrite <- !app_assoc. unfold line_head. assert (Fi : id <> [] /\ freew id) by (split; [apply I|now apply letter_name]). destruct Fi as (Ni & Fi).
    apply (kwws_step isalpha isalnum isspace OK); [auto|now apply freew_noblank|]. set (q := g' ++ u "remark" ++ g1 ++ y ++ [10%N] ++ r).
    unfold pbind at 1. destruct (p (id ++ q)) as [|e|id' q'] eqn:P; [auto|now apply NE in P|]. apply PS in P as (X & B' & N' & F').
    destruct (word_split id q id' q' Fi F') as (-> & <-); auto; [now apply gap_sepw|now apply blank_sepw|]. unfold q.
    eapply pbind_step; [apply (ws_gap g'); [exact G'|now apply nostart]|]. apply pbind_fail. unfold IosText.mode_. now apply tokens_clash.
  Qed.
  Lemma std_id_word s id q : std_id s = POk id q -> s = id ++ q /\ starts is_blank q /\ id <> [] /\ freew id.
  Proof using. clear. intros H. apply std_id_sound in H as (-> & L & B). apply std_nums in L as (N & F). split; [auto|]. split; [auto|]. split; [auto|now apply digits_freew]. Qed.
  Lemma ext_id_word s id q : ext_id s = POk id q -> s = id ++ q /\ starts is_blank q /\ id <> [] /\ freew id.
  Proof using. clear. intros H. apply ext_id_sound in H as (-> & L & B). apply ext_nums in L as (N & F). split; [auto|]. split; [auto|]. split; [auto|now apply digits_freew]. Qed.
  Lemma std_line_remark rem x t r : line_remark_text x t -> std_line rem (t ++ r) = PFail.
  Proof using OK. intros T. unfold IosText.std_line. apply pbind_fail. eapply line_head_remark; eauto using std_id_noerr, std_id_word. Qed.
  Lemma ext_line_remark rem x t r : line_remark_text x t -> ext_line rem (t ++ r) = PFail.
  Proof using OK. intros T. unfold IosText.ext_line. assert (F : line_head isalpha isalnum ext_id (t ++ r) = PFail) by (eapply line_head_remark; eauto using ext_id_noerr, ext_id_word). apply por_r; now apply pbind_fail. Qed.

  (** ** C61 Lines of numbered lists with the remarks before them *)
  Theorem C61_reads s x r : numbered_line isalpha isalnum py_int E s = POk x r <-> exists t, s = t ++ r /\ numbered_rule_text E x t.
  Proof using OK HE PI1 PI2.
    unfold numbered_line, choice. cbn [fold_right]. split.
    - intros H. assert (K : forall p : list pystr -> parser irule, (forall rem s x r, p rem s = POk x r -> exists t, s = t ++ r /\ numbered_text E rem x t /\ ir_remark x = rem) ->
        (let% l := many1 line_remark in p l) s = POk x r \/ p [] s = POk x r -> exists t, s = t ++ r /\ numbered_rule_text E x t).
      { clear H. intros p PS [H|H].
        - pinv H. apply line_remarks_sound in P as (ts & -> & F). apply PS in H as (t & -> & T & R). exists (concat ts ++ t). split; [now rewrite <- !app_assoc|]. constructor; rewrite R; auto.
        - apply PS in H as (t & -> & T & R). exists (concat [] ++ t). split; [auto|]. constructor; rewrite R; auto. }
      apply por_sound in H as [H|H]; [eapply (K ext_line); eauto using ext_line_sound|]. apply por_sound in H as [H|H]; [eapply (K ext_line); eauto using ext_line_sound|].
      apply por_sound in H as [H|H]; [eapply (K std_line); eauto using std_line_sound|]. apply por_sound in H as [H|H]; [eapply (K std_line); eauto using std_line_sound|discriminate H].
    - intros (t0 & -> & [y ts t F T]). rewrite <- app_assoc.
      assert (M : line_remark (t ++ r) = PFail).
      { destruct T; rewrite <- !app_assoc; eapply line_begin_remark; eauto using std_nums, ext_nums. }
      assert (Miss : forall p : list pystr -> parser irule, (forall rem x t r, line_remark_text x t -> p rem (t ++ r) = PFail) -> (forall rem, p rem (t ++ r) = PFail) -> forall rest,
        por (let% l := many1 line_remark in p l) (por (p []) rest) (concat ts ++ t ++ r) = rest (concat ts ++ t ++ r)).
      { intros p PR P rest. destruct (ir_remark y) as [|w rem].
        - inversion F; subst ts. cbn [concat app]. apply por_r; [apply pbind_fail; unfold many1; now apply pbind_fail|]. apply por_r; auto.
        - apply por_r; [eapply pbind_step; [apply line_remarks_ok; [exact F|exact M]|auto]|]. apply por_r; [|reflexivity]. inversion F as [|? t1 ? ts' T1 F']; subst. cbn [concat]. rewrite <- app_assoc. eapply PR; eauto. }
      assert (Hit : forall (p : list pystr -> parser irule) rest x', p (ir_remark y) (t ++ r) = POk x' r -> por (let% l := many1 line_remark in p l) (por (p []) rest) (concat ts ++ t ++ r) = POk x' r).
      { intros p rest x' P. destruct (ir_remark y) as [|w rem].
        - inversion F; subst ts. cbn [concat app]. apply por_r; [apply pbind_fail; unfold many1; now apply pbind_fail|]. now apply por_l.
        - apply por_l. eapply pbind_step; [apply line_remarks_ok; [exact F|exact M]|auto]. }
      destruct T.
      + rewrite (Miss ext_line); [apply (Hit std_line); now apply std_line_ok|apply ext_line_remark|]. intros rem'. unfold IosText.ext_line.
        assert (LF : line_head isalpha isalnum ext_id ((hd ++ g ++ t ++ ot ++ z) ++ r) = PFail).
        { rewrite <- !app_assoc. eapply line_head_fail; eauto using std_nums. intros g' q G'. apply ext_id_std; [auto|now apply gap_nonblank]. }
        apply por_r; now apply pbind_fail.
      + apply (Hit ext_line). now apply ext_line_icmp.
      + apply (Hit ext_line). now apply ext_line_other.
  Qed.
  Theorem C61_unique x y t : numbered_rule_text E x t -> numbered_rule_text E y t -> x = y.
  Proof using OK HE PI1 PI2.
    intros A B. assert (X : numbered_line isalpha isalnum py_int E t = POk x []) by (apply C61_reads; exists t; rewrite app_nil_r; auto).
    assert (Y : numbered_line isalpha isalnum py_int E t = POk y []) by (apply C61_reads; exists t; rewrite app_nil_r; auto). congruence.
  Qed.
End Ios.
