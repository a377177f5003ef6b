(** Facts about the parts of access-list lines. *)
From Coq Require Import Lia String.
From Verif.Model Require Import Base Ip Hosts Groups Iface Peg Ids AddrText Ports AclText.
From Verif.Spec Require Import AddrSpec RefSpec AddrTextSpec CafTextSpec CafMeanSpec AclTextSpec.
From Verif.Proofs Require Import DictFacts PegFacts AddrTextFacts Addr6Facts CafTextFacts TokFacts CafMean MaskFacts LineFacts.
From Verif.Props Require Import Refs AddrText.
Local Open Scope list_scope.

Lemma address_hdc t a : address_text t a -> forallb is_hexdotcolon t = true /\ t <> [].
Proof.
  unfold address_text. destruct a as [[|] n]; cbn [a_ver a_val].
  - intros (L & ->). exact (hextets_char _ _ (HX_quad n L)).
  - intros [s vs H _|s t' hi lo Hs Ht _].
    + exact (hextets_char _ _ H).
    + split; [|destruct s; discriminate]. rewrite forallb_app. cbn [forallb].
      assert (A : forallb is_hexdotcolon s = true) by (destruct Hs as [(-> & _)|Hs]; [auto|apply (hextets_char _ _ (plain_hextets_hextets _ _ Hs))]).
      assert (B : forallb is_hexdotcolon t' = true) by (destruct Ht as [(-> & _)|Ht]; [auto|apply (hextets_char _ _ Ht)]).
      rewrite A, B. reflexivity.
Qed.
Lemma quad_start n r : (n < 2 ^ 32)%N -> starts AddrText.is_digit (quad n ++ r).
Proof.
  intros L. assert (A : (n / 2 ^ 24 <= 255)%N) by (apply N.lt_succ_r, N.div_lt_upper_bound; lia).
  pose proof (dec3_digits _ A) as D. unfold quad, dotted. destruct (dec3 (n / 2 ^ 24)) as [|c x] eqn:Ed.
  - exfalso. unfold dec3 in Ed. destruct (_ <? 10)%N; [discriminate|]. destruct (_ <? 100)%N; discriminate.
  - cbn [app]. rewrite starts_cons. cbn in D. now apply andb_true_iff in D.
Qed.
Lemma quad_noblank n r : (n < 2 ^ 32)%N -> ~ starts is_blank (quad n ++ r).
Proof.
  intros L B. destruct (quad_start n r L) as (c & s & E & D). rewrite E, starts_cons in B. apply is_blank_spec in B.
  destruct B as [-> | ->]; discriminate D.
Qed.
Lemma ip4_nodigit s : ~ starts AddrText.is_digit s -> ip4 s = PFail.
Proof.
  intros N. unfold ip4. apply act_fail. destruct (ip4_pat s) as [|e|t r] eqn:P; [auto|now apply ip4_pat_noerr in P|].
  apply ip4_pat_spec in P as (-> & (a & b & c & d & Oa & _ & _ & _ & -> & _)). exfalso. apply N.
  apply octet_digits in Oa as (Na & Fa). destruct a as [|x a]; [congruence|]. cbn. rewrite starts_cons. cbn in Fa. now apply andb_true_iff in Fa.
Qed.
Lemma ip4_not6 t n r : ipv6_text t n -> ~ starts is_hexdotcolon r -> ip4 (t ++ r) = PFail.
Proof.
  intros T N. unfold ip4. apply act_fail. destruct (ip4_pat (t ++ r)) as [|e|t' r'] eqn:P; [auto|now apply ip4_pat_noerr in P|].
  apply ip4_pat_spec in P as (E & A). exfalso. eapply (addr46 t' r' t r); [now symmetry|exact A|]. eapply ipv6_addr6; eauto.
Qed.
Lemma ip6_nohex h c s : forallb is_hex h = true -> is_hex c = false -> c <> colon -> ip6 (h ++ c :: s) = PFail.
Proof.
  intros F H N. unfold ip6. apply act_fail. unfold ip6_pat. assert (S : span is_hex (h ++ c :: s) = (h, c :: s)).
  { apply span_iff. split; [auto|]. split; [auto|]. rewrite starts_cons. congruence. }
  rewrite S. destruct (N.eqb_spec c colon); [congruence|reflexivity].
Qed.
Lemma ip4_ok n r : (n < 2 ^ 32)%N -> ~ starts AddrText.is_digit r -> ip4 (quad n ++ r) = POk (mkaddr V4 n) r.
Proof.
  intros L N. apply C50_ip4_read. cbn [a_ver a_val]. split; [auto|]. split; [exact L|]. split; [auto|].
  intros (x & r' & -> & D & _). apply N. now rewrite starts_cons.
Qed.
Lemma ip6_ok t n r : ipv6_text t n -> ~ starts is_hexdotcolon r -> ip6 (t ++ r) = POk (mkaddr V6 n) r.
Proof. intros T N. apply C50_ip6_read. split; [auto|]. exists t. auto. Qed.
Lemma ip4_sound s a r : ip4 s = POk a r -> exists t, s = t ++ r /\ a_ver a = V4 /\ address_text t a.
Proof.
  intros H. apply C50_ip4_read in H as (V & W & -> & _). exists (quad (a_val a)). split; [auto|]. split; [auto|].
  destruct a as [v n]. cbn [a_ver a_val] in *. subst v. split; [exact W|reflexivity].
Qed.
Lemma ip6_sound s a r : ip6 s = POk a r -> exists t, s = t ++ r /\ a_ver a = V6 /\ address_text t a.
Proof.
  intros H. apply C50_ip6_read in H as (V & t & -> & T & _). exists t. split; [auto|]. split; [auto|].
  destruct a as [v n]. cbn [a_ver a_val] in *. subst v. exact T.
Qed.

Lemma network_sound x m h : valid (fst x) -> mask_in_range m -> network x m = Ok h ->
  exists n, h = mkthost (HLeaf (LNet n)) (snd x) /\ net_of (fst x) m n.
Proof.
  unfold network, mk_Network. intros V M. destruct (ip_network false (fst x) m) as [n|] eqn:I; [|discriminate].
  cbn. intros [= <-]. exists n. split; [auto|]. destruct (ip_network_wf _ _ _ _ V M I) as (_ & Hv & Hm & Ha).
  split; [now apply make_netmask_denotes|]. auto.
Qed.
Lemma network_ok a x m n : valid a -> mask_in_range m -> net_of a m n -> network (a, x) m = Ok (mkthost (HLeaf (LNet n)) x).
Proof.
  intros V M (D & Hv & Ha). unfold network. cbn [fst snd]. destruct (mk_Network_char a m V M) as (H & _).
  destruct (H _ D) as (n' & H1 & _ & P & _). rewrite H1. cbn. unfold mk_Network in H1.
  destruct (ip_network false a m) as [n2|] eqn:I; [|discriminate]. cbn in H1. injection H1 as <-.
  destruct (ip_network_wf _ _ _ _ V M I) as (_ & Hv' & _ & Ha'). do 3 f_equal. destruct n as [v1 a1 p1], n2 as [v2 a2 p2].
  cbn [n_ver n_addr n_plen] in *. subst. reflexivity.
Qed.

Section Parts.
  Context (isalpha isalnum isspace : N -> bool) (OK : classes_ok isalpha isalnum isspace).
  Variables (E : env) (HE : env_ok E).
  Notation kw := (kw isalpha isalnum).
  Notation tokens := (tokens isalpha isalnum).
  Notation reference := (reference isalpha isalnum).
  Notation name_slash := (name_slash isalpha isalnum).
  Notation acl_name := (acl_name isalpha isalnum).
  Notation acl_host := (acl_host isalpha isalnum E).
  Notation port := (port isalpha isalnum).
  Notation icmp_type := (icmp_type isalpha isalnum).
  Notation host_text := (host_text E).
  Notation port_text := (port_text E).
  Notation address_ref := (address_ref E).

  Ltac env := destruct HE as (Kn & Kno & Kng & Kso & Ksg & Kpg & Kig & Kpr & Kt & Kv & C1 & C2 & C3 & C4 & C5 & C6).
  Lemma mem_get {V} (d : dict V) n v : dget d n = Some v -> dmem d n = true.
  Proof using. unfold dmem. now intros ->. Qed.
  Lemma names_ok n x : dget (e_names E) n = Some x -> hostname_ok n.
  Proof using HE. intros D. env. apply Kn. eapply mem_get; eauto. Qed.
  Lemma names_free n : dmem (e_names E) n = true -> freew n.
  Proof using HE. intros D. apply letter_name, ident_name. env. apply Kn in D. apply D. Qed.
  Lemma names_valid n x : dget (e_names E) n = Some x -> valid (nm_addr x).
  Proof using HE. intros D. env. eauto. Qed.
  Lemma netobj_free n : dmem (e_netobj E) n = true -> freew n.
  Proof using HE. intros D. env. apply letter_name. eauto. Qed.
  Lemma netgrp_free n : dmem (e_netgrp E) n = true -> freew n.
  Proof using HE. intros D. env. apply letter_name. eauto. Qed.
  Lemma svcobj_free n : dmem (e_svcobj E) n = true -> freew n.
  Proof using HE. intros D. env. apply letter_name. eauto. Qed.
  Lemma svcgrp_free n : dmem (e_svcgrp E) n = true -> freew n.
  Proof using HE. intros D. env. apply letter_name. eauto. Qed.
  Lemma portgrp_free n : dmem (e_portgrp E) n = true -> freew n.
  Proof using HE. intros D. env. apply letter_name. eauto. Qed.
  Lemma icmpgrp_free n : dmem (e_icmpgrp E) n = true -> freew n.
  Proof using HE. intros D. env. apply letter_name. eauto. Qed.
  Lemma protogrp_free n : dmem (e_protogrp E) n = true -> freew n.
  Proof using HE. intros D. env. apply letter_name. eauto. Qed.
  Lemma time_white n : dmem (e_time E) n = true -> freeof white n.
  Proof using HE.
    intros D. env. apply Kt in D as (_ & D). intros c I W. apply (D c I). unfold white, in_class in W. cbn in *. tauto.
  Qed.
  Lemma time_nonempty n x : dget (e_time E) n = Some x -> n <> [].
  Proof using HE. intros D. apply mem_get in D. env. apply Kt in D as (D & _). auto. Qed.
  Hint Resolve names_free netobj_free netgrp_free svcobj_free svcgrp_free portgrp_free icmpgrp_free protogrp_free time_white : core.
  Lemma free_white {V} (d : dict V) : (forall n, dmem d n = true -> freew n) -> forall n, dmem d n = true -> freeof white n.
  Proof using. intros H n D. apply freew_white. auto. Qed.
  Lemma no_common_get {V W} (d : dict V) (d' : dict W) n v : no_common d d' -> dget d n = Some v -> dget d' n = None.
  Proof using. intros H D. apply mem_get in D. apply H in D. unfold dmem in D. destruct (dget d' n); [discriminate|auto]. Qed.
  Lemma no_common_get' {V W} (d : dict V) (d' : dict W) n v : no_common d d' -> dget d' n = Some v -> dget d n = None.
  Proof using.
    intros H D. destruct (dget d n) eqn:G; [|auto]. apply mem_get in D, G. apply H in G. congruence.
  Qed.
  Lemma name_nonempty {V} (d : dict V) n v : keys name_text d -> dget d n = Some v -> n <> [] /\ freew n.
  Proof using. intros K D. apply mem_get in D. apply K in D as K'. split; [apply K'|apply letter_name, K']. Qed.

  (** *** Addresses *)
  Lemma hostname_nonempty n x : dget (e_names E) n = Some x -> n <> [] /\ freew n.
  Proof using HE. intros D. split; [|apply names_free; eapply mem_get; eauto]. apply names_ok in D as (((c & n' & -> & _) & _) & _). discriminate. Qed.
  Lemma ident_nodigit n r : ident_text n -> ~ starts AddrText.is_digit (n ++ r).
  Proof using.
    clear. intros ((c & n' & -> & C) & _). cbn. rewrite starts_cons. intros D. apply is_digit_spec in D. unfold letter, digit in *. lia.
  Qed.
  Lemma lit_not_name t a : address_text t a -> dget (e_names E) t = None.
  Proof using HE.
    intros A. destruct (dget (e_names E) t) as [x|] eqn:D; [|auto]. exfalso. apply names_ok in D as (I & _).
    unfold address_text in A. destruct a as [[|] n]; cbn [a_ver a_val] in A.
    - destruct A as (L & ->). apply (ident_nodigit _ [] I). now apply quad_start.
    - destruct I as (_ & I). apply ipv6_colon in A. apply I in A. unfold letter, digit in A. lia.
  Qed.
  Lemma ref_free v a x t : address_ref v a x t -> t <> [] /\ freew t.
  Proof using HE.
    intros [n y D|b s _ A]; [eapply hostname_nonempty; eauto|]. apply address_hdc in A as (A & N). split; [auto|now apply hdc_freew].
  Qed.
  Lemma ref_valid v a x t : address_ref v a x t -> valid a.
  Proof using HE. intros [n y D|b s _ A]; [eapply names_valid; eauto|eapply address_valid; eauto]. Qed.

  Notation named_host := (por (let% n := acl_name (e_names E) in ret (nm_addr n, Some n)) (let% a := por ip4 ip6 in ret (a, None))).
  Notation named_mask := (por (let% n := reference (e_names E) in ret (nm_addr n, Some n)) (let% a := ip4 in ret (a, None))).
  Notation named_len := (por (let% n := name_slash (e_names E) in ret (nm_addr n, Some n)) (let% a := ip6 in ret (a, None))).

  Lemma named_host_sound s x r : named_host s = POk x r -> exists t, s = t ++ r /\ address_ref (fun _ => True) (fst x) (snd x) t.
  Proof using OK HE.
    intros H. apply por_sound in H as [H|H]; pinv H; apply ret_ok in H as (<- & ->); cbn [fst snd].
    - unfold Ids.acl_name in P. apply por_sound in P as [P|P].
      + apply (ref_sound _ _ _ OK) in P as (n & -> & D); [|apply free_white; auto]. exists n. split; [auto|now constructor].
      + apply (slash_sound _ _ _ OK) in P as (n & -> & D); [|auto]. exists n. split; [auto|now constructor].
    - apply por_sound in P as [P|P]; [apply ip4_sound in P|apply ip6_sound in P]; destruct P as (t & -> & _ & T); exists t; split; auto; now constructor.
  Qed.
  Lemma named_mask_sound s x r : named_mask s = POk x r -> exists t, s = t ++ r /\ address_ref (eq V4) (fst x) (snd x) t.
  Proof using OK HE.
    intros H. apply por_sound in H as [H|H]; pinv H; apply ret_ok in H as (<- & ->); cbn [fst snd].
    - apply (ref_sound _ _ _ OK) in P as (n & -> & D); [|apply free_white; auto]. exists n. split; [auto|now constructor].
    - apply ip4_sound in P as (t & -> & V & T). exists t. split; [auto|]. now constructor.
  Qed.
  Lemma named_len_sound s x r : named_len s = POk x r -> exists t, s = t ++ r /\ address_ref (eq V6) (fst x) (snd x) t.
  Proof using OK HE.
    intros H. apply por_sound in H as [H|H]; pinv H; apply ret_ok in H as (<- & ->); cbn [fst snd].
    - apply (slash_sound _ _ _ OK) in P as (n & -> & D); [|auto]. exists n. split; [auto|now constructor].
    - apply ip6_sound in P as (t & -> & V & T). exists t. split; [auto|]. now constructor.
  Qed.
  Lemma slash_no_hdc r : ~ starts is_hexdotcolon (47%N :: r).
  Proof using. rewrite starts_cons. discriminate. Qed.
  Lemma sep_not_slash r : sep_start r -> forall r', r <> 47%N :: r'.
  Proof using. intros S r' ->. now apply (slash_not_sep r'). Qed.
  Lemma named_host_ok a x t r : address_ref (fun _ => True) a x t -> sep_start r -> named_host (t ++ r) = POk (a, x) r.
  Proof using OK HE.
    intros [n y D|b s _ A] S.
    - apply por_l. eapply pbind_step; [|reflexivity]. unfold Ids.acl_name. apply por_l. apply (ref_ok _ _ _ OK); auto. apply free_white; auto.
    - pose proof (lit_not_name _ _ A) as N. destruct (address_hdc _ _ A) as (F & _). apply hdc_freew in F.
      apply por_r.
      + apply pbind_fail. unfold Ids.acl_name. apply por_r; [apply (ref_none _ _ _ OK); auto using sep_sepw|].
        apply (slash_none _ _ _ OK); auto using sep_sepw.
      + unfold address_text in A. destruct b as [[|] n]; cbn [a_ver a_val] in A.
        * destruct A as (L & ->). eapply pbind_step; [apply por_l, ip4_ok; auto; now apply sep_no_digit|reflexivity].
        * eapply pbind_step; [apply por_r; [eapply ip4_not6; eauto; now apply sep_no_hdc|apply ip6_ok; eauto; now apply sep_no_hdc]|reflexivity].
  Qed.
  Lemma named_mask_ok a x t r : address_ref (eq V4) a x t -> sep_start r -> named_mask (t ++ r) = POk (a, x) r.
  Proof using OK HE.
    intros [n y D|b s V A] S.
    - apply por_l. eapply pbind_step; [|reflexivity]. apply (ref_ok _ _ _ OK); auto. apply free_white; auto.
    - pose proof (lit_not_name _ _ A) as N. destruct (address_hdc _ _ A) as (F & _). apply hdc_freew in F.
      apply por_r; [apply pbind_fail, (ref_none _ _ _ OK); auto using sep_sepw|].
      unfold address_text in A. destruct b as [v n]; cbn [a_ver a_val] in *. subst v.
      destruct A as (L & ->). eapply pbind_step; [apply ip4_ok; auto; now apply sep_no_digit|reflexivity].
  Qed.
  Lemma named_len_ok a x t r : address_ref (eq V6) a x t -> named_len (t ++ 47%N :: r) = POk (a, x) (47%N :: r).
  Proof using OK HE.
    intros [n y D|b s V A].
    - apply por_l. eapply pbind_step; [|reflexivity]. apply (slash_ok _ _ _ OK); auto.
    - pose proof (lit_not_name _ _ A) as N. destruct (address_hdc _ _ A) as (F & _). apply hdc_freew in F.
      apply por_r; [apply pbind_fail, (slash_none _ _ _ OK); auto using slash_sepw|].
      unfold address_text in A. destruct b as [v n]; cbn [a_ver a_val] in *. subst v.
      eapply pbind_step; [apply ip6_ok; eauto using slash_no_hdc|reflexivity].
  Qed.
  Lemma named_mask_slash a x t r : address_ref (eq V6) a x t -> named_mask (t ++ 47%N :: r) = PFail.
  Proof using OK HE.
    intros R. destruct (ref_free _ _ _ _ R) as (_ & F). apply por_r.
    - apply pbind_fail, (ref_none _ _ _ OK); auto using slash_sepw, slash_not_sep.
    - apply pbind_fail. destruct R as [n y D|b s V A].
      + apply ip4_nodigit, ident_nodigit. apply names_ok in D. apply D.
      + unfold address_text in A. destruct b as [v n]; cbn [a_ver a_val] in *. subst v. eapply ip4_not6; eauto using slash_no_hdc.
  Qed.

  (** *** acl_host *)
  Lemma host_sound s h r : acl_host s = POk h r -> exists t, s = t ++ r /\ host_text h t.
  Proof using OK HE.
    unfold AclText.acl_host, choice, named_addr. cbn [fold_right]. intros H.
    repeat (apply por_sound in H as [H|H]; [pinv H|]).
    - apply tokens_sound in P as (I & -> & _). apply ws_sound in P0 as (g & -> & G). apply named_host_sound in P1 as (t & -> & T).
      apply ret_ok in H as (<- & ->). exists (a ++ g ++ t). split; [now rewrite <- !app_assoc|].
      constructor; auto. cbn in I. destruct I as [<-|[<-|[]]]; [exists "host"%string|exists "ip"%string]; cbn; auto.
    - apply kw_sound in P as ->. apply ws_sound in P0 as (g & -> & G). apply ident_iff in P1 as (-> & I & _). apply ret_ok in H as (<- & ->).
      exists (u "interface" ++ g ++ a1). split; [now rewrite <- !app_assoc|]. now constructor.
    - apply kw_sound in P as ->. apply ret_ok in H as (<- & ->). eexists. split; [reflexivity|constructor].
    - apply kw_sound in P as ->. apply ret_ok in H as (<- & ->). eexists. split; [reflexivity|constructor].
    - apply kw_sound in P as ->. apply ret_ok in H as (<- & ->). eexists. split; [reflexivity|constructor].
    - apply kw_sound in P as ->. apply ws_sound in P0 as (g & -> & G).
      apply (ref_sound _ _ _ OK) in P1 as (n & -> & D); [|apply free_white; auto]. apply ret_ok in H as (<- & ->).
      exists (u "object" ++ g ++ n). split; [now rewrite <- !app_assoc|]. now constructor.
    - apply kw_sound in P as ->. apply ws_sound in P0 as (g & -> & G).
      apply (ref_sound _ _ _ OK) in P1 as (n & -> & D); [|apply free_white; auto]. apply ret_ok in H as (<- & ->).
      exists (u "object-group" ++ g ++ n). split; [now rewrite <- !app_assoc|]. now constructor.
    - apply named_mask_sound in P as (t & -> & T). apply ws_sound in P0 as (g & -> & G).
      apply act_ok in H as (m & M & H). apply C50_ip4_read in M as (Vm & Wm & -> & _). apply network_sound in H as (n & -> & Nn).
      + exists (t ++ g ++ quad (a_val m)). split; [now rewrite <- !app_assoc|]. apply HT_mask with (a := fst a); auto.
        unfold valid in Wm. rewrite Vm in Wm. exact Wm.
      + eapply ref_valid; eauto.
      + cbn. unfold valid in Wm. rewrite Vm in Wm. exact Wm.
    - apply named_len_sound in P as (t & -> & T). destruct a0. apply char_ok in P0 as ->.
      apply act_ok in H as (m & M & H). apply int_iff in M as (-> & Nm & Fm & _). apply network_sound in H as (n & -> & Nn).
      + exists (t ++ u "/" ++ m). split; [now rewrite <- !app_assoc|]. eapply HT_length with (a := fst a) (p := int10 m); eauto.
        apply decimal_text_spec. auto.
      + eapply ref_valid; eauto.
      + exact I.
    - discriminate H.
  Qed.

  (** A word that is none of the words of the language. *)
  Definition plain (n : pystr) : Prop :=
    freew n /\ ~ In n (map u reserved) /\
    (forall w c n', In w ["any"; "any4"; "any6"]%string -> n = u w ++ c :: n' -> isalnum c = true).
  Lemma any_fail w n r : In w ["any"; "any4"; "any6"]%string -> freew n -> sepw r -> n <> u w ->
    (forall c n', n = u w ++ c :: n' -> isalnum c = true) -> kw w (n ++ r) = PFail.
  Proof using OK.
    intros I F S N H. unfold AclText.kw. apply pbind_fail.
    destruct (token isalpha isalnum (u w) (n ++ r)) as [|e|x q] eqn:T; [auto|now apply token_noerr in T|exfalso].
    apply token_ok in T as (_ & T & P). unfold passes in P.
    assert (L : name_like isalpha isalnum (u w) = true).
    { rewrite (name_like_ok _ _ _ OK); cbn in I; destruct I as [<-|[<-|[<-|[]]]]; reflexivity. }
    rewrite L in P. cbn in P.
    assert (Fw : freew (u w)) by (apply freewb_ok; cbn in I; destruct I as [<-|[<-|[<-|[]]]]; reflexivity).
    destruct (Nat.le_gt_cases (length (u w)) (length n)) as [Ln|Ln].
    - symmetry in T. apply app_longer in T as (k & -> & ->); [|auto]. destruct k as [|c k]; [rewrite app_nil_r in N; congruence|].
      specialize (H c k eq_refl). cbn in P. congruence.
    - apply app_longer in T as (k & K & ->); [|lia]. destruct k as [|c k]; [rewrite app_nil_r in K; congruence|].
      destruct S as (c' & r' & S & C). injection S as <- _. apply (Fw c); [rewrite K; apply in_app_iff; right; now left|auto].
  Qed.
  Lemma hostname_plain n : hostname_ok n -> plain n.
  Proof using OK.
    intros (I & R & A). split; [apply letter_name, ident_name, I|]. split.
    - intros X. apply in_map_iff in X as (w & <- & W). now apply (R w W).
    - intros w c n' W En. specialize (A w c n' W En).
      assert (c < 128)%N by (unfold letter, digit in A; lia).
      rewrite (alnum_ok _ _ _ OK) by (now apply N.ltb_lt). unfold ascii_alnum, ascii_alpha, AddrText.is_digit, in_range.
      unfold letter, digit in A. rewrite !orb_true_iff, !andb_true_iff, !N.leb_le. lia.
  Qed.
  Lemma hdc_plain n : forallb is_hexdotcolon n = true -> plain n.
  Proof using.
    clear. intros F. split; [now apply hdc_freew|]. split.
    - intros X. apply in_map_iff in X as (w & <- & W).
      assert (K : forallb (fun w => negb (forallb is_hexdotcolon (u w))) reserved = true) by reflexivity.
      rewrite forallb_forall in K. specialize (K w W). rewrite F in K. discriminate.
    - intros w c n' W ->. rewrite forallb_app in F. apply andb_true_iff in F as (F & _). exfalso.
      cbn in W. destruct W as [<-|[<-|[<-|[]]]]; discriminate F.
  Qed.
  Lemma ref_plain v a x t : address_ref v a x t -> plain t.
  Proof using OK HE.
    intros [n y D|b s _ A]; [eapply hostname_plain, names_ok; eauto|]. apply address_hdc in A as (A & _). now apply hdc_plain.
  Qed.

  Notation alt_mask := (named_addr (reference (e_names E)) ip4 (fun x =>
      let% _ := ws in act (fun m => network x (MaskQuad (a_val m))) ip4)).
  Notation alt_len := (named_addr (name_slash (e_names E)) ip6 (fun x =>
      let% _ := char 47 in act (fun m => network x (MaskLen (int10 m))) int_)).
  Ltac notword H := let X := fresh in intros X; apply H; rewrite X; apply in_map; cbn; tauto.
  Lemma host_plain n r : plain n -> sepw r -> acl_host (n ++ r) = choice [alt_mask; alt_len] (n ++ r).
  Proof using OK.
    intros (F & N & A) S. unfold AclText.acl_host. cbn [choice fold_right].
    apply por_r. { apply tokws_fail; auto. intros [X|[X|[]]]; apply N; rewrite <- X; apply in_map; cbn; tauto. }
    apply por_r. { apply kwws_fail; auto. notword N. }
    apply por_r. { apply pbind_fail, any_fail; auto; [cbn; tauto|notword N|]. intros c n'. apply A. cbn; tauto. }
    apply por_r. { apply pbind_fail, any_fail; auto; [cbn; tauto|notword N|]. intros c n'. apply A. cbn; tauto. }
    apply por_r. { apply pbind_fail, any_fail; auto; [cbn; tauto|notword N|]. intros c n'. apply A. cbn; tauto. }
    apply por_r. { apply kwws_fail; auto. notword N. }
    apply por_r. { apply kwws_fail; auto. notword N. }
    reflexivity.
  Qed.
  Lemma kwws_step {A} w (k : parser A) g r x : gap g -> ~ starts is_blank r -> k r = x ->
    (let% _ := kw w in let% _ := ws in k) (u w ++ g ++ r) = x.
  Proof using OK.
    intros G N H. eapply pbind_step; [apply kw_ok, (gap_stop _ _ _ OK), G|]. eapply pbind_step; [now apply ws_gap|auto].
  Qed.
  Lemma tokws_step {A} l w (k : pystr -> parser A) g r x : clear_list l = true -> In w l -> gap g -> ~ starts is_blank r -> k w r = x ->
    (let% a := tokens l in let% _ := ws in k a) (w ++ g ++ r) = x.
  Proof using OK.
    intros C I G N H. eapply pbind_step; [apply (tokens_ok _ _ _ OK); auto using gap_sepw|]. eapply pbind_step; [now apply ws_gap|auto].
  Qed.
  Lemma freewb_u w : freewb (u w) = true -> freew (u w). Proof using. apply freewb_ok. Qed.
  Lemma host_ok h t r : host_text h t -> sep_start r -> acl_host (t ++ r) = POk h r.
  Proof using OK HE.
    intros H S. destruct H as [w g a x t W G R|g n G I| | | |g n o G D|g n x G D|a x t g m n R G L Nn|a x t d p n R Dd Nn].
    - unfold AclText.acl_host. cbn [choice fold_right]. rewrite <- !app_assoc. apply por_l.
      destruct (ref_free _ _ _ _ R) as (Nt & Ft). apply tokws_step; auto using freew_noblank.
      + destruct W as (v & V & ->). cbn in V. destruct V as [<-|[<-|[]]]; [now left|right; now left].
      + unfold named_addr. eapply pbind_step; [apply named_host_ok; eauto|reflexivity].
    - unfold AclText.acl_host. cbn [choice fold_right]. rewrite <- !app_assoc.
      apply por_r. { apply tokws_fail; auto using gap_sepw; [now apply freewb_ok|]. intros [X|[X|[]]]; discriminate X. }
      apply por_l. apply kwws_step; auto.
      { apply freew_noblank; [|apply letter_name, ident_name, I]. destruct I as ((c & n' & -> & _) & _). discriminate. }
      eapply pbind_step; [apply ident_iff; split; [reflexivity|split; [auto|now apply sep_no_id]]|reflexivity].
    - unfold AclText.acl_host. cbn [choice fold_right].
      apply por_r. { apply tokws_fail; auto using sep_sepw; [now apply freewb_ok|]. intros [X|[X|[]]]; discriminate X. }
      apply por_r. { apply kwws_fail; auto using sep_sepw; [now apply freewb_ok|discriminate]. }
      apply por_l. eapply pbind_step; [apply kw_ok, (sep_stop _ _ _ OK), S|reflexivity].
    - unfold AclText.acl_host. cbn [choice fold_right].
      apply por_r. { apply tokws_fail; auto using sep_sepw; [now apply freewb_ok|]. intros [X|[X|[]]]; discriminate X. }
      apply por_r. { apply kwws_fail; auto using sep_sepw; [now apply freewb_ok|discriminate]. }
      apply por_r. { apply pbind_fail, any_fail; auto using sep_sepw; [cbn; tauto|now apply freewb_ok|discriminate|].
        intros c n' [= <- <-]. rewrite (alnum_ok _ _ _ OK); reflexivity. }
      apply por_l. eapply pbind_step; [apply kw_ok, (sep_stop _ _ _ OK), S|reflexivity].
    - unfold AclText.acl_host. cbn [choice fold_right].
      apply por_r. { apply tokws_fail; auto using sep_sepw; [now apply freewb_ok|]. intros [X|[X|[]]]; discriminate X. }
      apply por_r. { apply kwws_fail; auto using sep_sepw; [now apply freewb_ok|discriminate]. }
      apply por_r. { apply pbind_fail, any_fail; auto using sep_sepw; [cbn; tauto|now apply freewb_ok|discriminate|].
        intros c n' [= <- <-]. rewrite (alnum_ok _ _ _ OK); reflexivity. }
      apply por_r. { apply pbind_fail, kw_clash. reflexivity. }
      apply por_l. eapply pbind_step; [apply kw_ok, (sep_stop _ _ _ OK), S|reflexivity].
    - unfold AclText.acl_host. cbn [choice fold_right]. rewrite <- !app_assoc.
      apply por_r. { apply tokws_fail; auto using gap_sepw; [now apply freewb_ok|]. intros [X|[X|[]]]; discriminate X. }
      apply por_r. { apply kwws_fail; auto using gap_sepw; [now apply freewb_ok|discriminate]. }
      do 3 (apply por_r; [apply pbind_fail, kw_clash; reflexivity|]).
      apply por_l. assert (K : n <> [] /\ freew n) by (env; eapply name_nonempty; [|exact D]; assumption). destruct K.
      apply kwws_step; auto using freew_noblank. eapply pbind_step; [apply (ref_ok _ _ _ OK); eauto; apply free_white; auto|reflexivity].
    - unfold AclText.acl_host. cbn [choice fold_right]. rewrite <- !app_assoc.
      apply por_r. { apply tokws_fail; auto using gap_sepw; [now apply freewb_ok|]. intros [X|[X|[]]]; discriminate X. }
      apply por_r. { apply kwws_fail; auto using gap_sepw; [now apply freewb_ok|discriminate]. }
      do 3 (apply por_r; [apply pbind_fail, kw_clash; reflexivity|]).
      apply por_r. { apply kwws_fail; auto using gap_sepw; [now apply freewb_ok|discriminate]. }
      apply por_l. assert (K : n <> [] /\ freew n) by (env; eapply name_nonempty; [|exact D]; assumption). destruct K.
      apply kwws_step; auto using freew_noblank. eapply pbind_step; [apply (ref_ok _ _ _ OK); eauto; apply free_white; auto|reflexivity].
    - rewrite <- !app_assoc. rewrite host_plain; auto using gap_sepw; [|eapply ref_plain; eauto].
      cbn [choice fold_right]. apply por_l. unfold named_addr. eapply pbind_step; [apply named_mask_ok; eauto using gap_sep|].
      cbn beta. eapply pbind_step; [apply ws_gap; auto; now apply quad_noblank|]. apply act_ok. exists (mkaddr V4 m).
      split; [apply ip4_ok; auto; now apply sep_no_digit|]. cbn [a_val]. apply network_ok; auto. eapply ref_valid; eauto.
    - rewrite <- !app_assoc. change (u "/" ++ d ++ r) with (47%N :: d ++ r). rewrite host_plain; auto using slash_sepw; [|eapply ref_plain; eauto].
      cbn [choice fold_right]. apply por_r. { apply pbind_fail. eapply named_mask_slash; eauto. }
      apply por_l. unfold named_addr. eapply pbind_step; [apply named_len_ok; eauto|]. cbn beta.
      eapply pbind_step; [apply char_ok; reflexivity|]. apply decimal_text_spec in Dd as (Nd & Fd & Id). apply act_ok. exists d.
      split; [apply int_iff; auto using sep_no_digit|]. rewrite Id. apply network_ok; [eapply ref_valid; eauto|exact Logic.I|auto].
  Qed.

  (** *** Ports *)
  Lemma port_sound s p r : port s = POk p r -> s = p ++ r /\ port_name p.
  Proof using.
    unfold AclText.port. intros H. apply por_sound in H as [H|H].
    - apply named_sound in H as (I & ->). split; [auto|now left].
    - apply bounded_sound in H as (-> & N). split; [auto|now right].
  Qed.
  Lemma code_not_digits : forallb (fun w => negb (forallb AddrText.is_digit w)) port_code = true. Proof using. reflexivity. Qed.
  Lemma number_not_code n : forallb AddrText.is_digit n = true -> ~ In n port_code.
  Proof using. intros F I. pose proof code_not_digits as K. rewrite forallb_forall in K. specialize (K n I). now rewrite F in K. Qed.
  Lemma port_name_free p : port_name p -> p <> [] /\ freew p.
  Proof using.
    clear. intros [I|N].
    - assert (K : forallb (fun w => freewb w && negb (is_empty w)) port_code = true) by reflexivity.
      rewrite forallb_forall in K. specialize (K p I). apply andb_true_iff in K as (K1 & K2). split; [destruct p; discriminate|now apply freewb_ok].
    - apply number_digits in N as (N & F). split; [auto|now apply digits_freew].
  Qed.
  Lemma port_ok p r : port_name p -> sep_start r -> port (p ++ r) = POk p r.
  Proof using OK.
    intros [I|N] S; unfold AclText.port.
    - apply por_l. apply (named_ok _ _ _ OK); auto.
    - apply por_r; [|apply bounded_ok; auto using sep_no_digit]. apply number_digits in N as (N & F).
      apply named_none; auto using sep_sepw, digits_freew. now apply number_not_code.
  Qed.

  Context (py_int : pystr -> option Z)
          (PI1 : forall n, n <> [] -> forallb AddrText.is_digit n = true -> py_int n <> None)
          (PI2 : forall n, In n port_code -> py_int n = None).
  Notation acl_port := (acl_port isalpha isalnum py_int E).
  Lemma range_spec a b x : port_name a -> port_name b ->
    port_range py_int (Some a) (Some b) = Ok x <-> x = PRange (Some a) (Some b) /\ range_allowed a b.
  Proof using PI1 PI2.
    intros A B. unfold port_range, range_allowed.
    assert (K : forall a, port_name a -> py_int a = None <-> In a port_code).
    { clear A B a b. intros a [I|N]; split; auto. intros P. exfalso. apply number_digits in N as (N & F). now apply (PI1 a). }
    apply K in A, B. destruct (py_int a) as [z|] eqn:Pa.
    - destruct (py_int b) as [z'|] eqn:Pb.
      + destruct (str_ltb a b) eqn:L.
        * split; [intros [= <-]; auto|]. intros (-> & _). reflexivity.
        * split; [discriminate|]. intros (_ & [I|[I|I]]); [apply A in I|apply B in I|]; congruence.
      + split; [intros [= <-]|intros (-> & _); auto]. split; [auto|]. right. left. now apply B.
    - split; [intros [= <-]|intros (-> & _); auto]. split; [auto|]. left. now apply A.
  Qed.
  Lemma acl_port_sound s p r : acl_port s = POk (inr p) r -> exists t, s = t ++ r /\ port_text p t.
  Proof using OK HE PI1 PI2.
    unfold AclText.acl_port, choice. cbn [fold_right]. intros H.
    repeat (apply por_sound in H as [H|H]; [pinv H|]).
    - apply ret_ok in H as ([=] & _).
    - apply ret_ok in H as ([= <-] & ->). apply kw_sound in P as ->. apply ws_sound in P0 as (g & -> & G).
      apply (ref_sound _ _ _ OK) in P1 as (n & -> & D); [|apply free_white; auto].
      exists (u "object-group" ++ g ++ n). split; [now rewrite <- !app_assoc|now constructor].
    - apply ret_ok in H as ([= <-] & ->). apply tokens_sound in P as (I & -> & _). apply ws_sound in P0 as (g & -> & G).
      apply port_sound in P1 as (-> & N). exists (a ++ g ++ a1). split; [now rewrite <- !app_assoc|]. constructor; auto.
      destruct I as [<-|[<-|[<-|[<-|[]]]]]; eexists; (split; [|reflexivity]); cbn; auto.
    - apply kw_sound in P as ->. apply ws_sound in P0 as (g & -> & G). apply port_sound in P1 as (-> & N).
      apply ws_sound in P2 as (g' & -> & G'). apply port_sound in P3 as (-> & N').
      destruct (port_range py_int (Some a1) (Some a3)) as [x|] eqn:R; [|discriminate]. injection H as -> ->.
      apply range_spec in R as (-> & A); auto. exists (u "range" ++ g ++ a1 ++ g' ++ a3). split; [now rewrite <- !app_assoc|now constructor].
    - discriminate H.
  Qed.
  Definition port_words : list pystr := map u ["object-group"; "gt"; "lt"; "eq"; "neq"; "range"]%string.
  Lemma acl_port_word n r : freew n -> sepw r -> ~ In n port_words -> acl_port (n ++ r) = PFail.
  Proof using.
    intros F S N. unfold AclText.acl_port. cbn [choice fold_right].
    assert (M : forall w, In (u w) port_words -> n <> u w) by (intros w I X; apply N; now rewrite X).
    apply por_r. { apply kwws_fail; auto. apply M. now left. }
    apply por_r. { apply kwws_fail; auto. apply M. now left. }
    apply por_r. { apply tokws_fail; auto. intros I. apply N. right. destruct I as [I|[I|[I|[I|[]]]]]; rewrite <- I; cbn; tauto. }
    apply por_r. { apply (kwws_fail isalpha isalnum "range"); auto. apply M. cbn. tauto. }
    reflexivity.
  Qed.
  Lemma acl_port_ok p t r : port_text p t -> sep_start r -> acl_port (t ++ r) = POk (inr p) r.
  Proof using OK HE PI1 PI2.
    intros H S. unfold AclText.acl_port. cbn [choice fold_right]. destruct H as [g n x G D|w g p W G N|g a g' b G G' A B R]; rewrite <- !app_assoc.
    - assert (K : n <> [] /\ freew n) by (env; eapply name_nonempty; [|exact D]; assumption). destruct K as (Nn & Fn).
      apply por_r. { apply kwws_step; auto using freew_noblank. apply pbind_fail, (ref_none _ _ _ OK); auto using sep_sepw.
        left. env. eapply no_common_get'; [|exact D]; assumption. }
      apply por_l. apply kwws_step; auto using freew_noblank. eapply pbind_step; [apply (ref_ok _ _ _ OK); eauto; apply free_white; auto|reflexivity].
    - destruct (port_name_free _ N) as (Np & Fp). destruct W as (v & V & ->).
      assert (X : freewb (u v) = true /\ u v <> u "object-group") by (cbn in V; destruct V as [<-|[<-|[<-|[<-|[]]]]]; split; try reflexivity; discriminate).
      destruct X as (X1 & X2). apply freewb_ok in X1.
      apply por_r. { apply kwws_fail; auto using gap_sepw. }
      apply por_r. { apply kwws_fail; auto using gap_sepw. }
      apply por_l. apply tokws_step; auto using freew_noblank.
      { cbn in V; destruct V as [<-|[<-|[<-|[<-|[]]]]]; cbn; tauto. }
      eapply pbind_step; [apply port_ok; auto|reflexivity].
    - destruct (port_name_free _ A) as (Na & Fa). destruct (port_name_free _ B) as (Nb & Fb).
      do 2 (apply por_r; [apply kwws_fail; auto using gap_sepw; [now apply freewb_ok|discriminate]|]).
      apply por_r. { apply tokws_fail; auto using gap_sepw; [now apply freewb_ok|]. intros [X|[X|[X|[X|[]]]]]; discriminate X. }
      apply por_l. apply kwws_step; auto using freew_noblank. eapply pbind_step; [apply port_ok; auto using gap_sep|].
      eapply pbind_step; [apply ws_gap; auto using freew_noblank|]. eapply pbind_step; [apply port_ok; auto|]. cbn beta.
      now rewrite (proj2 (range_spec a b _ A B) (conj eq_refl R)).
  Qed.

  (** *** Hosts are no ports and ports no hosts *)
  Lemma res_port_words n : plain n -> ~ In n port_words.
  Proof using. intros (_ & N & _) I. apply N. unfold port_words in I. apply in_map_iff in I as (w & <- & I). apply in_map. cbn in *. tauto. Qed.
  Lemma host_no_port h t r : host_text h t -> sep_start r -> acl_port (t ++ r) = PFail.
  Proof using OK HE.
    intros H S. destruct H as [w g a x t W G R|g n G I| | | |g n o G D|g n x G D|a x t g m n R G L Nn|a x t d p n R Dd Nn]; rewrite <- ?app_assoc.
    - destruct W as (v & V & ->). apply acl_port_word; auto using gap_sepw.
      + apply freewb_ok. cbn in V; destruct V as [<-|[<-|[]]]; reflexivity.
      + cbn in V; destruct V as [<-|[<-|[]]]; intros [X|[X|[X|[X|[X|[X|[]]]]]]]; discriminate X.
    - apply acl_port_word; auto using gap_sepw; [now apply freewb_ok|]. intros [X|[X|[X|[X|[X|[X|[]]]]]]]; discriminate X.
    - apply acl_port_word; auto using sep_sepw; [now apply freewb_ok|]. intros [X|[X|[X|[X|[X|[X|[]]]]]]]; discriminate X.
    - apply acl_port_word; auto using sep_sepw; [now apply freewb_ok|]. intros [X|[X|[X|[X|[X|[X|[]]]]]]]; discriminate X.
    - apply acl_port_word; auto using sep_sepw; [now apply freewb_ok|]. intros [X|[X|[X|[X|[X|[X|[]]]]]]]; discriminate X.
    - apply acl_port_word; auto using gap_sepw; [now apply freewb_ok|]. intros [X|[X|[X|[X|[X|[X|[]]]]]]]; discriminate X.
    - assert (K : n <> [] /\ freew n) by (env; eapply name_nonempty; [|exact D]; assumption). destruct K as (Nn & Fn).
      unfold AclText.acl_port. cbn [choice fold_right].
      apply por_r. { apply kwws_step; auto using freew_noblank. apply pbind_fail, (ref_none _ _ _ OK); auto using sep_sepw.
        left. env. eapply no_common_get; [|exact D]; assumption. }
      apply por_r. { apply kwws_step; auto using freew_noblank. apply pbind_fail, (ref_none _ _ _ OK); auto using sep_sepw.
        left. env. eapply no_common_get; [|exact D]; assumption. }
      apply por_r. { apply tokws_fail; auto using gap_sepw; [now apply freewb_ok|]. intros [X|[X|[X|[X|[]]]]]; discriminate X. }
      apply por_r. { apply (kwws_fail isalpha isalnum "range"); auto using gap_sepw; [now apply freewb_ok|discriminate]. }
      reflexivity.
    - apply acl_port_word; auto using gap_sepw; [eapply ref_free; eauto|]. eapply res_port_words, ref_plain; eauto.
    - change (u "/" ++ d ++ r) with (47%N :: d ++ r). apply acl_port_word; auto using slash_sepw; [eapply ref_free; eauto|]. eapply res_port_words, ref_plain; eauto.
  Qed.
  Lemma name_res w : In w reserved -> dget (e_names E) (u w) = None.
  Proof using HE.
    intros I. destruct (dget (e_names E) (u w)) as [x|] eqn:D; [|auto]. apply names_ok in D as (_ & D & _). now destruct (D w I).
  Qed.
  Lemma word_no_host w g r : In w reserved -> freew (u w) -> gap g -> ~ starts AddrText.is_digit (u w ++ g ++ r) ->
    ip6 (u w ++ g ++ r) = PFail -> choice [alt_mask; alt_len] (u w ++ g ++ r) = PFail.
  Proof using OK HE.
    intros I F G N H6. cbn [choice fold_right].
    apply por_r. { unfold named_addr. apply pbind_fail, por_r; apply pbind_fail; [|now apply ip4_nodigit].
      apply (ref_none _ _ _ OK); auto using gap_sepw. left. now apply name_res. }
    apply por_r; [|reflexivity]. unfold named_addr. apply pbind_fail, por_r; apply pbind_fail; [|exact H6].
    apply (slash_none _ _ _ OK); auto using gap_sepw. left. now apply name_res.
  Qed.
  Lemma ip6_word h x s r : forallb is_hex h = true -> is_hex x = false -> x <> colon -> ip6 ((h ++ x :: s) ++ r) = PFail.
  Proof using. intros. rewrite <- app_assoc. cbn [app]. now apply ip6_nohex. Qed.
  Lemma op_no_host v g r : In v ["gt"; "lt"; "eq"; "neq"; "range"]%string -> gap g -> acl_host (u v ++ g ++ r) = PFail.
  Proof using OK HE.
    intros V G. unfold AclText.acl_host. cbn [choice fold_right].
    assert (F : freew (u v)) by (apply freewb_ok; cbn in V; destruct V as [<-|[<-|[<-|[<-|[<-|[]]]]]]; reflexivity).
    assert (D : ~ starts AddrText.is_digit (u v ++ g ++ r)) by (cbn in V; destruct V as [<-|[<-|[<-|[<-|[<-|[]]]]]]; apply nostart; reflexivity).
    apply por_r. { apply tokws_fail; auto using gap_sepw. cbn in V; destruct V as [<-|[<-|[<-|[<-|[<-|[]]]]]]; intros [X|[X|[]]]; discriminate X. }
    apply por_r. { apply kwws_fail; auto using gap_sepw. cbn in V; destruct V as [<-|[<-|[<-|[<-|[<-|[]]]]]]; discriminate. }
    do 3 (apply por_r; [apply pbind_fail, kw_clash; cbn in V; destruct V as [<-|[<-|[<-|[<-|[<-|[]]]]]]; reflexivity|]).
    do 2 (apply por_r; [apply kwws_fail; auto using gap_sepw; cbn in V; destruct V as [<-|[<-|[<-|[<-|[<-|[]]]]]]; discriminate|]).
    apply (word_no_host v g r); auto; [cbn in *; tauto|].
    cbn in V. destruct V as [<-|[<-|[<-|[<-|[<-|[]]]]]].
    - apply (ip6_word [] 103%N (u "t")); [auto|auto|discriminate].
    - apply (ip6_word [] 108%N (u "t")); [auto|auto|discriminate].
    - apply (ip6_word [101%N] 113%N []); [auto|auto|discriminate].
    - apply (ip6_word [] 110%N (u "eq")); [auto|auto|discriminate].
    - apply (ip6_word [] 114%N (u "ange")); [auto|auto|discriminate].
  Qed.
  Lemma port_no_host p t r : port_text p t -> sep_start r -> acl_host (t ++ r) = PFail.
  Proof using OK HE.
    intros H S. destruct H as [g n x G D|w g p W G N|g a g' b G G' A B R]; rewrite <- !app_assoc.
    - assert (K : n <> [] /\ freew n) by (env; eapply name_nonempty; [|exact D]; assumption). destruct K as (Nn & Fn).
      unfold AclText.acl_host. cbn [choice fold_right].
      apply por_r. { apply tokws_fail; auto using gap_sepw; [now apply freewb_ok|]. intros [X|[X|[]]]; discriminate X. }
      apply por_r. { apply kwws_fail; auto using gap_sepw; [now apply freewb_ok|discriminate]. }
      do 3 (apply por_r; [apply pbind_fail, kw_clash; reflexivity|]).
      apply por_r. { apply kwws_fail; auto using gap_sepw; [now apply freewb_ok|discriminate]. }
      apply por_r. { apply kwws_step; auto using freew_noblank. apply pbind_fail, (ref_none _ _ _ OK); auto using sep_sepw.
        left. env. eapply no_common_get'; [|exact D]; assumption. }
      apply (word_no_host "object-group" g (n ++ r)); [cbn; tauto|now apply freewb_ok|exact G|apply nostart; reflexivity|].
      apply (ip6_word [] 111%N (u "bject-group") (g ++ n ++ r)); [auto|auto|discriminate].
    - destruct W as (v & V & ->). apply op_no_host; auto. cbn in *. tauto.
    - apply op_no_host; auto. cbn. tauto.
  Qed.

  (** *** What may follow the destination: options and the end of the line *)
  Definition tail_words : list pystr := [] :: map u ["log"; "time-range"; "inactive";
    "precedence"; "dscp"; "tos"; "fragments"; "log-input"; "established"; "dest-option-type"; "flow-label"; "mobility"; "routing"]%string.
  Ltac tailw I := unfold tail_words in I; cbn [map In] in I; repeat match type of I with _ \/ _ => destruct I as [<-|I] | False => destruct I end.
  Definition tail_start (r : pystr) : Prop :=
    sep_start r /\ (starts is_blank r -> exists g n r', gap g /\ r = g ++ n ++ r' /\ sepw r' /\ In n tail_words /\ ~ starts is_blank (n ++ r')).
  Lemma tail_freew n : In n tail_words -> freew n.
  Proof using. intros I. tailw I; now apply freewb_ok. Qed.
  Lemma then_ws_fail {A} (p : parser A) r : ~ starts is_blank r -> then_ ws p r = PFail.
  Proof using. intros N. unfold then_. apply pbind_fail. now apply ws_fail. Qed.
  Lemma then_ws_step {A} (p : parser A) g r x : gap g -> ~ starts is_blank r -> p r = x -> then_ ws p (g ++ r) = x.
  Proof using. intros G N H. unfold then_. eapply pbind_step; [now apply ws_gap|auto]. Qed.
  Lemma blank_dec r : starts is_blank r \/ ~ starts is_blank r.
  Proof using. destruct r as [|c r]; [right; intros (c & s & [=] & _)|]. rewrite starts_cons. destruct (is_blank c); [now left|right; discriminate]. Qed.
  Lemma tail_no_port r : tail_start r -> then_ ws acl_port r = PFail.
  Proof using.
    intros (_ & T). destruct (blank_dec r) as [B|B]; [|now apply then_ws_fail]. destruct (T B) as (g & n & r' & G & -> & S & I & N).
    apply then_ws_step; auto. apply acl_port_word; auto using tail_freew.
    tailw I; intros [X|[X|[X|[X|[X|[X|[]]]]]]]; discriminate X.
  Qed.

  (** *** node *)
  Notation node := (node isalpha isalnum py_int E).
  Notation icmp_node := (icmp_node isalpha isalnum E).
  Notation node_text := (node_text E).
  Notation icmp_text := (icmp_text E).
  Lemma host_start h t r : host_text h t -> sep_start r -> ~ starts is_blank (t ++ r).
  Proof using HE.
    intros H S. destruct H as [w g a x t W G R|g n G I| | | |g n o G D|g n x G D|a x t g m n R G L Nn|a x t d p n R Dd Nn]; rewrite <- ?app_assoc.
    - destruct W as (v & V & ->). apply nostart. cbn in V; destruct V as [<-|[<-|[]]]; reflexivity.
    - now apply nostart. - now apply nostart. - now apply nostart. - now apply nostart. - now apply nostart. - now apply nostart.
    - destruct (ref_free _ _ _ _ R). now apply freew_noblank.
    - destruct (ref_free _ _ _ _ R). now apply freew_noblank.
  Qed.
  Lemma port_start p t r : port_text p t -> ~ starts is_blank (t ++ r).
  Proof using.
    intros H. destruct H as [g n x G D|w g p W G N|g a g' b G G' A B R]; rewrite <- !app_assoc.
    - now apply nostart.
    - destruct W as (v & V & ->). apply nostart. cbn in V; destruct V as [<-|[<-|[<-|[<-|[]]]]]; reflexivity.
    - now apply nostart.
  Qed.
  Lemma node_start x t r : node_text x t -> sep_start r -> ~ starts is_blank (t ++ r).
  Proof using HE.
    intros [h t' H|h t' g p t2 H G P] S; [eapply host_start; eauto|]. rewrite <- !app_assoc. eapply host_start; eauto using gap_sep.
  Qed.
  Lemma node_sound s x r : node s = POk x r -> exists t, s = t ++ r /\ node_text x t.
  Proof using OK HE PI1 PI2.
    unfold AclText.node. rewrite act_ok. intros ((h & p) & H & A). pinv H. apply ret_ok in H as ([= <- <-] & ->).
    apply host_sound in P as (t & -> & T). cbn [fst snd] in A. apply popt_ok in P0 as [(q & -> & Q)|(-> & -> & _)].
    - unfold then_ in Q. pinv Q. apply ws_sound in P as (g & -> & G). destruct q as [q|q]; [discriminate A|]. injection A as <-.
      apply acl_port_sound in Q as (t' & -> & T'). exists (t ++ g ++ t'). split; [now rewrite <- !app_assoc|now constructor].
    - injection A as <-. exists t. split; [auto|now constructor].
  Qed.
  Lemma node_ok x t r : node_text x t -> sep_start r -> (then_ ws acl_port r = PFail) -> node (t ++ r) = POk x r.
  Proof using OK HE PI1 PI2.
    intros H S F. unfold AclText.node. rewrite act_ok. destruct H as [h t H|h t g p t2 H G P].
    - exists (h, None). split; [|reflexivity]. eapply pbind_step; [apply host_ok; eauto|].
      eapply pbind_step; [apply popt_none; auto|reflexivity].
    - exists (h, Some (inr p)). split; [|reflexivity]. rewrite <- !app_assoc. eapply pbind_step; [apply host_ok; eauto using gap_sep|].
      eapply pbind_step; [|reflexivity]. apply popt_some. apply then_ws_step; [auto|eapply port_start; eauto|]. now apply acl_port_ok.
  Qed.
  Lemma node_no_port x t r : node_text x t -> sep_start r -> acl_port (t ++ r) = PFail.
  Proof using OK HE.
    intros [h t' H|h t' g p t2 H G P] S; [eapply host_no_port; eauto|]. rewrite <- !app_assoc. eapply host_no_port; eauto using gap_sep.
  Qed.
  Lemma icmp_node_sound s x r : icmp_node s = POk x r -> exists h t, x = mkanode h None /\ s = t ++ r /\ host_text h t.
  Proof using OK HE. unfold AclText.icmp_node. intros H. pinv H. apply ret_ok in H as (<- & ->). apply host_sound in P as (t & -> & T). eauto. Qed.
  Lemma icmp_node_ok h t r : host_text h t -> sep_start r -> icmp_node (t ++ r) = POk (mkanode h None) r.
  Proof using OK HE. intros H S. unfold AclText.icmp_node. eapply pbind_step; [apply host_ok; eauto|reflexivity]. Qed.

  (** *** ICMP types *)
  Notation icmp_options := (acl_icmp_options isalpha isalnum E).
  Lemma icmp_type_sound s p r : icmp_type s = POk p r -> s = p ++ r /\ icmp_name p.
  Proof using.
    unfold AclText.icmp_type. intros H. apply por_sound in H as [H|H].
    - apply named_sound in H as (I & ->). split; [auto|now left].
    - apply bounded_sound in H as (-> & N). split; [auto|now right].
  Qed.
  Lemma icmp_name_free p : icmp_name p -> p <> [] /\ freew p /\ p <> u "object-group".
  Proof using.
    clear. intros [I|N].
    - assert (K : forallb (fun w => freewb w && negb (is_empty w) && negb (str_eqb w (u "object-group"))) icmp_type_names = true) by reflexivity.
      rewrite forallb_forall in K. specialize (K p I). rewrite !andb_true_iff in K. destruct K as ((K1 & K2) & K3). split; [destruct p; discriminate|].
      split; [now apply freewb_ok|]. intros ->. discriminate K3.
    - apply number_digits in N as (N & F). split; [auto|]. split; [now apply digits_freew|]. intros ->. discriminate F.
  Qed.
  Lemma icmp_type_ok p r : icmp_name p -> sep_start r -> icmp_type (p ++ r) = POk p r.
  Proof using OK.
    intros [I|N] S; unfold AclText.icmp_type.
    - apply por_l. apply (named_ok _ _ _ OK); auto.
    - apply por_r; [|apply bounded_ok; auto using sep_no_digit]. apply number_digits in N as (N & F).
      apply named_none; auto using sep_sepw, digits_freew. intros I.
      assert (K : forallb (fun w => negb (forallb AddrText.is_digit w)) icmp_type_names = true) by reflexivity.
      rewrite forallb_forall in K. specialize (K p I). now rewrite F in K.
  Qed.
  Lemma icmp_options_sound s x r : icmp_options s = POk x r -> exists t, s = t ++ r /\ icmp_text x t.
  Proof using OK HE.
    unfold AclText.acl_icmp_options, choice. cbn [fold_right]. intros H.
    apply por_sound in H as [H|H]; [pinv H|apply por_sound in H as [H|H]; [pinv H|apply por_sound in H as [H|H]]].
    - apply ret_ok in H as (<- & ->). apply ws_sound in P as (g & -> & G). apply kw_sound in P0 as ->. apply ws_sound in P1 as (g' & -> & G').
      apply (ref_sound _ _ _ OK) in P2 as (n & -> & D); [|apply free_white; auto].
      exists (g ++ u "object-group" ++ g' ++ n). split; [now rewrite <- !app_assoc|now constructor].
    - apply ret_ok in H as (<- & ->). apply ws_sound in P as (g & -> & G). apply icmp_type_sound in P0 as (-> & N).
      apply popt_ok in P1 as [(c & -> & Q)|(-> & -> & _)].
      + unfold then_ in Q. pinv Q. apply ws_sound in P as (g' & -> & G'). apply bounded_sound in Q as (-> & C).
        exists (g ++ a0 ++ g' ++ c). split; [now rewrite <- !app_assoc|now constructor].
      + exists (g ++ a0). split; [now rewrite <- !app_assoc|now constructor].
    - apply ret_ok in H as (<- & ->). exists []. split; [auto|constructor].
    - discriminate H.
  Qed.
  Lemma icmp_type_word n r : freew n -> sepw r -> ~ In n icmp_type_names -> ~ starts AddrText.is_digit (n ++ r) -> icmp_type (n ++ r) = PFail.
  Proof using.
    intros F S N D. unfold AclText.icmp_type. apply por_r; [apply named_none; auto|]. apply act_fail. now apply int_fail.
  Qed.
  Lemma kwws_nonword {A} w (k : parser A) n r : freew n -> freewb (u w) = true -> sepw r -> n <> u w ->
    (let% _ := kw w in let% _ := ws in k) (n ++ r) = PFail.
  Proof using. apply kwws_fail. Qed.
  Lemma icmp_none_word g n r : gap g -> freew n -> sepw r -> ~ In n icmp_type_names -> n <> u "object-group" ->
    ~ starts AddrText.is_digit (n ++ r) -> ~ starts is_blank (n ++ r) -> icmp_options (g ++ n ++ r) = POk None (g ++ n ++ r).
  Proof using.
    intros G F S N O D B. unfold AclText.acl_icmp_options, choice. cbn [fold_right].
    apply por_r. { eapply pbind_step; [now apply ws_gap|]. apply kwws_fail; auto. }
    apply por_r. { eapply pbind_step; [now apply ws_gap|]. apply pbind_fail. now apply icmp_type_word. }
    apply por_l. reflexivity.
  Qed.
  Lemma icmp_none_nogap r : ~ starts is_blank r -> icmp_options r = POk None r.
  Proof using.
    intros N. unfold AclText.acl_icmp_options, choice. cbn [fold_right].
    apply por_r. { apply pbind_fail. now apply ws_fail. }
    apply por_r. { apply pbind_fail. now apply ws_fail. }
    apply por_l. reflexivity.
  Qed.
  Lemma sepw_nodigit r : sepw r -> ~ starts AddrText.is_digit r.
  Proof using. intros (c & r' & -> & C). rewrite starts_cons. unfold cls, in_class in C. cbn in C. destruct C as [<-|[<-|[<-|[<-|[<-|[]]]]]]; discriminate. Qed.
  Lemma tail_no_icmp r : tail_start r -> icmp_options r = POk None r.
  Proof using.
    intros (_ & T). destruct (blank_dec r) as [B|B]; [|now apply icmp_none_nogap]. destruct (T B) as (g & n & r' & G & -> & S & I & N).
    apply icmp_none_word; auto using tail_freew.
    - intros J. assert (K : forallb (fun w => negb (existsb (str_eqb w) tail_words)) icmp_type_names = true) by reflexivity.
      rewrite forallb_forall in K. specialize (K n J). tailw I; discriminate K.
    - tailw I; discriminate.
    - tailw I; [now apply sepw_nodigit|now apply nostart..].
  Qed.
  Lemma tail_no_code r : tail_start r -> then_ ws (icmp_code) r = PFail.
  Proof using.
    intros (_ & T). destruct (blank_dec r) as [B|B]; [|now apply then_ws_fail]. destruct (T B) as (g & n & r' & G & -> & S & I & N).
    apply then_ws_step; auto. unfold icmp_code. apply act_fail, int_fail.
    tailw I; [now apply sepw_nodigit|now apply nostart..].
  Qed.
  Lemma icmp_options_ok x t r : icmp_text x t -> tail_start r -> icmp_options (t ++ r) = POk x r.
  Proof using OK HE.
    intros H T. destruct H as [|g g' n x G G' D|g t G N|g t g' c G N G' C]; [now apply tail_no_icmp| | |]; rewrite <- ?app_assoc;
      unfold AclText.acl_icmp_options, choice; cbn [fold_right].
    - assert (K : n <> [] /\ freew n) by (env; eapply name_nonempty; [|exact D]; assumption). destruct K as (Nn & Fn).
      apply por_l. eapply pbind_step; [apply ws_gap; auto; now apply nostart|]. apply kwws_step; auto using freew_noblank.
      eapply pbind_step; [apply (ref_ok _ _ _ OK); eauto; [apply free_white; auto|apply T]|reflexivity].
    - destruct (icmp_name_free _ N) as (Nt & Ft & Ot).
      apply por_r. { eapply pbind_step; [apply ws_gap; auto using freew_noblank|]. apply kwws_fail; auto. apply sep_sepw, T. }
      apply por_l. eapply pbind_step; [apply ws_gap; auto using freew_noblank|]. eapply pbind_step; [apply icmp_type_ok; auto; apply T|].
      eapply pbind_step; [apply popt_none; now apply tail_no_code|reflexivity].
    - destruct (icmp_name_free _ N) as (Nt & Ft & Ot). destruct (number_digits _ _ C) as (Nc & Fc).
      apply por_r. { eapply pbind_step; [apply ws_gap; auto using freew_noblank|]. apply kwws_fail; auto using gap_sepw. }
      apply por_l. eapply pbind_step; [apply ws_gap; auto using freew_noblank|]. eapply pbind_step; [apply icmp_type_ok; auto using gap_sep|].
      eapply pbind_step; [apply popt_some; apply then_ws_step; [auto|apply freew_noblank; auto using digits_freew|]|reflexivity].
      unfold icmp_code, icmp_code_int. apply bounded_ok; auto. apply sep_no_digit, T.
  Qed.
  (** Ports are no ICMP types. *)
  Lemma port_no_icmp g p t r : gap g -> port_text p t -> sep_start r -> icmp_options (g ++ t ++ r) = POk None (g ++ t ++ r).
  Proof using OK HE.
    intros G0 H S. destruct H as [g1 n x G D|w g1 p W G N|g1 a g' b G G' A B R]; rewrite <- ?app_assoc.
    - assert (K : n <> [] /\ freew n) by (env; eapply name_nonempty; [|exact D]; assumption). destruct K as (Nn & Fn).
      unfold AclText.acl_icmp_options, choice; cbn [fold_right].
      apply por_r. { eapply pbind_step; [apply ws_gap; auto; now apply nostart|]. apply kwws_step; auto using freew_noblank.
        apply pbind_fail, (ref_none _ _ _ OK); auto using sep_sepw. left. env. eapply no_common_get'; [|exact D]; assumption. }
      apply por_r. { eapply pbind_step; [apply ws_gap; auto; now apply nostart|]. apply pbind_fail.
        apply icmp_type_word; auto using gap_sepw; [now apply freewb_ok| |now apply nostart]. intros J. exact (proj2 (proj2 (icmp_name_free _ (or_introl J))) eq_refl). }
      apply por_l. reflexivity.
    - destruct W as (v & V & ->).
      apply icmp_none_word; auto using gap_sepw; cbn in V; destruct V as [<-|[<-|[<-|[<-|[]]]]];
        try (now apply nostart); try discriminate; try (now apply freewb_ok);
        intros J; (assert (K : forallb (fun w => negb (existsb (str_eqb w) port_words)) icmp_type_names = true) by reflexivity);
        rewrite forallb_forall in K; specialize (K _ J); discriminate K.
    - apply icmp_none_word; auto using gap_sepw; try (now apply nostart); try discriminate; try (now apply freewb_ok).
      intros J; (assert (K : forallb (fun w => negb (existsb (str_eqb w) port_words)) icmp_type_names = true) by reflexivity);
        rewrite forallb_forall in K; specialize (K _ J); discriminate K.
  Qed.

  (** *** Protocols *)
  Notation acl_protocol := (acl_protocol isalpha isalnum E).
  Notation proto_text := (proto_text E).
  Lemma proto_sound s x r : acl_protocol s = POk x r -> exists t, s = t ++ r /\ proto_text x t.
  Proof using OK HE.
    unfold AclText.acl_protocol, choice. cbn [fold_right]. intros H.
    apply por_sound in H as [H|H]; [pinv H|apply por_sound in H as [H|H]; [pinv H|apply por_sound in H as [H|H]; [pinv H|]]].
    - apply kw_sound in P as ->. apply ws_sound in P0 as (g & -> & G).
      apply por_sound in H as [H|H]; pinv H; apply ret_ok in H as (<- & ->);
        (apply (ref_sound _ _ _ OK) in P as (n & -> & D); [|apply free_white; auto]);
        exists (u "object-group" ++ g ++ n); (split; [now rewrite <- !app_assoc|now constructor]).
    - apply kw_sound in P as ->. apply ws_sound in P0 as (g & -> & G). apply ret_ok in H as (<- & ->).
      apply (ref_sound _ _ _ OK) in P1 as (n & -> & D); [|apply free_white; auto].
      exists (u "object" ++ g ++ n); (split; [now rewrite <- !app_assoc|now constructor]).
    - apply ret_ok in H as (<- & ->). apply por_sound in P as [P|P].
      + apply tokens_sound in P as (I & -> & _). exists a. split; [auto|]. constructor. now left.
      + apply bounded_sound in P as (-> & N). exists a. split; [auto|]. constructor. now right.
    - discriminate H.
  Qed.
  Lemma proto_start x t r : proto_text x t -> ~ starts is_blank (t ++ r).
  Proof using.
    intros [p [I|N]|g n o G D|g n y G D|g n y G D]; rewrite <- ?app_assoc; try (now apply nostart).
    - assert (K : forallb (fun w => match w with c :: _ => negb (is_blank c) | [] => false end) protocol_codes = true) by reflexivity.
      rewrite forallb_forall in K. specialize (K p I). apply nostart. destruct p; [discriminate|]. now apply negb_true_iff.
    - apply number_digits in N as (N & F). apply freew_noblank; auto using digits_freew.
  Qed.
  Lemma proto_ok x t r : proto_text x t -> sep_start r -> acl_protocol (t ++ r) = POk x r.
  Proof using OK HE.
    intros H S. unfold AclText.acl_protocol, choice. cbn [fold_right].
    destruct H as [p I|g n o G D|g n y G D|g n y G D]; rewrite <- ?app_assoc.
    - assert (F : freew p /\ p <> u "object-group" /\ p <> u "object").
      { destruct I as [I|I].
        - assert (K : forallb (fun w => freewb w && negb (str_eqb w (u "object-group")) && negb (str_eqb w (u "object"))) protocol_codes = true) by reflexivity.
          rewrite forallb_forall in K. specialize (K p I). rewrite !andb_true_iff in K. destruct K as ((K1 & K2) & K3).
          split; [now apply freewb_ok|]. split; intros ->; discriminate.
        - apply number_digits in I as (N & F). split; [now apply digits_freew|]. split; intros ->; discriminate. }
      destruct F as (F & N1 & N2).
      apply por_r. { apply kwws_fail; auto using sep_sepw. }
      apply por_r. { apply kwws_fail; auto using sep_sepw. }
      apply por_l. eapply pbind_step; [|reflexivity]. destruct I as [I|I].
      + apply por_l. apply (tokens_ok _ _ _ OK); auto using sep_sepw.
      + apply por_r; [|apply bounded_ok; auto using sep_no_digit].
        apply number_digits in I as (N & Fd). destruct (tokens protocol_codes (p ++ r)) as [|e|w q] eqn:T; [auto|now apply tokens_noerr in T|exfalso].
        apply tokens_sound in T as (J & T & _).
        assert (K : forallb (fun w => match w with c :: _ => negb (AddrText.is_digit c) | [] => false end) protocol_codes = true) by reflexivity.
        rewrite forallb_forall in K. specialize (K w J). destruct w as [|c w]; [discriminate|]. destruct p as [|d p]; [congruence|].
        injection T as -> _. cbn in Fd. apply andb_true_iff in Fd as (Fd & _). now rewrite Fd in K.
    - assert (K : n <> [] /\ freew n) by (env; eapply name_nonempty; [|exact D]; assumption). destruct K as (Nn & Fn).
      apply por_r. { apply kwws_fail; auto using gap_sepw; [now apply freewb_ok|discriminate]. }
      apply por_l. apply kwws_step; auto using freew_noblank. eapply pbind_step; [apply (ref_ok _ _ _ OK); eauto; apply free_white; auto|reflexivity].
    - assert (K : n <> [] /\ freew n) by (env; eapply name_nonempty; [|exact D]; assumption). destruct K as (Nn & Fn).
      apply por_l. apply kwws_step; auto using freew_noblank. apply por_l.
      eapply pbind_step; [apply (ref_ok _ _ _ OK); eauto; apply free_white; auto|reflexivity].
    - assert (K : n <> [] /\ freew n) by (env; eapply name_nonempty; [|exact D]; assumption). destruct K as (Nn & Fn).
      apply por_l. apply kwws_step; auto using freew_noblank. apply por_r.
      + apply pbind_fail, (ref_none _ _ _ OK); auto using sep_sepw. left. env. eapply no_common_get'; [|exact D]; assumption.
      + eapply pbind_step; [apply (ref_ok _ _ _ OK); eauto; apply free_white; auto|reflexivity].
  Qed.
End Parts.
