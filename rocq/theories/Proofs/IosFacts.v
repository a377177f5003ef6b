(** Facts about the parts of IOS access lists as text. *)
From Coq Require Import Lia String.
From Verif.Model Require Import Base Ip Hosts Groups Iface Peg Ids AddrText Ports AclText IosText.
From Verif.Spec Require Import AddrSpec RefSpec AddrTextSpec CafTextSpec CafMeanSpec AclTextSpec GroupTextSpec ConfigSpec IosTextSpec.
From Verif.Proofs Require Import GroupOps DictFacts MaskFacts PegFacts AddrTextFacts CafTextFacts TokFacts CafMean LineFacts AclTextFacts AclOptFacts.
From Verif.Props Require Import Refs AddrText CafText.
Local Open Scope list_scope.

Ltac tailw I := unfold tail_words in I; cbn [map In] in I; repeat match type of I with _ \/ _ => destruct I as [<-|I] | False => destruct I end.

Lemma gap_shorter g (t r : pystr) : gap g -> length r < length (g ++ t ++ r).
Proof. intros (Ng & _). rewrite !app_length. destruct g; [congruence|]. cbn. lia. Qed.

Lemma nl_not s : (forall z q, eol_text z -> s <> z ++ q) -> nl s = PFail.
Proof.
  intros H. destruct (nl s) as [|e|x r] eqn:E; [reflexivity| |].
  - exfalso. unfold nl, pbind, popt, char in E. destruct s as [|c s]; [discriminate|]. destruct (N.eqb c 13).
    + destruct s as [|d s]; [discriminate|]. destruct (N.eqb d 10); discriminate.
    + destruct (N.eqb c 10); discriminate.
  - exfalso. apply nl_iff in E as (z & Z & X). exact (H z r Z X).
Qed.
Lemma nl_gap g r : gap g -> nl (g ++ r) = PFail.
Proof.
  intros (Ng & Bg). apply nl_not. intros z q Z X. destruct g as [|c g]; [congruence|]. specialize (Bg c (or_introl eq_refl)).
  destruct Z as [-> | ->]; injection X as -> _; destruct Bg; discriminate.
Qed.

(** ** Dictionaries of options *)
Lemma opts_of_snoc l x : opts_of (l ++ [x]) = dset (opts_of l) (fst x) (snd x).
Proof. unfold opts_of. now rewrite fold_left_app. Qed.
Lemma opts_of_table l : table_of_last l (opts_of l).
Proof.
  induction l as [|x l IH] using rev_ind; [apply table_last_nil|]. rewrite opts_of_snoc. destruct x as [n v]. now apply table_last_snoc.
Qed.
Lemma opts_of_iff l d : table_of_last l d <-> d = opts_of l.
Proof. split; [intros T; eapply table_of_last_unique; eauto using opts_of_table|intros ->; apply opts_of_table]. Qed.

(** ** Dotted quads *)
Lemma quad_text_iff t a : quad_text t a <-> exists n, (n < 2 ^ 32)%N /\ t = quad n /\ a = mkaddr V4 n.
Proof.
  destruct a as [v n]. unfold quad_text, address_text. cbn [a_ver a_val]. split.
  - intros (-> & H & ->). exists n. auto.
  - intros (m & L & -> & [= -> ->]). auto.
Qed.
Lemma quad_text_hdc t a : quad_text t a -> forallb is_hexdotcolon t = true /\ t <> [].
Proof. intros (_ & T). eapply address_hdc; eauto. Qed.
Lemma quad_text_free t a : quad_text t a -> t <> [] /\ freew t.
Proof. intros T. destruct (quad_text_hdc _ _ T). split; [auto|now apply hdc_freew]. Qed.
Lemma quad_text_start t a r : quad_text t a -> starts AddrText.is_digit (t ++ r).
Proof. intros T. apply quad_text_iff in T as (n & L & -> & ->). now apply quad_start. Qed.
Lemma quad_text_noblank t a r : quad_text t a -> ~ starts is_blank (t ++ r).
Proof. intros T. destruct (quad_text_free _ _ T). now apply freew_noblank. Qed.
Lemma quad_text_gap t g q a : gap g -> ~ quad_text (t ++ g ++ q) a.
Proof.
  intros (Ng & B) Q. apply quad_text_free in Q as (_ & F). destruct g as [|c g]; [congruence|].
  assert (I : In c (t ++ (c :: g) ++ q)) by (apply in_or_app; right; now left).
  specialize (B c (or_introl eq_refl)). apply (F c I). unfold cls, in_class. cbn. destruct B as [-> | ->]; auto.
Qed.
Lemma ip4_quad t a r : quad_text t a -> ~ starts AddrText.is_digit r -> ip4 (t ++ r) = POk a r.
Proof. intros T N. apply quad_text_iff in T as (n & L & -> & ->). now apply ip4_ok. Qed.
Lemma ip4_sound' s a r : ip4 s = POk a r -> exists t, s = t ++ r /\ quad_text t a.
Proof. intros H. apply ip4_sound in H as (t & -> & V & T). exists t. split; [auto|now split]. Qed.
Lemma quad_valid t a : quad_text t a -> valid a.
Proof. intros (_ & T). eapply address_valid; eauto. Qed.
Lemma quad_free m : (m < 2 ^ 32)%N -> quad m <> [] /\ freew (quad m).
Proof. intros L. apply (quad_text_free _ (mkaddr V4 m)). apply quad_text_iff. exists m. auto. Qed.

(** A network or a wildcard. *)
Lemma wildcard_net a m n : valid a -> (m < 2 ^ 32)%N -> net_of a (MaskQuad m) n -> ios_host (IWildcard a (mkaddr V4 m)) = HLeaf (LNet n).
Proof.
  intros V L N. pose proof (network_ok a None (MaskQuad m) n V L N) as H. unfold network in H. cbn [fst snd] in H. cbn [ios_host a_val].
  destruct (mk_Network a (MaskQuad m)) as [l|e]; [|discriminate H]. cbn in H. now injection H as ->.
Qed.
Lemma wildcard_cases a m : valid a -> (m < 2 ^ 32)%N ->
  (exists n, net_of a (MaskQuad m) n /\ ios_host (IWildcard a (mkaddr V4 m)) = HLeaf (LNet n)) \/
  (forall n, ~ net_of a (MaskQuad m) n) /\ ios_host (IWildcard a (mkaddr V4 m)) = HLeaf (LWild a (mkaddr V4 m)).
Proof.
  intros V L. destruct (mk_Network a (MaskQuad m)) as [l|e] eqn:M.
  - left. pose proof (network_sound (a, None) (MaskQuad m) (mkthost (HLeaf l) None) V L) as H. unfold network in H. cbn [fst snd] in H. rewrite M in H.
    destruct (H eq_refl) as (n & X & N). exists n. split; [exact N|]. cbn [ios_host a_val]. rewrite M. now injection X as ->.
  - right. split; [|cbn [ios_host a_val]; now rewrite M]. intros n N. pose proof (network_ok a None (MaskQuad m) n V L N) as H. unfold network in H. cbn [fst snd] in H.
    rewrite M in H. discriminate H.
Qed.

Section Ios.
  Context (isalpha isalnum isspace : N -> bool) (OK : classes_ok isalpha isalnum isspace).
  Context (py_int : pystr -> option Z)
          (PI1 : forall n, n <> [] -> forallb AddrText.is_digit n = true -> py_int n <> None)
          (PI2 : forall n, In n port_code -> py_int n = None).
  Variables (E : env) (HE : env_ok E).
  Notation kw := (kw isalpha isalnum).
  Notation tokens := (tokens isalpha isalnum).
  Notation acl_port := (acl_port isalpha isalnum py_int E).
  Notation host_ := (host_ isalpha isalnum E).
  Notation host6 := (host6 isalpha isalnum).

  Lemma kw_other w n r : freew (u w) -> sepw r -> strip_prefix (u w) n = None -> kw w (n ++ r) = PFail.
  Proof using.
    clear OK PI1 PI2. intros F S N. unfold AclText.kw, token. apply pbind_fail. destruct (strip_prefix (u w) (n ++ r)) as [q|] eqn:P; [exfalso|reflexivity].
    apply strip_spec in P. revert F N P. generalize (u w) as v. clear w. intros v. revert n. induction v as [|c v IH]; intros n F N P; [discriminate N|].
    destruct n as [|d n].
    - cbn [app] in P. destruct S as (x & r' & -> & X). injection P as -> ->. apply (F c); [now left|exact X].
    - cbn [app] in P. injection P as -> P. cbn [strip_prefix] in N. rewrite N.eqb_refl in N. apply (IH n); auto. intros y Y. apply F. now right.
  Qed.

  (** ** Hosts *)
  Definition alone (t r : pystr) : Prop := (exists a, quad_text t a) -> then_ ws ip4 r = PFail.
  Lemma kw_digit w s : starts AddrText.is_digit s -> match u w with c :: _ => is_digit c = false | [] => False end -> kw w s = PFail.
  Proof using.
    clear OK PI1 PI2. intros D W. unfold AclText.kw, token. apply pbind_fail. destruct (strip_prefix (u w) s) as [q|] eqn:P; [exfalso|reflexivity]. apply strip_spec in P. subst s.
    destruct (u w) as [|c x]; [auto|]. cbn [app] in D. rewrite starts_cons in D. congruence.
  Qed.
  Lemma host_digit s h r : starts AddrText.is_digit s -> host_ s = POk h r -> ip4 s <> PFail.
  Proof using.
    clear OK PI1 PI2. intros D H F. unfold IosText.host_, choice, wildcard_host, bare_host in H. cbn [fold_right] in H. unfold por at 1 2 3 4 5 in H. rewrite !(pbind_fail ip4) in H by auto.
    rewrite !(pbind_fail (kw _)) in H by (now apply kw_digit). discriminate H.
  Qed.
  Lemma host_sound s h r : host_ s = POk h r -> exists t, s = t ++ r /\ ihost_text E h t /\ alone t r.
  Proof using OK HE.
    unfold IosText.host_, choice. cbn [fold_right]. intros H. apply por_ok in H as [H|(N & H)].
    { unfold wildcard_host in H. pinv H. apply ret_ok in H as (<- & ->). apply ip4_sound' in P as (t & -> & T). apply ws_sound in P0 as (g & -> & G). apply ip4_sound' in P1 as (t' & -> & T').
      pose proof (quad_valid _ _ T) as V. apply quad_text_iff in T' as (m & L & -> & ->).
      exists (t ++ g ++ quad m). split; [now rewrite <- !app_assoc|]. split; [|intros (b & Q); now apply quad_text_gap in Q].
      destruct (wildcard_cases a m V L) as [(n & Nn & ->)|(Nn & ->)]; econstructor; eauto. }
    apply por_ok in H as [H|(N' & H)].
    { unfold bare_host in H. pinv H. apply ret_ok in H as (<- & ->). unfold wildcard_host in N. unfold pbind at 1 in N. rewrite P in N. apply ip4_sound' in P as (t & -> & T).
      exists t. split; [auto|]. split; [now constructor|]. intros _. unfold then_, pbind in *. destruct (ws r) as [|e|x s1]; auto; [discriminate N|]. destruct (ip4 s1) as [|e|b s2]; [auto|discriminate N|discriminate N]. }
    apply por_sound in H as [H|H].
    { pinv H. apply ret_ok in H as (<- & ->). apply kw_sound in P as ->. apply ws_sound in P0 as (g & -> & G). apply ip4_sound' in P1 as (t & -> & T).
      exists (u "host" ++ g ++ t). split; [now rewrite <- !app_assoc|]. split; [now constructor|]. intros (b & Q). now apply quad_text_gap in Q. }
    apply por_sound in H as [H|H].
    { pinv H. apply ret_ok in H as (<- & ->). apply kw_sound in P as ->. apply ws_sound in P0 as (g & -> & G).
      apply (ref_sound isalpha isalnum isspace OK) in P1 as (n & -> & D); [|apply free_white; now apply netgrp_free].
      exists (u "object-group" ++ g ++ n). split; [now rewrite <- !app_assoc|]. split; [now constructor|]. intros (b & Q). now apply quad_text_gap in Q. }
    apply por_sound in H as [H|H]; [|discriminate H].
    pinv H. apply ret_ok in H as (<- & ->). apply kw_sound in P as ->. exists (u "any"). split; [auto|]. split; [constructor|].
    intros (b & Q). apply quad_text_start with (r := []) in Q. apply starts_cons in Q. discriminate Q.
  Qed.
  Lemma host_ok h t r : ihost_text E h t -> sep_start r -> alone t r -> host_ (t ++ r) = POk h r.
  Proof using OK HE.
    intros H S A. unfold IosText.host_, choice. cbn [fold_right]. assert (Dr : ~ starts AddrText.is_digit r) by now apply sep_no_digit.
    destruct H as [t a g m n T G L Nn|t a g m T G L Nn|t a T|g t a G T|g n x G D|]; rewrite <- ?app_assoc.
    - apply por_l. unfold wildcard_host. eapply pbind_step; [apply ip4_quad; eauto; now apply sep_no_digit, gap_sep|].
      eapply pbind_step; [apply ws_gap; auto; now apply quad_noblank|]. eapply pbind_step; [apply ip4_ok; auto|]. unfold ret. do 2 f_equal. apply wildcard_net; eauto using quad_valid.
    - apply por_l. unfold wildcard_host. eapply pbind_step; [apply ip4_quad; eauto; now apply sep_no_digit, gap_sep|].
      eapply pbind_step; [apply ws_gap; auto; now apply quad_noblank|]. eapply pbind_step; [apply ip4_ok; auto|]. unfold ret. do 2 f_equal.
      destruct (wildcard_cases a m (quad_valid _ _ T) L) as [(n & N & _)|(_ & K)]; [exfalso; exact (Nn n N)|exact K].
    - assert (I : ip4 (t ++ r) = POk a r) by (apply ip4_quad; auto). apply por_r.
      + unfold wildcard_host. eapply pbind_step; [exact I|]. assert (F : then_ ws ip4 r = PFail) by (apply A; eauto). unfold then_, pbind in *. destruct (ws r) as [|e|x s1]; auto; [discriminate F|].
        now rewrite F.
      + apply por_l. unfold bare_host. eapply pbind_step; [exact I|reflexivity].
    - apply por_r; [apply pbind_fail, ip4_nodigit; now apply nostart|]. apply por_r; [apply pbind_fail, ip4_nodigit; now apply nostart|]. apply por_l.
      apply (kwws_step isalpha isalnum isspace OK); [auto|eapply quad_text_noblank; eauto|]. eapply pbind_step; [apply ip4_quad; eauto|reflexivity].
    - apply por_r; [apply pbind_fail, ip4_nodigit; now apply nostart|]. apply por_r; [apply pbind_fail, ip4_nodigit; now apply nostart|].
      apply por_r; [apply pbind_fail, kw_clash; reflexivity|]. apply por_l.
      assert (K : n <> [] /\ freew n) by (destruct HE as (_ & _ & K & _); eapply name_nonempty; eauto). destruct K.
      apply (kwws_step isalpha isalnum isspace OK); [auto|now apply freew_noblank|].
      eapply pbind_step; [apply (ref_ok isalpha isalnum isspace OK); eauto; apply free_white; now apply netgrp_free|reflexivity].
    - apply por_r; [apply pbind_fail, ip4_nodigit; now apply nostart|]. apply por_r; [apply pbind_fail, ip4_nodigit; now apply nostart|].
      apply por_r; [apply pbind_fail, kw_clash; reflexivity|]. apply por_r; [apply pbind_fail, kw_clash; reflexivity|]. apply por_l.
      eapply pbind_step; [apply kw_ok; eapply sep_stop; eauto|reflexivity].
  Qed.

  (** What follows a host is no address. *)
  Lemma ip4_number n r : n <> [] -> forallb AddrText.is_digit n = true -> sep_start r -> ip4 (n ++ r) = PFail.
  Proof using.
    clear OK PI1 PI2. intros _ F S. unfold ip4. apply act_fail. destruct (ip4_pat (n ++ r)) as [|e|t q] eqn:P; [auto|now apply ip4_pat_noerr in P|].
    apply ip4_pat_spec in P as (X & (a & b & c & d & Oa & _ & _ & _ & -> & _)). exfalso. apply octet_digits in Oa as (_ & Fa). rewrite <- !app_assoc in X. unfold dot in X. cbn [app] in X.
    revert n F X. induction a as [|y a IH]; intros n F X.
    - cbn [app] in X. destruct n as [|z n]; cbn [app] in X.
      + destruct S as (r' & [-> |[-> |[-> | ->]]]); discriminate X.
      + injection X as -> _. discriminate F.
    - destruct n as [|z n].
      + cbn [app] in X. apply sep_no_digit in S. apply S. rewrite X, starts_cons. cbn in Fa. now apply andb_true_iff in Fa.
      + cbn [app] in X. injection X as -> X. cbn in F, Fa. apply andb_true_iff in F as (_ & F). apply andb_true_iff in Fa as (_ & Fa). eapply IH; eauto.
  Qed.
  Lemma tail_no_ip4 r : tail_start r -> then_ ws ip4 r = PFail.
  Proof using.
    clear OK PI1 PI2. intros (_ & T). destruct (blank_dec r) as [B|B]; [|now apply then_ws_fail]. destruct (T B) as (g & n & r' & G & -> & S & I & N).
    apply then_ws_step; auto. apply ip4_nodigit. unfold tail_words in I. cbn [map In] in I.
    repeat match type of I with _ \/ _ => destruct I as [<-|I] | False => destruct I end; [now apply sepw_nodigit|now apply nostart..].
  Qed.
  Lemma icmp_no_ip4 x t r : icmp_text E x t -> tail_start r -> then_ ws ip4 (t ++ r) = PFail.
  Proof using.
    intros H T. assert (K : forall n r, icmp_name n -> sep_start r -> ip4 (n ++ r) = PFail).
    { clear. intros n r [I|I] S; [|apply number_digits in I as (N & F); now apply ip4_number]. apply ip4_nodigit.
      assert (K : forallb (fun w => match w with c :: _ => negb (AddrText.is_digit c) | [] => false end) icmp_type_names = true) by reflexivity.
      rewrite forallb_forall in K. specialize (K n I). destruct n as [|c n]; [discriminate K|]. cbn [app]. rewrite starts_cons. now apply negb_true_iff in K; rewrite K. }
    assert (F : forall n, icmp_name n -> n <> [] /\ freew n) by (intros n I; pose proof (icmp_name_free _ I); tauto).
    destruct H as [|g g' n x G G' D|g n G I|g n g' c G I G' C]; [now apply tail_no_ip4| | |]; rewrite <- !app_assoc.
    - apply then_ws_step; [auto|now apply nostart|]. apply ip4_nodigit. now apply nostart.
    - destruct (F n I). apply then_ws_step; [auto|now apply freew_noblank|]. apply K; [auto|apply T].
    - destruct (F n I). apply then_ws_step; [auto|now apply freew_noblank|]. apply K; [auto|now apply gap_sep].
  Qed.
  Lemma port_no_ip4 g p t r : gap g -> port_text E p t -> then_ ws ip4 (g ++ t ++ r) = PFail.
  Proof using.
    clear OK PI1 PI2. intros G P. apply then_ws_step; [auto|eapply port_start; eauto|]. apply ip4_nodigit. destruct P as [g1 n x G1 D|w g1 p W G1 N|g1 a g' b G1 G' A B R]; rewrite <- ?app_assoc.
    - now apply nostart.
    - destruct W as (v & V & ->). apply nostart. cbn in V; destruct V as [<-|[<-|[<-|[<-|[]]]]]; reflexivity.
    - now apply nostart.
  Qed.
  Lemma opens_digit_starts t r : t <> [] -> ~ opens_digit t -> ~ starts AddrText.is_digit (t ++ r).
  Proof using.
    clear OK PI1 PI2. intros N O S. destruct t as [|c t]; [congruence|]. cbn [app] in S. rewrite starts_cons in S. apply O. exists c, t. split; [auto|]. now apply is_digit_spec.
  Qed.
  Lemma apart_alone s g d r : gap g -> d <> [] -> ~ starts is_blank (d ++ r) -> apart s d -> alone s (g ++ d ++ r).
  Proof using. intros G Nd B A Q. apply then_ws_step; auto. apply ip4_nodigit. apply opens_digit_starts; auto. Qed.

  (** ** Hosts and ports *)
  Lemma ihost_free h t r : ihost_text E h t -> t <> [] /\ ~ starts is_blank (t ++ r).
  Proof using.
    clear OK PI1 PI2. intros H. destruct H as [t a g m n T G L Nn|t a g m T G L Nn|t a T|g t a G T|g n x G D|]; rewrite <- ?app_assoc.
    - destruct (quad_text_free _ _ T) as (N & _). split; [destruct t; [congruence|discriminate]|eapply quad_text_noblank; eauto].
    - destruct (quad_text_free _ _ T) as (N & _). split; [destruct t; [congruence|discriminate]|eapply quad_text_noblank; eauto].
    - destruct (quad_text_free _ _ T) as (N & _). split; [auto|eapply quad_text_noblank; eauto].
    - split; [discriminate|now apply nostart].
    - split; [discriminate|now apply nostart].
    - split; [discriminate|now apply nostart].
  Qed.
  Lemma ihost_no_port h t r : ihost_text E h t -> sep_start r -> acl_port (t ++ r) = PFail.
  Proof using OK HE.
    intros H S. assert (Q : forall t a q, quad_text t a -> sepw q -> acl_port (t ++ q) = PFail).
    { intros t0 a q T Sq. destruct (quad_text_free _ _ T). apply acl_port_word; auto. apply (res_port_words isalnum), hdc_plain. now apply quad_text_hdc in T. }
    destruct H as [t a g m n T G L Nn|t a g m T G L Nn|t a T|g t a G T|g n x G D|]; rewrite <- ?app_assoc.
    - eapply Q; eauto using gap_sepw.
    - eapply Q; eauto using gap_sepw.
    - eapply Q; eauto using sep_sepw.
    - apply acl_port_word; auto using gap_sepw; [now apply freewb_ok|]. intros [X|[X|[X|[X|[X|[X|[]]]]]]]; discriminate X.
    - replace (u "object-group" ++ g ++ n ++ r) with ((u "object-group" ++ g ++ n) ++ r) by now rewrite <- !app_assoc. eapply (AclTextFacts.host_no_port isalpha isalnum isspace OK); [exact HE|eapply HT_group; eauto|auto].
    - apply acl_port_word; auto using sep_sepw; [now apply freewb_ok|]. intros [X|[X|[X|[X|[X|[X|[]]]]]]]; discriminate X.
  Qed.

  (** Ends of a rule, for a way to write hosts. *)
  Section Ends.
    Context (P : parser thost) (HT : thost -> pystr -> Prop) (F : pystr -> pystr -> Prop)
      (P_sound : forall s h r, P s = POk h r -> exists t, s = t ++ r /\ HT h t /\ F t r)
      (P_ok : forall h t r, HT h t -> sep_start r -> F t r -> P (t ++ r) = POk h r)
      (P_port : forall t g p q r, gap g -> port_text E p q -> F t (g ++ q ++ r)).
    Lemma end_sound s x r : with_port isalpha isalnum py_int E P s = POk x r -> exists t, s = t ++ r /\ end_text E HT x t /\
      (an_port x = None -> F t r).
    Proof using OK HE PI1 PI2 P_sound.
      unfold with_port. rewrite act_ok. intros ((h & p) & H & A). pinv H. apply ret_ok in H as ([= <- <-] & ->).
      apply P_sound in P0 as (t & -> & T & Fr). cbn [fst snd] in A. apply popt_ok in P1 as [(q & -> & Q)|(-> & -> & _)].
      - unfold then_ in Q. pinv Q. apply ws_sound in P0 as (g & -> & G). destruct q as [q|q]; [discriminate A|]. injection A as <-.
        apply (acl_port_sound isalpha isalnum isspace OK E HE py_int PI1 PI2) in Q as (t' & -> & T'). exists (t ++ g ++ t'). split; [now rewrite <- !app_assoc|]. split; [now constructor|discriminate].
      - injection A as <-. exists t. split; [auto|]. split; [now constructor|auto].
    Qed.
    Lemma end_ok x t r : end_text E HT x t -> sep_start r -> then_ ws acl_port r = PFail -> (an_port x = None -> F t r) ->
      with_port isalpha isalnum py_int E P (t ++ r) = POk x r.
    Proof using OK HE PI1 PI2 P_ok P_port.
      intros H S N Fr. unfold with_port. rewrite act_ok. destruct H as [h t H|h t g p t2 H G Q].
      - exists (h, None). split; [|reflexivity]. eapply pbind_step; [apply P_ok; eauto|]. eapply pbind_step; [apply popt_none; auto|reflexivity].
      - exists (h, Some (inr p)). split; [|reflexivity]. rewrite <- !app_assoc. eapply pbind_step; [apply P_ok; eauto using gap_sep|].
        eapply pbind_step; [|reflexivity]. apply popt_some. apply then_ws_step; [auto|eapply port_start; eauto|]. eapply acl_port_ok; eauto.
    Qed.
  End Ends.
  Lemma inode_sound s x r : inode isalpha isalnum py_int E s = POk x r -> exists t, s = t ++ r /\ inode_text E x t /\ alone t r.
  Proof using OK HE PI1 PI2.
    intros H. apply (end_sound _ _ alone host_sound) in H as (t & -> & T & A). exists t. split; [auto|]. split; [auto|]. destruct T as [h t T|h t g p q T G Q]; [now apply A|].
    intros (a & K). now apply quad_text_gap in K.
  Qed.
  Lemma inode_ok x t r : inode_text E x t -> sep_start r -> then_ ws acl_port r = PFail -> alone t r -> inode isalpha isalnum py_int E (t ++ r) = POk x r.
  Proof using OK HE PI1 PI2.
    intros T S N A. eapply (end_ok _ _ alone host_ok); eauto. intros t' g p q r' G Q _. now apply (port_no_ip4 _ p).
  Qed.
  Lemma inode_free x t r : inode_text E x t -> t <> [] /\ ~ starts is_blank (t ++ r).
  Proof using.
    clear OK PI1 PI2. intros [h t' H|h t' g p q H G Q]; [eapply ihost_free; eauto|]. rewrite <- !app_assoc. destruct (ihost_free _ _ (g ++ q ++ r) H). split; [destruct t'; [congruence|discriminate]|auto].
  Qed.
  Lemma inode_no_port x t r : inode_text E x t -> sep_start r -> acl_port (t ++ r) = PFail.
  Proof using OK HE. intros [h t' H|h t' g p q H G Q] S; [eapply ihost_no_port; eauto|]. rewrite <- !app_assoc. eapply ihost_no_port; eauto using gap_sep. Qed.
  Lemma bare_node_sound s x r : bare_node isalpha isalnum E s = POk x r -> exists h t, x = mkanode h None /\ s = t ++ r /\ ihost_text E h t /\ alone t r.
  Proof using OK HE. unfold bare_node. intros H. pinv H. apply ret_ok in H as (<- & ->). apply host_sound in P as (t & -> & T & A). eauto 6. Qed.
  Lemma bare_node_ok h t r : ihost_text E h t -> sep_start r -> alone t r -> bare_node isalpha isalnum E (t ++ r) = POk (mkanode h None) r.
  Proof using OK HE. intros. unfold bare_node. eapply pbind_step; [apply host_ok; eauto|reflexivity]. Qed.

  (** ** IPv6 hosts *)
  Definition always (_ _ : pystr) : Prop := True.
  Lemma addr6_free t a r : a_ver a = V6 -> address_text t a -> t <> [] /\ freew t /\ ~ starts is_blank (t ++ r).
  Proof using.
    clear OK PI1 PI2. intros V T. destruct (address_hdc _ _ T) as (F & N). split; [auto|]. split; [now apply hdc_freew|]. apply freew_noblank; [auto|now apply hdc_freew].
  Qed.
  Lemma ip6_addr t a r : a_ver a = V6 -> address_text t a -> ~ starts is_hexdotcolon r -> ip6 (t ++ r) = POk a r.
  Proof using.
    clear OK PI1 PI2. intros V T N. destruct a as [v n]. cbn in V. subst v. unfold address_text in T. cbn [a_ver a_val] in T. now apply ip6_ok.
  Qed.
  Lemma host6_sound s h r : host6 s = POk h r -> exists t, s = t ++ r /\ ihost6_text h t /\ always t r.
  Proof using.
    clear OK PI1 PI2. unfold IosText.host6, choice. cbn [fold_right]. intros H.
    repeat (apply por_sound in H as [H|H]; [pinv H|]).
    - destruct a0. apply char_ok in P0 as ->. apply ip6_sound in P as (t & -> & V & T). apply act_ok in H as (m & M & H). apply int_iff in M as (-> & Nm & Fm & _).
      apply network_sound in H as (n & -> & Nn); [|cbn; eapply address_valid; eauto|exact I].
      exists (t ++ u "/" ++ m). split; [now rewrite <- !app_assoc|]. split; [|exact I]. eapply I6_net with (p := int10 m); eauto. apply decimal_text_spec. auto.
    - apply kw_sound in P as ->. apply ws_sound in P0 as (g & -> & G). apply ip6_sound in P1 as (t & -> & V & T). apply ret_ok in H as (<- & ->).
      exists (u "host" ++ g ++ t). split; [now rewrite <- !app_assoc|]. split; [|exact I]. now constructor.
    - apply kw_sound in P as ->. apply ret_ok in H as (<- & ->). exists (u "any"). split; [auto|]. split; [constructor|exact I].
    - discriminate H.
  Qed.
  Lemma host6_ok h t r : ihost6_text h t -> sep_start r -> always t r -> host6 (t ++ r) = POk h r.
  Proof using OK.
    intros H S _. unfold IosText.host6, choice. cbn [fold_right]. destruct H as [t a d p n V T D Nn|g t a G V T|]; rewrite <- ?app_assoc.
    - apply por_l. eapply pbind_step; [apply ip6_addr; eauto; change (u "/") with [47%N]; cbn [app]; apply slash_no_hdc|]. eapply pbind_step; [apply char_ok; reflexivity|].
      apply decimal_text_spec in D as (Nd & Fd & <-). apply act_ok. exists d. split; [apply int_iff; repeat split; auto; now apply sep_no_digit|]. apply network_ok; [eapply address_valid; eauto|exact Logic.I|auto].
    - apply por_r; [apply pbind_fail; change (u "host" ++ g ++ t ++ r) with (([] ++ 104%N :: u "ost") ++ g ++ t ++ r); apply ip6_word; [auto|reflexivity|discriminate]|]. apply por_l.
      apply (kwws_step isalpha isalnum isspace OK); [auto|eapply addr6_free; eauto|]. eapply pbind_step; [apply ip6_addr; eauto; now apply sep_no_hdc|reflexivity].
    - apply por_r; [apply pbind_fail; change (u "any" ++ r) with ((u "a" ++ 110%N :: u "y") ++ r); apply ip6_word; [auto|reflexivity|discriminate]|].
      apply por_r; [apply pbind_fail, kw_clash; reflexivity|]. apply por_l. eapply pbind_step; [apply kw_ok; eapply sep_stop; eauto|reflexivity].
  Qed.
  Lemma ihost6_free h t r : ihost6_text h t -> t <> [] /\ ~ starts is_blank (t ++ r).
  Proof using.
    clear OK PI1 PI2. intros H. destruct H as [t a d p n V T D Nn|g t a G V T|]; rewrite <- ?app_assoc; [|split; [discriminate|now apply nostart]..].
    destruct (addr6_free t a (u "/" ++ d ++ r) V T) as (N & _ & B). split; [destruct t; [congruence|discriminate]|auto].
  Qed.
  Lemma ihost6_no_port h t r : ihost6_text h t -> sep_start r -> acl_port (t ++ r) = PFail.
  Proof using OK HE.
    intros H S. destruct H as [t a d p n V T D Nn|g t a G V T|]; rewrite <- ?app_assoc.
    - destruct (addr6_free t a r V T) as (N & F & _). apply acl_port_word; auto; [|apply (res_port_words isalnum), hdc_plain; now apply (address_hdc _ _ T)]. now apply slash_sepw.
    - apply acl_port_word; auto using gap_sepw; [now apply freewb_ok|]. intros [X|[X|[X|[X|[X|[X|[]]]]]]]; discriminate X.
    - apply acl_port_word; auto using sep_sepw; [now apply freewb_ok|]. intros [X|[X|[X|[X|[X|[X|[]]]]]]]; discriminate X.
  Qed.
  Lemma inode6_sound s x r : inode6 isalpha isalnum py_int E s = POk x r -> exists t, s = t ++ r /\ inode6_text E x t.
  Proof using OK HE PI1 PI2. intros H. apply (end_sound _ _ always host6_sound) in H as (t & -> & T & A). eauto. Qed.
  Lemma inode6_ok x t r : inode6_text E x t -> sep_start r -> then_ ws acl_port r = PFail -> inode6 isalpha isalnum py_int E (t ++ r) = POk x r.
  Proof using OK HE PI1 PI2. intros T S N. eapply (end_ok _ _ always host6_ok); eauto; unfold always; auto. Qed.
  Lemma inode6_free x t r : inode6_text E x t -> t <> [] /\ ~ starts is_blank (t ++ r).
  Proof using.
    clear OK PI1 PI2. intros [h t' H|h t' g p q H G Q]; [eapply ihost6_free; eauto|]. rewrite <- !app_assoc. destruct (ihost6_free _ _ (g ++ q ++ r) H). split; [destruct t'; [congruence|discriminate]|auto].
  Qed.
  Lemma inode6_no_port x t r : inode6_text E x t -> sep_start r -> acl_port (t ++ r) = PFail.
  Proof using OK HE. intros [h t' H|h t' g p q H G Q] S; [eapply ihost6_no_port; eauto|]. rewrite <- !app_assoc. eapply ihost6_no_port; eauto using gap_sep. Qed.

  (** ** Options *)
  Section Options.
    Context (plain valued loose : list string) (p : parser iopt)
      (p_sound : forall s o r, p s = POk o r -> exists t, s = t ++ r /\ opt_text plain valued loose o t /\
         (forall w, In w loose -> o = (u w, None) -> then_ ws identifier r = PFail))
      (p_ok : forall o t r, opt_text plain valued loose o t -> sep_start r ->
         (forall w, In w loose -> o = (u w, None) -> then_ ws identifier r = PFail) -> p (t ++ r) = POk o r)
      (p_words : forall w, In w (plain ++ valued ++ loose) -> In (u w) tail_words /\ u w <> []).
    Lemma opt_start o t r : opt_text plain valued loose o t -> sep_start r -> exists w r', t ++ r = w ++ r' /\ In w tail_words /\ w <> [] /\ sepw r'.
    Proof using p_words.
      intros H S. destruct H as [w I|w g v I G V|w I].
      - exists (u w), r. destruct (p_words w); [apply in_or_app; auto|]. auto using sep_sepw.
      - exists (u w), (g ++ v ++ r). destruct (p_words w); [apply in_or_app; right; apply in_or_app; tauto|]. rewrite <- !app_assoc. auto using gap_sepw.
      - exists (u w), r. destruct (p_words w); [apply in_or_app; right; apply in_or_app; tauto|]. auto using sep_sepw.
    Qed.
    Lemma opt_ident w r : In w tail_words -> w <> [] -> exists n q, identifier (w ++ r) = POk n q.
    Proof using.
      clear. intros I N. assert (K : forallb (fun w => match w with c :: _ => is_id_start c | [] => true end) tail_words = true) by reflexivity.
      rewrite forallb_forall in K. specialize (K w I). destruct w as [|c w]; [congruence|]. cbn [app]. unfold identifier. rewrite K. destruct (span is_id_char (w ++ r)) as (a & b). eauto.
    Qed.
    Lemma opt_noblank w r : In w tail_words -> w <> [] -> ~ starts is_blank (w ++ r).
    Proof using. clear. intros I N. tailw I; [congruence|now apply nostart..]. Qed.
    Lemma opts_sound s l r : many (then_ ws p) s = POk l r -> exists t, s = t ++ r /\ opts_text plain valued loose l t.
    Proof using p_sound p_words.
      intros H. apply many_chain in H. induction H as [s|o l s s1 r P L C IH]; [exists []; split; [auto|constructor]|].
      unfold then_ in P. pinv P. apply ws_sound in P0 as (g & -> & G). apply p_sound in P as (t & -> & T & F). destruct IH as (t' & -> & T').
      exists (g ++ t ++ t'). split; [now rewrite <- !app_assoc|]. constructor; auto. intros w I X. specialize (F w I X). clear L. inversion T' as [|g' o' t2 l' t3 G' O' L' K' A B]; [auto|exfalso]. subst.
      assert (W : exists w2 r2, t2 = w2 ++ r2 /\ In w2 tail_words /\ w2 <> []).
      { destruct O' as [v J|v g2 x J G2 V|v J]; destruct (p_words v) as (Jv & Nv); try (apply in_or_app; auto; right; apply in_or_app; tauto).
        - exists (u v), []. now rewrite app_nil_r.
        - exists (u v), (g2 ++ x). auto.
        - exists (u v), []. now rewrite app_nil_r. }
      destruct W as (w2 & r2 & -> & I2 & N2). rewrite <- !app_assoc in F. destruct (opt_ident w2 (r2 ++ t3 ++ r) I2 N2) as (n & q & Q).
      rewrite (then_ws_step identifier g' _ (POk n q)) in F; [discriminate F|auto|now apply opt_noblank|exact Q].
    Qed.
    Lemma opts_sep l t z r : opts_text plain valued loose l t -> eol_text z -> sep_start (t ++ z ++ r).
    Proof using. clear. intros [|g o t' l' t2 G O T K] Z; [now apply (eol_sep z)|]. rewrite <- !app_assoc. now apply gap_sep. Qed.
    Lemma opts_ok l t z r : opts_text plain valued loose l t -> eol_text z -> many (then_ ws p) (t ++ z ++ r) = POk l (z ++ r).
    Proof using p_ok p_words.
      intros H Z. assert (Nz : forall A (q : parser A), then_ ws q (z ++ r) = PFail) by (intros; apply then_ws_fail; now apply eol_noblank).
      induction H as [|g o t l t' G O T IH K]; [apply many_stop; auto|]. rewrite <- !app_assoc. pose proof (opts_sep _ _ z r T Z) as S.
      destruct (opt_start _ _ (t' ++ z ++ r) O S) as (w & r' & X & Iw & Nw & Sw).
      eapply many_step; [|  |exact IH].
      - apply then_ws_step; [auto|rewrite X; now apply opt_noblank|]. apply p_ok; auto. intros v I X'. rewrite (K v I X') in T. inversion T. subst. apply Nz.
      - now apply gap_shorter.
    Qed.
    Lemma opts_starts l t z r : opts_text plain valued loose l t -> eol_text z -> tail_start (t ++ z ++ r).
    Proof using p_words.
      intros H Z. split; [eapply opts_sep; eauto|]. intros B. destruct H as [|g o t l t' G O T K]; [exfalso; exact (eol_noblank z r Z B)|]. rewrite <- !app_assoc.
      destruct (opt_start _ _ (t' ++ z ++ r) O (opts_sep _ _ z r T Z)) as (w & r' & X & Iw & Nw & Sw).
      exists g, w, r'. rewrite X. repeat split; auto using opt_noblank; apply G.
    Qed.
    Lemma options_sound s d r : options p s = POk d r -> exists t, s = t ++ r /\ options_text plain valued loose d t.
    Proof using p_sound p_words.
      unfold options. intros H. pinv H. apply ret_ok in H as (<- & ->). apply opts_sound in P as (t & -> & T). exists t. split; [auto|]. exists a. split; [auto|apply opts_of_table].
    Qed.
    Lemma options_ok d t z r : options_text plain valued loose d t -> eol_text z -> options p (t ++ z ++ r) = POk d (z ++ r).
    Proof using p_ok p_words.
      intros (l & T & D) Z. unfold options. eapply pbind_step; [eapply opts_ok; eauto|]. apply opts_of_iff in D as ->. reflexivity.
    Qed.
    Lemma options_starts d t z r : options_text plain valued loose d t -> eol_text z -> tail_start (t ++ z ++ r).
    Proof using p_words. intros (l & T & D) Z. eapply opts_starts; eauto. Qed.
  End Options.

  (** *** One option *)
  Lemma valued_sound w s o r : valued isalpha isalnum w s = POk o r -> exists g v, s = (u w ++ g ++ v) ++ r /\ o = (u w, Some v) /\ gap g /\ ident_text v.
  Proof using.
    clear. unfold valued. intros H. pinv H. apply ret_ok in H as (<- & ->). apply kw_sound in P as ->. apply ws_sound in P0 as (g & -> & G). apply ident_iff in P1 as (-> & I & _).
    exists g, a1. split; [now rewrite <- !app_assoc|]. auto.
  Qed.
  Lemma flag_sound w s o r : flag isalpha isalnum w s = POk o r -> s = u w ++ r /\ o = (u w, None).
  Proof using. clear. unfold flag. intros H. pinv H. apply ret_ok in H as (<- & ->). apply kw_sound in P as ->. auto. Qed.
  Lemma maybe_sound w s o r : maybe isalpha isalnum w s = POk o r ->
    (exists g v, s = (u w ++ g ++ v) ++ r /\ o = (u w, Some v) /\ gap g /\ ident_text v) \/ (s = u w ++ r /\ o = (u w, None) /\ then_ ws identifier r = PFail).
  Proof using.
    clear. unfold maybe. intros H. pinv H. apply ret_ok in H as (<- & ->). apply kw_sound in P as ->. apply popt_ok in P0 as [(v & -> & Q)|(-> & -> & F)]; [left|right; auto].
    unfold then_ in Q. pinv Q. apply ws_sound in P as (g & -> & G). apply ident_iff in Q as (-> & I & _). exists g, v. split; [now rewrite <- !app_assoc|]. auto.
  Qed.
  Lemma ident_noblank v r : ident_text v -> ~ starts is_blank (v ++ r).
  Proof using. clear. intros I. apply freew_noblank; [|apply letter_name, ident_name, I]. destruct I as ((c & n' & -> & _) & _). discriminate. Qed.
  Lemma valued_ok w g v r : gap g -> ident_text v -> sep_start r -> valued isalpha isalnum w ((u w ++ g ++ v) ++ r) = POk (u w, Some v) r.
  Proof using OK.
    intros G V S. unfold valued. rewrite <- !app_assoc. apply (kwws_step isalpha isalnum isspace OK); [auto|now apply ident_noblank|].
    eapply pbind_step; [apply ident_iff; split; [reflexivity|split; [auto|now apply sep_no_id]]|reflexivity].
  Qed.
  Lemma flag_ok w r : sep_start r -> flag isalpha isalnum w (u w ++ r) = POk (u w, None) r.
  Proof using OK. intros S. unfold flag. eapply pbind_step; [apply kw_ok, (sep_stop _ _ _ OK), S|reflexivity]. Qed.
  Lemma maybe_word w g v r : gap g -> ident_text v -> sep_start r -> maybe isalpha isalnum w ((u w ++ g ++ v) ++ r) = POk (u w, Some v) r.
  Proof using OK.
    intros G V S. unfold maybe. rewrite <- !app_assoc. eapply pbind_step; [apply kw_ok, (gap_stop _ _ _ OK), G|]. eapply pbind_step; [apply popt_some; apply then_ws_step; [auto|now apply ident_noblank|]|reflexivity].
    apply ident_iff; split; [reflexivity|split; [auto|now apply sep_no_id]].
  Qed.
  Lemma maybe_alone w r : sep_start r -> then_ ws identifier r = PFail -> maybe isalpha isalnum w (u w ++ r) = POk (u w, None) r.
  Proof using OK. intros S F. unfold maybe. eapply pbind_step; [apply kw_ok, (sep_stop _ _ _ OK), S|]. eapply pbind_step; [now apply popt_none|reflexivity]. Qed.
  Lemma opt_other A (k : unit -> parser A) w n r : freewb (u w) = true -> sepw r -> strip_prefix (u w) n = None -> pbind (kw w) k (n ++ r) = PFail.
  Proof using. clear OK PI1 PI2. intros F S N. apply pbind_fail. apply kw_other; auto using freewb_ok. Qed.

  (** A choice of options, each a flag, a valued or a loose one. *)
  Inductive okind := KFlag | KVal | KLoose.
  Definition oparser (x : string * okind) : parser iopt :=
    match snd x with KFlag => flag isalpha isalnum (fst x) | KVal => valued isalpha isalnum (fst x) | KLoose => maybe isalpha isalnum (fst x) end.
  Section Table.
    Context (plain vals loose : list string) (tab : list (string * okind))
      (tab_in : forall w k, In (w, k) tab -> match k with KFlag => In w plain | KVal => In w vals | KLoose => In w loose end)
      (in_tab : forall w k, match k with KFlag => In w plain | KVal => In w vals | KLoose => In w loose end -> In (w, k) tab)
      (sep_tab : forall l1 x l2, tab = l1 ++ x :: l2 -> forall y, In y l1 -> freewb (u (fst y)) = true /\ strip_prefix (u (fst y)) (u (fst x)) = None)
      (loose_flag : forall w v, In w loose -> In v plain -> u v <> u w).
    Lemma oparser_head x n r : freewb (u (fst x)) = true -> sepw r -> strip_prefix (u (fst x)) n = None -> oparser x (n ++ r) = PFail.
    Proof using. clear OK PI1 PI2 tab_in in_tab sep_tab. intros. unfold oparser. destruct (snd x); now apply opt_other. Qed.
    Lemma table_sound s o r : choice (map oparser tab) s = POk o r -> exists t, s = t ++ r /\ opt_text plain vals loose o t /\
      (forall w, In w loose -> o = (u w, None) -> then_ ws identifier r = PFail).
    Proof using tab_in loose_flag.
      clear in_tab sep_tab. assert (C : choice (map oparser tab) s = POk o r -> exists x, In x tab /\ oparser x s = POk o r).
      { clear. induction tab as [|x l IH]; [discriminate|]. cbn [map]. unfold choice. cbn [fold_right]. intros H. apply por_sound in H as [H|H]; [exists x; cbn; auto|].
        destruct (IH H) as (y & I & Y). exists y. cbn. auto. }
      intros H. apply C in H as ((w & k) & I & H). apply tab_in in I. unfold oparser in H. cbn [fst snd] in H. destruct k.
      - apply flag_sound in H as (-> & ->). exists (u w). split; [auto|]. split; [now constructor|]. intros v J [= X]. exfalso. eapply loose_flag; eauto.
      - apply valued_sound in H as (g & v & -> & -> & G & V). exists (u w ++ g ++ v). split; [auto|]. split; [constructor; auto|discriminate].
      - apply maybe_sound in H as [(g & v & -> & -> & G & V)|(-> & -> & F)].
        + exists (u w ++ g ++ v). split; [auto|]. split; [constructor; auto|discriminate].
        + exists (u w). split; [auto|]. split; [now apply OP_loose|auto].
    Qed.
    Lemma table_ok o t r : opt_text plain vals loose o t -> sep_start r ->
      (forall w, In w loose -> o = (u w, None) -> then_ ws identifier r = PFail) -> choice (map oparser tab) (t ++ r) = POk o r.
    Proof using OK in_tab sep_tab.
      intros H S F. assert (C : forall x t r, In x tab -> sepw r -> oparser x (u (fst x) ++ r) = t -> t <> PFail -> choice (map oparser tab) (u (fst x) ++ r) = t).
      { clear -sep_tab. intros x t r I S H N. apply in_split in I as (l1 & l2 & ->). specialize (sep_tab l1 x l2 eq_refl). induction l1 as [|y l1 IH]; cbn [app map]; unfold choice; cbn [fold_right].
        - destruct t as [|e|o q]; [congruence|unfold por; now rewrite H|now apply por_l].
        - apply por_r; [|apply IH; intros; apply sep_tab; now right]. destruct (sep_tab y) as (A & B); [now left|]. now apply oparser_head. }
      destruct H as [w I|w g v I G V|w I].
      - apply (C (w, KFlag)); [now apply in_tab|now apply sep_sepw|now apply flag_ok|discriminate].
      - rewrite <- !app_assoc. destruct I as [I|I]; [apply (C (w, KVal))|apply (C (w, KLoose))]; try discriminate; try (now apply gap_sepw); try (now apply in_tab); cbn [oparser fst snd];
        rewrite !app_assoc, <- (app_assoc (u w)); [now apply valued_ok|now apply maybe_word].
      - apply (C (w, KLoose)); [now apply in_tab|now apply sep_sepw|apply maybe_alone; auto; now apply (F w)|discriminate].
    Qed.
  End Table.

  Fixpoint sep_ok (l : list (string * okind)) : bool :=
    match l with
    | [] => true
    | y :: l' => freewb (u (fst y)) && forallb (fun x => match strip_prefix (u (fst y)) (u (fst x)) with None => true | _ => false end) l' && sep_ok l'
    end.
  Lemma sep_ok_tab tab : sep_ok tab = true -> forall l1 x l2, tab = l1 ++ x :: l2 -> forall y, In y l1 -> freewb (u (fst y)) = true /\ strip_prefix (u (fst y)) (u (fst x)) = None.
  Proof using.
    clear. intros H l1. revert tab H. induction l1 as [|z l1 IH]; intros tab H x l2 -> y I; [destruct I|]. cbn [app sep_ok] in H. rewrite !andb_true_iff in H. destruct H as ((F & A) & H).
    destruct I as [<-|I]; [|eapply IH; eauto]. split; [auto|]. rewrite forallb_forall in A. specialize (A x (in_elt x l1 l2)). destruct (strip_prefix (u (fst z)) (u (fst x))); [discriminate A|auto].
  Qed.

  (** *** Options of standard, extended and IPv6 lists *)
  Definition std_tab := [("log", KLoose)]%string.
  Definition ext_tab := [("precedence", KVal); ("dscp", KVal); ("tos", KVal); ("time-range", KVal); ("fragments", KFlag); ("log-input", KLoose); ("log", KLoose); ("established", KFlag)]%string.
  Definition tab6 := [("dest-option-type", KVal); ("dscp", KVal); ("flow-label", KVal); ("fragments", KFlag); ("log", KFlag); ("mobility", KFlag); ("routing", KFlag); ("time-range", KVal)]%string.
  Lemma std_opt_table s : std_option isalpha isalnum s = choice (map oparser std_tab) s.
  Proof using. clear. unfold choice. cbn [map fold_right std_tab]. change (oparser ("log"%string, KLoose)) with (std_option isalpha isalnum). unfold por. now destruct (std_option isalpha isalnum s). Qed.
  Lemma ext_opt_table s : ext_option isalpha isalnum s = choice (map oparser ext_tab) s.
  Proof using. reflexivity. Qed.
  Lemma shadow A (k : unit -> parser A) w v s : stop isalnum (u v) -> v <> ""%string -> kw w s = PFail -> pbind (kw (w ++ v)) k s = PFail.
  Proof using.
    clear. intros S V H. apply pbind_fail. unfold AclText.kw at 1. apply pbind_fail. unfold token. destruct (strip_prefix (u (w ++ v)) s) as [q|] eqn:P; [exfalso|reflexivity].
    apply strip_spec in P. assert (X : u (w ++ v) = u w ++ u v) by (clear; induction w as [|c w IH]; [reflexivity|cbn; unfold u in IH |- *; cbn; now f_equal]).
    rewrite X, <- app_assoc in P. subst s. rewrite kw_ok in H; [discriminate H|]. destruct v as [|c v]; [congruence|]. exact S.
  Qed.
  Lemma opt6_table s : opt6 isalpha isalnum s = choice (map oparser tab6) s.
  Proof using OK.
    unfold opt6, choice. cbn [map fold_right tab6]. unfold por. cbn [oparser fst snd].
    destruct (valued isalpha isalnum "dest-option-type" s); auto. destruct (valued isalpha isalnum "dscp" s); auto. destruct (valued isalpha isalnum "flow-label" s); auto.
    destruct (flag isalpha isalnum "fragments" s); auto.
    assert (SH : forall A (k : unit -> parser A) w v, stop isalnum (u v) -> v <> ""%string -> flag isalpha isalnum w s = PFail -> pbind (kw (w ++ v)) k s = PFail).
    { intros A k w v S V F. apply shadow; auto. unfold flag, pbind in F. destruct (kw w s) as [|e|x q]; [auto|discriminate F|discriminate F]. }
    assert (ST : forall v, stop isalnum (45%N :: v)) by (intros v; unfold stop; cbn; rewrite (alnum_ok _ _ _ OK); reflexivity).
    assert (S1 : stop isalnum (u "-input")) by apply ST. assert (S2 : stop isalnum (u "-type")) by apply ST.
    destruct (flag isalpha isalnum "log" s) eqn:F1; auto. unfold flag at 1. rewrite (SH _ _ "log"%string "-input"%string); auto; [|discriminate].
    destruct (flag isalpha isalnum "mobility" s) eqn:F2; auto. rewrite (SH _ _ "mobility"%string "-type"%string); auto; [|discriminate].
    destruct (flag isalpha isalnum "routing" s) eqn:F3; auto. rewrite (SH _ _ "routing"%string "-type"%string); auto; discriminate.
  Qed.
  Ltac tables := intros; repeat match goal with k : okind |- _ => destruct k end; cbn in *; intuition (subst; try discriminate; auto; congruence).
  Section Tables.
    Context (plain vals loose : list string) (tab : list (string * okind)) (p : parser iopt)
      (p_tab : forall s, p s = choice (map oparser tab) s)
      (t1 : forall w k, In (w, k) tab -> match k with KFlag => In w plain | KVal => In w vals | KLoose => In w loose end)
      (t2 : forall w k, match k with KFlag => In w plain | KVal => In w vals | KLoose => In w loose end -> In (w, k) tab)
      (t3 : sep_ok tab = true) (t4 : forall w v, In w loose -> In v plain -> u v <> u w)
      (t5 : forall w, In w (plain ++ vals ++ loose) -> In (u w) tail_words /\ u w <> []).
    Lemma tab_sound s d r : options p s = POk d r -> exists t, s = t ++ r /\ options_text plain vals loose d t.
    Proof using p_tab t1 t4 t5. apply options_sound; auto. intros s' o r' H. rewrite p_tab in H. eapply table_sound; eauto. Qed.
    Lemma tab_ok d t z r : options_text plain vals loose d t -> eol_text z -> options p (t ++ z ++ r) = POk d (z ++ r).
    Proof using OK p_tab t2 t3 t5. apply options_ok; auto. intros o t' r' H S F. rewrite p_tab. eapply table_ok; eauto. now apply sep_ok_tab. Qed.
    Lemma tab_many_sound s d r : many (then_ ws p) s = POk d r -> exists t, s = t ++ r /\ opts_text plain vals loose d t.
    Proof using p_tab t1 t4 t5. apply opts_sound; auto. intros s' o r' H. rewrite p_tab in H. eapply table_sound; eauto. Qed.
    Lemma tab_many_ok d t z r : opts_text plain vals loose d t -> eol_text z -> many (then_ ws p) (t ++ z ++ r) = POk d (z ++ r).
    Proof using OK p_tab t2 t3 t5. apply opts_ok; auto. intros o t' r' H S F. rewrite p_tab. eapply table_ok; eauto. now apply sep_ok_tab. Qed.
    Lemma tab_starts d t z r : options_text plain vals loose d t -> eol_text z -> tail_start (t ++ z ++ r).
    Proof using t5. apply options_starts; auto. Qed.
  End Tables.
  Ltac side := first [apply std_opt_table | apply ext_opt_table | apply opt6_table | reflexivity | tables].
  Lemma std_opts_sound s d r : options (std_option isalpha isalnum) s = POk d r -> exists t, s = t ++ r /\ std_options d t.
  Proof using. clear -isalpha isalnum. apply (tab_sound _ _ _ std_tab); side. Qed.
  Lemma std_opts_ok d t z r : std_options d t -> eol_text z -> options (std_option isalpha isalnum) (t ++ z ++ r) = POk d (z ++ r).
  Proof using OK. apply (tab_ok _ _ _ std_tab); side. Qed.
  Lemma std_opts_starts d t z r : std_options d t -> eol_text z -> tail_start (t ++ z ++ r).
  Proof using. clear -isalpha isalnum. apply tab_starts; side. Qed.
  Lemma ext_opts_sound s d r : options (ext_option isalpha isalnum) s = POk d r -> exists t, s = t ++ r /\ ext_options d t.
  Proof using. clear -isalpha isalnum. apply (tab_sound _ _ _ ext_tab); side. Qed.
  Lemma ext_opts_ok d t z r : ext_options d t -> eol_text z -> options (ext_option isalpha isalnum) (t ++ z ++ r) = POk d (z ++ r).
  Proof using OK. apply (tab_ok _ _ _ ext_tab); side. Qed.
  Lemma ext_opts_starts d t z r : ext_options d t -> eol_text z -> tail_start (t ++ z ++ r).
  Proof using. clear -isalpha isalnum. apply tab_starts; side. Qed.
  Definition opts6 := opts_text ["fragments"; "log"; "mobility"; "routing"]%string ["dest-option-type"; "dscp"; "flow-label"; "time-range"]%string [].
  Lemma opts6_sound s d r : many (then_ ws (opt6 isalpha isalnum)) s = POk d r -> exists t, s = t ++ r /\ opts6 d t.
  Proof using OK. apply (tab_many_sound _ _ _ tab6); side. Qed.
  Lemma opts6_ok d t z r : opts6 d t -> eol_text z -> many (then_ ws (opt6 isalpha isalnum)) (t ++ z ++ r) = POk d (z ++ r).
  Proof using OK. apply (tab_many_ok _ _ _ tab6); side. Qed.
  Lemma opts6_starts d t z r : opts6 d t -> eol_text z -> tail_start (t ++ z ++ r).
  Proof using. clear -isalpha isalnum. apply opts_starts; side. Qed.

  (** *** What is no option *)
  Lemma table_other tab w r : forallb (fun x => freewb (u (fst x)) && match strip_prefix (u (fst x)) w with None => true | _ => false end) tab = true -> sepw r ->
    choice (map oparser tab) (w ++ r) = PFail.
  Proof using.
    clear. intros H S. induction tab as [|x l IH]; [reflexivity|]. cbn [forallb] in H. rewrite !andb_true_iff in H. destruct H as ((F & P) & H). cbn [map]. unfold choice. cbn [fold_right].
    apply por_r; [|now apply IH]. destruct (strip_prefix (u (fst x)) w) eqn:E; [discriminate P|]. unfold oparser. destruct (snd x); now apply opt_other.
  Qed.
  Lemma port_words_start p t r : port_text E p t -> exists w q, t ++ r = w ++ q /\ sepw q /\ In w port_words.
  Proof using.
    clear. intros H. destruct H as [g n x G D|w g p W G N|g a g' b G G' A B R]; rewrite <- !app_assoc.
    - exists (u "object-group"), (g ++ n ++ r). split; [auto|]. split; [now apply gap_sepw|cbn; auto].
    - destruct W as (v & V & ->). exists (u v), (g ++ p ++ r). split; [auto|]. split; [now apply gap_sepw|]. cbn in *. destruct V as [<-|[<-|[<-|[<-|[]]]]]; auto 8.
    - exists (u "range"), (g ++ a ++ g' ++ b ++ r). split; [auto|]. split; [now apply gap_sepw|cbn; auto 8].
  Qed.
  Lemma port_no_ext g p t r : gap g -> port_text E p t -> options (ext_option isalpha isalnum) (g ++ t ++ r) = POk [] (g ++ t ++ r).
  Proof using.
    clear OK PI1 PI2. intros G P. unfold options. eapply (pbind_step _ _ _ []); [|reflexivity]. apply many_stop. apply then_ws_step; [auto|eapply port_start; eauto|].
    destruct (port_words_start p t r P) as (w & q & -> & S & I). rewrite ext_opt_table. apply table_other; [|auto].
    unfold port_words in I. cbn [map In] in I. repeat (destruct I as [<-|I]; [reflexivity|]). destruct I.
  Qed.
  Lemma port_no_ihost p t r : port_text E p t -> sep_start r -> host_ (t ++ r) = PFail.
  Proof using OK HE.
    intros P S. assert (D : ~ starts AddrText.is_digit (t ++ r)).
    { destruct (port_words_start p t r P) as (w & q & -> & _ & I). unfold port_words in I. cbn [map In] in I. repeat (destruct I as [<-|I]; [now apply nostart|]). destruct I. }
    unfold IosText.host_, choice. cbn [fold_right]. apply por_r; [now apply pbind_fail, ip4_nodigit|]. apply por_r; [now apply pbind_fail, ip4_nodigit|].
    destruct (port_words_start p t r P) as (w & q & X & Sq & I).
    assert (F : freew w) by (unfold port_words in I; cbn [map In] in I; repeat (destruct I as [<-|I]; [now apply freewb_ok|]); destruct I).
    apply por_r. { rewrite X. apply kwws_fail; auto. intros ->. unfold port_words in I. cbn in I. intuition discriminate. }
    apply por_r.
    - destruct P as [g n x G D'|v g p W G N|g a g' b G G' A B R].
      + rewrite <- !app_assoc. pose proof HE as (_ & _ & NG & _ & _ & PG & _). assert (K : n <> [] /\ freew n) by (eapply name_nonempty; [|exact D']; assumption). destruct K as (Nn & Fn).
        apply (kwws_step isalpha isalnum isspace OK); [auto|now apply freew_noblank|]. apply pbind_fail, (ref_none _ _ _ OK); auto using sep_sepw.
        * now apply netgrp_free.
        * left. eapply no_common_get'; [|exact D']. apply HE.
      + rewrite X. apply kwws_fail; auto. intros ->. destruct W as (v' & V & ->). rewrite <- !app_assoc in X. cbn in V. destruct V as [<-|[<-|[<-|[<-|[]]]]]; discriminate X.
      + rewrite X. apply kwws_fail; auto. intros ->. rewrite <- !app_assoc in X. discriminate X.
    - apply por_r; [|reflexivity]. apply pbind_fail. rewrite X. unfold port_words in I. cbn [map In] in I. repeat (destruct I as [<-|I]; [now apply kw_clash|]). destruct I.
  Qed.

  (** *** ICMPv6 messages *)
  Lemma tokens_other l w r : forallb (fun v => freewb v && match strip_prefix v w with None => true | _ => false end) l = true -> sepw r -> tokens l (w ++ r) = PFail.
  Proof using.
    clear. intros H S. destruct (tokens l (w ++ r)) as [|e|x q] eqn:T; [auto|now apply tokens_noerr in T|exfalso]. apply tokens_sound in T as (I & X & _).
    rewrite forallb_forall in H. specialize (H x I). apply andb_true_iff in H as (F & H). destruct (strip_prefix x w) as [y|] eqn:Y; [discriminate H|]. clear H I.
    apply freewb_ok in F. revert w F X Y. induction x as [|c x IH]; intros w F X Y; [discriminate Y|]. destruct w as [|d w].
    - cbn [app] in X. destruct S as (c' & r' & -> & C). injection X as -> _. apply (F c); [now left|exact C].
    - cbn [app] in X. injection X as -> X. cbn [strip_prefix] in Y. rewrite N.eqb_refl in Y. apply (IH w); auto. intros y Iy. apply F. now right.
  Qed.
  Definition message (w : pystr) : Prop := words icmp6_names w \/ In w icmp_type_names.
  Lemma message_in w : message w <-> In w (icmp6_words ++ icmp_type_names).
  Proof using.
    clear. unfold message. rewrite in_app_iff. assert (K : words icmp6_names w <-> In w icmp6_words); [|tauto]. unfold icmp6_words, words. rewrite in_map_iff. split; intros (v & A & B); exists v; auto.
  Qed.
  Lemma message_ok w r : message w -> sepw r -> icmp_opt6 isalpha isalnum (w ++ r) = POk (w, None) r.
  Proof using OK.
    intros M S. apply message_in in M. unfold icmp_opt6. eapply pbind_step; [|reflexivity].
    destruct (in_dec (list_eq_dec N.eq_dec) w icmp6_words) as [I|N].
    - apply por_l. apply (tokens_ok _ _ _ OK); auto.
    - apply in_app_iff in M as [M|M]; [contradiction|]. apply por_r; [|apply (tokens_ok _ _ _ OK); auto].
      assert (K : forallb (fun w => existsb (str_eqb w) icmp6_words || forallb (fun v => freewb v && match strip_prefix v w with None => true | _ => false end) icmp6_words) icmp_type_names = true) by reflexivity.
      rewrite forallb_forall in K. specialize (K w M). apply orb_true_iff in K as [K|K]; [|now apply tokens_other].
      exfalso. apply N. apply existsb_exists in K as (v & I & V). apply str_eqb_eq in V as ->. exact I.
  Qed.
  Lemma message_free w : message w -> w <> [] /\ freew w /\ ~ In w port_words /\ forallb (fun x => freewb (u (fst x)) && match strip_prefix (u (fst x)) w with None => true | _ => false end) tab6 = true.
  Proof using.
    clear. intros M. apply message_in in M. assert (K : forallb (fun w => match w with [] => false | _ => true end && freewb w && negb (existsb (str_eqb w) port_words) &&
      forallb (fun x => freewb (u (fst x)) && match strip_prefix (u (fst x)) w with None => true | _ => false end) tab6) (icmp6_words ++ icmp_type_names) = true) by reflexivity.
    rewrite forallb_forall in K. specialize (K w M). rewrite !andb_true_iff in K. destruct K as (((K1 & K2) & K3) & K4). split; [now destruct w|]. split; [now apply freewb_ok|]. split; [|auto].
    intros I. apply negb_true_iff in K3. assert (X : existsb (str_eqb w) port_words = true); [|congruence]. apply existsb_exists. exists w. split; [auto|]. apply str_eqb_eq. reflexivity.
  Qed.
  Lemma messages_sound s l r : many (then_ ws (icmp_opt6 isalpha isalnum)) s = POk l r -> exists t, s = t ++ r /\ messages_text l t.
  Proof using.
    clear. intros H. apply many_chain in H. induction H as [s|o l s s1 r P L C (t' & -> & T')]; [exists []; split; [auto|constructor]|].
    unfold then_ in P. pinv P. apply ws_sound in P0 as (g & -> & G). unfold icmp_opt6 in P. pinv P. apply ret_ok in P as (<- & ->).
    assert (M : message a0 /\ s0 = a0 ++ t' ++ r).
    { rewrite message_in, in_app_iff. apply por_sound in P0 as [P0|P0]; apply tokens_sound in P0 as (I & -> & _); auto. }
    destruct M as (M & ->). exists (g ++ a0 ++ t'). split; [now rewrite <- !app_assoc|]. now constructor.
  Qed.
  Lemma messages_sep l t z r : messages_text l t -> eol_text z -> sep_start (t ++ z ++ r).
  Proof using. clear. intros [|g w l' t' G M T] Z; [now apply (eol_sep z)|]. rewrite <- !app_assoc. now apply gap_sep. Qed.
  Lemma messages_ok l t z r : messages_text l t -> eol_text z -> many (then_ ws (icmp_opt6 isalpha isalnum)) (t ++ z ++ r) = POk l (z ++ r).
  Proof using OK.
    intros H Z. induction H as [|g w l t G M T IH]; [apply many_stop, then_ws_fail; now apply (eol_noblank z)|]. rewrite <- !app_assoc.
    destruct (message_free w M) as (N & F & _). eapply many_step; [| |exact IH].
    - apply then_ws_step; [auto|now apply freew_noblank|]. apply message_ok; [auto|]. eapply sep_sepw, messages_sep; eauto.
    - now apply gap_shorter.
  Qed.
  Lemma messages_no_port l t z r : messages_text l t -> eol_text z -> then_ ws acl_port (t ++ z ++ r) = PFail.
  Proof using.
    clear OK PI1 PI2. intros H Z. destruct H as [|g w l t G M T]; [apply then_ws_fail; now apply (eol_noblank z)|]. rewrite <- !app_assoc. destruct (message_free w M) as (N & F & P & _).
    apply then_ws_step; [auto|now apply freew_noblank|]. apply acl_port_word; auto. eapply sep_sepw, messages_sep; eauto.
  Qed.
  (** Messages are not options: an option parser stops before them. *)
  Lemma messages_no_opts o l t z r : messages_text (o :: l) t -> eol_text z -> many (then_ ws (opt6 isalpha isalnum)) (t ++ z ++ r) = POk [] (t ++ z ++ r) /\ nl (t ++ z ++ r) = PFail.
  Proof using OK.
    intros H Z. inversion H as [|g w l' t' G M T]; subst. rewrite <- !app_assoc. destruct (message_free w M) as (N & F & _ & K). split.
    - apply many_stop, then_ws_step; [auto|now apply freew_noblank|]. rewrite opt6_table. apply table_other; [auto|]. eapply sep_sepw, messages_sep; eauto.
    - now apply nl_gap.
  Qed.

  (** *** Sequence numbers and modes *)
  Lemma seq_sound s x r : seq_ s = POk x r -> exists q, s = q ++ r /\ seq_text q.
  Proof using.
    clear. unfold seq_. intros H. pinv H. apply ret_ok in H as (_ & ->). apply popt_ok in P as [(y & _ & P)|(_ & -> & _)]; [|exists []; split; [auto|now left]].
    pinv P. apply int_iff in P0 as (-> & N & F & _). apply ws_sound in P as (g & -> & G). exists (a0 ++ g). split; [now rewrite <- !app_assoc|]. right. exists a0, (int10 a0), g.
    split; [|auto]. apply decimal_text_spec. auto.
  Qed.
  Lemma seq_ok q r : seq_text q -> ~ starts is_blank r -> ~ starts AddrText.is_digit r -> seq_ (q ++ r) = POk tt r.
  Proof using.
    clear. intros [-> |(d & v & g & D & G & ->)] B N; unfold seq_.
    - eapply pbind_step; [apply popt_none, pbind_fail|reflexivity]. unfold int_, pat1. destruct (span AddrText.is_digit ([] ++ r)) as (a & b) eqn:S. apply span_iff in S as (X & F & _).
      destruct a as [|c a]; [reflexivity|]. exfalso. apply N. cbn in X. subst r. cbn [app]. rewrite starts_cons. cbn in F. now apply andb_true_iff in F.
    - apply decimal_text_spec in D as (Nd & Fd & _). rewrite <- app_assoc. eapply (pbind_step _ _ _ (Some tt)); [|reflexivity]. apply popt_some.
      eapply pbind_step; [apply int_iff; repeat split; auto; now apply sep_no_digit, gap_sep|]. now apply ws_gap.
  Qed.
  Lemma mode_cases m : mode_text m <-> m = u "permit" \/ m = u "deny".
  Proof using. clear. unfold mode_text, words. split; [intros (w & [<-|[<-|[]]] & ->); auto|intros [-> | ->]; eexists; (split; [|reflexivity]); cbn; auto]. Qed.
  Lemma mode_sound s m r : mode_ isalpha isalnum s = POk m r -> s = m ++ r /\ mode_text m.
  Proof using. clear. unfold mode_. intros H. apply tokens_sound in H as (I & -> & _). split; [auto|]. apply mode_cases. destruct I as [<-|[<-|[]]]; auto. Qed.
  Lemma mode_ok m r : mode_text m -> sepw r -> mode_ isalpha isalnum (m ++ r) = POk m r.
  Proof using OK. intros M S. apply mode_cases in M. unfold mode_. apply (tokens_ok _ _ _ OK); auto. cbn. destruct M as [-> | ->]; auto. Qed.
  Lemma mode_start m r : mode_text m -> ~ starts is_blank (m ++ r) /\ ~ starts AddrText.is_digit (m ++ r).
  Proof using. clear. intros M. apply mode_cases in M as [-> | ->]; split; now apply nostart. Qed.
End Ios.
