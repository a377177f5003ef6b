(** Reading the commands of an IOS configuration. *)
From Coq Require Import Lia String.
From Verif.Model Require Import Base Ip Hosts Groups Rules Iface Peg Ids AddrText Ports AclText Define GroupText LineText FileText IosText IosFile.
From Verif.Model Require Config.
From Verif.Spec Require Import AddrSpec AddrTextSpec CafMeanSpec CafTextSpec AclTextSpec GroupTextSpec ObjTextSpec LineTextSpec FileTextSpec IosTextSpec IosFileSpec.
From Verif.Proofs Require Import PegFacts TokFacts CafTextFacts LineFacts AclTextFacts GroupTextFacts LineTextFacts NoErr FileTextFacts FileFacts IosFacts IosLineFacts IosSkipFacts IosCommandFacts IosIpFacts.
From Verif.Props Require Import CafText AclText GroupText IosText IosList6 IosGroups IosIface.
Local Open Scope list_scope.

Definition ihead_words : list string := ["version"; "hostname"; "domain-name"; "interface"; "object-group"; "access-list"; "ip"; "ipv6"]%string.
Definition icommand_words : list string := ihead_words ++ ["banner"; "define"]%string ++ map word_of ios_table.

Section Commands.
  Context (isalpha isalnum isspace : N -> bool) (OK : classes_ok isalpha isalnum isspace).
  Context (py_int : pystr -> option Z)
          (PI1 : forall n, n <> [] -> forallb AddrText.is_digit n = true -> py_int n <> None)
          (PI2 : forall n, In n port_code -> py_int n = None).
  Notation icommand_ := (icommand_ isalpha isalnum isspace py_int).
  Notation command_text := (icommand_text isalnum isspace).
  Notation file_text := (ifile_text isalnum isspace).

  (** ** What commands begin with *)
  Lemma numbered_open E x t : numbered_rule_text E x t -> exists q, t = u "access-list" ++ q.
  Proof using.
    clear. intros [y ts t' F L]. destruct F as [|a b l l' R F].
    - cbn [concat app]. assert (B : forall id m hd, line_begin id m hd -> exists q, hd = u "access-list" ++ q) by (intros id m hd Hl; unfold line_begin in Hl; decompose [ex and] Hl; subst; eauto).
      destruct L as [id m hd g h t0 o ot z _ Hd|id m hd g p g1 src s g2 dst d icmp i o ot z _ Hd|id m hd g p pt g1 src s g2 dst d o ot z _ Hd]; destruct (B _ _ _ Hd) as (q & ->); rewrite <- app_assoc; eauto.
    - destruct R. cbn [concat]. rewrite <- !app_assoc. eauto.
  Qed.
  Lemma group_open E d t : ios_group_text E d t -> exists q, t = u "object-group" ++ q.
  Proof using. clear. intros []; eauto. Qed.
  Lemma opening fine fr T c t r : command_text fine fr T c t r -> (c = INothing /\ eol_text t) \/ exists w q, In w icommand_words /\ t = u w ++ q.
  Proof using.
    clear. assert (H : forall w q, In w ihead_words -> exists v q', In v icommand_words /\ u w ++ q = u v ++ q') by (intros w q I; exists w, q; split; [apply in_app_iff; now left|auto]).
    intros C. destruct C as [v r O A|g n z r G I Z|g n r G I O|a l t r X|d t r X|x t r X|g g' l t r G G' X|g l t r G X|g g' n r G G' N O|g a m gw n t r G S R|g t r G X D S F|g t r G X O|g w g' q r G W O L|g q t r G O N I|t r X|t r X|g q r G O|t r X];
      try (right; apply H; cbn; tauto).
    - right. destruct X. apply H. cbn. tauto.
    - right. destruct (group_open _ _ _ X) as (q & ->). apply H. cbn. tauto.
    - right. destruct (numbered_open _ _ _ X) as (q & ->). apply H. cbn. tauto.
    - right. apply (text_word isalnum _ _ _ _ _ ios_fits) in X as (w & q & I & ->). exists w, q. split; [|auto]. apply in_app_iff. right. apply in_app_iff. now right.
    - right. exists "banner"%string. destruct X; eexists; (split; [|reflexivity]); apply in_app_iff; right; now left.
    - right. exists "define"%string. eexists. split; [|reflexivity]. apply in_app_iff. right. right. now left.
    - left. auto.
  Qed.
  Definition ifresh (r : pystr) : Prop :=
    ~ opens_blank r /\ (forall w, In w ["description"; "port-object"; "group-object"]%string -> forall q, r <> u w ++ q).
  Lemma iwords_start : forallb (fun w => match u w with [] => false | c :: _ => negb (existsb (N.eqb c) [32; 9; 10; 13]%N) end &&
    forallb (fun v => clash (u v) (u w)) ["description"; "port-object"; "group-object"]%string) (icommand_words ++ ["line"; "end"]%string) = true.
  Proof using. vm_compute. reflexivity. Qed.
  Lemma iword_start w q : In w (icommand_words ++ ["line"; "end"]%string) -> exists c q', u w ++ q = c :: q' /\ c <> 32%N /\ c <> 9%N /\ c <> 10%N /\ c <> 13%N.
  Proof using.
    clear. intros I. pose proof iwords_start as H. rewrite forallb_forall in H. apply H in I. apply andb_true_iff in I as (I & _). destruct (u w) as [|c w']; [discriminate|].
    exists c, (w' ++ q). split; [auto|]. apply negb_true_iff in I. cbn [existsb] in I. rewrite !orb_false_iff, !N.eqb_neq in I. tauto.
  Qed.
  Lemma word_fresh w q : In w (icommand_words ++ ["line"; "end"]%string) -> ifresh (u w ++ q).
  Proof using.
    clear. intros I. split.
    - intros (d & x & E & D). destruct (iword_start w q I) as (c0 & q0 & E0 & N). rewrite E0 in E. injection E as -> _. tauto.
    - intros v J x E. pose proof iwords_start as H. rewrite forallb_forall in H. apply H in I. apply andb_true_iff in I as (_ & I). rewrite forallb_forall in I. apply I in J. symmetry in E. now apply clash_neq in E.
  Qed.
  Lemma file_ifresh fine fr T cs ms T' r : file_text fine fr T cs ms T' r -> ifresh r.
  Proof using.
    clear. intros [T0 s [-> |(w & q & I & -> & _)]|T0 c t r0 T1 m cs' ms' T2 C _ _].
    - split; [intros (d & x & [=] & _)|]. intros w I q E. cbn [In] in I. destruct I as [<-|[<-|[<-|[]]]]; discriminate E.
    - apply word_fresh. apply in_app_iff. now right.
    - apply opening in C as [(_ & Z)|(w & q' & I & ->)].
      + split; [intros (d & x & E & D); destruct Z as [-> | ->]; cbn in E; injection E as <- _; destruct D; discriminate|].
        intros w I q E. cbn [In] in I. destruct Z as [-> | ->]; destruct I as [<-|[<-|[<-|[]]]]; discriminate E.
      + rewrite <- app_assoc. apply word_fresh. apply in_app_iff. now left.
  Qed.

  (** ** Commands that are something else *)
  Notation none w s := (strip_prefix (u w) s = None).
  Lemma i_version s : none "version" s -> (let% v := ios_version isalpha isalnum in ret (IVersion v)) s = PFail.
  Proof using. clear. intros H. apply pbind_fail. unfold ios_version. now apply pbind_fail, kw_none. Qed.
  Lemma i_host s : none "hostname" s -> (let% v := ios_hostname isalpha isalnum in ret (IHostname v)) s = PFail.
  Proof using. clear. intros H. apply pbind_fail. unfold ios_hostname. now apply pbind_fail, kw_none. Qed.
  Lemma i_domain s : none "domain-name" s -> (let% v := ios_domain isalpha isalnum in ret (IDomain v)) s = PFail.
  Proof using. clear. intros H. apply pbind_fail. unfold ios_domain. now apply pbind_fail, kw_none. Qed.
  Lemma i_iface s : none "interface" s -> (let% x := ios_interface isalpha isalnum isspace in ret (IIface (fst x) (snd x))) s = PFail.
  Proof using. clear. intros H. apply pbind_fail. unfold ios_interface. now apply pbind_fail, kw_none. Qed.
  Lemma i_group E s : none "object-group" s -> (let% x := ios_object_group isalpha isalnum py_int E in ret (IGroup x)) s = PFail.
  Proof using. clear. intros H. apply pbind_fail. unfold ios_object_group. now apply pbind_fail, kw_none. Qed.
  Lemma i_numbered E s : none "access-list" s -> (let% x := numbered_line isalpha isalnum py_int E in ret (IRule x)) s = PFail.
  Proof using.
    clear. intros H. apply pbind_fail. unfold numbered_line, choice. cbn [fold_right].
    assert (R : forall A (k : list pystr -> parser A), (let% l := many1 (line_remark isalpha isalnum) in k l) s = PFail).
    { intros A k. apply pbind_fail. unfold many1. apply pbind_fail. unfold line_remark. now apply pbind_fail, kw_none. }
    assert (Hd : forall p A (k : pystr * pystr -> parser A), (let% x := line_head isalpha isalnum p in k x) s = PFail).
    { intros p A k. apply pbind_fail. unfold line_head. now apply pbind_fail, kw_none. }
    apply por_r; [apply R|]. apply por_r; [unfold ext_line; apply por_r; apply Hd|]. apply por_r; [apply R|]. apply por_r; [apply Hd|]. reflexivity.
  Qed.
  Lemma i_ip T s : none "ip" s -> ip_ isalpha isalnum py_int T s = PFail.
  Proof using. clear. intros H. unfold ip_. now apply pbind_fail, kw_none. Qed.
  Lemma i_ipv6 T s : none "ipv6" s -> ipv6_ isalpha isalnum py_int T s = PFail.
  Proof using. clear. intros H. unfold ipv6_. now apply pbind_fail, kw_none. Qed.
  Lemma i_rest T s : not_word ihead_words s -> icommand_ T s = (let% _ := ios_ignored isalpha isalnum in ret INothing) s.
  Proof using.
    clear. intros H. unfold ihead_words in H. repeat match goal with H : not_word (_ :: _) _ |- _ => inversion_clear H | H : Forall _ (_ :: _) |- _ => inversion_clear H end.
    unfold IosFile.icommand_, choice. cbn [fold_right].
    apply por_pair; [now apply i_version|]. apply por_pair; [now apply i_host|]. apply por_pair; [now apply i_domain|]. apply por_pair; [now apply i_iface|].
    apply por_pair; [now apply i_group|]. apply por_pair; [now apply i_numbered|]. apply por_pair; [now apply i_ip|]. apply por_pair; [now apply i_ipv6|]. unfold por. destruct (pbind _ _ s); reflexivity.
  Qed.
  Definition itables_ok (T : itables) : Prop := env_ok (ienv T) /\ aliases_ok (it_if T).
  Ltac hit H := apply por_l; first [exact H | eapply pbind_step; [exact H|]; reflexivity].
  Ltac miss := apply por_r; [first [apply i_version|apply i_host|apply i_domain|apply i_iface|apply i_group|apply i_numbered|apply i_ip|apply i_ipv6]; apply strip_clash; reflexivity|].
  Lemma head_skip : forallb (fun w => forallb (fun v => clash (u v) (u w)) ihead_words) (["banner"; "define"]%string ++ map word_of ios_table ++ ["line"; "end"]%string) = true.
  Proof using. vm_compute. reflexivity. Qed.
  Lemma no_head w s : In w (["banner"; "define"]%string ++ map word_of ios_table ++ ["line"; "end"]%string) -> not_word ihead_words (u w ++ s).
  Proof using. clear. intros I. apply not_clash. pose proof head_skip as H. rewrite forallb_forall in H. now apply H. Qed.
  Lemma read_icommand T c t r : command_text clean_detail clean_route T c t r -> itables_ok T -> ifresh r -> icommand_ T (t ++ r) = POk c r.
  Proof using OK PI1 PI2.
    intros C (HE & HA) (FB & FW).
    assert (NI : ~ indented r) by (intros (q & ->); apply FB; exists 32%N, q; auto).
    assert (NS : forall q, r <> 32%N :: q) by (intros q ->; apply FB; exists 32%N, q; auto).
    destruct C as [v r O A|g n z r G I Z|g n r G I O|a l t r X|d t r X|x t r X|g g' l t r G G' X|g l t r G X|g g' n r G G' N O|g a m gw n t r G S R|g t r G X D S F|g t r G X O|g w g' q r G W O L|g q t r G O N I|t r X|t r X|g q r G O|t r X];
      rewrite <- ?app_assoc.
    - unfold IosFile.icommand_, choice. cbn [fold_right]. apply por_l. eapply pbind_step; [|reflexivity]. unfold ios_version.
      eapply (pbind_step _ _ _ tt); [apply kw_ok; unfold stop; apply not_true_iff_false; rewrite next_alnum_opens|].
      { intros (c & x & E & B). destruct v as [|d q]; [cbn in E; injection E as <- _; rewrite (alnum_ok _ _ _ OK) in B by reflexivity; discriminate B|]. cbn [app] in E. injection E as -> _. apply A. exists c, q. auto. }
      eapply pbind_step; [now apply toeol_ok|]. eapply (pbind_step _ _ _ tt); [apply nl_ok; now left|]. reflexivity.
    - unfold IosFile.icommand_, choice. cbn [fold_right]. miss. apply por_l. eapply pbind_step; [|reflexivity]. unfold ios_hostname. apply (kwws_step isalpha isalnum isspace OK); [auto|now apply LineTextFacts.ident_noblank|]. eapply pbind_step; [apply LineTextFacts.ident_ok; [auto|now apply eol_sep]|]. eapply (pbind_step _ _ _ tt); [now apply nl_ok|]. reflexivity.
    - unfold IosFile.icommand_, choice. cbn [fold_right]. do 2 miss. apply por_l. eapply pbind_step; [|reflexivity]. unfold ios_domain. apply (kwws_step isalpha isalnum isspace OK); [auto|now apply LineTextFacts.ident_noblank|]. apply ident_iff. split; [auto|]. split; [auto|]. intros (c & q & -> & C). apply (O c q eq_refl). now apply id_char_spec.
    - pose proof (interface_ok _ _ _ OK _ _ _ _ X NI) as H. destruct X. rewrite <- !app_assoc in *. unfold IosFile.icommand_, choice. cbn [fold_right]. do 3 miss. hit H.
    - assert (R : new_command r) by (split; [auto|exact FW]). pose proof (C63_complete _ _ _ OK _ PI1 PI2 _ HE eq_refl _ _ r X R) as H.
      destruct (group_open _ _ _ X) as (q & ->). rewrite <- !app_assoc in *. unfold IosFile.icommand_, choice. cbn [fold_right]. do 4 miss. hit H.
    - assert (H : numbered_line isalpha isalnum py_int (ienv T) (t ++ r) = POk x r) by (eapply C61_reads; eauto). destruct (numbered_open _ _ _ X) as (q & ->). rewrite <- !app_assoc in *. unfold IosFile.icommand_, choice. cbn [fold_right]. do 5 miss. hit H.
    - pose proof (ip_list_ok _ _ _ OK _ PI1 PI2 T HE g g' l t r G G' X NS) as H. unfold IosFile.icommand_, choice. cbn [fold_right]. do 6 miss. hit H.
    - pose proof (ipv6_list_ok _ _ _ OK _ PI1 PI2 T HE g l t r G X NS) as H. unfold IosFile.icommand_, choice. cbn [fold_right]. do 6 miss. apply por_r; [now apply ip_not_ipv6|]. hit H.
    - assert (B : ~ starts is_blank (n ++ r)). { intros (c & q & E & Bl). destruct n as [|d n]; cbn [app] in E; [subst r; apply FB; exists c, q; split; [auto|now apply is_blank_spec]|]. injection E as -> _. destruct N as (_ & N) || idtac. specialize (N c (or_introl eq_refl)). apply is_blank_spec in Bl. unfold letter, digit in N. destruct Bl as [-> | ->]; lia. }
      pose proof (ip_domain_ok _ _ _ OK py_int T g g' n r G G' N O B) as H. unfold IosFile.icommand_, choice. cbn [fold_right]. do 6 miss. hit H.
    - pose proof (ip_route_ok _ _ _ OK py_int T HA g a m gw n t r G S R) as H. unfold IosFile.icommand_, choice. cbn [fold_right]. do 6 miss. hit H.
    - pose proof (ip_skip_ok _ _ _ OK py_int T HA g t r G X D S F NI) as H. unfold IosFile.icommand_, choice. cbn [fold_right]. do 6 miss. hit H.
    - pose proof (ip_pool_ok _ _ _ OK py_int T g t r G X O) as H. unfold IosFile.icommand_, choice. cbn [fold_right]. do 6 miss. hit H.
    - destruct L as (r' & ->). pose proof (ipv6_skip_ok _ _ _ OK py_int T g w g' q r' G W O) as H. unfold IosFile.icommand_, choice. cbn [fold_right]. do 6 miss. apply por_r; [now apply ip_not_ipv6|]. hit H.
    - pose proof (ipv6_block_ok _ _ _ OK py_int T g q t r G O N I NI) as H. unfold IosFile.icommand_, choice. cbn [fold_right]. do 6 miss. apply por_r; [now apply ip_not_ipv6|]. hit H.
    - pose proof (ignored_skipped _ _ _ OK t r X NI) as H. apply (text_word isalnum _ _ _ _ _ ios_fits) in X as (w & q & I & ->). rewrite <- app_assoc in *. rewrite i_rest by (apply no_head; rewrite !in_app_iff; auto). eapply pbind_step; [exact H|reflexivity].
    - pose proof (banner_ok _ _ _ OK t r X) as H. assert (E : exists q, t = u "banner" ++ q) by (destruct X; eauto). destruct E as (q & ->). rewrite <- app_assoc in *. rewrite i_rest by (apply no_head; now left). eapply (pbind_step _ _ _ tt); [rewrite (ignored_banner _ _ _ OK); exact H|reflexivity].
    - rewrite i_rest by (apply no_head; right; now left). eapply (pbind_step _ _ _ tt); [rewrite (ignored_define _ _ _ OK); exact (IosCommandFacts.define_ok _ _ _ OK g q r G O)|reflexivity].
    - rewrite i_rest; [eapply (pbind_step _ _ _ tt); [now apply (ignored_empty _ _ _ OK)|reflexivity]|]. destruct X as [-> | ->]; repeat constructor.
  Qed.
  Lemma read_iend T s : iend_text isalnum s -> icommand_ T s = PFail.
  Proof using.
    clear. intros [-> |(w & q & I & -> & _)].
    - rewrite i_rest by repeat constructor. apply pbind_fail. reflexivity.
    - rewrite i_rest by (apply no_head; rewrite !in_app_iff; auto). apply pbind_fail. rewrite ignored_split.
      destruct I as [<-|[<-|[]]]; (apply por_r; [now apply table_clash|]); (apply por_r; [now apply banner_miss|]); (apply por_r; [now apply table_clash|]); (apply por_r; [now apply define_miss|]); (apply por_r; [now apply table_clash|]);
        (apply por_r; [unfold skip_using; now apply pbind_fail, kw_clash|]); (apply por_r; [now apply table_clash|]); reflexivity.
  Qed.
  Lemma end_iff s x r : ios_end isalpha isalnum s = POk x r -> iend_text isalnum s.
  Proof using OK.
    unfold ios_end, choice. cbn [fold_right]. intros H.
    assert (K : forall w, name_like ascii_alpha TokFacts.ascii_alnum (u w) = true -> ascii (u w) = true -> AclText.kw isalpha isalnum w s = POk x r -> s = u w ++ r /\ ~ opens_alnum isalnum r).
    { clear H. intros w N A H. pose proof H as H'. apply kw_sound in H'. split; [auto|]. unfold AclText.kw in H. pinv H. apply ret_ok in H as (_ & <-). apply token_ok in P as (_ & _ & Pa). unfold passes in Pa. rewrite (name_like_ok _ _ _ OK), N in Pa by auto. cbn [andb] in Pa.
      rewrite <- next_alnum_opens. congruence. }
    apply por_sound in H as [H|H]; [apply K in H as (-> & N); [|reflexivity|reflexivity]; right; exists "line"%string, r; cbn; auto|].
    apply por_sound in H as [H|H]; [apply K in H as (-> & N); [|reflexivity|reflexivity]; right; exists "end"%string, r; cbn; auto|].
    apply por_sound in H as [H|H]; [|discriminate H]. destruct s; [now left|discriminate H].
  Qed.
  Lemma end_ok s : iend_text isalnum s -> exists r, ios_end isalpha isalnum s = POk tt r.
  Proof using OK.
    unfold ios_end, choice. cbn [fold_right]. intros [-> |(w & q & [<-|[<-|[]]] & -> & N)]; [exists []; reflexivity|exists q|exists q].
    - apply por_l, kw_ok. unfold stop. apply not_true_iff_false. now rewrite next_alnum_opens.
    - apply por_r; [now apply kw_clash|]. apply por_l, kw_ok. unfold stop. apply not_true_iff_false. now rewrite next_alnum_opens.
  Qed.
End Commands.
