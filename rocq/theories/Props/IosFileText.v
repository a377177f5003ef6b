(** C65: a whole IOS configuration as text.
    A text is accepted exactly if it is a sequence of commands of Spec/IosFileSpec.v, each
    written with the names defined before it, up to the end of the text or a line that begins
    with the word "line" or "end"; the commands read are those written (C65_reads,
    C65_complete), a text has one reading (C65_unique), and what follows the line that ends
    the configuration does not matter (C65_after). *)
From Coq Require Import Lia String.
From Verif.Model Require Import Base Ip Hosts Groups Rules Iface Peg Ids AddrText Ports AclText Define GroupText LineText FileText IosText IosFile.
From Verif.Model Require Config.
From Verif.Spec Require Import AddrSpec AddrTextSpec RefSpec CafMeanSpec CafTextSpec AclTextSpec GroupTextSpec ObjTextSpec LineTextSpec FileTextSpec IosTextSpec IosFileSpec.
From Verif.Proofs Require Import GroupOps DictFacts PegFacts TokFacts CafTextFacts CafMean LineFacts AclTextFacts GroupTextFacts LineTextFacts NoErr FileTextFacts FileFacts IosFacts IosLineFacts IosSkipFacts IosCommandFacts IosIpFacts IosFileFacts.
From Verif.Props Require Import CafText AclText GroupText IosText IosList6 IosGroups IosIface.
From Verif.Props Require FileText.
Local Open Scope list_scope.

Section File.
  Context (isalpha isalnum isspace : N -> bool) (OK : classes_ok isalpha isalnum isspace).
  Context (py_int : pystr -> option Z)
          (PI1 : forall n, n <> [] -> forallb AddrText.is_digit n = true -> py_int n <> None)
          (PI2 : forall n, In n port_code -> py_int n = None).
  Notation icommand_ := (icommand_ isalpha isalnum isspace py_int).
  Notation icommands := (icommands isalpha isalnum isspace py_int).
  Notation ios_parse := (ios_parse isalpha isalnum isspace py_int).
  Notation command_text := (icommand_text isalnum isspace).
  Notation file_text := (ifile_text isalnum isspace).

  (** ** Where the names in the tables come from *)
  Definition inamed_by {V} (cs : list icommand) (P : pystr -> icommand -> Prop) (d : dict V) : Prop :=
    forall n, dmem d n = true -> exists c, In c cs /\ P n c.
  Definition good_igroup k n c := igroup_named k n c /\ name_chars n.
  Definition good_iiface n c := (exists l, c = IIface n l) /\ url_text isspace n.
  Record itables_from (cs : list icommand) (T : itables) : Prop := {
    if_netgrp : inamed_by cs (good_igroup NetGroup) (fst (w_net (it_world T)));
    if_svcgrp : inamed_by cs (good_igroup SvcGroup) (fst (w_service (it_world T)));
    if_portgrp : inamed_by cs (good_igroup PortGroup) (fst (w_port (it_world T)));
    if_icmpgrp : inamed_by cs (good_igroup IcmpGroup) (fst (w_icmp (it_world T)));
    if_protogrp : inamed_by cs (good_igroup ProtoGroup) (fst (w_proto (it_world T)));
    if_if : inamed_by cs good_iiface (it_if T) }.
  Lemma ifrom_nothing : itables_from [] no_itables.
  Proof using. clear. split; intros n H; discriminate H. Qed.
  Lemma inamed_more {V} cs c P (d : dict V) : inamed_by cs P d -> inamed_by (cs ++ [c]) P d.
  Proof using. clear. intros H n M. destruct (H n M) as (c' & I & Q). exists c'. split; [apply in_app_iff; now left|auto]. Qed.
  Lemma inamed_set {V} cs c P (d : dict V) k v : inamed_by cs P d -> P k c -> inamed_by (cs ++ [c]) P (dset d k v).
  Proof using. clear. intros H Q n M. apply FileText.dmem_dset in M as [->|M]; [exists c; split; [apply in_app_iff; right; now left|auto]|]. now apply (inamed_more _ c) in H; apply H. Qed.
  Lemma ifrom_more cs T c m : itables_from cs T -> itables_from (cs ++ [c]) (mkitables (it_world T) (it_if T) m).
  Proof using. clear. intros [A1 A2 A3 A4 A5 A6]. split; cbn [it_world it_if]; auto using inamed_more. Qed.
  Lemma ifrom_step fine fr cs T c t r T' m : itables_from cs T -> command_text fine fr T c t r -> ilearn T c = Ok (T', m) -> itables_from (cs ++ [c]) T'.
  Proof using.
    clear. intros F C L. pose proof (ifrom_more cs T c (S (it_count T)) F) as M. pose proof F as [A1 A2 A3 A4 A5 A6]. pose proof M as [B1 B2 B3 B4 B5 B6]. cbn [it_world it_if] in *.
    destruct C as [v r O A|g n z r G I Z|g n r G I O|a l t r X|d t r X|x t r X|g g' l t r G G' X|g l t r G X|g g' n r G G' N O|g a gm gw n t r G S R|g t r G X D S Fr|g t r G X O|g w g' q r G W O Le|g q t r G O N I|t r X|t r X|g q r G O|t r X];
      cbn [ilearn] in L; unfold icounted in L; try (injection L as <- _; exact M).
    - destruct (iface_init _ _ _) as [i|]; cbn [bind] in L; [|discriminate]. injection L as <- _. split; cbn [it_world it_if]; auto. apply inamed_set; [auto|]. split; [eauto|]. now destruct X.
    - destruct (define_any (it_world T) d) as [w|] eqn:Dw; cbn [bind] in L; [|discriminate]. injection L as <- _.
      assert (Gn : forall w (X : Type) (P : member X -> pystr -> Prop) d t, plain_group w P d t -> name_chars (gd_name d)).
      { intros w0 X0 P d0 t0 [n h d1 td ms tm (g1 & z & _ & Nc & _) _ _]. exact Nc. }
      destruct X as [g d t G X|g d t G X|g d t G X|g d t G X|g g1 n g2 p z d td ms tm G G1 Nn G2 Pw Z Td Tm]; cbn [define_any] in Dw;
        (destruct (define _ _ _ _) as [y|] eqn:Dd; cbn [bind] in Dw; [|discriminate]); injection Dw as <-; apply FileText.define_keys in Dd as (gi & Ek);
        split; auto; cbn [it_world it_if w_net w_port w_service w_proto w_icmp]; rewrite Ek; (apply inamed_set; [auto|]); (split; [constructor|eauto]).
      cbn [gd_name]. exact (proj2 Nn).
  Qed.
  Lemma ifrom_ok cs l T : itables_from cs T -> iwell_named (cs ++ l) -> itables_ok T.
  Proof using OK.
    intros [A1 A2 A3 A4 A5 A6] [W1 W2 W3].
    assert (Lf : forall c, In c cs -> In c (cs ++ l)) by (intros c I; apply in_app_iff; now left).
    assert (G : forall V k (d : dict V), inamed_by cs (good_igroup k) d -> keys name_text d).
    { intros V k d H n M. destruct (H n M) as (c & I & On & Nc). split; [eapply W1; eauto|exact Nc]. }
    assert (X : forall V W a b (d : dict V) (d' : dict W), inamed_by cs (good_igroup a) d -> inamed_by cs (good_igroup b) d' -> exclusive a b -> no_common d d').
    { intros V W a b d d' H H' E n M. destruct (dmem d' n) eqn:M'; [|auto]. destruct (H n M) as (c & I & On & _). destruct (H' n M') as (c' & I' & On' & _). exfalso. exact (W2 a b n c c' (Lf _ I) (Lf _ I') On On' E). }
    split.
    - unfold env_ok, ienv. cbn [e_names e_netobj e_netgrp e_svcobj e_svcgrp e_portgrp e_icmpgrp e_protogrp e_time].
      assert (Z : forall V P, @keys V P []) by (intros V P n H; discriminate H).
      split; [apply Z|]. split; [apply Z|]. split; [eauto|]. split; [apply Z|]. split; [eauto|]. split; [eauto|]. split; [eauto|]. split; [eauto|]. split; [apply Z|]. split; [intros n x E; discriminate E|].
      unfold exclusive in X. split; [eapply X; eauto; cbn; tauto|]. split; [eapply X; eauto; cbn; tauto|]. split; [eapply X; eauto; cbn; tauto|]. split; [eapply X; eauto; cbn; tauto|].
      split; [eapply X; eauto; cbn; tauto|eapply X; eauto; cbn; tauto].
    - intros n M. destruct (A6 n M) as (c & I & (d & ->) & (Nn & U)). split; [auto|]. split; [|eapply W3; eauto].
      intros c Ic Jc. apply U in Ic. cbn [In] in Jc. destruct Jc as [<-|[<-|[<-|[<-|[]]]]]; (rewrite (space_ok _ _ _ OK) in Ic by reflexivity; discriminate Ic).
  Qed.

  (** ** Whatever is read is a command *)
  Lemma icommand_sound T s c r : itables_ok T -> ended s -> icommand_ T s = POk c r -> exists t, s = t ++ r /\ command_text clean_detail clean_route T c t r.
  Proof using OK PI1 PI2.
    intros (HE & HA) En H. unfold IosFile.icommand_, choice in H. cbn [fold_right] in H.
    apply por_sound in H as [H|H].
    { pinv H. apply ret_ok in H as (<- & ->). unfold ios_version in P. pinv P. apply ret_ok in P as (<- & ->). pose proof P0 as K. apply kw_sound in P0 as ->. destruct (toeol_nl_sound _ _ _ _ _ P1 P2) as (-> & O).
      exists (u "version" ++ a1 ++ lf). split; [now rewrite <- !app_assoc|]. apply IC_version; [auto|]. unfold AclText.kw in K. pinv K. apply ret_ok in K as (_ & E0). subst. apply token_ok in P as (_ & _ & Pa).
      unfold passes in Pa. rewrite (name_like_ok _ _ _ OK) in Pa by reflexivity. change (name_like ascii_alpha TokFacts.ascii_alnum (u "version")) with true in Pa. cbn [andb] in Pa. intros (c & q & -> & A). cbn in Pa. rewrite A in Pa. discriminate Pa. }
    apply por_sound in H as [H|H].
    { pinv H. apply ret_ok in H as (<- & ->). unfold ios_hostname in P. pinv P. apply ret_ok in P as (<- & ->). apply kw_sound in P0 as ->. apply ws_sound in P1 as (g & -> & G). apply ident_iff in P2 as (-> & I & _). apply nl_sound in P3 as (z & -> & Z).
      eexists. split; [|now apply (IC_hostname _ _ _ _ _ g _ z)]. now rewrite <- !app_assoc. }
    apply por_sound in H as [H|H].
    { pinv H. apply ret_ok in H as (<- & ->). unfold ios_domain in P. pinv P. apply kw_sound in P0 as ->. apply ws_sound in P1 as (g & -> & G). apply ident_iff in P as (-> & I & N).
      exists (u "domain-name" ++ g ++ a). split; [now rewrite <- !app_assoc|]. apply IC_domain_name; auto. intros c q -> C. apply N. exists c, q. split; [auto|]. now apply id_char_spec. }
    apply por_sound in H as [H|H].
    { pinv H. apply ret_ok in H as (<- & ->). destruct a as (a, l). apply (interface_sound _ _ _ OK) in P as (t & -> & X); [|auto]. exists t. split; [auto|]. now apply IC_iface. }
    apply por_sound in H as [H|H].
    { pinv H. apply ret_ok in H as (<- & ->). apply (C63_reads _ _ _ OK _ PI1 PI2 _ HE eq_refl) in P as (t & -> & X & _). exists t. split; [auto|]. now apply IC_group. }
    apply por_sound in H as [H|H].
    { pinv H. apply ret_ok in H as (<- & ->). apply (C61_reads _ _ _ OK _ PI1 PI2 _ HE) in P as (t & -> & X). exists t. split; [auto|]. now apply IC_numbered. }
    apply por_sound in H as [H|H]; [eapply ip_sound; eauto|].
    apply por_sound in H as [H|H]; [eapply ipv6_sound; eauto|].
    apply por_sound in H as [H|H]; [|discriminate H]. pinv H. apply ret_ok in H as (<- & ->). eapply ios_ignored_sound; eauto.
  Qed.

  (** ** The whole text *)
  Lemma ifile_sound fuel : forall T s cs ms T' r prev, icommands fuel T s = POk (cs, ms, T') r -> iend_text isalnum r -> ended s -> itables_from prev T -> iwell_named (prev ++ cs) ->
    file_text clean_detail clean_route T cs ms T' s.
  Proof using OK PI1 PI2.
    induction fuel as [|fuel IH]; intros T s cs ms T' r prev H E En Fr W; cbn [IosFile.icommands] in H.
    - injection H as <- <- <- ->. now constructor.
    - destruct (icommand_ T s) as [|e|c r1] eqn:C; [injection H as <- <- <- ->; now constructor|discriminate|].
      destruct (ilearn T c) as [(T1, m)|] eqn:L; [|discriminate].
      destruct (Nat.ltb_spec (@length N r1) (@length N s)) as [Lt|]; [|injection H as <- <- <- ->; now constructor].
      destruct (icommands fuel T1 r1) as [|e|((cs', ms'), T2) r'] eqn:R; try discriminate. injection H as <- <- <- ->.
      pose proof (ifrom_ok prev (c :: cs') T Fr W) as TO. apply icommand_sound in C as (t & -> & X); auto.
      econstructor; [exact X|exact L|]. eapply (IH _ _ _ _ _ _ (prev ++ [c])); eauto; [now apply ended_app in En|eapply ifrom_step; eauto|rewrite <- app_assoc; exact W].
  Qed.
  Lemma ifile_complete T cs ms T' s : file_text clean_detail clean_route T cs ms T' s -> forall fuel prev, (length s < fuel)%nat -> itables_from prev T -> iwell_named (prev ++ cs) ->
    exists r, iend_text isalnum r /\ icommands fuel T s = POk (cs, ms, T') r.
  Proof using OK PI1 PI2.
    induction 1 as [T s E|T c t r T' m cs ms T'' C L F IH]; intros fuel prev Lt Fr W; (destruct fuel as [|fuel]; [inversion Lt|]); cbn [IosFile.icommands].
    - exists s. split; [auto|]. now rewrite read_iend.
    - pose proof (ifrom_ok prev (c :: cs) T Fr W) as TO. rewrite (read_icommand _ _ _ OK _ PI1 PI2 _ _ _ _ C TO (file_ifresh _ _ _ _ _ _ _ _ _ F)), L.
      assert (Nt : t <> []).
      { intros ->. apply IosFileFacts.opening in C as [(_ & [Z|Z])|(w & q & I & E)]; try discriminate Z. destruct (iword_start w q) as (c0 & q0 & E0 & _); [apply in_app_iff; now left|]. congruence. }
      assert (Lr : (length r < length (t ++ r))%nat) by (rewrite app_length; destruct t; [congruence|]; cbn; unfold pystr in *; lia).
      destruct (Nat.ltb_spec (@length N r) (@length N (t ++ r))) as [_|X]; [|unfold pystr in *; lia].
      destruct (IH fuel (prev ++ [c])) as (r' & E & R).
      + unfold pystr in *. lia.
      + eapply ifrom_step; eauto.
      + rewrite <- app_assoc. exact W.
      + exists r'. split; [auto|]. now rewrite R.
  Qed.

  (** C65: what an accepted text is read as is written there, command by command. *)
  Theorem C65_reads : forall data cs ms T, ios_parse data = Ok (cs, ms, T) -> iwell_named cs -> file_text clean_detail clean_route no_itables cs ms T (data ++ lf) /\ cs <> [].
  Proof using OK PI1 PI2.
    intros data cs ms T H W. unfold IosFile.ios_parse in H. fold lf in H. destruct (icommands _ _ _) as [|e|(([|c cs'], ms'), T') r] eqn:C; try discriminate H.
    destruct (ios_end isalpha isalnum r) as [|e|x r'] eqn:E; try discriminate H. injection H as <- <- <-. split; [|discriminate].
    eapply (ifile_sound _ _ _ _ _ _ _ []); eauto; [eapply end_iff; eauto|right; eauto|apply ifrom_nothing].
  Qed.
  (** C65: every text written as commands is accepted, and read as these. *)
  Theorem C65_complete : forall data cs ms T, file_text clean_detail clean_route no_itables cs ms T (data ++ lf) -> iwell_named cs -> cs <> [] -> ios_parse data = Ok (cs, ms, T).
  Proof using OK PI1 PI2.
    intros data cs ms T F W N. unfold IosFile.ios_parse. fold lf. destruct (ifile_complete _ _ _ _ _ F (S (length (data ++ lf))) []) as (r & E & R); [unfold pystr in *; lia|apply ifrom_nothing|auto|].
    rewrite R. destruct cs as [|c cs]; [congruence|]. apply (end_ok isalpha _ _ OK) in E as (r' & ->). reflexivity.
  Qed.
  (** C65: accepted are exactly the texts written as commands. *)
  Theorem C65_exact : forall data cs ms T, iwell_named cs -> ios_parse data = Ok (cs, ms, T) <-> file_text clean_detail clean_route no_itables cs ms T (data ++ lf) /\ cs <> [].
  Proof using OK PI1 PI2. intros data cs ms T W. split; [intros H; now apply C65_reads|intros (H & N); now apply C65_complete]. Qed.
  Theorem C65_unique : forall data cs ms T cs' ms' T', file_text clean_detail clean_route no_itables cs ms T (data ++ lf) -> file_text clean_detail clean_route no_itables cs' ms' T' (data ++ lf) ->
    iwell_named cs -> iwell_named cs' -> cs <> [] -> cs' <> [] -> cs = cs' /\ ms = ms' /\ T = T'.
  Proof using OK PI1 PI2.
    intros data cs ms T cs' ms' T' F F' W W' N N'. apply C65_complete in F; [|auto|auto]. apply C65_complete in F'; [|auto|auto]. rewrite F in F'. injection F' as -> -> ->. auto.
  Qed.

  (** ** After the end *)
  Lemma first_line_of a : exists l y, forall x, (a : pystr) ++ lf ++ x = l ++ lf ++ y x /\ one_line l.
  Proof using.
    clear. induction a as [|c a (l & y & H)]; [exists [], (fun x => x); intros x; split; [auto|intros []]|].
    destruct (N.eqb_spec c 10) as [->|N]; [exists [], (fun x => a ++ lf ++ x); intros x; split; [auto|intros []]|].
    exists (c :: l), y. intros x. destruct (H x) as (E & O). split; [cbn [app]; now rewrite E|]. intros [I|I]; [congruence|now apply O].
  Qed.
  Lemma rest_frame fine fr T c t l y y' : one_line l -> command_text fine fr T c t (l ++ lf ++ y) -> command_text fine fr T c t (l ++ lf ++ y').
  Proof using.
    clear. intros O C.
    assert (FC : forall c q, l ++ lf ++ y' = c :: q -> exists q', l ++ lf ++ y = c :: q') by (intros d q E; destruct l as [|b l]; cbn [app lf] in *; injection E as <- _; eauto).
    remember (l ++ lf ++ y) as r eqn:Er. destruct C as [v r O' A|g n z r G I Z|g n r G I Ov|a ll t r X|d t r X|x t r X|g g' ll t r G G' X|g ll t r G X|g g' n r G G' N Ov|g a gm gw n t r G S R|g t r G X D S Fr|g t r G X Ov|g w g' q r G W O' Le|g q t r G O' N I|t r X|t r X|g q r G O'|t r X];
      subst r; [now constructor|now constructor|apply IC_domain_name; auto|now constructor|now constructor|now constructor|now constructor|now apply IC_list6|apply IC_domain; auto|now apply (IC_route _ _ _ _ _ g a gm)|apply IC_ip; auto|apply IC_pool; auto|apply IC_ipv6; auto|now apply IC_ipv6_block|now apply IC_skipped|now apply IC_banner|now apply IC_define|now apply IC_empty].
    - intros c q E. destruct (FC c q E) as (q' & E'). eapply Ov; eauto.
    - intros c q E. destruct (FC c q E) as (q' & E'). eapply Ov; eauto.
    - intros q r' Oq E. apply first_lines in E as (<- & _); [|auto|auto]. eapply Ov; eauto.
    - destruct Le as (r' & E). destruct l as [|b l]; [exists y'; auto|]. cbn [app lf] in E. injection E as -> _. exfalso. apply O. now left.
  Qed.
  Lemma end_frame l x x' : one_line l -> iend_text isalnum (l ++ lf ++ x) -> iend_text isalnum (l ++ lf ++ x').
  Proof using OK.
    intros O [E|(w & q & I & E & N)]; [destruct l; discriminate E|]. apply line_split in E as (b & -> & ->); [|auto|destruct I as [<-|[<-|[]]]; now apply word_line].
    right. exists w, (b ++ lf ++ x'). rewrite <- app_assoc. split; [auto|]. split; [auto|]. intros (c & y & E & A). apply N. destruct b as [|d b]; cbn [app lf] in *; injection E as -> _; eexists; eexists; eauto.
  Qed.
  (** C65: nothing after the line that ends the configuration matters. *)
  Theorem C65_after : forall fine fr T cs ms T' s, file_text fine fr T cs ms T' s ->
    exists t e, s = t ++ e /\ iend_text isalnum e /\
      forall l x x', one_line l -> e = l ++ lf ++ x -> file_text fine fr T cs ms T' (t ++ l ++ lf ++ x').
  Proof using OK.
    induction 1 as [T s E|T c t r T' m cs ms T'' C L F IH].
    - exists [], s. split; [auto|]. split; [auto|]. intros l x x' O ->. constructor. eapply end_frame; eauto.
    - destruct IH as (t2 & e & -> & E & K). exists (t ++ t2), e. split; [now rewrite app_assoc|]. split; [auto|]. intros l x x' O El. rewrite <- app_assoc.
      econstructor; [|exact L|eapply K; eauto]. subst e. destruct (first_line_of (t2 ++ l)) as (l' & y & H). destruct (H x) as (E1 & O'). destruct (H x') as (E2 & _).
      rewrite <- !app_assoc in E1, E2. rewrite E1 in C. rewrite E2. eapply rest_frame; eauto.
  Qed.
End File.

(** ** Examples *)
Notation ip := (ios_parse ascii_alpha ascii_alnum ascii_space C52_int).
Definition C65_data : pystr :=
  line "version 12.4" ++ line "service timestamps log datetime" ++ line "!" ++ line "hostname rtr1" ++ line "banner motd ^C" ++ line "no access" ++ line "^C" ++
  line "ip domain name example.org" ++ line "object-group network servers" ++ line " host 10.0.0.80" ++ line " 10.1.0.0 255.255.0.0" ++
  line "interface Vlan10" ++ line " description office" ++ line " ip address 10.9.0.1 255.255.255.0" ++ line " ip access-group IN in" ++ line "!" ++
  line "router ospf 1" ++ line " network 10.0.0.0" ++
  line "ip route 0.0.0.0 0.0.0.0 192.0.2.1" ++ line "ip route 10.5.0.0 255.255.0.0 Vlan10" ++ line "ip route 10.6.0.0 255.255.0.0 Vlan10 200" ++
  line "ip access-list extended IN" ++ line " remark web" ++ line " permit tcp any object-group servers eq www" ++ line " deny ip any any log" ++
  line "access-list 10 permit 10.0.0.0 0.255.255.255" ++
  line "ipv6 access-list IN6" ++ line " sequence 10 permit ipv6 any any" ++
  line "ip dhcp pool LAN" ++ line " network 10.9.0.0 255.255.255.0" ++ line "!" ++
  line "line vty 0 4" ++ line "this is not a command".
Definition ikind_of (c : icommand) : nat :=
  match c with IVersion _ => 1 | IHostname _ => 2 | IDomain _ => 3 | IIface _ _ => 4 | IGroup _ => 5 | IRule _ => 6 | IRules l => 10 + length l | IRoute _ _ => 7 | INothing => 0 end.
Definition C65_result := Eval vm_compute in match ip C65_data with Ok x => Some x | Err _ => None end.
Definition ikinds (data : pystr) : result (list nat) := match ip data with Ok x => Ok (map ikind_of (fst (fst x))) | Err e => Err e end.
Example C65_ex1 : exists cs ms T, ip C65_data = Ok (cs, ms, T) /\ map ikind_of cs = [1; 0; 0; 2; 0; 3; 0; 5; 4; 0; 0; 7; 7; 0; 12; 6; 11; 0; 0] /\ iwell_named cs.
Proof.
  destruct C65_result as [((cs, ms), T)|] eqn:E; [|discriminate E]. exists cs, ms, T. unfold C65_result in E. injection E as <- <- <-.
  split; [vm_compute; reflexivity|]. split; [vm_compute; reflexivity|].
  assert (G : forall A (l : list A) x (P : A -> Prop), In x l -> Forall P l -> P x) by (intros A l x P I F; rewrite Forall_forall in F; exact (F x I)).
  split.
  - intros k n c I. refine (G _ _ _ (fun c => igroup_named k n c -> n <> []) I _). repeat apply Forall_cons; try apply Forall_nil; intros B; inversion B; subst; discriminate.
  - intros a b n c c' I I' A B X.
    assert (K : forall c, In c (fst (fst (match C65_result with Some x => x | None => ([], [], no_itables) end))) -> forall k n, igroup_named k n c -> k = NetGroup); [|apply K in A; [|exact I]; apply K in B; [|exact I']; subst; repeat (destruct X as [X|X]; [discriminate X|]); destruct X].
    intros c0 I0. refine (G _ _ _ (fun c => forall k n, igroup_named k n c -> k = NetGroup) I0 _). repeat apply Forall_cons; try apply Forall_nil; intros k0 n0 Y; inversion Y; subst; reflexivity.
  - intros a l I. refine (G _ _ _ (fun c => forall a l, c = IIface a l -> ~ opens_digit a) I _ a l eq_refl).
    repeat apply Forall_cons; try apply Forall_nil; intros y z Ey; try discriminate Ey. injection Ey as <- _. intros (c & q & E & D). injection E as <- _. unfold digit in D. lia.
Qed.
Example C65_ex1' : exists cs ms T, ifile_text ascii_alnum ascii_space clean_detail clean_route no_itables cs ms T (C65_data ++ lf) /\ length cs = 19.
Proof.
  destruct C65_ex1 as (cs & ms & T & H & K & W). exists cs, ms, T. split.
  - apply (C65_reads _ _ _ C41_classes _ C52_int1 C52_int2 _ _ _ _ H W).
  - apply (f_equal (@length nat)) in K. rewrite map_length in K. exact K.
Qed.
(** What C65_complete asks for is met: a text written as commands. *)
Definition C65_default : net := mknet V4 0 0.
Definition C65_hop : Config.gateway := Config.GwAddr (mkaddr V4 3221225985).
Example C65_ex2 : ifile_text ascii_alnum ascii_space clean_detail clean_route no_itables
  [IHostname (u "r1"); IRoute C65_default C65_hop; INothing] [IMHostname (u "r1"); IMRoute C65_default C65_hop; IMNothing] (mkitables world_init [] 3)
  (line "hostname r1" ++ line "ip route 0.0.0.0 0.0.0.0 192.0.2.1" ++ line "!" ++ line "end" ++ line "what follows") /\
  iwell_named [IHostname (u "r1"); IRoute C65_default C65_hop; INothing].
Proof.
  assert (Q : forall t a, ip4 t = POk a [] -> quad_text t a) by (intros t a H; apply ip4_sound' in H as (t' & E & X); rewrite app_nil_r in E; now subst).
  assert (SP : gap (u " ")) by (split; [discriminate|intros c [<-|[]]; auto]).
  split.
  - eapply IFX_more; [|reflexivity|eapply IFX_more; [|reflexivity|eapply IFX_more; [|reflexivity|apply IFX_end]]].
    + apply (IC_hostname _ _ _ _ _ (u " ") (u "r1") lf); [auto| |now left]. change (u "r1") with [114; 49]%N. split; [exists 114%N, [49%N]; split; [reflexivity|unfold letter; lia]|]. intros c Hc. repeat (destruct Hc as [<-|Hc]; [unfold letter, digit; lia|]). destruct Hc.
    + apply (IC_route _ _ _ _ _ (u " ") (mkaddr V4 0) 0 _ _ (u "route 0.0.0.0 0.0.0.0 192.0.2.1" ++ lf)); [auto| |].
      * apply (RO _ _ 0%N _ (u " ") (u "0.0.0.0") (u " ") (u " ") (u "192.0.2.1") lf); [exact SP|apply Q; vm_compute; reflexivity|exact SP|lia|exact SP|constructor; apply Q; vm_compute; reflexivity|now left].
      * apply route_network; [vm_compute; reflexivity|reflexivity|lia|vm_compute; reflexivity].
    + apply IC_skipped. apply (text_single ascii_alnum _ _ _ _ _ ios_fits "!" lf).
      * exists lf. split; [reflexivity|]. split; [apply (FO_open _ _ _ "!" []); [now left|intros []]|]. intros _ (c & q & E & A). injection E as <- _. discriminate A.
      * intros w' q I E. revert E. cbn in I. repeat (destruct I as [<-|I]; [first [reflexivity|discriminate]|]). destruct I.
    + right. exists "end"%string, (lf ++ line "what follows"). split; [cbn; auto|]. split; [reflexivity|]. intros (c & q & E & A). injection E as <- _. discriminate A.
  - split.
    + intros k n c I B. repeat (destruct I as [<-|I]; [inversion B|]). destruct I.
    + intros a b n c c' I _ B. repeat (destruct I as [<-|I]; [inversion B|]). destruct I.
    + intros a l I. repeat (destruct I as [E|I]; [discriminate E|]). destruct I.
Qed.

(** ** Findings *)
(** A route with a distance, a name or an interface and an address is not a route. *)
Example C65_route_lost : ikinds (u "ip route 10.0.0.0 255.0.0.0 192.0.2.1 200") = Ok [0] /\ ikinds (u "ip route 10.0.0.0 255.0.0.0 192.0.2.1") = Ok [7].
Proof. vm_compute. auto. Qed.
(** A route with host bits stops the program. *)
Example C65_route_host : ikinds (u "ip route 10.0.0.1 255.0.0.0 192.0.2.1") = Err ValueError.
Proof. vm_compute. reflexivity. Qed.
(** A pool runs on over the commands after it, up to a line with "!", "(", ")" or "|". *)
Example C65_pool : ikinds (line "ip dhcp pool LAN" ++ line " network 10.9.0.0" ++ line "hostname r2" ++ line "ip access-list extended IN" ++ line " permit ip any any" ++ u "!") = Ok [0; 0].
Proof. vm_compute. reflexivity. Qed.
(** Nothing after the word "line" or "end" is read. *)
Example C65_lost : ikinds (line "hostname r1" ++ line "line con 0" ++ line "ip access-list extended IN" ++ u " permit ip any any") = Ok [2].
Proof. vm_compute. reflexivity. Qed.
(** Only the message of the day may have a banner. *)
Example C65_banner : ikinds (u "banner motd #hi#") = Ok [0] /\ ikinds (u "banner exec #hi#") = Err FailedParse /\ ikinds (u "banner login #hi#") = Err FailedParse.
Proof. vm_compute. auto. Qed.
(** A delimiter that is not an ASCII character does not end what it began: the text that
    ends it is its last byte and the hexadecimal digits of those before. *)
Example C65_stop : banner_stop 167 = Ok [167; 99; 50]%N /\
  ikinds (u "banner motd " ++ [167%N] ++ u "hi" ++ [167%N]) = Err FailedParse /\ ikinds (u "banner motd " ++ [167%N] ++ u "hi" ++ [167%N] ++ u "c2") = Ok [0].
Proof. vm_compute. auto. Qed.
(** Lines no configuration may have *)
Example C65_unread : ikinds (u "Using 100 out of 200 bytes") = Err FailedParse /\ ikinds (u "ip domain name a b") = Err FailedParse /\
  ikinds (u "ip cef distributed") = Err FailedParse /\ ikinds (u "access-list 10 remark web") = Err FailedParse /\ ikinds (u "ntp server 10.0.0.1") = Err FailedParse.
Proof. vm_compute. auto 10. Qed.
(** "ip domain-name" is skipped, "ip domain name" and "domain-name" are kept; the version keeps the blank before it. *)
Example C65_domain : ikinds (u "ip domain-name a.org") = Ok [0] /\ ikinds (u "ip domain name a.org") = Ok [3; 0] /\ ikinds (u "domain-name a.org") = Ok [3; 0].
Proof. vm_compute. auto. Qed.
Example C65_version : exists ms T, ip (u "version 12.4") = Ok ([IVersion (u " 12.4")], ms, T).
Proof. vm_compute. eauto. Qed.

Print Assumptions C65_reads.
Print Assumptions C65_complete.
Print Assumptions C65_exact.
Print Assumptions C65_unique.
Print Assumptions C65_after.
