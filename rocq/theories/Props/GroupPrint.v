(** C79: printing rules and groups of a configuration. *)
From Coq Require Import Lia String.
From Verif.Model Require Import Base Ip Hosts Groups AddrStr Rules Caf CafPrint GroupPrint Nat Iface Peg Ids AddrText Ports AclText Define GroupText ObjText LineText NatText FileText FileFilter IosText IosFile IosFilter Pfsense PfFile Detect Auto.
From Verif.Model Require Config.
From Verif.Spec Require Import AddrSpec GroupSpec CafPrintSpec FileConfigSpec ConfigSpec IosConfigSpec AutoSpec PipelineSpec CafTextSpec PfSpec PfFileSpec PfFilterSpec ResolveSpec AutoResolveSpec AddrTextSpec RefSpec AclTextSpec GroupTextSpec ObjTextSpec FileTextSpec CafPrintSpec GroupPrintSpec.
From Verif.Proofs Require Import GroupFacts DictFacts FileGood PfFacts PfIface ExpandGood.
From Verif.Props Require Import AclText Filter FileFilter IosFilter PfFile PfFilter CafText CafPrint Auto Pipeline AutoResolve.
Local Open Scope list_scope.

Section Terms.
  Context (odescr : netobj -> pystr) (gdescr : gid -> pystr).
  Notation term_repr := (term_repr odescr gdescr).
  Notation end_repr := (end_repr odescr gdescr).
  Notation aclrule_repr := (aclrule_repr odescr gdescr).
  Notation printed := (printed odescr gdescr).

  Lemma term_printed h : heap_ok h -> forall x n, end_good n x -> exists t, printed h x t /\ forall k, (forall g, x = HGrp g -> g < k) -> term_repr k h x = Ok t.
  Proof using.
    intros G. assert (L : forall l, leaf_wf l -> exists t, printed h (HLeaf l) t /\ forall k, (forall g, HLeaf l = HGrp g -> g < k) -> term_repr k h (HLeaf l) = Ok t).
    { intros l W. exists (leaf_repr l). split; [constructor; now apply leaf_repr_text|]. intros k _. destruct k; reflexivity. }
    assert (H : forall m x, host_good m x -> exists t, printed h x t /\ forall k, (forall g, x = HGrp g -> g < k) -> term_repr k h x = Ok t).
    { induction m as [m IH] using lt_wf_ind. intros [l|o|g] W; cbn [host_good] in W.
      - apply L, W.
      - exists (u "NetworkObject " ++ o_name o ++ u " " ++ opt_str (o_type o) ++ u " # " ++ odescr o). split; [constructor; destruct (o_type o); constructor|]. intros [|k] _; reflexivity.
      - assert (M : exists ts, Forall2 (printed h) (objs h g) ts /\ forall k, g <= k -> map_r (term_repr k h) (objs h g) = Ok ts).
        { assert (S : forall x, In x (objs h g) -> host_good g x) by (intros x I; now apply G). assert (E : forall x, In x (objs h g) -> exists t, printed h x t /\ forall k, (forall g', x = HGrp g' -> g' < k) -> term_repr k h x = Ok t) by (intros x I; apply (IH g W x (S x I))).
          clear IH L. induction (objs h g) as [|x l IHl]; [exists []; split; [constructor|reflexivity]|]. destruct (E x (or_introl eq_refl)) as (t & P & Q).
          destruct IHl as (ts & F & R); [intros y I; apply S; now right|intros y I; apply E; now right|]. exists (t :: ts). split; [now constructor|]. intros k Lk. cbn [map_r]. rewrite (Q k), (R k Lk); [reflexivity|].
          intros g' ->. specialize (S (HGrp g') (or_introl eq_refl)). cbn [host_good] in S. lia. }
        destruct M as (ts & F & R). eexists. split; [apply PT_grp with (ts := ts); [exact F|apply listed_join]|]. intros [|k] Lk; [specialize (Lk g eq_refl); lia|]. cbn [GroupPrint.term_repr]. specialize (Lk g eq_refl). rewrite (R k) by lia. reflexivity. }
    intros x n [W|W]; [exact (H n x W)|]. destruct W as (a & w & -> & W). now apply L.
  Qed.
  Lemma end_shown h x p n : heap_ok h -> end_good n x -> exists t, end_printed odescr gdescr h x p t /\ forall k, (forall g, x = HGrp g -> g < k) -> end_repr k h x p = Ok t.
  Proof using.
    intros G W. destruct (term_printed h G x n W) as (t & P & Q). destruct p as [p|]; eexists; (split; [constructor; exact P|]); intros k L; unfold GroupPrint.end_repr; rewrite (Q k L); reflexivity.
  Qed.

  (** C79: a group that holds itself cannot be printed; neither can anything that holds it. *)
  Theorem C79_loop : forall h g g', g' = g \/ holds_group h g' g -> holds_group h g g -> forall k, term_repr k h (HGrp g') = Err RecursionError.
  Proof using.
    intros h g g' H Lp k. revert g' H. induction k as [|k IH]; intros g' H; [reflexivity|].
    assert (St : exists m, In (HGrp m) (objs h g') /\ (m = g \/ holds_group h m g)).
    { assert (H' : holds_group h g' g) by (destruct H as [->|H]; assumption). inversion H' as [a b I|a m b I D]; subst; eauto. }
    destruct St as (m & I & D). apply IH in D. cbn [GroupPrint.term_repr].
    assert (E : map_r (term_repr k h) (objs h g') = Err RecursionError); [|now rewrite E].
    assert (Er : forall x e, term_repr k h x = Err e -> e = RecursionError).
    { clear. induction k as [|k IH]; intros [l|o|g] e; cbn [GroupPrint.term_repr]; try discriminate; [congruence|].
      assert (M : forall l e, map_r (term_repr k h) l = Err e -> e = RecursionError).
      { induction l as [|x l IHl]; intros e0; cbn [map_r]; [discriminate|]. destruct (term_repr k h x) eqn:X; cbn [bind]; [|intros Y; injection Y as <-; eapply IH; exact X].
        destruct (map_r (term_repr k h) l); cbn [bind]; [discriminate|]. intros Y. injection Y as <-. now apply IHl. }
      destruct (map_r (term_repr k h) (objs h g)) eqn:X; cbn [bind]; [discriminate|]. intros Y. injection Y as <-. eapply M, X. }
    clear - D I Er. induction (objs h g') as [|x l IHl]; [destruct I|]. cbn [map_r]. destruct I as [->|I].
    - rewrite D. reflexivity.
    - destruct (term_repr k h x) as [t|e] eqn:X; cbn [bind]; [rewrite IHl by exact I; reflexivity|]. now rewrite (Er _ _ X).
  Qed.
End Terms.

Section Whole.
  Context (isalpha isalnum isspace : N -> bool) (OK : classes_ok isalpha isalnum isspace).
  Context (py_int : pystr -> option Z)
          (PI1 : forall n, n <> [] -> forallb AddrText.is_digit n = true -> py_int n <> None)
          (PI2 : forall n, In n port_code -> py_int n = None).
  Context (xml_read : pystr -> result xml) (unescape : pystr -> pystr)
          (ip_addr : pystr -> option addr) (ip_net : pystr -> pystr -> result net) (AV : addresses_valid ip_addr ip_net)
          (to_time : option pystr -> result Z) (strip : pystr -> pystr)
          (ip_net_strict : pystr -> bool) (download : option pystr -> option (list pystr)).
  Context (odescr : netobj -> pystr) (gdescr : gid -> pystr).
  Notation auto_parse := (auto_parse isalpha isalnum isspace py_int xml_read unescape ip_addr ip_net to_time strip ip_net_strict download).
  Notation named_well := (named_well isalnum).
  Notation term_repr := (term_repr odescr gdescr).
  Notation aclrule_repr := (aclrule_repr odescr gdescr).

  Lemma groups_fine data f o c c' : o <> BadOptions -> auto_parse data f o = Ok c -> named_well c -> c' = c \/ expanded c c' -> heap_ok (config_groups c').
  Proof using OK PI1 PI2 AV.
    intros B H W X. destruct (parsed_good _ _ _ OK _ PI1 PI2 _ _ _ _ AV _ _ _ _ data f o c B H W) as (G & _). destruct X as [->|X]; [exact G|].
    destruct (expanded_frame _ _ X) as (_ & _ & _ & E4 & E5). destruct X as (_ & F & _). rewrite <- E4, <- E5 in F.
    destruct (tables_listed _ _ _ _ _ _ _ _ _ _ _ _ data f o c B H) as (It & _). apply (class_same _ _ _ (fun g => In g (gt_network (group_tables c)))) in F; [|intros g; symmetry; apply It].
    exact (flat_ok _ _ _ G F).
  Qed.
  (** C79: every group of every configuration that was read can be printed, expanded or not. *)
  Theorem C79_groups : forall data f o c c' g, o <> BadOptions -> auto_parse data f o = Ok c -> named_well c -> c' = c \/ expanded c c' ->
    exists t, printed odescr gdescr (config_groups c') (HGrp g) t /\ forall k, g < k -> term_repr k (config_groups c') (HGrp g) = Ok t.
  Proof using OK PI1 PI2 AV.
    intros data f o c c' g B H W X. destruct (term_printed odescr gdescr _ (groups_fine _ _ _ _ _ B H W X) (HGrp g) (S g)) as (t & P & Q); [left; cbn; lia|].
    exists t. split; [exact P|]. intros k L. apply Q. intros g' E. injection E as <-. exact L.
  Qed.
  (** C79: every rule of it can be printed: its list, and for both ends what was written,
      with the members of groups. *)
  Theorem C79_rules : forall data f o c c' x r mode protocol remark sport dport, o <> BadOptions -> auto_parse data f o = Ok c -> named_well c -> c' = c \/ expanded c c' ->
    config_entry c' x (Rules.IRule r) ->
    exists limit t, rule_printed odescr gdescr (config_groups c') mode protocol remark sport dport r t /\
      forall k, limit <= k -> aclrule_repr k (config_groups c') mode protocol remark sport dport r = Ok t.
  Proof using OK PI1 PI2 AV.
    intros data f o c c' x r mode protocol remark sport dport B H W X E. pose proof (groups_fine _ _ _ _ _ B H W X) as G. destruct (same_entries _ _ X) as (Ec & _). rewrite Ec in E.
    pose proof (fun y => ends_good _ _ _ OK _ PI1 PI2 _ _ _ _ AV _ _ _ _ data f o c B H W x (Rules.IRule r) y E) as Eg.
    destruct (end_shown odescr gdescr (config_groups c') (r_src r) sport _ G (Eg _ (or_introl eq_refl))) as (s & P & Q).
    destruct (end_shown odescr gdescr (config_groups c') (r_dst r) dport _ G (Eg _ (or_intror (or_introl eq_refl)))) as (d & P' & Q').
    exists (S (match r_src r with HGrp g => g | _ => 0 end + match r_dst r with HGrp g => g | _ => 0 end)). eexists. split.
    - apply RP_rule with (i := opt_str (r_id r)); [destruct (r_id r); constructor|exact P|exact P'].
    - intros k L. unfold GroupPrint.aclrule_repr. rewrite Q, Q'; [reflexivity| |]; intros g Eq; rewrite Eq in L; lia.
  Qed.
  (** C79: once expanded, a group prints its members and those of the groups it held, and no
      group, however few calls may be nested. *)
  Theorem C79_expanded : forall data f o c c' g, o <> BadOptions -> auto_parse data f o = Ok c -> named_well c -> expanded c c' -> network_group c g ->
    exists ms ts s, flattening host_sub host_leafs (config_groups c) g (map HLeaf ms) /\ Forall2 leaf_text ms ts /\ listed (u ", ") ts s /\
      forall k, 1 <= k -> term_repr k (config_groups c') (HGrp g) = Ok (u "NetworkGroup " ++ g_name (h_get (config_groups c) g) ++ u " (" ++ s ++ u ") # " ++ gdescr g).
  Proof using OK PI1 PI2 AV.
    intros data f o c c' g B H W X N. destruct (parsed_good _ _ _ OK _ PI1 PI2 _ _ _ _ AV _ _ _ _ data f o c B H W) as (G & _).
    destruct (expanded_frame _ _ X) as (_ & _ & _ & E4 & E5). destruct X as (_ & F & _). rewrite <- E4, <- E5 in F.
    destruct F as (_ & F). destruct (proj1 (F g) N) as (Fl & Hd & _).
    assert (A : all_leafs (objs (config_groups c') g)) by (apply (proj2 (flat_good _ G) _ _ Fl g); intros x I; now apply G).
    assert (M : exists ms, objs (config_groups c') g = map HLeaf ms /\ Forall leaf_wf ms).
    { clear - A. induction (objs (config_groups c') g) as [|x l IH]; [exists []; auto|]. destruct IH as (ms & -> & Fm); [intros y I; apply A; now right|]. destruct (A x (or_introl eq_refl)) as (y & -> & Wy & _). exists (y :: ms). split; [reflexivity|now constructor]. }
    destruct M as (ms & Em & Wm). exists ms, (map leaf_repr ms), (str_join (u ", ") (map leaf_repr ms)). rewrite <- Em. split; [exact Fl|]. split.
    { clear - Wm. induction Wm; constructor; auto. now apply leaf_repr_text. }
    split; [apply listed_join|]. intros [|k] L; [lia|]. cbn [GroupPrint.term_repr]. rewrite Em, Hd.
    assert (R : map_r (term_repr k (config_groups c')) (map HLeaf ms) = Ok (map leaf_repr ms)).
    { clear. induction ms as [|m ms IH]; [reflexivity|]. cbn [map map_r]. rewrite IH. destruct k; reflexivity. }
    now rewrite R.
  Qed.
End Whole.

(** ** Examples *)
Definition C79_print (k : nat) (c : aclconfig) (g : gid) : result pystr := term_repr (fun _ => u "None") (fun _ => u "None") k (config_groups c) (HGrp g).
Example C79_ex1 : exists c c', C70_read C72_nested = Ok c /\ acl_expand 5 c = Ok c' /\
  C79_print 1 c 0 = Ok (u "NetworkGroup servers (NetworkHost 10.0.0.81, NetworkObject web host # None) # None") /\
  C79_print 2 c 1 = Ok (u "NetworkGroup all (NetworkHost 10.0.0.1, NetworkGroup servers (NetworkHost 10.0.0.81, NetworkObject web host # None) # None) # None") /\
  C79_print 1 c 1 = Err RecursionError /\
  C79_print 1 c' 1 = Ok (u "NetworkGroup all (NetworkHost 10.0.0.1, NetworkHost 10.0.0.81, NetworkHost 10.0.0.80) # None") /\
  (exists r, c_get c 3 = Rules.IRule r /\ aclrule_repr (fun _ => u "None") (fun _ => u "None") 1 (config_groups c') (u "permit") (u "Protocol ip") (u "[]") None (Some (u "p")) r =
    Ok (u "ACLRule ACL permit Protocol ip src:ACLNode (NetworkAny) dst:ACLNode (NetworkGroup all (NetworkHost 10.0.0.1, NetworkHost 10.0.0.81, NetworkHost 10.0.0.80) # None:p) # []")).
Proof.
  destruct C72_r1 as [c|] eqn:E; [|discriminate E]. exists c. unfold C72_r1 in E. injection E as <-. eexists. split; [vm_compute; reflexivity|]. split; [vm_compute; reflexivity|].
  do 4 (split; [vm_compute; reflexivity|]). eexists. split; [vm_compute; reflexivity|]. vm_compute. reflexivity.
Qed.
(** The hypotheses are met. *)
Example C79_ex2 : exists c c' x r, C70_read C72_nested = Ok c /\ named_well ascii_alnum c /\ expanded c c' /\ network_group c 1 /\ config_entry c' x (Rules.IRule r).
Proof.
  destruct C72_ex3 as (c & c1 & e & R & W & _).
  assert (NB : NoOptions <> @BadOptions bool) by discriminate.
  pose proof R as R0. unfold C70_read in R0.
  destruct (C72_expand _ _ _ C41_classes _ C52_int1 C52_int2 _ _ _ _ C69_library _ _ _ _ C72_nested None NoOptions c NB R0 W) as (k & L). destruct (L k (le_n _)) as (c' & _ & X & _).
  exists c, c', 3. assert (Ec : exists r, config_entry c 3 (Rules.IRule r) /\ network_group c 1).
  { clear - R W NB. destruct C72_r1 as [d|] eqn:E; [|discriminate E]. unfold C72_r1 in E.
    assert (Ed : C70_read C72_nested = Ok d) by (injection E as <-; vm_compute; reflexivity). rewrite Ed in R. injection R as ->. pose proof Ed as Ed0. unfold C70_read in Ed0.
    destruct (parsed_good _ _ _ C41_classes _ C52_int1 C52_int2 _ _ _ _ C69_library _ _ _ _ C72_nested None NoOptions c NB Ed0 W) as (_ & En & Ge & _).
    destruct (tables_listed _ _ _ _ _ _ _ _ _ _ _ _ C72_nested None NoOptions c NB Ed0) as (It & _).
    assert (I : exists i, config_entry c 3 i) by (apply En; injection E as <-; vm_compute; tauto). destruct I as (i & I). pose proof (Ge _ _ I) as Gi.
    assert (Er : exists r, c_get c 3 = Rules.IRule r) by (injection E as <-; vm_compute; eauto). destruct Er as (r & Er). rewrite Er in Gi. subst i. exists r. split; [exact I|].
    apply It. injection E as <-. vm_compute. tauto. }
  destruct Ec as (r & Ec & N). exists r. split; [exact R|]. split; [exact W|]. split; [exact X|]. split; [exact N|].
  destruct (same_entries c c' (or_intror X)) as (-> & _). exact Ec.
Qed.
Definition C79_cycle : heap := mkheap (fun g => match g with 0 => mkgroup (u "a") [] [] [HLeaf LAny; HGrp 1] | 1 => mkgroup (u "b") [] [] [HGrp 0] | _ => mkgroup (u "c") [] [] [HGrp 0] end) 3.
Example C79_ex3 : holds_group C79_cycle 0 0 /\ holds_group C79_cycle 2 0.
Proof. assert (H : holds_group C79_cycle 0 0) by (apply HO_deep with 1; [cbn; tauto|apply HO_here; cbn; tauto]). split; [exact H|apply HO_here; cbn; tauto]. Qed.

Print Assumptions C79_loop.
Print Assumptions C79_groups.
Print Assumptions C79_rules.
Print Assumptions C79_expanded.
