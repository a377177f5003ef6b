(** C76: what filtering a configuration of any format prints. *)
From Coq Require Import Lia String.
From Verif.Model Require Import Base Ip Hosts Groups Rules Caf Nat Iface Peg Ids AddrText Ports AclText Define GroupText ObjText LineText NatText FileText FileFilter IosText IosFile IosFilter Pfsense PfFile CafText Detect Auto.
From Verif.Model Require Config.
From Verif.Spec Require Import AddrSpec AddrTextSpec GroupSpec RefSpec CafSpec CafMeanSpec CafTextSpec AclTextSpec GroupTextSpec ObjTextSpec FilterSpec LineTextSpec FileTextSpec FileConfigSpec ConfigSpec FileFilterSpec IosFileSpec IosConfigSpec IosFilterSpec PfSpec PfFileSpec PfFilterSpec AutoSpec PipelineSpec.
From Verif.Proofs Require Import GroupFacts DictFacts PfFacts CafFacts CafTextFacts CafExpr CafMean FileGood PfIface ExpandGood.
From Verif.Props Require Config Define Expand FileConfig IosConfig.
From Verif.Props Require Import Filter CafText AclText Detect FileText FileFilter IosFileText IosFilter PfAliases PfFile PfFilter Auto.
From Verif.Model Require Import CafPrint AutoPrint.
From Verif.Spec Require Import CafPrintSpec.
From Verif.Props Require Import CafPrint Pipeline.
Local Open Scope list_scope.

Section Any.
  Context (isalpha isalnum isspace : N -> bool) (OK : classes_ok isalpha isalnum isspace).
  Context (py_int : pystr -> option Z)
          (PI1 : forall n, n <> [] -> forallb AddrText.is_digit n = true -> py_int n <> None)
          (PI2 : forall n, In n port_code -> py_int n = None).
  Context (xml_read : pystr -> result xml) (unescape : pystr -> pystr)
          (ip_addr : pystr -> option addr) (ip_net : pystr -> pystr -> result net) (AV : addresses_valid ip_addr ip_net)
          (to_time : option pystr -> result Z) (strip : pystr -> pystr)
          (ip_net_strict : pystr -> bool) (download : option pystr -> option (list pystr)).
  Notation auto_parse := (auto_parse isalpha isalnum isspace py_int xml_read unescape ip_addr ip_net to_time strip ip_net_strict download).
  Notation acl_filter := (acl_filter isalpha isalnum isspace).
  Notation acl_filter_v := (acl_filter_v isalpha isalnum isspace).
  Notation caf_read := (caf_read isalpha isalnum isspace).
  Notation named_well := (named_well isalnum).
  Notation written_as := (written_as isalnum isspace).

  Lemma filter_v_eq k c query : acl_filter_v k c query =
    match caf_read (config_groups c) query with Err e => ([], Err e) | Ok (h, x) => config_filter_v k h (c_get c) x (c_rules c) (c_nats c) end.
  Proof using. destruct c; reflexivity. Qed.
  (** The objects of the NAT sections are the NAT entries. *)
  Lemma nat_entries data f o c : o <> BadOptions -> auto_parse data f o = Ok c -> named_well c ->
    forall x, In x (concat (c_nats c)) <-> exists n, config_entry c x (INat n).
  Proof using OK PI1 PI2 AV.
    intros B H W x. destruct (parsed_good _ _ _ OK _ PI1 PI2 _ _ _ _ AV _ _ _ _ _ _ _ _ B H W) as (_ & En & Ge & _). split.
    - intros I. apply (auto_cases _ _ _ _ _ _ _ _ _ _ _ _ _ _ _ _ B) in H as [(cs & ms & T & -> & P)|[(cs & ms & T & -> & P)|(cfg & s & root & -> & P)]]; cbn [c_nats config_entry] in *.
      + destruct (FileConfig.C58_nat_sections _ _ _ _ _ _ _ _ P) as (N1 & N2 & N3).
        rewrite N1, N2, N3 in I. apply in_concat in I as (l & [<-|[<-|[<-|[]]]] & I); apply positions_in in I as (y & b & E & I).
        * unfold nats_first in I. apply filter_In in I as (I & _). destruct y as [| | | | | |[n|]| |]; try contradiction I. exists n. apply EN_nat. exact E.
        * destruct y as [| | | | | | |p [n|]| | | | |]; try contradiction I. exists n. eapply EN_object; eauto.
        * unfold nats_last in I. apply filter_In in I as (I & _). destruct y as [| | | | | |[n|]| |]; try contradiction I. exists n. apply EN_nat. exact E.
      + exfalso. destruct (ios_nats ms) as (N1 & N2 & N3 & _). cbn zeta in I. rewrite N1, N2, N3 in I. exact I.
      + destruct I.
    - intros (n & E). assert (I : In x (c_rules c ++ concat (c_nats c))) by (apply En; eauto). apply in_app_iff in I as [I|I]; [exfalso|exact I].
      apply (auto_cases _ _ _ _ _ _ _ _ _ _ _ _ _ _ _ _ B) in H as [(cs & ms & T & -> & P)|[(cs & ms & T & -> & P)|(cfg & s & root & -> & P)]]; cbn [c_rules config_entry] in *.
      + apply (filtered_entries _ _ _ _ _ _ _ _ P) in I as (i & R). pose proof (Ge _ _ E) as G. rewrite (Ge _ _ (EN_rule cs ms _ _ R)) in G. subst i. inversion R.
      + inversion E.
      + inversion E.
  Qed.

  (** Filtering, and printing while doing so, ends; the result is the same as without the
      printing, and what is printed is the report of the filter on the NAT entries, with the
      numbers of those each part selects. *)
  Theorem C76_any : forall data f o c query e, o <> BadOptions -> auto_parse data f o = Ok c -> named_well c ->
    written_as e query -> readable e -> (forall id, In id (expr_ids e) -> id_regular id) -> AutoSpec.comparable c e ->
    exists h x get nats limit, caf_read (config_groups c) query = Ok (h, x) /\ (forall k i, config_entry c k i -> get k = i) /\
      (forall k, In k nats <-> exists n, config_entry c k (INat n)) /\
      forall k, limit <= k -> exists p l, acl_filter_v k c query = (p, Ok l) /\ acl_filter k c query = Ok l /\
        report h (fun r k => selects h r (get k)) nats x p.
  Proof using OK PI1 PI2 AV.
    intros data f o c query e B H W Q R I K. destruct (parsed_good _ _ _ OK _ PI1 PI2 _ _ _ _ AV _ _ _ _ _ _ _ _ B H W) as (G & En & Ge & Cm).
    destruct (Cm e K) as (Gi & V).
    destruct (any_ready _ _ _ OK (config_groups c) (c_get c) (c_rules c ++ concat (c_nats c)) query e G Q R I) as (h & x & E & A & Wf & Cp & M).
    { intros y Iy. apply En in Iy as (i & Ei). rewrite (Ge _ _ Ei). eauto. }
    { destruct V as [V|V]; [now left|right]. intros y z Iy. apply En in Iy as (i & Ei). rewrite (Ge _ _ Ei). eauto. }
    destruct (C76_config h (c_get c) x (c_rules c) (c_nats c) A Wf Cp) as (limit & L).
    exists h, x, (c_get c), (concat (c_nats c)), limit. split; [exact E|]. split; [exact Ge|]. split; [eapply nat_entries; eauto|].
    intros k Lk. destruct (L k Lk) as (p & l & Ev & El & Rp). exists p, l. rewrite filter_v_eq, filter_eq, E. cbn [bind]. auto.
  Qed.
End Any.

(** Example: the configuration of C57 with its two NAT entries. *)
Example C76_ex3 : match C70_read C57_data with
  | Ok c => acl_filter_v ascii_alpha ascii_alnum ascii_space 20 c (u "ip src 192.0.2.80")
  | Err e => ([], Err e) end =
  (lines [u ""; u "cafBlock ACLRule None None None src:ACLNode (NetworkHost 192.0.2.80) dst:ACLNode (NetworkAny) # []: 2"], Ok [18; 19; 22; 14]).
Proof. vm_compute. reflexivity. Qed.
Print Assumptions C76_any.
