(** access-list lines of an ASA/FWSM configuration as text: the grammar rules of
    lib/acltk/acl.bnf and lib/acltk/fwsm.bnf with the semantic actions of
    lib/acltk/aclSemantics.py and lib/acltk/fwsmSemantics.py.
    The parser runs with [whitespace=""] and [nameguard=True] (fwsmObjects.py:25-26). *)
From Coq Require Import String.
From Verif.Model Require Import Base Ip Hosts Groups Iface Peg Ids AddrText Ports.
Local Open Scope list_scope.

(** [AddrText.is_digit] and [Ports.is_digit] are the same class. *)
Notation is_digit := AddrText.is_digit.

(** Name, aclObjects.py:30-34 *)
Record nameobj := mkname { nm_host : pystr; nm_addr : addr; nm_descr : option pystr }.
(** ServiceObject, aclObjects.py:697-701 *)
Record svcobj := mksvcobj { so_name : pystr; so_descr : pystr; so_service : service }.

(** The tables of aclParser.__init__ (aclSemantics.py:506-518) the rules refer to.  Groups,
    time ranges and interfaces are referred to by number. *)
Record env := mkenv {
  e_names : dict nameobj; e_netobj : dict netobj; e_netgrp : dict gid;
  e_svcobj : dict svcobj; e_svcgrp : dict gid; e_portgrp : dict gid;
  e_icmpgrp : dict gid; e_protogrp : dict gid; e_time : dict nat; e_ifaces : dict nat }.

(** ** Parts of a rule *)

(** ACLNode 1021-1035; [target] is the Name a NetworkHost or Network was written with
    (NetworkHost 565-571, Network 386-393). *)
Record thost := mkthost { th_host : host; th_target : option nameobj }.
Record anode := mkanode { an_host : thost; an_port : option pmember }.
(** The [protocol] of a rule: Protocol, ServiceObject, ServiceGroup, ProtocolGroup. *)
Inductive aproto := APName (n : pystr) | APSvcObj (o : svcobj) | APSvcGrp (g : gid) | APProtoGrp (g : gid).
(** acl_option_log_option, acl.bnf:201-206 *)
Inductive logopt := LogWord (w : pystr) | LogInterval (secs : pystr).
(** The dictionary of options (acl_options, aclSemantics.py:358-372) by key. *)
Record aopts := mkaopts { ao_log : option (list logopt); ao_time : option nat; ao_inactive : bool }.
Definition no_opts : aopts := mkaopts None None false.
(** ACLRule 1067-1102 ([line] and [head] are never set by this grammar). *)
Record aclrule := mkaclrule {
  ar_id : pystr; ar_kind : pystr; ar_mode : pystr; ar_proto : aproto;
  ar_src : anode; ar_dst : anode; ar_icmp : option imember; ar_opts : aopts; ar_remark : list pystr }.

(** ** ip.bnf with the actions ip4 and ip6, aclSemantics.py:196-200 *)
Definition ip4 : parser addr := act ip_address ip4_pat.
Definition ip6 : parser addr := act ip_address ip6_pat.

(** ** Lexical rules of acl.bnf *)
(** acl.bnf:2 [TOEOL] *)
Definition not_lf (c : N) : bool := negb (N.eqb c 10).
Definition toeol : parser pystr := pat0 not_lf.
(** acl.bnf:7 [int] *)
Definition int_ : parser pystr := pat1 is_digit.
(** acl.bnf:10 [obj_name]: [A-Za-z0-9_\-\.+] *)
Definition is_ascii_letter (c : N) : bool := in_range 65 90 c || in_range 97 122 c.
Definition is_obj_char (c : N) : bool :=
  is_ascii_letter c || is_digit c || N.eqb c 95 || N.eqb c 45 || N.eqb c 46 || N.eqb c 43.
Definition obj_name : parser pystr := pat0 is_obj_char.
(** acl.bnf:6 [identifier]: [[a-zA-Z_][A-Za-z0-9_\-\.]*] *)
Definition is_id_start (c : N) : bool := is_ascii_letter c || N.eqb c 95.
Definition is_id_char (c : N) : bool := is_ascii_letter c || is_digit c || N.eqb c 95 || N.eqb c 45 || N.eqb c 46.
Definition identifier : parser pystr := fun s =>
  match s with
  | c :: s' => if is_id_start c then let (a, r) := span is_id_char s' in POk (c :: a) r else PFail
  | [] => PFail
  end.
(** [p q] with the value of the second, as [WS q] *)
Definition then_ {A B} (p : parser A) (q : parser B) : parser B := let% _ := p in q.

(** acl.bnf:493-549 icmp_type_name *)
Definition icmp_type_names : list pystr := map u [
  "unreachable"; "ttl-exceeded"; "traceroute"; "timestamp-request"; "timestamp-reply";
  "time-exceeded"; "source-route-failed"; "source-quench"; "router-solicitation";
  "router-renumbering"; "router-advertisement"; "redirect"; "reassembly-timeout";
  "protocol-unreachable"; "precedence-unreachable"; "port-unreachable"; "parameter-problem";
  "packet-too-big"; "option-missing"; "no-room-for-option"; "network-unknown";
  "net-unreachable"; "net-tos-unreachable"; "net-tos-redirect"; "net-redirect";
  "neighbor-solicitation"; "neighbor-redirect"; "neighbor-advertisement"; "mobile-redirect";
  "membership-report"; "membership-reduction"; "membership-query"; "mask-request";
  "mask-reply"; "information-request"; "information-reply"; "host-unreachable";
  "host-unknown"; "host-tos-unreachable"; "host-tos-redirect"; "host-redirect";
  "host-precedence-unreachable"; "host-isolated"; "general-parameter-problem";
  "echo-request"; "echo-reply"; "echo"; "dod-net-prohibited"; "dod-host-prohibited";
  "destination-unreachable"; "conversion-error"; "alternate-address";
  "administratively-prohibited"; "address-mask-request"; "address-mask-reply"]%string.
(** acl.bnf:559-582 protocol_code *)
Definition protocol_codes : list pystr := map u [
  "udp"; "tcp"; "snp"; "pptp"; "pim"; "pcp"; "ospf"; "nos"; "ipsec"; "ipinip"; "ip"; "ipv6";
  "igrp"; "igmp"; "icmp6"; "icmpv6"; "icmp"; "gre"; "esp"; "eigrp"; "ahp"; "ah"]%string.
Definition log_words : list pystr := map u
  ["debugging"; "disable"; "default"; "notifications"; "warnings"; "critical"]%string.
Definition log_levels : list pystr := map u ["0"; "1"; "2"; "3"; "4"; "5"; "6"; "7"]%string.

Section AclText.
  Context (isalpha isalnum isspace : N -> bool) (py_int : pystr -> option Z).
  Notation token := (token isalpha isalnum).
  Notation reference := (reference isalpha isalnum).
  Notation name_slash := (name_slash isalpha isalnum).
  Notation acl_name := (acl_name isalpha isalnum).
  Definition tokens (l : list pystr) : parser pystr := choice (map token l).
  Definition kw (w : string) : parser unit := let% _ := token (u w) in ret tt.
  Variable E : env.

  (** ** Numbers and names: acl.bnf:415-418 port, 488-491 icmp_type, aclSemantics.py:218-232 *)
  Definition named (l : list pystr) : parser pystr :=
    let% _ := look (let% _ := tokens l in por ws nl) in tokens l.
  Definition port : parser pystr := por (named port_code) (act port_int int_).
  Definition icmp_type : parser pystr := por (named icmp_type_names) (act icmp_type_int int_).
  Definition icmp_code : parser pystr := act icmp_code_int int_.

  (** ** acl_host: acl.bnf:163-171, aclSemantics.py:318-333, _resolve_addr 202-207 *)
  Definition named_addr {A} (p : parser nameobj) (q : parser addr) (f : addr * option nameobj -> parser A) : parser A :=
    let% x := por (let% n := p in ret (nm_addr n, Some n)) (let% a := q in ret (a, None)) in f x.
  Definition network (x : addr * option nameobj) (m : mask) : result thost :=
    do l <- mk_Network (fst x) m; Ok (mkthost (HLeaf l) (snd x)).
  Definition acl_host : parser thost := choice [
    (let% _ := tokens [u "host"; u "ip"] in let% _ := ws in
     named_addr (acl_name (e_names E)) (por ip4 ip6) (fun x => ret (mkthost (HLeaf (LHost (fst x))) (snd x))));
    (let% _ := kw "interface" in let% _ := ws in let% n := identifier in ret (mkthost (HLeaf (LIface n)) None));
    (let% _ := kw "any" in ret (mkthost (HLeaf LAny) None));
    (let% _ := kw "any4" in ret (mkthost (HLeaf LAny4) None));
    (let% _ := kw "any6" in ret (mkthost (HLeaf LAny6) None));
    (let% _ := kw "object" in let% _ := ws in let% o := reference (e_netobj E) in ret (mkthost (HObj o) None));
    (let% _ := kw "object-group" in let% _ := ws in let% g := reference (e_netgrp E) in ret (mkthost (HGrp g) None));
    named_addr (reference (e_names E)) ip4 (fun x =>
      let% _ := ws in act (fun m => network x (MaskQuad (a_val m))) ip4);
    named_addr (name_slash (e_names E)) ip6 (fun x =>
      let% _ := char 47 in act (fun m => network x (MaskLen (int10 m))) int_)].

  (** ** acl_port: acl.bnf:173-178, aclSemantics.py:335-342; [inl]: a service group *)
  Definition acl_port : parser (gid + pmember) := choice [
    (let% _ := kw "object-group" in let% _ := ws in let% g := reference (e_svcgrp E) in ret (inl g));
    (let% _ := kw "object-group" in let% _ := ws in let% g := reference (e_portgrp E) in ret (inr (PGrp g)));
    (let% op := tokens [u "gt"; u "lt"; u "eq"; u "neq"] in let% _ := ws in let% p := port in
     ret (inr (PPort (Some op) (Some p))));
    (let% _ := kw "range" in let% _ := ws in let% a := port in let% _ := ws in
     let% b := port in fun s => match port_range py_int (Some a) (Some b) with Ok r => POk (inr r) s | Err e => PErr e end)].

  (** ** node: acl.bnf:59-61, aclSemantics.py:355-356; ACLNode asserts the port's class. *)
  Definition acl_node (h : thost) (p : option (gid + pmember)) : result anode :=
    match p with
    | Some (inl _) => Err AssertionError
    | Some (inr p) => Ok (mkanode h (Some p))
    | None => Ok (mkanode h None)
    end.
  Definition node : parser anode :=
    act (fun x => acl_node (fst x) (snd x))
        (let% h := acl_host in let% p := popt (then_ ws acl_port) in ret (h, p)).
  (** acl_icmp_node: acl.bnf:208-210, aclSemantics.py:344-345 *)
  Definition icmp_node : parser anode := let% h := acl_host in ret (mkanode h None).

  (** ** acl_icmp_options: acl.bnf:180-184, aclSemantics.py:347-353 *)
  Definition acl_icmp_options : parser (option imember) := choice [
    (let% _ := ws in let% _ := kw "object-group" in let% _ := ws in let% g := reference (e_icmpgrp E) in ret (Some (IcGrp g)));
    (let% _ := ws in let% t := icmp_type in let% c := popt (then_ ws icmp_code) in ret (Some (IcmpType t c)));
    ret None].

  (** ** acl_protocol: acl.bnf:53-57, aclSemantics.py:308-316 *)
  Definition acl_protocol : parser aproto := choice [
    (let% _ := kw "object-group" in let% _ := ws in
     por (let% g := reference (e_svcgrp E) in ret (APSvcGrp g)) (let% g := reference (e_protogrp E) in ret (APProtoGrp g)));
    (let% _ := kw "object" in let% _ := ws in let% o := reference (e_svcobj E) in ret (APSvcObj o));
    (let% n := por (tokens protocol_codes) (act protocol_int int_) in ret (APName n))].

  (** ** acl_options: acl.bnf:186-206, aclSemantics.py:358-372.  The value of an iteration
      of the log options that matches nothing ([()]) is dropped. *)
  Definition log_option : parser (option logopt) := choice [
    (let% w := tokens log_words in ret (Some (LogWord w)));
    (let% _ := kw "interval" in let% _ := ws in let% n := int_ in ret (Some (LogInterval n)));
    (let% w := tokens log_levels in ret (Some (LogWord w)));
    ret None].
  Definition keep {A} (l : list (option A)) : list A := flat_map (fun x => match x with Some a => [a] | None => [] end) l.
  Inductive aoption := OLog (l : list logopt) | OTime (t : nat) | OInactive.
  Definition acl_option : parser (option aoption) := choice [
    (let% _ := kw "log" in let% l := many (then_ ws log_option) in ret (Some (OLog (keep l))));
    (let% _ := kw "time-range" in let% _ := ws in let% t := reference (e_time E) in ret (Some (OTime t)));
    (let% _ := kw "inactive" in ret (Some OInactive));
    ret None].
  Definition add_option (o : aopts) (x : aoption) : aopts :=
    match x with
    | OLog l => mkaopts (Some l) (ao_time o) (ao_inactive o)
    | OTime t => mkaopts (ao_log o) (Some t) (ao_inactive o)
    | OInactive => mkaopts (ao_log o) (ao_time o) true
    end.
  Definition acl_options : parser aopts :=
    let% l := many (let% x := acl_option in let% _ := popt ws in ret x) in
    ret (fold_left add_option (keep l) no_opts).
  (** [[WS options:acl_options] [WS] NL]; ACLRule 1096-1099: no options for None *)
  Definition rule_end : parser aopts :=
    let% o := popt (then_ ws acl_options) in
    let% _ := popt ws in let% _ := nl in
    ret (match o with Some o => o | None => no_opts end).

  (** ** The four kinds of rules: fwsm.bnf:45-67, fwsmSemantics.py:35-76.  The rules are
      included ([>rule]) in access_list, whose action builds the ACLRule. *)
  Definition rule_head (kind : string) : parser (pystr * pystr) :=
    let% _ := kw "access-list" in let% _ := ws in let% id := obj_name in let% _ := ws in
    let% _ := kw kind in let% _ := ws in let% mode := tokens [u "permit"; u "deny"] in let% _ := ws in
    ret (id, mode).
  Definition rule_extended (remark : list pystr) : parser aclrule := por
    (let% hd := rule_head "extended" in
     let% proto := tokens [u "icmp"; u "icmp6"] in let% _ := ws in
     let% src := icmp_node in let% _ := ws in let% dst := icmp_node in let% icmp := acl_icmp_options in
     let% o := rule_end in
     ret (mkaclrule (fst hd) (u "extended") (snd hd) (APName proto) src dst icmp o remark))
    (let% hd := rule_head "extended" in
     let% proto := acl_protocol in let% _ := ws in
     let% src := node in let% _ := ws in let% dst := node in
     let% o := rule_end in
     ret (mkaclrule (fst hd) (u "extended") (snd hd) proto src dst None o remark)).
  Definition any_node : anode := mkanode (mkthost (HLeaf LAny) None) None.
  Definition rule_standard (remark : list pystr) : parser aclrule :=
    let% hd := rule_head "standard" in
    let% src := acl_host in let% _ := popt ws in let% _ := nl in
    ret (mkaclrule (fst hd) (u "standard") (snd hd) (APName (u "ip")) (mkanode src None) any_node None no_opts remark).
  (** acl.bnf:8 [string]: [\S]+ *)
  Definition string_ : parser pystr := pat1 (fun c => negb (isspace c)).
  Definition rule_webtype (remark : list pystr) : parser aclrule := por
    (let% hd := rule_head "webtype" in
     let% _ := kw "url" in let% _ := ws in let% url := por string_ (token (u "any")) in
     let% o := rule_end in
     ret (mkaclrule (fst hd) (u "webtype") (snd hd) (APName (u "url")) any_node
            (mkanode (mkthost (HLeaf (LWebtype url)) None) None) None o remark))
    (let% hd := rule_head "webtype" in
     let% _ := kw "tcp" in let% _ := ws in let% dst := node in
     let% o := rule_end in
     ret (mkaclrule (fst hd) (u "webtype") (snd hd) (APName (u "tcp")) any_node dst None o remark)).
  (** An ethertype line is read and dropped. *)
  Definition rule_ethertype : parser unit :=
    let% _ := kw "access-list" in let% _ := ws in let% _ := obj_name in let% _ := ws in
    let% _ := kw "ethertype" in let% _ := toeol in nl.

  (** access_list_remark: fwsm.bnf:82-84, remark: acl.bnf:212-214 *)
  Definition access_list_remark : parser pystr :=
    let% _ := kw "access-list" in let% _ := ws in let% _ := obj_name in let% _ := ws in
    let% _ := kw "remark" in let% _ := sp in let% t := toeol in let% _ := nl in ret t.
  Definition many1 {A} (p : parser A) : parser (list A) :=
    let% a := p in let% l := many p in ret (a :: l).
  (** access_list: fwsm.bnf:70-79, fwsmSemantics.py:35-56 *)
  Definition access_list : parser (option aclrule) :=
    let rs := many1 access_list_remark in
    choice [
      (let% r := rs in let% x := rule_extended r in ret (Some x)); (let% x := rule_extended [] in ret (Some x));
      (let% r := rs in let% x := rule_standard r in ret (Some x)); (let% x := rule_standard [] in ret (Some x));
      (let% r := rs in let% x := rule_webtype r in ret (Some x)); (let% x := rule_webtype [] in ret (Some x));
      (let% _ := rs in let% _ := rule_ethertype in ret None); (let% _ := rule_ethertype in ret None)].
End AclText.
