(** How object groups, interfaces, the other commands and whole files of an IOS
    configuration are written. *)
From Coq Require Import String.
From Verif.Model Require Import Base Ip Hosts Groups Iface AddrText Ports AclText Define IosText IosFile.
From Verif.Model Require Config.
From Verif.Spec Require Import RefusedSpec AddrSpec AddrTextSpec CafMeanSpec ConfigSpec AclTextSpec GroupTextSpec ObjTextSpec LineTextSpec FileTextSpec IosTextSpec.
Local Open Scope list_scope.
Notation end_line := GroupTextSpec.end_text.

(** ** Object groups *)
Definition v6_text (t : pystr) (a : addr) : Prop := a_ver a = V6 /\ address_text t a.
Section IosGroups.
  Variable E : env.
  Inductive ios_net_text : member host -> pystr -> Prop :=
  | IN_host g t a z : gap g -> address_text t a -> end_line z ->
      ios_net_text (Lit (HLeaf (LHost a))) (u "host" ++ g ++ t ++ z)
  | IN_mask t a g m n z : quad_text t a -> gap g -> (m < 2 ^ 32)%N -> net_of a (MaskQuad m) n -> end_line z ->
      ios_net_text (Lit (HLeaf (LNet n))) (t ++ g ++ quad m ++ z)
  | IN_length t a d p n z : v6_text t a -> decimal_text d p -> net_of a (MaskLen p) n -> end_line z ->
      ios_net_text (Lit (HLeaf (LNet n))) (t ++ u "/" ++ d ++ z)
  | IN_group m t : groupref_text (e_netgrp E) eol_text m t -> ios_net_text m t.
  Inductive ios_service_text : member smember -> pystr -> Prop :=
  | IS_service s t : service_text end_line s t -> ios_service_text (Lit (SService s)) t
  | IS_proto p z : In p protocol_codes \/ number_text p 255 -> end_line z ->
      ios_service_text (Lit (SService (mkservice p None None None None))) (p ++ z)
  | IS_group m t : groupref_text (e_svcgrp E) end_line m t -> ios_service_text m t.
  Inductive ios_group_text : anydef -> pystr -> Prop :=
  | IG_net g d t : gap g -> plain_group "network" ios_net_text d t -> ios_group_text (DNet d) (u "object-group" ++ g ++ t)
  | IG_service g d t : gap g -> plain_group "service" ios_service_text d t -> ios_group_text (DService d) (u "object-group" ++ g ++ t)
  | IG_icmp g d t : gap g -> plain_group "icmp-type" (icmp_member_text E) d t -> ios_group_text (DIcmp d) (u "object-group" ++ g ++ t)
  | IG_proto g d t : gap g -> plain_group "protocol" (proto_member_text E) d t -> ios_group_text (DProto d) (u "object-group" ++ g ++ t)
  | IG_port g g1 n g2 p z d td ms tm : gap g -> gap g1 -> name_text n -> gap g2 -> words ["tcp-udp"; "tcp"; "udp"]%string p ->
      end_line z -> descr_text d td -> ragged_text (port_member_text E) ms tm ->
      ios_group_text (DPort (mkgdef n d p ms)) (u "object-group" ++ g ++ u "service" ++ g1 ++ n ++ g2 ++ p ++ z ++ td ++ tm).
End IosGroups.

(** ** Interfaces *)
Inductive vlan_text : vlan -> pystr -> Prop :=
| VT_one d v : decimal_text d v -> vlan_text (Vlan d) d
| VT_range a v b w : decimal_text a v -> decimal_text b w -> vlan_text (VlanRange a b) (a ++ u "-" ++ b).
Inductive vlans_text : list vlan -> pystr -> Prop :=
| VL_one v t : vlan_text v t -> vlans_text [v] t
| VL_more v t l t' : vlan_text v t -> vlans_text l t' -> vlans_text (v :: l) (t ++ u "," ++ t').
(** Where a list of VLANs ends: no further digit, no comma, no second half of a range. *)
Definition vlans_over (l : list vlan) (q : pystr) : Prop :=
  ~ opens_digit q /\ (forall q', q <> u "," ++ q') /\ (forall l' d q', l = l' ++ [Vlan d] -> q = u "-" ++ q' -> ~ opens_digit q').
Inductive trunk_text : ifdetail -> list vlan -> pystr -> Prop :=
| TR_set l t : vlans_text l t -> trunk_text (DTrunkSet l) l t
| TR_add g l t : gap g -> vlans_text l t -> trunk_text (DTrunkAdd l) l (u "add" ++ g ++ t).
(** Nothing, or a gap and a word. *)
Definition maybe (w : string) (t : pystr) : Prop := t = [] \/ exists g, gap g /\ t = g ++ u w.
Inductive prefix_text : option N -> pystr -> Prop :=
| PX_none : prefix_text None []
| PX_length d p : decimal_text d p -> prefix_text (Some p) (u "/" ++ d).
Section Kept.
  Variable isalnum : N -> bool.
  Inductive ios_kept : ifdetail -> pystr -> Prop :=
  | IK_descr g t : gap g -> one_line t -> ~ opens_blank t -> ios_kept (DDescription t) (u "description" ++ g ++ t ++ lf)
  | IK_ip4 g g1 t a g2 m s z : gap g -> gap g1 -> quad_text t a -> gap g2 -> (m < 2 ^ 32)%N -> maybe "secondary" s -> end_line z ->
      ios_kept (DAddr4 a m) (u "ip" ++ g ++ u "address" ++ g1 ++ t ++ g2 ++ quad m ++ s ++ z)
  | IK_in4 g g1 n g2 d z : gap g -> gap g1 -> name_text n -> gap g2 -> words ["in"; "out"]%string d -> end_line z ->
      ios_kept (DGroup4 n d) (u "ip" ++ g ++ u "access-group" ++ g1 ++ n ++ g2 ++ d ++ z)
  | IK_ip6 g g1 t a p tp s z : gap g -> gap g1 -> v6_text t a -> prefix_text p tp -> maybe "link-local" s -> end_line z ->
      ios_kept (DAddr6 a p) (u "ipv6" ++ g ++ u "address" ++ g1 ++ t ++ tp ++ s ++ z)
  | IK_in6 g g1 n g2 d z : gap g -> gap g1 -> name_text n -> gap g2 -> words ["in"; "out"]%string d -> end_line z ->
      ios_kept (DGroup6 n d) (u "ipv6" ++ g ++ u "traffic-filter" ++ g1 ++ n ++ g2 ++ d ++ z)
  (** what follows the mode is not looked at, nor what follows the VLANs *)
  | IK_mode g g1 m q : gap g -> gap g1 -> words ["access"; "trunk"]%string m -> one_line q -> ~ opens_alnum isalnum q ->
      ios_kept (DSwMode m) (u "switchport" ++ g ++ u "mode" ++ g1 ++ m ++ q ++ lf)
  | IK_trunk g g1 g2 g3 d l t q : gap g -> gap g1 -> gap g2 -> gap g3 -> trunk_text d l t -> one_line q -> vlans_over l q ->
      ios_kept d (u "switchport" ++ g ++ u "trunk" ++ g1 ++ u "allowed" ++ g2 ++ u "vlan" ++ g3 ++ t ++ q ++ lf).
  (** A line of which nothing is kept. *)
  Definition ios_unkept (l : pystr) : Prop := forall d, ~ ios_kept d (l ++ lf).
End Kept.
(** An address line with something like an address in it that is none: ValueError. *)
Inductive refused_detail : pystr -> Prop :=
| RD_ip4 g g1 q : gap g -> gap g1 -> malformed4 q -> refused_detail (u "ip" ++ g ++ u "address" ++ g1 ++ q)
| RD_mask g g1 a g2 q : gap g -> gap g1 -> (a < 2 ^ 32)%N -> gap g2 -> malformed4 q -> refused_detail (u "ip" ++ g ++ u "address" ++ g1 ++ quad a ++ g2 ++ q)
| RD_ip6 g g1 q : gap g -> gap g1 -> malformed6 q -> refused_detail (u "ipv6" ++ g ++ u "address" ++ g1 ++ q).
Definition clean_detail (l : pystr) : Prop := ~ refused_detail l.

Section Interface.
  Variables (isalnum isspace : N -> bool) (fine : pystr -> Prop).
  Inductive ios_details : list ifdetail -> pystr -> Prop :=
  | ID_nil : ios_details [] []
  | ID_kept d t l ts : ios_kept isalnum d t -> ios_details l ts -> ios_details (d :: l) (u " " ++ t ++ ts)
  | ID_other t l ts : one_line t -> ios_unkept isalnum t -> fine t -> ios_details l ts -> ios_details (DNone :: l) (u " " ++ t ++ lf ++ ts).
  Inductive ios_iface_text : pystr -> list ifdetail -> pystr -> Prop :=
  | IF_ g a z l t : gap g -> url_text isspace a -> eol_text z -> ios_details l t -> ios_iface_text a l (u "interface" ++ g ++ a ++ z ++ t).
End Interface.

(** ** Commands that are skipped, by their first word *)
Section Skipping.
  (** words anything may follow; words blanks must follow; words with nothing after them;
      words with a line that indented lines may follow *)
  Variables (isalnum : N -> bool) (opens spaced alone blocks : list string).
  Inductive follow_text : string -> pystr -> Prop :=
  | FO_open w q : In w opens -> one_line q -> follow_text w (q ++ lf)
  | FO_spaced w g q : In w spaced -> gap g -> one_line q -> follow_text w (g ++ q ++ lf)
  | FO_alone w z : In w alone -> eol_text z -> follow_text w z.
  Definition ignored_line (w : string) (l : pystr) : Prop :=
    exists x, l = u w ++ x /\ follow_text w x /\ (plain_word w -> ~ opens_alnum isalnum x).
  Inductive inner_lines : pystr -> Prop :=
  | NN_nil : inner_lines []
  | NN_more q t : one_line q -> inner_lines t -> inner_lines (u " " ++ q ++ lf ++ t).
  (** If several words fit the longest one counts. *)
  Inductive ignored_text : pystr -> Prop :=
  | IX_ w l t : ignored_line w l -> (forall w', ignored_line w' l -> (length (u w') <= length (u w))%nat) ->
      (t = [] \/ In w blocks /\ inner_lines t) -> ignored_text (l ++ t).
End Skipping.
(** Commands *)
Definition ios_open : list string :=
  ["!"; ":"; "Current configuration"; "aaa"; "alias"; "appfw"; "archive"; "arp"; "boot"; "bridge"; "call-home"; "clock"; "crypto"; "cts";
   "diagnostic"; "dial-peer"; "dialer-list"; "dot11"; "enable"; "encryption"; "errdisable"; "file"; "firewall"; "hw-module"; "isdn"; "key";
   "license"; "lldp"; "logging"; "login"; "mac-address"; "mac-address-table"; "memory"; "mls"; "mmi"; "multilink"; "no"; "port-channel";
   "power"; "redundancy"; "resource"; "rmon"; "route-map"; "router"; "rtr"; "security"; "service"; "snmp"; "snmp-server"; "spanning-tree";
   "switch"; "system"; "transceiver"; "username"; "vlan"; "vpdn"; "vrf"; "vtp"; "wism"]%string.
Definition ios_spaced : list string := ["class-map"; "platform"; "policy-map"]%string.
Definition ios_alone : list string := ["boot-end-marker"; "boot-start-marker"; "control-plane"]%string.
Definition ios_blocks : list string :=
  ["appfw"; "archive"; "call-home"; "class-map"; "control-plane"; "crypto"; "dot11"; "key"; "policy-map"; "redundancy"; "route-map"; "router";
   "transceiver"; "vlan"; "vpdn"; "vrf"]%string.
(** After "ip" *)
Definition ip_open : list string :=
  ["accounting-threshold"; "as-path"; "default-gateway"; "dhcp excluded-address"; "domain"; "flow-aggregation"; "flow-cache"; "flow-export";
   "flow-top-talkers"; "forward-protocol"; "ftp"; "host"; "http"; "inspect"; "ips"; "multicast-routing"; "name-server"; "nat"; "pim";
   "prefix-list"; "route"; "routing"; "scp"; "sla"; "slb"; "ssh"; "tcp"; "tftp"; "vrf"]%string.
Definition ip_alone : list string := ["cef"; "classless"; "subnet-zero"]%string.
Definition ip_blocks : list string := ["flow-aggregation"; "flow-top-talkers"; "sla"; "slb"; "ssh"; "vrf"]%string.

(** Banners: between "^C" and "^C", in which a caret hides the character after it, or between
    a character and the text that ends it. *)
Inductive caret_units : pystr -> Prop :=
| CU_nil : caret_units []
| CU_plain c m : c <> 94%N -> caret_units m -> caret_units (c :: m)
| CU_pair c m : c <> 67%N -> caret_units m -> caret_units (94%N :: c :: m).
(** An ASCII character ends what it began; for others see C65_stop. *)
Definition stop_text (d : N) (w : pystr) : Prop := ((d < 128)%N /\ w = [d]) \/ ((128 <= d)%N /\ banner_stop d = Ok w).
Inductive banner_text : pystr -> Prop :=
| BN_caret g g' m z : gap g -> gap g' -> caret_units m -> eol_text z -> banner_text (u "banner" ++ g ++ u "motd" ++ g' ++ u "^C" ++ m ++ u "^C" ++ z)
| BN_char g g' d m w z : gap g -> gap g' -> d <> 10%N -> d <> 32%N -> d <> 9%N -> stop_text d w -> (d = 94%N -> forall m', m ++ w <> 67%N :: m') ->
    (forall c, In c m -> ~ In c w) -> eol_text z -> banner_text (u "banner" ++ g ++ u "motd" ++ g' ++ d :: m ++ w ++ z).
(** A pool lasts up to the first line with a bracket, bar or exclamation mark. *)
Definition pool_mark (c : N) : Prop := In c (u "(!|)").
Inductive pool_text : pystr -> Prop :=
| PO_nil : pool_text []
| PO_more q t : one_line q -> (forall c, In c q -> ~ pool_mark c) -> pool_text t -> pool_text (q ++ lf ++ t).
Definition pool_over (r : pystr) : Prop := forall q r', one_line q -> r = q ++ lf ++ r' -> exists c, In c q /\ pool_mark c.

(** ** Routes *)
Inductive gateway_text (IF : dict nat) : Config.gateway -> pystr -> Prop :=
| GW_addr t a : quad_text t a -> gateway_text IF (Config.GwAddr a) t
| GW_iface n k : dget IF n = Some k -> gateway_text IF (Config.GwIface k) n.
Inductive route_shape (IF : dict nat) (a : addr) (m : N) (gw : Config.gateway) : pystr -> Prop :=
| RO g t g1 g2 tg z : gap g -> quad_text t a -> gap g1 -> (m < 2 ^ 32)%N -> gap g2 -> gateway_text IF gw tg -> eol_text z ->
    route_shape IF a m gw (u "route" ++ g ++ t ++ g1 ++ quad m ++ g2 ++ tg ++ z).
(** No host bits *)
Definition route_net (a : addr) (m : N) (n : net) : Prop := net_of a (MaskQuad m) n /\ n_addr n = a_val a.
(** A route with something like an address in it that is none: ValueError. *)
Inductive refused_route : pystr -> Prop :=
| RR_net g q : gap g -> malformed4 q -> refused_route (u "route" ++ g ++ q)
| RR_mask g a g1 q : gap g -> (a < 2 ^ 32)%N -> gap g1 -> malformed4 q -> refused_route (u "route" ++ g ++ quad a ++ g1 ++ q)
| RR_gateway g a g1 m g2 q : gap g -> (a < 2 ^ 32)%N -> gap g1 -> (m < 2 ^ 32)%N -> gap g2 -> malformed4 q -> refused_route (u "route" ++ g ++ quad a ++ g1 ++ quad m ++ g2 ++ q).
Definition clean_route (t : pystr) : Prop := ~ refused_route t.

(** ** Commands *)
Section IosCommands.
  Variables (isalnum isspace : N -> bool) (fine fine_route : pystr -> Prop).
  Inductive icommand_text (T : itables) : icommand -> pystr -> pystr -> Prop :=
  | IC_version v r : one_line v -> ~ opens_alnum isalnum v -> icommand_text T (IVersion v) (u "version" ++ v ++ lf) r
  | IC_hostname g n z r : gap g -> ident_text n -> eol_text z -> icommand_text T (IHostname n) (u "hostname" ++ g ++ n ++ z) r
  | IC_domain_name g n r : gap g -> ident_text n -> ident_over r -> icommand_text T (IDomain n) (u "domain-name" ++ g ++ n) r
  | IC_iface a l t r : ios_iface_text isalnum isspace fine a l t -> icommand_text T (IIface a l) t r
  | IC_group d t r : ios_group_text (ienv T) d t -> icommand_text T (IGroup d) t r
  | IC_numbered x t r : numbered_rule_text (ienv T) x t -> icommand_text T (IRule x) t r
  | IC_list g g' l t r : gap g -> gap g' -> named_list_text (ienv T) l t -> icommand_text T (IRules l) (u "ip" ++ g ++ u "access-list" ++ g' ++ t) r
  | IC_list6 g l t r : gap g -> list6_text (ienv T) l t -> icommand_text T (IRules l) (u "ipv6" ++ g ++ t) r
  | IC_domain g g' n r : gap g -> gap g' -> name_chars n -> name_over r -> icommand_text T (IDomain n) (u "ip" ++ g ++ u "domain name" ++ g' ++ n) r
  | IC_route g a m gw n t r : gap g -> route_shape (it_if T) a m gw t -> route_net a m n -> icommand_text T (IRoute n gw) (u "ip" ++ g ++ t) r
  (** what is skipped *)
  | IC_ip g t r : gap g -> ignored_text isalnum ip_open [] ip_alone ip_blocks t ->
      (forall g' q, gap g' -> t <> u "domain name" ++ g' ++ q) -> (forall a m gw, ~ route_shape (it_if T) a m gw t) -> fine_route t ->
      icommand_text T INothing (u "ip" ++ g ++ t) r
  | IC_pool g t r : gap g -> pool_text t -> pool_over r -> icommand_text T INothing (u "ip" ++ g ++ u "dhcp pool" ++ t) r
  | IC_ipv6 g w g' q r : gap g -> w = "unicast-routing"%string /\ g' = [] \/ In w ["nd"; "prefix-list"; "route"]%string /\ gap g' -> one_line q ->
      (exists r', r = lf ++ r') -> icommand_text T INothing (u "ipv6" ++ g ++ u w ++ g' ++ q) r
  | IC_ipv6_block g q t r : gap g -> one_line q -> ~ opens_alnum isalnum q -> inner_lines t -> icommand_text T INothing (u "ipv6" ++ g ++ u "ipv6" ++ q ++ lf ++ t) r
  | IC_skipped t r : ignored_text isalnum ios_open ios_spaced ios_alone ios_blocks t -> icommand_text T INothing t r
  | IC_banner t r : banner_text t -> icommand_text T INothing t r
  | IC_define g q r : gap g -> one_line q -> icommand_text T INothing (u "define" ++ g ++ u "interface-range" ++ q ++ lf) r
  | IC_empty t r : eol_text t -> icommand_text T INothing t r.
  (** A line with the word "line" or "end" ends the configuration, whatever follows. *)
  Definition iend_text (s : pystr) : Prop := s = [] \/ exists w q, In w ["line"; "end"]%string /\ s = u w ++ q /\ ~ opens_alnum isalnum q.
  Inductive ifile_text : itables -> list icommand -> list imade -> itables -> pystr -> Prop :=
  | IFX_end T s : iend_text s -> ifile_text T [] [] T s
  | IFX_more T c t r T' m cs ms T'' : icommand_text T c t r -> ilearn T c = Ok (T', m) -> ifile_text T' cs ms T'' r ->
      ifile_text T (c :: cs) (m :: ms) T'' (t ++ r).
End IosCommands.

(** Naming rules for the names a configuration defines *)
Inductive igroup_named : sort -> pystr -> icommand -> Prop :=
| GI_net d : igroup_named NetGroup (gd_name d) (IGroup (DNet d))
| GI_svc d : igroup_named SvcGroup (gd_name d) (IGroup (DService d))
| GI_port d : igroup_named PortGroup (gd_name d) (IGroup (DPort d))
| GI_icmp d : igroup_named IcmpGroup (gd_name d) (IGroup (DIcmp d))
| GI_proto d : igroup_named ProtoGroup (gd_name d) (IGroup (DProto d)).
Record iwell_named (cs : list icommand) : Prop := {
  iw_groups : forall k n c, In c cs -> igroup_named k n c -> n <> [];
  iw_exclusive : forall a b n c c', In c cs -> In c' cs -> igroup_named a n c -> igroup_named b n c' -> exclusive a b -> False;
  iw_ifaces : forall a l, In (IIface a l) cs -> ~ opens_digit a }.
