(** A whole IOS configuration as text: the commands of lib/acltk/ios.bnf with the tables
    they fill (lib/acltk/aclSemantics.py:65-71,167-194,505-533), iosSemantics.py and
    ACLConfig.fromString for the class iosConfig (lib/acltk/aclObjects.py:1275-1281,
    lib/acltk/iosObjects.py:20-75).  Access lists are read by Model/IosText.v. *)
From Coq Require Import String.
From Verif.Model Require Import Base Ip Hosts Groups Iface Peg Ids AddrText Ports AclText Define GroupText LineText FileText IosText.
From Verif.Model Require Config.
Local Open Scope list_scope.

(** ** Lines that are skipped, as [word, what follows, indented lines may follow]
    (Model/FileText.v) *)
(** ios.bnf:334-340 up to [banner] *)
Definition ios_skip_1 : list (string * shape * bool) := [
  ("!", SAny, false); (":", SAny, false); ("aaa", SAny, false); ("alias", SAny, false); ("appfw", SAny, true);
  ("archive", SAny, true); ("arp", SAny, false)]%string.
(** ios.bnf:342-351 up to [define] *)
Definition ios_skip_2 : list (string * shape * bool) := [
  ("boot-start-marker", SAlone, false); ("boot-end-marker", SAlone, false); ("boot", SAny, false); ("bridge", SAny, false);
  ("call-home", SAny, true); ("class-map", SSpaced, true); ("clock", SAny, false); ("control-plane", SAlone, true);
  ("crypto", SAny, true); ("cts", SAny, false); ("Current configuration", SAny, false)]%string.
(** ios.bnf:353-394 up to [Using] *)
Definition ios_skip_3 : list (string * shape * bool) := [
  ("diagnostic", SAny, false); ("dialer-list", SAny, false); ("dial-peer", SAny, false); ("dot11", SAny, true);
  ("enable", SAny, false); ("encryption", SAny, false); ("errdisable", SAny, false); ("file", SAny, false);
  ("firewall", SAny, false); ("hw-module", SAny, false); ("isdn", SAny, false); ("key", SAny, true); ("license", SAny, false);
  ("lldp", SAny, false); ("logging", SAny, false); ("login", SAny, false); ("mac-address-table", SAny, false);
  ("mac-address", SAny, false); ("memory", SAny, false); ("mls", SAny, false); ("mmi", SAny, false); ("multilink", SAny, false);
  ("no", SAny, false); ("platform", SSpaced, false); ("policy-map", SSpaced, true); ("port-channel", SAny, false);
  ("power", SAny, false); ("redundancy", SAny, true); ("resource", SAny, false); ("rmon", SAny, false); ("route-map", SAny, true);
  ("router", SAny, true); ("rtr", SAny, false); ("security", SAny, false); ("switch", SAny, false); ("service", SAny, false);
  ("snmp-server", SAny, false); ("snmp", SAny, false); ("spanning-tree", SAny, false); ("system", SAny, false);
  ("transceiver", SAny, true); ("username", SAny, false)]%string.
(** ios.bnf:396-400 *)
Definition ios_skip_4 : list (string * shape * bool) := [
  ("vlan", SAny, true); ("vpdn", SAny, true); ("vrf", SAny, true); ("vtp", SAny, false); ("wism", SAny, false)]%string.
(** ip_ignored, ios.bnf:404-438, before and after [dhcp pool] *)
Definition ip_skip_1 : list (string * shape * bool) := [
  ("cef", SAlone, false); ("as-path", SAny, false); ("inspect", SAny, false); ("domain", SAny, false); ("name-server", SAny, false);
  ("route", SAny, false); ("http", SAny, false); ("nat", SAny, false); ("subnet-zero", SAlone, false);
  ("dhcp excluded-address", SAny, false)]%string.
Definition ip_skip_2 : list (string * shape * bool) := [
  ("tcp", SAny, false); ("scp", SAny, false); ("ssh", SAny, true); ("classless", SAlone, false); ("forward-protocol", SAny, false);
  ("ips", SAny, false); ("flow-cache", SAny, false); ("flow-export", SAny, false); ("vrf", SAny, true);
  ("multicast-routing", SAny, false); ("accounting-threshold", SAny, false); ("host", SAny, false); ("ftp", SAny, false);
  ("default-gateway", SAny, false); ("sla", SAny, true); ("slb", SAny, true); ("flow-aggregation", SAny, true);
  ("flow-top-talkers", SAny, true); ("prefix-list", SAny, false); ("pim", SAny, false); ("routing", SAny, false); ("tftp", SAny, false)]%string.

(** [int.from_bytes(c.encode("utf-8"), "little")] written with [{:02x}] after [\x]: the
    character the regular expression begins with and the hexadecimal digits after it,
    iosSemantics.py:245-260.  A surrogate cannot be encoded (UnicodeEncodeError, a
    ValueError). *)
Definition utf8 (c : N) : result (list N) :=
  if (c <? 128)%N then Ok [c]
  else if (c <? 2048)%N then Ok [192 + c / 64; 128 + c mod 64]%N
  else if (55296 <=? c)%N && (c <=? 57343)%N then Err ValueError
  else if (c <? 65536)%N then Ok [224 + c / 4096; 128 + c / 64 mod 64; 128 + c mod 64]%N
  else Ok [240 + c / 262144; 128 + c / 4096 mod 64; 128 + c / 64 mod 64; 128 + c mod 64]%N.
Definition hex_digit (n : N) : N := if (n <? 10)%N then (48 + n)%N else (87 + n)%N.
Definition hex2 (b : N) : pystr := [hex_digit (b / 16); hex_digit (b mod 16)]%N.
Definition banner_stop (c : N) : result pystr :=
  do l <- utf8 c;
  Ok (match rev l with [] => [] | b :: l' => b :: flat_map hex2 l' end).

Section IosFile.
  Context (isalpha isalnum isspace : N -> bool) (py_int : pystr -> option Z).
  Notation kw := (kw isalpha isalnum).
  Notation tokens := (tokens isalpha isalnum).

  (** ** Object groups *)
  Section Groups.
    Variable E : env.
    Notation reference := (reference isalpha isalnum).
    Notation name_slash := (name_slash isalpha isalnum).
    (** network_group_object: ios.bnf:4-12, aclSemantics.py:234-253.  The action of a "range"
        line looks for an address in the word "range" ([_resolve_addr] raises). *)
    Definition ios_net_member : parser (member host) := choice [
      (let% _ := kw "host" in let% _ := ws in
       named_addr (reference (e_names E)) (por ip4 ip6) (fun x => let% _ := line_end in ret (Lit (HLeaf (LHost (fst x))))));
      (let% _ := kw "range" in let% _ := ws in
       named_addr (reference (e_names E)) (por ip4 ip6) (fun _ => let% _ := ws in
       named_addr (reference (e_names E)) (por ip4 ip6) (fun _ => let% _ := line_end in raise ValueError)));
      named_addr (reference (e_names E)) ip4 (fun x =>
        let% _ := ws in act (fun m => do h <- network x (MaskQuad (a_val m)); Ok (Lit (th_host h))) (let% m := ip4 in let% _ := line_end in ret m));
      named_addr (name_slash (e_names E)) ip6 (fun x =>
        let% _ := char 47 in act (fun m => do h <- network x (MaskLen (int10 m)); Ok (Lit (th_host h))) (let% m := int_ in let% _ := line_end in ret m));
      group_object isalpha isalnum (e_netgrp E) nl;
      none_asserts].
    (** service_group_object: ios.bnf:14-21, aclSemantics.py:255-266 *)
    Definition ios_service_member : parser (member smember) := choice [
      (let% s := icmp_service isalpha isalnum line_end in ret (Lit (SService s)));
      (let% s := port_service isalpha isalnum py_int in ret (Lit (SService s)));
      (let% p := por (tokens protocol_codes) (act protocol_int int_) in let% _ := line_end in
       ret (Lit (SService (mkservice p None None None None))));
      group_object isalpha isalnum (e_svcgrp E) line_end;
      none_asserts].
    (** object_group_type: acl.bnf:367-375 with these two rules *)
    Definition ios_group_type : parser anydef := choice [
      (let% n := group_head isalpha isalnum "network" in body isalpha isalnum ios_net_member DNet n []);
      (let% _ := kw "service" in let% _ := ws in let% n := obj_name in let% _ := ws in
       let% t := tokens [u "tcp-udp"; u "tcp"; u "udp"] in let% _ := line_end in
       let% d := opt_descr isalpha isalnum in let% ms := many (then_ sp (port_member isalpha isalnum py_int E)) in
       ret (DPort (mkgdef n (match d with Some d => d | None => [] end) t (keep ms))));
      (let% n := group_head isalpha isalnum "service" in body isalpha isalnum ios_service_member DService n []);
      (let% n := group_head isalpha isalnum "icmp-type" in body isalpha isalnum (icmp_member isalpha isalnum E) DIcmp n []);
      (let% n := group_head isalpha isalnum "protocol" in body isalpha isalnum (proto_member isalpha isalnum E) DProto n [])].
    Definition ios_object_group : parser anydef :=
      let% _ := kw "object-group" in let% _ := ws in ios_group_type.
  End Groups.

  (** ** Interfaces: interface_detail, ios.bnf:45-54 *)
  Definition idetail_ip4 : parser ifdetail :=
    let% _ := kw "ip" in let% _ := ws in let% _ := kw "address" in let% _ := ws in
    let% a := ip4 in let% _ := ws in let% m := ip4 in let% _ := popt (then_ ws (kw "secondary")) in
    let% _ := line_end in ret (DAddr4 a (a_val m)).
  Definition idetail_group (w v : string) (f : pystr -> pystr -> ifdetail) : parser ifdetail :=
    let% _ := kw w in let% _ := ws in let% _ := kw v in let% _ := ws in
    let% n := obj_name in let% _ := ws in let% d := tokens [u "in"; u "out"] in let% _ := line_end in ret (f n d).
  Definition idetail_ip6 : parser ifdetail :=
    let% _ := kw "ipv6" in let% _ := ws in let% _ := kw "address" in let% _ := ws in
    let% a := ip6 in let% m := popt (then_ (char 47) int_) in let% _ := popt (then_ ws (kw "link-local")) in
    let% _ := line_end in ret (DAddr6 a (option_map int10 m)).
  (** vlan, vlan_list: ios.bnf:310-317, iosSemantics.py:219-226.  A closure with a separator
      is [vlan {"," ~ vlan}]: after a separator there is no way back. *)
  Definition vlan_ : parser vlan := por
    (let% a := int_ in let% _ := char 45 in let% b := int_ in ret (VlanRange a b))
    (let% a := int_ in ret (Vlan a)).
  Fixpoint vlans_more (fuel : nat) : parser (list vlan) := fun s =>
    match fuel with
    | O => POk [] s
    | S fuel' =>
        match char 44 s with
        | POk _ r => (let% v := vlan_ in let% l := vlans_more fuel' in ret (v :: l)) r
        | _ => POk [] s
        end
    end.
  Definition vlan_list : parser (list vlan) :=
    let% v := vlan_ in let% l := (fun s => vlans_more (S (length s)) s) in ret (v :: l).
  (** switchport_cmd 305-308, switchport_trunk_op 319-322, switchport_trunk_cmd 324-326 *)
  Definition trunk_op : parser ifdetail := por
    (let% _ := kw "add" in let% _ := ws in let% l := vlan_list in ret (DTrunkAdd l))
    (let% l := vlan_list in ret (DTrunkSet l)).
  Definition switchport_cmd : parser ifdetail := por
    (let% _ := kw "mode" in let% _ := ws in let% m := tokens [u "access"; u "trunk"] in let% _ := toeol in ret (DSwMode m))
    (let% _ := kw "trunk" in let% _ := ws in let% _ := kw "allowed" in let% _ := ws in let% _ := kw "vlan" in let% _ := ws in
     let% d := trunk_op in let% _ := toeol in ret d).
  Definition idetail_switch : parser ifdetail :=
    let% _ := kw "switchport" in let% _ := ws in let% d := switchport_cmd in let% _ := line_end in ret d.
  Definition idetail_other : parser ifdetail := let% _ := toeol in let% _ := nl in ret DNone.
  Definition ios_detail : parser ifdetail := choice [
    detail_descr isalpha isalnum; idetail_ip4; idetail_group "ip" "access-group" DGroup4; idetail_ip6;
    idetail_group "ipv6" "traffic-filter" DGroup6; idetail_switch; idetail_other; ret DNone].
  (** acl.bnf:27-34 interface, interface_alias *)
  Definition ios_interface : parser (pystr * list ifdetail) :=
    let% _ := kw "interface" in let% _ := ws in let% a := string_ isspace in let% _ := nl in
    let% l := many (then_ sp ios_detail) in ret (a, l).

  (** ** Skipped lines *)
  (** ignored_indent, ios.bnf:328-330; it is only used after the end of a line. *)
  Definition ios_indent : parser unit := let% _ := sp in let% _ := toeol in nl.
  Definition ios_skip (e : string * shape * bool) : parser unit :=
    match e with (w, k, b) =>
      let% _ := kw w in let% _ := shape_rest k in if b then (let% _ := many ios_indent in ret tt) else ret tt
    end.
  (** banner 56-63, delim_start 66-69; [None] is "^C" *)
  Definition delim_start : parser (option N) := por
    (let% _ := kw "^C" in ret None)
    (fun s => match s with c :: r => if N.eqb c 10 then PFail else POk (Some c) r | [] => PFail end).
  (** [([^^]|\^[^C])*] *)
  Fixpoint caret_msg (s : pystr) : pystr :=
    match s with
    | c :: s' =>
        if N.eqb c 94 then match s' with d :: s'' => if N.eqb d 67 then s else caret_msg s'' | [] => s end
        else caret_msg s'
    | [] => []
    end.
  (** iosParser._delim_msg_ and _delim_stop_, iosSemantics.py:245-260 *)
  Definition delimited (d : option N) : parser unit := fun s =>
    match d with
    | None => kw "^C" (caret_msg s)
    | Some c =>
        match banner_stop c with
        | Err e => PErr e
        | Ok w => (let% _ := pat0 (fun x => negb (existsb (N.eqb x) w)) in let% _ := lit w in ret tt) s
        end
    end.
  Definition banner : parser unit :=
    let% _ := kw "banner" in let% _ := ws in let% _ := kw "motd" in let% _ := ws in
    let% d := delim_start in let% _ := delimited d in nl.
  (** ios.bnf:352 *)
  Definition skip_define : parser unit :=
    let% _ := kw "define" in let% _ := ws in let% _ := kw "interface-range" in let% _ := toeol in nl.
  (** ios.bnf:395 *)
  Definition skip_using : parser unit :=
    let% _ := kw "Using" in let% _ := int_ in let% _ := kw "out of" in let% _ := int_ in let% _ := kw "bytes" in nl.
  (** ignored: ios.bnf:333-401 *)
  Definition ios_ignored : parser unit := choice
    (map ios_skip ios_skip_1 ++ [banner] ++ map ios_skip ios_skip_2 ++ [skip_define] ++ map ios_skip ios_skip_3 ++
     [skip_using] ++ map ios_skip ios_skip_4 ++ [nl]).
  (** ios.bnf:414 *)
  Definition pool_char (c : N) : bool := negb (existsb (N.eqb c) (u "(!|)" ++ [10%N])).
  Definition dhcp_pool : parser unit :=
    let% _ := kw "dhcp pool" in let% _ := many (let% _ := pat0 pool_char in nl) in ret tt.
  Definition ip_ignored : parser unit := choice (map ios_skip ip_skip_1 ++ [dhcp_pool] ++ map ios_skip ip_skip_2).
  (** ipv6_ignored: ios.bnf:88-94 *)
  Definition ipv6_ignored : parser unit := choice [
    (let% _ := kw "unicast-routing" in let% _ := toeol in ret tt);
    (let% _ := kw "nd" in let% _ := ws in let% _ := toeol in ret tt);
    (let% _ := kw "route" in let% _ := ws in let% _ := toeol in ret tt);
    (let% _ := kw "prefix-list" in let% _ := ws in let% _ := toeol in ret tt);
    (let% _ := kw "ipv6" in let% _ := toeol in let% _ := nl in let% _ := many ios_indent in ret tt)].

  (** ** Commands *)
  Inductive icommand :=
  | IVersion (v : pystr) | IHostname (n : pystr) | IDomain (n : pystr)
  | IIface (alias : pystr) (details : list ifdetail) | IGroup (d : anydef)
  | IRule (x : irule) | IRules (l : list irule) | IRoute (n : net) (gw : Config.gateway) | INothing.

  (** The tables of aclParser that IOS commands fill; [it_count]: the commands read so far,
      by which interfaces are numbered. *)
  Record itables := mkitables { it_world : world; it_if : dict nat; it_count : nat }.
  Definition no_itables : itables := mkitables world_init [] 0.
  Definition ienv (T : itables) : env :=
    mkenv [] [] (fst (w_net (it_world T))) [] (fst (w_service (it_world T)))
      (fst (w_port (it_world T))) (fst (w_icmp (it_world T))) (fst (w_proto (it_world T))) [] [].

  (** ip_route: ios.bnf:173-176, iosSemantics.py:208-217; [None] is "profile". *)
  Definition gateway_ (IF : dict nat) : parser Config.gateway := por
    (let% a := ip4 in ret (Config.GwAddr a))
    (act (fun n => do k <- subscript IF n; Ok (Config.GwIface k)) (ids isalpha isalnum IF)).
  Definition ip_route (IF : dict nat) : parser (option (net * Config.gateway)) := por
    (let% _ := kw "profile" in let% _ := nl in ret None)
    (act (fun x => do n <- ip_network true (fst (fst x)) (MaskQuad (a_val (snd (fst x)))); Ok (Some (n, snd x)))
       (let% a := ip4 in let% _ := ws in let% m := ip4 in let% _ := ws in let% g := gateway_ IF in let% _ := nl in ret (a, m, g))).
  (** ip 157-159, ip_command 161-166, iosSemantics.py:50-60 *)
  Definition ip_command (T : itables) : parser icommand := choice [
    (let% _ := kw "access-list" in let% _ := ws in let% l := ip_access_list isalpha isalnum py_int (ienv T) in ret (IRules l));
    (let% _ := kw "domain name" in let% _ := ws in let% n := obj_name in ret (IDomain n));
    (let% _ := kw "route" in let% _ := ws in let% r := ip_route (it_if T) in
     ret (match r with Some (n, g) => IRoute n g | None => INothing end));
    (let% _ := ip_ignored in ret INothing)].
  Definition ip_ (T : itables) : parser icommand := let% _ := kw "ip" in let% _ := ws in ip_command T.
  (** ipv6 79-81, ipv6_command 83-86, iosSemantics.py:157-162 *)
  Definition ipv6_ (T : itables) : parser icommand :=
    let% _ := kw "ipv6" in let% _ := ws in
    por (let% l := ipv6_access_list isalpha isalnum py_int (ienv T) in ret (IRules l)) (let% _ := ipv6_ignored in ret INothing).
  (** version: ios.bnf:29-31, aclSemantics.py:62-63 *)
  Definition ios_version : parser pystr := let% _ := kw "version" in let% v := toeol in let% _ := nl in ret v.
  (** hostname and domain_name: acl.bnf:13-19 *)
  Definition ios_hostname : parser pystr := let% _ := kw "hostname" in let% _ := ws in let% n := identifier in let% _ := nl in ret n.
  Definition ios_domain : parser pystr := let% _ := kw "domain-name" in let% _ := ws in identifier.
  (** command: ios.bnf:33-43 *)
  Definition icommand_ (T : itables) : parser icommand := choice [
    (let% v := ios_version in ret (IVersion v));
    (let% n := ios_hostname in ret (IHostname n));
    (let% n := ios_domain in ret (IDomain n));
    (let% x := ios_interface in ret (IIface (fst x) (snd x)));
    (let% d := ios_object_group (ienv T) in ret (IGroup d));
    (let% x := numbered_line isalpha isalnum py_int (ienv T) in ret (IRule x));
    ip_ T; ipv6_ T;
    (let% _ := ios_ignored in ret INothing)].

  (** What a command leaves in the list the grammar returns. *)
  Inductive imade :=
  | IMVersion (v : pystr) | IMHostname (n : pystr) | IMDomain (n : pystr) | IMIface (i : interface)
  | IMGroup (d : anydef) (g : gid) | IMRule (x : irule) | IMRules (l : list irule)
  | IMRoute (n : net) (gw : Config.gateway) | IMNothing.
  Definition icounted (T : itables) (m : imade) : result (itables * imade) :=
    Ok (mkitables (it_world T) (it_if T) (S (it_count T)), m).
  (** The actions that learn: interface 65-71 and object_group_type 167-194 of
      aclSemantics.py; no IOS line gives an interface a second name. *)
  Definition ilearn (T : itables) (c : icommand) : result (itables * imade) :=
    match c with
    | IVersion v => icounted T (IMVersion v)
    | IHostname n => icounted T (IMHostname n)
    | IDomain n => icounted T (IMDomain n)
    | IIface a l =>
        do i <- iface_init (it_count T) a l;
        icounted (mkitables (it_world T) (dset (it_if T) a (it_count T)) (it_count T)) (IMIface i)
    | IGroup d =>
        do w <- define_any (it_world T) d;
        icounted (mkitables w (it_if T) (it_count T)) (IMGroup d (next_gid (it_world T) d))
    | IRule x => icounted T (IMRule x)
    | IRules l => icounted T (IMRules l)
    | IRoute n g => icounted T (IMRoute n g)
    | INothing => icounted T IMNothing
    end.

  (** [{command ~}+]: ios.bnf:24-27, as in Model/FileText.v *)
  Fixpoint icommands (fuel : nat) (T : itables) (s : pystr) : pres (list icommand * list imade * itables) :=
    match fuel with
    | O => POk ([], [], T) s
    | S fuel' =>
        match icommand_ T s with
        | PFail => POk ([], [], T) s
        | PErr e => PErr e
        | POk c r =>
            match ilearn T c with
            | Err e => PErr e
            | Ok (T', m) =>
                if (length r <? length s)%nat then
                  match icommands fuel' T' r with
                  | POk (cs, ms, T'') r' => POk (c :: cs, m :: ms, T'') r'
                  | PFail => PFail
                  | PErr e => PErr e
                  end
                else POk ([], [], T) s
            end
        end
    end.
  (** [("line"|"end"|$)]; what follows is not looked at. *)
  Definition ios_end : parser unit :=
    choice [kw "line"; kw "end"; (fun s => match s with [] => POk tt [] | _ => PFail end)].
  Definition ios_parse (data : pystr) : result (list icommand * list imade * itables) :=
    let s := data ++ [10%N] in
    match icommands (S (length s)) no_itables s with
    | PErr e => Err e
    | PFail | POk ([], _, _) _ => Err FailedParse
    | POk x r => match ios_end r with POk _ _ => Ok x | PFail => Err FailedParse | PErr e => Err e end
    end.

  (** ** The configuration: iosConfig over the list.  Interfaces and routes are numbered by
      their position, rules by their position among the rules. *)
  Definition rules_made (m : imade) : list irule := match m with IMRule x => [x] | IMRules l => l | _ => [] end.
  Definition iitem_of (k n : nat) (m : imade) : Config.citem :=
    match m with
    | IMVersion v => Config.KVersion v | IMHostname s => Config.KHostname s | IMDomain s => Config.KDomain s
    | IMIface _ => Config.KIface k
    | IMGroup (DNet d) g => Config.KNetGrp (gd_name d) g | IMGroup (DPort d) g => Config.KPortGrp (gd_name d) g
    | IMGroup (DService d) g => Config.KSvcGrp (gd_name d) g | IMGroup (DProto d) g => Config.KProtoGrp (gd_name d) g
    | IMGroup (DIcmp d) g => Config.KIcmpGrp (gd_name d) g
    | IMRule _ => Config.KRule n | IMRules l => Config.KRules (seq n (length l))
    | IMRoute _ _ => Config.KRoute k | IMNothing => Config.KOther
    end.
  Fixpoint iitems_from (k n : nat) (l : list imade) : list Config.citem :=
    match l with [] => [] | m :: l' => iitem_of k n m :: iitems_from (S k) (n + length (rules_made m)) l' end.
  Definition iiface_store (l : list imade) (k : nat) : interface :=
    match nth_error l k with Some (IMIface i) => i | _ => mkiface [] [] [] None None None [] end.
  Definition route_gw (l : list imade) (k : nat) : Config.gateway :=
    match nth_error l k with Some (IMRoute _ g) => g | _ => Config.GwAddr (mkaddr V4 0) end.
  Definition iconfig_of (ms : list imade) : Config.config * list nat :=
    Config.ios_build (route_gw ms) (iiface_store ms) (iitems_from 0 0 ms).
  Definition ios_config (data : pystr) : result (Config.config * list nat * list imade * itables) :=
    do x <- ios_parse data;
    let '(_, ms, T) := x in
    Ok (iconfig_of ms, ms, T).
End IosFile.
