(** object-group definitions of an ASA/FWSM configuration as text: the grammar rules
    object_group and object_group_type of lib/acltk/acl.bnf:352-413 with the semantic
    actions of lib/acltk/aclSemantics.py.  What is read is the definition [anydef] of
    Model/Define.v, whose action [define_any] is modelled there. *)
From Coq Require Import String.
From Verif.Model Require Import Base Ip Hosts Groups Iface Peg Ids AddrText Ports AclText Define.
Local Open Scope list_scope.

(** The names of a table: a reference is read as the name, which the definition looks up in
    the same table. *)
Definition known {V} (d : dict V) : dict pystr := map (fun kv => (fst kv, fst kv)) d.

Section GroupText.
  Context (isalpha isalnum isspace : N -> bool) (py_int : pystr -> option Z).
  Notation reference := (reference isalpha isalnum).
  Notation name_slash := (name_slash isalpha isalnum).
  Notation kw := (kw isalpha isalnum).
  Notation tokens := (tokens isalpha isalnum).
  Notation port := (port isalpha isalnum).
  Notation icmp_type := (icmp_type isalpha isalnum).
  Variable E : env.

  (** acl.bnf:22-24 description; [[SP >description]] *)
  Definition description : parser pystr :=
    let% _ := kw "description" in let% _ := ws in let% t := pat1 not_lf in let% _ := nl in ret t.
  Definition opt_descr : parser (option pystr) := popt (then_ sp description).
  (** [[WS] NL] *)
  Definition line_end : parser unit := let% _ := popt ws in nl.

  (** group-object lines *)
  Definition group_object {V X} (table : dict V) (fin : parser unit) : parser (member X) :=
    let% _ := kw "group-object" in let% _ := ws in let% n := reference (known table) in let% _ := fin in ret (Ref n).
  (** The last alternative of a member rule: [type:`None`], whose action asserts. *)
  Definition none_asserts {X} : parser (member X) := raise AssertionError.

  (** network_group_object: acl.bnf:393-400, aclSemantics.py:234-253.  The Name an address
      was written with ([target]) is not kept in the members. *)
  Definition net_member : parser (member host) := choice [
    (let% _ := kw "network-object" in let% _ := ws in let% _ := kw "host" in let% _ := ws in
     named_addr (reference (e_names E)) (por ip4 ip6) (fun x => let% _ := nl in ret (Lit (HLeaf (LHost (fst x))))));
    (let% _ := kw "network-object" in let% _ := ws in let% _ := kw "object" in let% _ := ws in
     let% o := reference (e_netobj E) in let% _ := nl in ret (Lit (HObj o)));
    (let% _ := kw "network-object" in let% _ := ws in
     named_addr (reference (e_names E)) ip4 (fun x =>
       let% _ := ws in act (fun m => do h <- network x (MaskQuad (a_val m)); Ok (Lit (th_host h))) (let% m := ip4 in let% _ := nl in ret m)));
    (let% _ := kw "network-object" in let% _ := ws in
     named_addr (name_slash (e_names E)) ip6 (fun x =>
       let% _ := char 47 in act (fun m => do h <- network x (MaskLen (int10 m)); Ok (Lit (th_host h))) (let% m := int_ in let% _ := nl in ret m)));
    group_object (e_netgrp E) nl;
    none_asserts].

  (** service_object_op: acl.bnf:337-340, aclSemantics.py:278-282 *)
  Definition service_op : parser pmember := por
    (let% op := tokens [u "lt"; u "gt"; u "eq"; u "neq"] in let% _ := ws in let% p := port in ret (PPort (Some op) (Some p)))
    (let% _ := kw "range" in let% _ := ws in let% a := port in let% _ := ws in let% b := port in
     fun s => match port_range py_int (Some a) (Some b) with Ok r => POk r s | Err e => PErr e end).
  (** service_object_source/_destination: acl.bnf:342-350 *)
  Definition service_side (w : string) : parser (option pmember) := por
    (let% _ := kw w in let% _ := ws in let% p := service_op in ret (Some p)) (ret None).
  (** The part of a service after "service" or "service-object": an ICMP message, ports.
      [fin]: what ends an ICMP service. *)
  Definition icmp_service (fin : parser unit) : parser service :=
    let% p := tokens [u "icmp"; u "icmp6"] in
    let% i := popt (then_ ws (let% t := icmp_type in let% c := popt (then_ ws icmp_code) in ret (t, c))) in
    let% _ := fin in
    ret (mkservice p None None (option_map fst i) (match i with Some (_, c) => c | None => None end)).
  Definition port_service : parser service :=
    let% p := tokens [u "tcp-udp"; u "tcp"; u "udp"] in let% _ := popt ws in
    let% src := service_side "source" in let% _ := popt ws in
    let% dst := service_side "destination" in let% _ := popt ws in let% _ := nl in
    ret (mkservice p src dst None None).
  (** service_group_object: acl.bnf:377-384, aclSemantics.py:255-266 *)
  Definition service_member : parser (member smember) := choice [
    (let% _ := kw "service-object" in let% _ := ws in let% s := icmp_service line_end in ret (Lit (SService s)));
    (let% _ := kw "service-object" in let% _ := ws in let% s := port_service in ret (Lit (SService s)));
    (let% _ := kw "service-object" in let% _ := ws in
     let% p := por (tokens protocol_codes) (act protocol_int int_) in let% _ := line_end in
     ret (Lit (SService (mkservice p None None None None))));
    (let% _ := kw "service-object" in let% _ := ws in let% _ := kw "object" in let% _ := ws in
     let% o := reference (e_svcobj E) in let% _ := line_end in ret (Lit (SObject (so_name o) (so_descr o) (so_service o))));
    group_object (e_svcgrp E) line_end;
    none_asserts].

  (** port_group_object: acl.bnf:386-391, aclSemantics.py:284-292.  The action looks up a
      key [port] the line with "eq" never sets.  The last alternative gives None, which the
      closure drops. *)
  Definition port_member : parser (option (member pmember)) := choice [
    (let% _ := kw "port-object" in let% _ := ws in let% _ := kw "eq" in let% _ := ws in let% _ := port in let% _ := nl in
     ret (Some (Lit (PPort (Some (u "eq")) None))));
    (let% _ := kw "port-object" in let% _ := ws in let% _ := kw "range" in let% _ := ws in let% a := port in let% _ := ws in
     let% b := port in let% _ := nl in
     fun s => match port_range py_int (Some a) (Some b) with Ok r => POk (Some (Lit r)) s | Err e => PErr e end);
    (let% m := group_object (e_portgrp E) nl in ret (Some m));
    ret None].

  (** icmp_group_object: acl.bnf:402-406, aclSemantics.py:301-306 *)
  Definition icmp_member : parser (member imember) := choice [
    (let% _ := kw "icmp-object" in let% _ := ws in let% t := icmp_type in let% _ := nl in ret (Lit (IcmpType t None)));
    group_object (e_icmpgrp E) nl;
    none_asserts].
  (** protocol_group_object: acl.bnf:409-413, aclSemantics.py:294-299 *)
  Definition proto_member : parser (member prmember) := choice [
    (let% _ := kw "protocol-object" in let% _ := ws in let% n := obj_name in let% _ := nl in ret (Lit (PrProto n)));
    group_object (e_protogrp E) nl;
    none_asserts].

  (** object_group_type: acl.bnf:367-375, aclSemantics.py:167-194.  No description is the
      empty text (a description has at least one character).  The key "type" of a port group
      is its protocol. *)
  Definition group_head (w : string) : parser pystr :=
    let% _ := kw w in let% _ := ws in let% n := obj_name in let% _ := line_end in ret n.
  Definition body {X} (p : parser (member X)) (f : gdef X -> anydef) (n proto : pystr) : parser anydef :=
    let% d := opt_descr in let% ms := many (then_ sp p) in
    ret (f (mkgdef n (match d with Some d => d | None => [] end) proto ms)).
  Definition object_group_type : parser anydef := choice [
    (let% n := group_head "network" in body net_member DNet n []);
    (let% _ := kw "service" in let% _ := ws in let% n := obj_name in let% _ := ws in
     let% t := tokens [u "tcp-udp"; u "tcp"; u "udp"] in let% _ := line_end in
     let% d := opt_descr in let% ms := many (then_ sp port_member) in
     ret (DPort (mkgdef n (match d with Some d => d | None => [] end) t (keep ms))));
    (let% n := group_head "service" in body service_member DService n []);
    (let% n := group_head "icmp-type" in body icmp_member DIcmp n []);
    (let% n := group_head "protocol" in body proto_member DProto n [])].
  (** object_group: acl.bnf:352-354 *)
  Definition object_group : parser anydef :=
    let% _ := kw "object-group" in let% _ := ws in object_group_type.
End GroupText.
