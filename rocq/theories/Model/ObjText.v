(** Object definitions of an ASA/FWSM configuration as text: the grammar rule object of
    lib/acltk/acl.bnf:216-350 with the semantic actions of lib/acltk/aclSemantics.py.  What
    is read is the definition whose action is [network_object_def] (Model/Nat.v), or a
    service object. *)
From Coq Require Import String.
From Verif.Model Require Import Base Ip Hosts Groups Rules Nat Iface Peg Ids AddrText Ports AclText Define GroupText.
Local Open Scope list_scope.

(** A definition: name, description (empty: none), contents. *)
Inductive objdef := ONet (name descr : pystr) (b : netobj_body) | OSvc (name descr : pystr) (s : service).

Section ObjText.
  Context (isalpha isalnum isspace : N -> bool) (py_int : pystr -> option Z).
  Notation reference := (reference isalpha isalnum).
  Notation kw := (kw isalpha isalnum).
  Notation tokens := (tokens isalpha isalnum).
  Notation port := (port isalpha isalnum).
  Notation string_ := (string_ isspace).
  Notation opt_descr := (opt_descr isalpha isalnum).
  Variables (E : env) (IF : dict ifnames).

  (** nat_interfaces: acl.bnf:281-283, aclSemantics.py:493-502 *)
  Definition iface_pair : parser (option ifnames * option ifnames) :=
    let% x := nat_interfaces isalpha isalnum IF in
    let f (i : unit + ifnames) := match i with inl _ => None | inr i => Some i end in
    ret (f (fst x), f (snd x)).
  (** nat_mapped_fallback: acl.bnf:294-296; not kept in the model. *)
  Definition fallback : parser unit := let% _ := kw "interface" in let% _ := popt (then_ ws (kw "ipv6")) in ret tt.
  Definition opt_fallback : parser (option unit) := popt (then_ ws fallback).
  (** pat_pool: acl.bnf:309-327 *)
  Definition pool_option : parser unit := choice [
    kw "round-robin"; kw "extended"; (let% _ := kw "flat" in let% _ := popt (then_ ws (kw "include-reserve")) in ret tt)].
  Definition pat_pool : parser host :=
    let% _ := kw "pat-pool" in let% _ := ws in
    let% h := por (let% g := reference (e_netgrp E) in ret (HGrp g)) (let% o := reference (e_netobj E) in ret (HObj o)) in
    let% _ := many (then_ ws pool_option) in ret h.
  (** network_nat_mapped: acl.bnf:285-292; its action (aclSemantics.py:410-429,
      [network_nat_mapped]) runs at once and may raise. *)
  Definition nat_mapped : parser netmap_ast :=
    act (fun m => do _ <- network_nat_mapped m; Ok m) (choice [
      (let% o := reference (e_netobj E) in let% _ := opt_fallback in ret (OMNode (HObj o)));
      (let% g := reference (e_netgrp E) in let% _ := opt_fallback in ret (OMNode (HGrp g)));
      (let% a := ip4 in let% _ := opt_fallback in ret (OMAddr a None));
      (let% a := ip6 in let% m := popt (then_ (char 47) int_) in let% _ := opt_fallback in ret (OMAddr a (option_map int10 m)));
      (let% _ := kw "interface" in let% _ := popt (then_ ws (kw "ipv6")) in ret OMIface);
      (let% h := pat_pool in let% _ := opt_fallback in ret (OMNode h))]).
  (** network_object_nat_options, network_object_nat_service: acl.bnf:298-307 *)
  Definition nat_options : parser (list pystr) :=
    many (then_ ws (tokens [u "route-lookup"; u "no-proxy-arp"; u "dns"])).
  Definition nat_service : parser objnat_service := por
    (let% _ := kw "service" in let% _ := ws in let% p := tokens [u "tcp"; u "udp"] in let% _ := ws in
     let% a := port in let% _ := ws in let% b := port in ret (OSPorts p a b))
    (let% _ := kw "dns" in ret OSDns).
  (** network_object_nat: acl.bnf:272-275 *)
  Definition object_nat : parser objnat_ast := por
    (let% _ := kw "nat" in let% _ := ws in let% i := iface_pair in let% _ := ws in let% _ := kw "dynamic" in let% _ := ws in
     let% m := nat_mapped in let% o := nat_options in let% _ := line_end in ret (mkobjnat i false m None o))
    (let% _ := kw "nat" in let% _ := ws in let% i := iface_pair in let% _ := ws in let% _ := kw "static" in let% _ := ws in
     let% m := nat_mapped in let% s := popt (then_ ws nat_service) in let% o := nat_options in let% _ := line_end in
     ret (mkobjnat i true m s o)).

  (** network_object: acl.bnf:225-233.  A NAT line may stand for the contents. *)
  Definition fqdn_limit : parser ver := por (let% _ := kw "v4" in ret V4) (let% _ := kw "v6" in ret V6).
  Definition network_object : parser (objargs + objnat_ast) := choice [
    (let% _ := kw "host" in let% _ := ws in let% a := por ip4 ip6 in let% _ := nl in ret (inl (AHost a)));
    (let% _ := kw "subnet" in let% _ := ws in let% a := ip4 in let% _ := ws in let% m := ip4 in let% _ := nl in
     ret (inl (ASubnet a (MaskQuad (a_val m)))));
    (let% _ := kw "subnet" in let% _ := ws in let% a := ip6 in let% _ := char 47 in let% m := int_ in let% _ := nl in
     ret (inl (ASubnet a (MaskLen (int10 m)))));
    (let% _ := kw "range" in let% _ := ws in let% a := ip4 in let% _ := ws in let% b := ip4 in let% _ := nl in ret (inl (ARange a b)));
    (let% _ := kw "range" in let% _ := ws in let% a := ip6 in let% _ := ws in let% b := ip6 in let% _ := nl in ret (inl (ARange a b)));
    (let% _ := kw "fqdn" in let% _ := ws in let% l := popt (let% v := fqdn_limit in let% _ := ws in ret v) in
     let% _ := string_ in let% _ := nl in ret (inl (AFqdn l)));
    (let% n := object_nat in ret (inr n))].
  (** service_object: acl.bnf:331-335, aclSemantics.py:268-270 *)
  Definition service_object : parser service := choice [
    (let% _ := kw "service" in let% _ := ws in icmp_service isalpha isalnum nl);
    (let% _ := kw "service" in let% _ := ws in port_service isalpha isalnum py_int);
    (let% _ := kw "service" in let% _ := ws in let% p := act protocol_int int_ in let% _ := nl in ret (mkservice p None None None None))].

  (** object_type: acl.bnf:220-223, aclSemantics.py:124-160.  A NAT line in the place of the
      contents is the NAT of the object, whatever follows.  A service object needs a protocol
      (aclObjects.py:682-685). *)
  Definition object_type : parser objdef := por
    (let% _ := kw "network" in let% _ := ws in let% n := obj_name in
     let% a := popt (let% _ := nl in let% _ := sp in network_object) in
     let% t := popt (then_ sp object_nat) in let% d := opt_descr in
     ret (ONet n (match d with Some d => d | None => [] end)
       (match a with None => BArgs ANone t | Some (inl a) => BArgs a t | Some (inr m) => BNat m end)))
    (let% _ := kw "service" in let% _ := ws in let% n := obj_name in
     let% a := popt (let% _ := nl in let% _ := sp in service_object) in let% d := opt_descr in
     match a with
     | None => raise AssertionError
     | Some s => ret (OSvc n (match d with Some d => d | None => [] end) s)
     end).
  (** object: acl.bnf:216-218 *)
  Definition object_ : parser objdef := let% _ := kw "object" in let% _ := ws in object_type.
End ObjText.
