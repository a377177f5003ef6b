(** Manual NAT of an ASA configuration as text: lib/acltk/fwsm.bnf:167-217 with the semantic
    actions of lib/acltk/fwsmSemantics.py:85-203 ([nat_action] of Model/Nat.v). *)
From Coq Require Import String.
From Verif.Model Require Import Base Ip Hosts Groups Rules Nat Iface Peg Ids AddrText Ports AclText Define GroupText ObjText.
Local Open Scope list_scope.

(** A service object as NAT sees it (Service, aclObjects.py:681-691). *)
Definition nat_service_of (o : svcobj) : natsvc :=
  let s := so_service o in mknatsvc (sv_proto s) (option_map NPort (sv_src s)) (option_map NPort (sv_dst s)).

Section NatText.
  Context (isalpha isalnum : N -> bool).
  Notation reference := (reference isalpha isalnum).
  Notation kw := (kw isalpha isalnum).
  Notation tokens := (tokens isalpha isalnum).
  Variables (E : env) (IF : dict ifnames).
  Notation opt_fallback := (opt_fallback isalpha isalnum).
  Notation fallback := (fallback isalpha isalnum).

  (** nat_mapped_node: fwsm.bnf:172-177 *)
  Definition mapped_static : parser mapped_ast := choice [
    (let% o := reference (e_netobj E) in ret (MNode (HObj o)));
    (let% g := reference (e_netgrp E) in ret (MNode (HGrp g)));
    (let% _ := fallback in ret MIface);
    (let% _ := kw "any" in ret MAny)].
  (** nat_mapped_src_dynamic_node: fwsm.bnf:179-184; of a pool the range (fwsmSemantics.py:176) *)
  Definition mapped_dynamic : parser mapped_ast := choice [
    (let% o := reference (e_netobj E) in let% _ := opt_fallback in ret (MNode (HObj o)));
    (let% g := reference (e_netgrp E) in let% _ := opt_fallback in ret (MNode (HGrp g)));
    (let% _ := kw "interface" in let% _ := popt (then_ ws (kw "ipv6")) in ret MIface);
    (let% h := pat_pool isalpha isalnum E in let% _ := opt_fallback in ret (MNode h))].
  (** nat_real_node: fwsm.bnf:186-190 *)
  Definition real_node : parser real_ast := choice [
    (let% _ := look (let% _ := reference (e_netobj E) in ws) in let% o := reference (e_netobj E) in ret (RNode (HObj o)));
    (let% _ := look (let% _ := reference (e_netgrp E) in ws) in let% g := reference (e_netgrp E) in ret (RNode (HGrp g)));
    (let% _ := kw "any" in ret RAny)].
  (** nat_src: fwsm.bnf:192-195.  The cut after the type changes nothing: the other
      alternative needs the other type.  [true]: static. *)
  Definition nat_src : parser (bool * (real_ast * mapped_ast)) := por
    (let% _ := kw "source" in let% _ := ws in let% _ := kw "dynamic" in let% _ := ws in
     let% r := real_node in let% _ := ws in let% m := mapped_dynamic in ret (false, (r, m)))
    (let% _ := kw "source" in let% _ := ws in let% _ := kw "static" in let% _ := ws in
     let% r := real_node in let% _ := ws in let% m := mapped_static in ret (true, (r, m))).
  (** nat_dst: fwsm.bnf:197-199 *)
  Definition nat_dst : parser (mapped_ast * host) :=
    let% _ := kw "destination" in let% _ := ws in let% _ := kw "static" in let% _ := ws in
    let% m := mapped_static in let% _ := ws in
    let% h := por (let% o := reference (e_netobj E) in ret (HObj o)) (let% g := reference (e_netgrp E) in ret (HGrp g)) in
    ret (m, h).
  (** nat_pos: fwsm.bnf:201-203 *)
  Definition nat_pos : parser unit :=
    let% _ := kw "after-" in let% _ := tokens [u "object"; u "auto"] in let% _ := popt (then_ ws int_) in ret tt.
  (** nat_srv: fwsm.bnf:205-207 *)
  Definition nat_srv : parser (natsvc * natsvc) :=
    let% _ := kw "service" in let% _ := ws in let% a := reference (e_svcobj E) in let% _ := ws in let% b := reference (e_svcobj E) in
    ret (nat_service_of a, nat_service_of b).
  (** nat_options: fwsm.bnf:209-217 *)
  Definition nat_flags : list pystr := [u "net-to-net"; u "dns"; u "unidirectional"; u "no-proxy-arp"; u "inactive"].
  Definition nat_opt : parser nat_option := choice [
    (let% w := tokens nat_flags in ret (OFlag w));
    (let% _ := kw "description" in let% _ := ws in let% t := toeol in ret (ODescription t));
    (let% w := tokens [u "route-lookup"] in ret (OFlag w))].
  (** nat: fwsm.bnf:167-170.  The second form (PIX) leaves the end of the line. *)
  Definition nat_line : parser nat_ast := por
    (let% _ := kw "nat" in let% _ := ws in let% i := iface_pair isalpha isalnum IF in let% p := popt (then_ ws nat_pos) in let% _ := ws in
     let% s := nat_src in let% d := popt (then_ ws nat_dst) in let% v := popt (then_ ws nat_srv) in let% o := many (then_ ws nat_opt) in let% _ := line_end in
     ret (mknatast (Some i) (match p with Some _ => true | None => false end) (fst s) (snd s) d v o))
    (let% _ := kw "nat" in let% _ := ws in let% _ := char 40 in let% _ := ids isalpha isalnum IF in let% _ := char 41 in let% _ := toeol in
     ret (mknatast None false false (RAny, MAny) None None [])).
  (** The action runs at once. *)
  Definition nat_command : parser (option natobj) := act nat_action nat_line.
End NatText.
