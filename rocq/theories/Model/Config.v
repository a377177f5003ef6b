(** Building a configuration from the parsed items (aclObjects.py:1190-1250,
    iosObjects.py:8-47). *)
From Verif.Model Require Import Base Ip Iface.

(** The objects the parser hands over.  All of them are compared by identity and are
    referred to by numbers (interfaces, network objects, rules, ...); [n] is the [name]
    attribute.  [KRules] is an ACLRules object (IOS), with the rules it holds. *)
Inductive citem :=
| KHostname (s : pystr) | KDomain (s : pystr) | KVersion (s : pystr)
| KRule (r : nat)
| KName (x : nat)
| KIface (i : nat)
| KTime (n : pystr) (x : nat)
| KNetObj (n : pystr) (x : nat) (nat : option nat)  (* with the attribute [nat] if it has one *)
| KSvcObj (n : pystr) (x : nat)
| KPortGrp (n : pystr) (x : nat) | KSvcGrp (n : pystr) (x : nat) | KProtoGrp (n : pystr) (x : nat)
| KIcmpGrp (n : pystr) (x : nat) | KNetGrp (n : pystr) (x : nat)
| KAccessGroup (iface name dir : pystr)
| KNat (x : nat) (options : list pystr)
| KRules (l : list nat)
| KRoute (r : nat)
| KOther.

Record config := mkconfig {
  c_hostname : pystr; c_domain : pystr; c_version : option pystr;
  c_names : list nat;
  c_ifaces : dict nat;                      (* alias to interface *)
  c_store : nat -> interface;               (* the interface objects *)
  c_time : dict nat; c_netobj : dict nat; c_svcobj : dict nat;
  c_portgrp : dict nat; c_svcgrp : dict nat; c_protogrp : dict nat; c_icmpgrp : dict nat; c_netgrp : dict nat;
  c_rules : list nat;
  c_agroups : dict (list agroup);           (* ACL name to bindings; defaultdict(list) *)
  c_nat1 : list nat; c_nat2 : list nat; c_nat3 : list nat }.

(** 1191-1201: before the loop.  [store]: the interfaces as constructed. *)
Definition c_init (store : nat -> interface) : config :=
  mkconfig [] [] None [] [] store [] [] [] [] [] [] [] [] [] [] [] [] [].

Definition set_hostname c v := mkconfig v (c_domain c) (c_version c) (c_names c) (c_ifaces c) (c_store c) (c_time c) (c_netobj c) (c_svcobj c) (c_portgrp c) (c_svcgrp c) (c_protogrp c) (c_icmpgrp c) (c_netgrp c) (c_rules c) (c_agroups c) (c_nat1 c) (c_nat2 c) (c_nat3 c).
Definition set_domain c v := mkconfig (c_hostname c) v (c_version c) (c_names c) (c_ifaces c) (c_store c) (c_time c) (c_netobj c) (c_svcobj c) (c_portgrp c) (c_svcgrp c) (c_protogrp c) (c_icmpgrp c) (c_netgrp c) (c_rules c) (c_agroups c) (c_nat1 c) (c_nat2 c) (c_nat3 c).
Definition set_version c v := mkconfig (c_hostname c) (c_domain c) v (c_names c) (c_ifaces c) (c_store c) (c_time c) (c_netobj c) (c_svcobj c) (c_portgrp c) (c_svcgrp c) (c_protogrp c) (c_icmpgrp c) (c_netgrp c) (c_rules c) (c_agroups c) (c_nat1 c) (c_nat2 c) (c_nat3 c).
Definition set_names c v := mkconfig (c_hostname c) (c_domain c) (c_version c) v (c_ifaces c) (c_store c) (c_time c) (c_netobj c) (c_svcobj c) (c_portgrp c) (c_svcgrp c) (c_protogrp c) (c_icmpgrp c) (c_netgrp c) (c_rules c) (c_agroups c) (c_nat1 c) (c_nat2 c) (c_nat3 c).
Definition set_ifaces c v := mkconfig (c_hostname c) (c_domain c) (c_version c) (c_names c) v (c_store c) (c_time c) (c_netobj c) (c_svcobj c) (c_portgrp c) (c_svcgrp c) (c_protogrp c) (c_icmpgrp c) (c_netgrp c) (c_rules c) (c_agroups c) (c_nat1 c) (c_nat2 c) (c_nat3 c).
Definition set_store c v := mkconfig (c_hostname c) (c_domain c) (c_version c) (c_names c) (c_ifaces c) v (c_time c) (c_netobj c) (c_svcobj c) (c_portgrp c) (c_svcgrp c) (c_protogrp c) (c_icmpgrp c) (c_netgrp c) (c_rules c) (c_agroups c) (c_nat1 c) (c_nat2 c) (c_nat3 c).
Definition set_time c v := mkconfig (c_hostname c) (c_domain c) (c_version c) (c_names c) (c_ifaces c) (c_store c) v (c_netobj c) (c_svcobj c) (c_portgrp c) (c_svcgrp c) (c_protogrp c) (c_icmpgrp c) (c_netgrp c) (c_rules c) (c_agroups c) (c_nat1 c) (c_nat2 c) (c_nat3 c).
Definition set_netobj c v := mkconfig (c_hostname c) (c_domain c) (c_version c) (c_names c) (c_ifaces c) (c_store c) (c_time c) v (c_svcobj c) (c_portgrp c) (c_svcgrp c) (c_protogrp c) (c_icmpgrp c) (c_netgrp c) (c_rules c) (c_agroups c) (c_nat1 c) (c_nat2 c) (c_nat3 c).
Definition set_svcobj c v := mkconfig (c_hostname c) (c_domain c) (c_version c) (c_names c) (c_ifaces c) (c_store c) (c_time c) (c_netobj c) v (c_portgrp c) (c_svcgrp c) (c_protogrp c) (c_icmpgrp c) (c_netgrp c) (c_rules c) (c_agroups c) (c_nat1 c) (c_nat2 c) (c_nat3 c).
Definition set_portgrp c v := mkconfig (c_hostname c) (c_domain c) (c_version c) (c_names c) (c_ifaces c) (c_store c) (c_time c) (c_netobj c) (c_svcobj c) v (c_svcgrp c) (c_protogrp c) (c_icmpgrp c) (c_netgrp c) (c_rules c) (c_agroups c) (c_nat1 c) (c_nat2 c) (c_nat3 c).
Definition set_svcgrp c v := mkconfig (c_hostname c) (c_domain c) (c_version c) (c_names c) (c_ifaces c) (c_store c) (c_time c) (c_netobj c) (c_svcobj c) (c_portgrp c) v (c_protogrp c) (c_icmpgrp c) (c_netgrp c) (c_rules c) (c_agroups c) (c_nat1 c) (c_nat2 c) (c_nat3 c).
Definition set_protogrp c v := mkconfig (c_hostname c) (c_domain c) (c_version c) (c_names c) (c_ifaces c) (c_store c) (c_time c) (c_netobj c) (c_svcobj c) (c_portgrp c) (c_svcgrp c) v (c_icmpgrp c) (c_netgrp c) (c_rules c) (c_agroups c) (c_nat1 c) (c_nat2 c) (c_nat3 c).
Definition set_icmpgrp c v := mkconfig (c_hostname c) (c_domain c) (c_version c) (c_names c) (c_ifaces c) (c_store c) (c_time c) (c_netobj c) (c_svcobj c) (c_portgrp c) (c_svcgrp c) (c_protogrp c) v (c_netgrp c) (c_rules c) (c_agroups c) (c_nat1 c) (c_nat2 c) (c_nat3 c).
Definition set_netgrp c v := mkconfig (c_hostname c) (c_domain c) (c_version c) (c_names c) (c_ifaces c) (c_store c) (c_time c) (c_netobj c) (c_svcobj c) (c_portgrp c) (c_svcgrp c) (c_protogrp c) (c_icmpgrp c) v (c_rules c) (c_agroups c) (c_nat1 c) (c_nat2 c) (c_nat3 c).
Definition set_rules c v := mkconfig (c_hostname c) (c_domain c) (c_version c) (c_names c) (c_ifaces c) (c_store c) (c_time c) (c_netobj c) (c_svcobj c) (c_portgrp c) (c_svcgrp c) (c_protogrp c) (c_icmpgrp c) (c_netgrp c) v (c_agroups c) (c_nat1 c) (c_nat2 c) (c_nat3 c).
Definition set_agroups c v := mkconfig (c_hostname c) (c_domain c) (c_version c) (c_names c) (c_ifaces c) (c_store c) (c_time c) (c_netobj c) (c_svcobj c) (c_portgrp c) (c_svcgrp c) (c_protogrp c) (c_icmpgrp c) (c_netgrp c) (c_rules c) v (c_nat1 c) (c_nat2 c) (c_nat3 c).
Definition set_nat1 c v := mkconfig (c_hostname c) (c_domain c) (c_version c) (c_names c) (c_ifaces c) (c_store c) (c_time c) (c_netobj c) (c_svcobj c) (c_portgrp c) (c_svcgrp c) (c_protogrp c) (c_icmpgrp c) (c_netgrp c) (c_rules c) (c_agroups c) v (c_nat2 c) (c_nat3 c).
Definition set_nat2 c v := mkconfig (c_hostname c) (c_domain c) (c_version c) (c_names c) (c_ifaces c) (c_store c) (c_time c) (c_netobj c) (c_svcobj c) (c_portgrp c) (c_svcgrp c) (c_protogrp c) (c_icmpgrp c) (c_netgrp c) (c_rules c) (c_agroups c) (c_nat1 c) v (c_nat3 c).
Definition set_nat3 c v := mkconfig (c_hostname c) (c_domain c) (c_version c) (c_names c) (c_ifaces c) (c_store c) (c_time c) (c_netobj c) (c_svcobj c) (c_portgrp c) (c_svcgrp c) (c_protogrp c) (c_icmpgrp c) (c_netgrp c) (c_rules c) (c_agroups c) (c_nat1 c) (c_nat2 c) v.

(** [self.access_groups[v.name].append(v)] on the defaultdict, 1213-1214 *)
Definition ag_append (d : dict (list agroup)) (v : agroup) : dict (list agroup) :=
  dset d (ag_name v) (match dget d (ag_name v) with Some l => l | None => [] end ++ [v]).

(** 1238-1243: the first interface of the table whose nameif is the one named *)
Definition find_iface (c : config) (n : pystr) : option nat :=
  option_map snd
    (find (fun kv => match if_nameif (c_store c (snd kv)) with Some m => str_eqb m n | None => false end) (c_ifaces c)).
(** [j.access_groups[i.direction] = i] *)
Definition bind_iface (store : nat -> interface) (j : nat) (a : agroup) : nat -> interface :=
  fun k => if Nat.eqb k j then
    let i := store j in
    mkiface (if_alias i) (if_addrs i) (dset (if_groups i) (ag_dir a) a) (if_nameif i) (if_descr i) (if_switch i) (if_routes i)
  else store k.

(** [("after-auto", "after-object") & i.options.keys()], 1245 *)
Definition is_after (o : list pystr) : bool :=
  existsb (fun k => str_eqb k (u "after-auto") || str_eqb k (u "after-object")) o.

(** The loop body of ACLConfig.__init__ 1203-1250 ([ast.remove] only affects what
    iosConfig reads afterwards; KRules and KRoute items are never removed). *)
Definition c_step (c : config) (i : citem) : config :=
  match i with
  | KHostname s => set_hostname c s
  | KDomain s => set_domain c s
  | KRule r => set_rules c (c_rules c ++ [r])
  | KName x => set_names c (c_names c ++ [x])
  | KIface i =>
      let c := set_ifaces c (dset (c_ifaces c) (if_alias (c_store c i)) i) in
      set_agroups c (fold_left ag_append (map snd (if_groups (c_store c i))) (c_agroups c))
  | KTime n x => set_time c (dset (c_time c) n x)
  | KNetObj n x nat =>
      let c := match nat with Some m => set_nat2 c (c_nat2 c ++ [m]) | None => c end in
      if dmem (c_netobj c) n then c else set_netobj c (dset (c_netobj c) n x)
  | KSvcObj n x => set_svcobj c (dset (c_svcobj c) n x)
  | KPortGrp n x => set_portgrp c (dset (c_portgrp c) n x)
  | KSvcGrp n x => set_svcgrp c (dset (c_svcgrp c) n x)
  | KProtoGrp n x => set_protogrp c (dset (c_protogrp c) n x)
  | KIcmpGrp n x => set_icmpgrp c (dset (c_icmpgrp c) n x)
  | KNetGrp n x => set_netgrp c (dset (c_netgrp c) n x)
  | KVersion s => set_version c (Some s)
  | KAccessGroup iface name dir =>
      match find_iface c iface with
      | Some j => set_store c (bind_iface (c_store c) j (mkag (IfObj j) name dir))
      | None => c
      end
  | KNat x opts => if is_after opts then set_nat3 c (c_nat3 c ++ [x]) else set_nat1 c (c_nat1 c ++ [x])
  | KRules _ | KRoute _ | KOther => c
  end.

(** ACLConfig.__init__ (also fwsmConfig, fwsmObjects.py:13-15, and pfsenseConfig,
    pfsenseObjects.py:14-16) *)
Definition build (store : nat -> interface) (items : list citem) : config :=
  fold_left c_step items (c_init store).

(** ** iosConfig *)

(** Route iosObjects.py:8-17: the gateway; the network is not read. *)
Inductive gateway := GwAddr (a : addr) | GwIface (i : nat).

(** 23-33: rules and rule lists in order, list contents in place *)
Definition ios_rules (items : list citem) : list nat :=
  fold_left (fun l i => match i with KRules m => l ++ m | KRule r => l ++ [r] | _ => l end) items [].

(** 35-39: only routes and ignored things are left in [ast] *)
Definition ios_routes (items : list citem) : list nat :=
  fold_left (fun l i => match i with KRoute r => l ++ [r] | _ => l end) items [].

(** [iface.routes.add(r)] *)
Definition add_route (store : nat -> interface) (j r : nat) : nat -> interface :=
  fun k => if Nat.eqb k j then
    let i := store j in
    mkiface (if_alias i) (if_addrs i) (if_groups i) (if_nameif i) (if_descr i) (if_switch i)
      (if existsb (Nat.eqb r) (if_routes i) then if_routes i else if_routes i ++ [r])
  else store k.

(** 41-47 *)
Definition attach (gw : nat -> gateway) (ifaces : dict nat) (store : nat -> interface) (r : nat) : nat -> interface :=
  match gw r with
  | GwIface j => add_route store j r
  | GwAddr a =>
      fold_left (fun st kv =>
        fold_left (fun st n => if net_contains n a then add_route st (snd kv) r else st)
                  (if_addrs (st (snd kv))) st)
        ifaces store
  end.

(** iosConfig.__init__ 21-47 *)
Definition ios_build (gw : nat -> gateway) (store : nat -> interface) (items : list citem) : config * list nat :=
  let c := build store items in
  let c := set_rules c (ios_rules items) in
  let routes := ios_routes items in
  (set_store c (fold_left (attach gw (c_ifaces c)) routes (c_store c)), routes).
