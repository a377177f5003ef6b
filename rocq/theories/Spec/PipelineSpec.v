(** What expanding the groups of a configuration of any format means. *)
From Verif.Model Require Import Base Ip Hosts Groups Rules Caf CafText Define FileText IosFile Pfsense PfFile Auto.
From Verif.Model Require Iface Config.
From Verif.Spec Require Import AddrSpec GroupSpec IosFilterSpec AutoSpec.

(** The groups a configuration has in [config.groups.network], [.port], [.service],
    [.protocol] and [.icmp] (C58, C66 and C68 say which those are). *)
Definition listed {V} (d : Iface.dict V) (v : V) : Prop := exists n, Iface.dget d n = Some v.
Definition listed_opt {V} (d : list (option pystr * V)) (v : V) : Prop := exists n, aget opt_eqb d n = Some v.
Definition network_group (c : aclconfig) (g : gid) : Prop :=
  match c with
  | CAsa _ ms _ => listed (Config.c_netgrp (config_of ms)) g | CIos _ ms _ => listed (Config.c_netgrp (fst (iconfig_of ms))) g
  | CPf cfg _ => listed_opt (pcf_net cfg) g end.
Definition port_group (c : aclconfig) (g : gid) : Prop :=
  match c with
  | CAsa _ ms _ => listed (Config.c_portgrp (config_of ms)) g | CIos _ ms _ => listed (Config.c_portgrp (fst (iconfig_of ms))) g
  | CPf cfg _ => listed_opt (pcf_port cfg) g end.
Definition service_group (c : aclconfig) (g : gid) : Prop :=
  match c with
  | CAsa _ ms _ => listed (Config.c_svcgrp (config_of ms)) g | CIos _ ms _ => listed (Config.c_svcgrp (fst (iconfig_of ms))) g
  | CPf _ _ => False end.
Definition protocol_group (c : aclconfig) (g : gid) : Prop :=
  match c with
  | CAsa _ ms _ => listed (Config.c_protogrp (config_of ms)) g | CIos _ ms _ => listed (Config.c_protogrp (fst (iconfig_of ms))) g
  | CPf _ _ => False end.
Definition icmp_group (c : aclconfig) (g : gid) : Prop :=
  match c with
  | CAsa _ ms _ => listed (Config.c_icmpgrp (config_of ms)) g | CIos _ ms _ => listed (Config.c_icmpgrp (fst (iconfig_of ms))) g
  | CPf _ _ => False end.

(** One class of groups: those the configuration has hold what they held before with groups
    replaced by their members and objects by their values, keeping name and description;
    the others are untouched, and none is added. *)
Definition class_flat {X} (sub : X -> option gid) (leafs : X -> list X) (had : gid -> Prop) (h h' : gheap X) : Prop :=
  h_next h' = h_next h /\
  forall g, (had g -> flattening sub leafs h g (objs h' g) /\ same_header (h_get h g) (h_get h' g)) /\
            (~ had g -> h_get h' g = h_get h g).

Definition groups_flat (c : aclconfig) (s s' : groups) : Prop :=
  class_flat host_sub host_leafs (network_group c) (gs_network s) (gs_network s') /\
  class_flat port_sub itself (port_group c) (gs_port s) (gs_port s') /\
  class_flat service_sub service_leafs (service_group c) (gs_service s) (gs_service s') /\
  class_flat proto_sub itself (protocol_group c) (gs_protocol s) (gs_protocol s') /\
  class_flat icmp_sub itself (icmp_group c) (gs_icmp s) (gs_icmp s').

(** The groups are found under the same names. *)
Definition same_names (w w' : world) : Prop :=
  fst (w_net w') = fst (w_net w) /\ fst (w_port w') = fst (w_port w) /\ fst (w_service w') = fst (w_service w) /\ fst (w_proto w') = fst (w_proto w) /\ fst (w_icmp w') = fst (w_icmp w).
(** Everything but the members of groups is as before. *)
Definition same_but_groups (c c' : aclconfig) : Prop :=
  match c, c' with
  | CAsa cs ms T, CAsa cs' ms' T' => cs' = cs /\ ms' = ms /\
      tb_names T' = tb_names T /\ tb_netobj T' = tb_netobj T /\ tb_svcobj T' = tb_svcobj T /\ tb_time T' = tb_time T /\ tb_if T' = tb_if T /\ tb_count T' = tb_count T /\ same_names (tb_world T) (tb_world T')
  | CIos cs ms T, CIos cs' ms' T' => cs' = cs /\ ms' = ms /\ it_if T' = it_if T /\ it_count T' = it_count T /\ same_names (it_world T) (it_world T')
  | CPf cfg s, CPf cfg' s' => cfg' = cfg /\ ps_net s' = ps_net s /\ ps_port s' = ps_port s /\ ps_ifs s' = ps_ifs s /\ ps_map s' = ps_map s
  | _, _ => False
  end.
Definition expanded (c c' : aclconfig) : Prop :=
  same_but_groups c c' /\ groups_flat c (all_groups c) (all_groups c').

(** The expression does not use the terms ANY, ANY4, ANY6. *)
Definition without_ANY (e : cexpr) : Prop :=
  forall w, In (TWord w) (named_nets e) -> w <> WANY /\ w <> WANY4 /\ w <> WANY6.
(** No network object in a group is "any" (which is what an object for a host name is). *)
Definition no_any_objects (h : heap) : Prop :=
  forall g o m, In (HObj o) (objs h g) -> In m (o_addrs o) -> ~ any_leaf m.
