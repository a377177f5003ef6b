(** What sorting the groups of a configuration of any format means. *)
From Coq Require Import Permutation.
From Verif.Model Require Import Base Ip Hosts Groups Define Auto.
From Verif.Spec Require Import GroupSpec SortSpec AutoSpec PipelineSpec.

(** One class of groups: those [had] hold are sorted by [key] (SortSpec.v: a stable
    permutation in non-descending order), keeping name and description; the others are
    untouched, and none is added. *)
Definition class_sorted {X K} (cmp : K -> K -> comparison) (key : X -> option K) (had : gid -> Prop) (h h' : gheap X) : Prop :=
  h_next h' = h_next h /\
  forall g, (had g -> stably_sorted cmp key (objs h g) (objs h' g) /\ same_header (h_get h g) (h_get h' g)) /\
            (~ had g -> h_get h' g = h_get h g).

(** A port without its number: what `port-object eq` leaves (C46). *)
Definition no_number (p : pmember) : Prop :=
  match p with PPort _ None | PRange None _ => True | _ => False end.
Definition has_no_number (o : option pmember) : Prop := match o with Some p => no_number p | None => False end.
Definition service_no_number (x : smember) : Prop :=
  match x with SService s | SObject _ _ s => has_no_number (sv_src s) \/ has_no_number (sv_dst s) | SGrp _ => False end.
(** Some service group, some port group of the configuration has such a member. *)
Definition services_lack (c : aclconfig) : Prop := exists g x, service_group c g /\ In x (objs (gs_service (all_groups c)) g) /\ service_no_number x.
Definition ports_lack (c : aclconfig) : Prop := exists g x, port_group c g /\ In x (objs (gs_port (all_groups c)) g) /\ no_number x.

Section Sorted.
  Context (py_int servbyname : pystr -> option Z).
  Definition networks_sorted (c c' : aclconfig) : Prop :=
    class_sorted Z.compare (net_sort_key (config_groups c)) (network_group c) (config_groups c) (config_groups c').
  Definition services_sorted (had : gid -> Prop) (c c' : aclconfig) : Prop :=
    class_sorted service_compare (service_sort_key py_int servbyname (gs_port (all_groups c)) (gs_service (all_groups c))) had (gs_service (all_groups c)) (gs_service (all_groups c')).
  Definition ports_sorted (had : gid -> Prop) (c c' : aclconfig) : Prop :=
    class_sorted Z.compare (port_sort_key py_int servbyname (gs_port (all_groups c))) had (gs_port (all_groups c)) (gs_port (all_groups c')).
  Definition protocols_sorted (c c' : aclconfig) : Prop :=
    class_sorted Z.compare (proto_sort_key py_int (gs_protocol (all_groups c))) (protocol_group c) (gs_protocol (all_groups c)) (gs_protocol (all_groups c')).
  (** Nothing fails, and all four classes are sorted. *)
  Definition all_sorted (c c' : aclconfig) : Prop :=
    networks_sorted c c' /\ services_sorted (service_group c) c c' /\ ports_sorted (port_group c) c c' /\ protocols_sorted c c'.
  (** A service group or a port group stops it: the network groups are sorted, only some
      of the others are. *)
  Definition partly_sorted (c c' : aclconfig) : Prop :=
    networks_sorted c c' /\ gs_protocol (all_groups c') = gs_protocol (all_groups c) /\
    ((services_lack c /\ (exists some : gid -> Prop, (forall g, some g -> service_group c g) /\ services_sorted some c c') /\ gs_port (all_groups c') = gs_port (all_groups c)) \/
     (~ services_lack c /\ services_sorted (service_group c) c c' /\ ports_lack c /\ exists some : gid -> Prop, (forall g, some g -> port_group c g) /\ ports_sorted some c c')).
End Sorted.
