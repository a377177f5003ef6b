(** NAT lines as documented: which endpoint and service belongs to which side. *)
From Verif.Model Require Import Base Ip Hosts Groups Rules Nat.
From Verif.Spec Require Import AddrSpec FilterSpec.

(** The host a written endpoint stands for, on a side whose interface has that name. *)
Inductive mapped_is (ifc : pystr) : mapped_ast -> host -> Prop :=
| MI_node x : mapped_is ifc (MNode x) x
| MI_iface : mapped_is ifc MIface (HLeaf (LIface ifc))
| MI_any : mapped_is ifc MAny (HLeaf LAny).
Inductive real_is : real_ast -> host -> Prop :=
| RI_node x : real_is (RNode x) x
| RI_any : real_is RAny (HLeaf LAny).

(** A service object naming only source ports / only destination ports. *)
Definition port_given (p : option natport) : Prop := exists q, p = Some q /\ q <> NText [].
Definition source_only (s : natsvc) : Prop := port_given (nv_src s) /\ ~ port_given (nv_dst s).
Definition destination_only (s : natsvc) : Prop := ~ port_given (nv_src s) /\ port_given (nv_dst s).

(** The services [r] (real) and [m] (mapped) of [service first second]: in static NAT
    the real one comes first for source ports and second for destination ports; in
    dynamic NAT it comes first. *)
Inductive services_of (static : bool) : option (natsvc * natsvc) -> option natsvc -> option natsvc -> Prop :=
| SV_none : services_of static None None None
| SV_source a b : static = true -> source_only a -> source_only b -> services_of static (Some (a, b)) (Some a) (Some b)
| SV_dest a b : static = true -> destination_only a -> destination_only b -> services_of static (Some (a, b)) (Some b) (Some a)
| SV_dynamic a b : static = false -> services_of static (Some (a, b)) (Some a) (Some b).

(** Name under which an interface appears: its nameif, else its alias; "any" if any. *)
Inductive shown : option ifnames -> pystr -> Prop :=
| Sh_any : shown None (u "any")
| Sh_nameif a n : n <> [] -> shown (Some (mkifnames a (Some n))) n
| Sh_alias a o : o = None \/ o = Some [] -> shown (Some (mkifnames a o)) a.

(** Object NAT: the host a written mapped address stands for. *)
Inductive objmapped_is (ifc : pystr) : netmap_ast -> host -> Prop :=
| OMI_node x : objmapped_is ifc (OMNode x) x
| OMI_host a : objmapped_is ifc (OMAddr a None) (HLeaf (LHost a))
| OMI_net a p n : (p <= bits (a_ver a))%N -> (forall x, leaf_matches (LNet n) x <-> agrees_leading a p x) ->
    objmapped_is ifc (OMAddr a (Some p)) (HLeaf (LNet n))
| OMI_iface : objmapped_is ifc OMIface (HLeaf (LIface ifc)).
(** The NAT line of an object definition. *)
Definition nat_line (b : netobj_body) : option objnat_ast :=
  match b with BArgs _ n => n | BNat n => Some n end.
