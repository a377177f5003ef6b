(** What the configuration made from the commands of an IOS text contains. *)
From Verif.Model Require Import Base Ip Hosts Groups Rules Iface AddrText Define IosText IosFile.
From Verif.Model Require Config.
From Verif.Spec Require Import ConfigSpec FileConfigSpec.
Local Open Scope list_scope.

(** ** Commands *)
(** The rules a command holds, in the order of the text *)
Definition irules_in (c : icommand) : list irule := match c with IRule x => [x] | IRules l => l | _ => [] end.
Definition iversions_in (c : icommand) : list pystr := match c with IVersion v => [v] | _ => [] end.
Definition ihostnames_in (c : icommand) : list pystr := match c with IHostname n => [n] | _ => [] end.
Definition idomains_in (c : icommand) : list pystr := match c with IDomain n => [n] | _ => [] end.
Definition iifaces_in (c : icommand) : list pystr := match c with IIface a _ => [a] | _ => [] end.
Definition igroups_in (c : icommand) : list anydef := match c with IGroup d => [d] | _ => [] end.
Definition iroutes_in (c : icommand) : list (net * Config.gateway) := match c with IRoute n g => [(n, g)] | _ => [] end.

(** What the command at position [k] makes. *)
Inductive imakes (k : nat) : icommand -> imade -> Prop :=
| IMK_version v : imakes k (IVersion v) (IMVersion v)
| IMK_hostname n : imakes k (IHostname n) (IMHostname n)
| IMK_domain n : imakes k (IDomain n) (IMDomain n)
| IMK_interface a l i : iface_init k a l = Ok i -> imakes k (IIface a l) (IMIface i)
| IMK_group d g : imakes k (IGroup d) (IMGroup d g)
| IMK_rule x : imakes k (IRule x) (IMRule x)
| IMK_rules l : imakes k (IRules l) (IMRules l)
| IMK_route n g : imakes k (IRoute n g) (IMRoute n g)
| IMK_nothing : imakes k INothing IMNothing.

(** What the names mean after the commands have been read. *)
Record iknown (cs : list icommand) (T : itables) : Prop := {
  (** an interface's name: the position of the last interface command with this name *)
  ik_ifaces : table_of_last (map swap (found iifaces_in cs)) (it_if T);
  ik_groups : define_all world_init (flat_map igroups_in cs) = Ok (it_world T);
  ik_count : it_count T = length cs }.

(** [k] is the last command for the interface [a]. *)
Definition last_iface (cs : list icommand) (a : pystr) (k : nat) : Prop :=
  (exists l, nth_error cs k = Some (IIface a l)) /\ forall k' l, k < k' -> nth_error cs k' <> Some (IIface a l).

(** The lines of an interface that give it a description, a nameif and a switchport mode *)
Definition descr_in (d : ifdetail) : list pystr := match d with DDescription t => [t] | _ => [] end.
Definition nameif_in (d : ifdetail) : list pystr := match d with DNameif n => [n] | _ => [] end.
Definition mode_in (d : ifdetail) : list pystr := match d with DSwMode m => [m] | _ => [] end.
Definition mode_of (i : interface) : pystr := match if_switch i with Some s => sw_mode s | None => [] end.
