(** ACL rules, NAT objects and their selection by a filter clause
    (aclObjects.py:128-230, 1021-1133, 1155-1169). *)
From Verif.Model Require Import Base Ip Hosts Groups Fnmatch.

(** ACLRule 1067-1102: the attributes [&] reads.  Ports, protocol, mode, options and
    remarks are not read by any [__and__] and are left out here; [None] is Python's None. *)
Record rule := mkrule { r_id : option pystr; r_src : host; r_dst : host }.

(** What the attribute [node] of NATRealNode 139-141, NATMappedSource 144-154 and
    NATMappedDestination 157-165 may hold. *)
Inductive natnode := NNone | NIfaceName | NHost (x : host).

(** Services of a NAT: Service objects (681-694) whose ports are Port/PortRange objects
    (manual NAT) or the plain parsed strings (object NAT, aclSemantics.py:484-488). *)
Inductive natport := NPort (p : pmember) | NText (s : pystr).
Record natsvc := mknatsvc { nv_proto : pystr; nv_src : option natport; nv_dst : option natport }.

(** NATReal 128-136 and NATMapped 168-183: interface name, source, destination, service. *)
Record natside := mkside {
  ns_iface : pystr; ns_src : option natnode; ns_dst : option natnode; ns_service : option natsvc }.

(** NATObject 192-205, with the [type] of its NATMappedSource and its options' keys. *)
Record natobj := mknat {
  nat_real : option natside; nat_mapped : option natside;
  nat_type : option pystr; nat_descr : option pystr; nat_opts : list pystr }.

(** The things a filter runs over. *)
Inductive item := IRule (r : rule) | INat (n : natobj).

(** [bool(id)] for an optional string. *)
Definition truthy (s : option pystr) : option pystr :=
  match s with Some (c :: s') => Some (c :: s') | _ => None end.

(** [id[0] == id[-1] == "/"], for a non-empty string. *)
Definition c_slash : N := 47%N.
Definition slashed (s : pystr) : bool :=
  match s, rev s with
  | a :: _, b :: _ => N.eqb a c_slash && N.eqb b c_slash
  | _, _ => false
  end.
(** [id[1:-1]] *)
Definition inner (s : pystr) : pystr := removelast (tl s).

(** The id part of ACLRule.__and__, 1110-1125: True if the ids do not exclude each other. *)
Definition ids_and (self other : option pystr) : result bool :=
  match truthy self, truthy other with
  | Some a, Some b =>
      let '(pattern, name) :=
        if slashed a then (inner a, b) else if slashed b then (inner b, a) else ([], []) in
      match name, pattern with
      | _ :: _, _ :: _ => fnmatchcase name pattern
      | _, _ => Ok (str_eqb a b)
      end
  | _, _ => Ok true
  end.

(** [ACLNode(node)] 1021-1035: its assertion rejects a string. *)
Definition node_of (n : option natnode) : result (option host) :=
  match n with
  | None | Some NNone => Ok None
  | Some NIfaceName => Err AssertionError
  | Some (NHost x) => Ok (Some x)
  end.

(** One iteration of the loop in NATObject.__and__ 212-225. *)
Definition nat_side_and (k : nat) (h : heap) (s : option natside) (clause : rule) : result bool :=
  match s with
  | None => Err AttributeError
  | Some rm =>
      do src <- node_of (ns_src rm);
      do dst <- node_of (ns_dst rm);
      match src, dst with
      | Some x, Some y => and_r (and_ k h (r_src clause) x) (and_ k h (r_dst clause) y)
      | Some x, None => and_ k h (r_src clause) x
      | None, Some y => and_ k h (r_dst clause) y
      | None, None => Ok false
      end
  end.

(** NATObject.__and__ 207-227 *)
Definition nat_and (k : nat) (h : heap) (n : natobj) (clause : rule) : result bool :=
  any_r (fun s => nat_side_and k h s clause) [nat_real n; nat_mapped n].

(** ACLRule.__and__ 1103-1128 *)
Definition rule_and (k : nat) (h : heap) (self : rule) (other : item) : result bool :=
  match other with
  | INat n => nat_and k h n self
  | IRule r =>
      do ok <- ids_and (r_id self) (r_id r);
      if ok then and_r (and_ k h (r_src self) (r_src r)) (and_ k h (r_dst self) (r_dst r))
      else Ok false
  end.

(** Rules and NAT objects are compared by identity (no [__eq__]/[__hash__]), so they
    are referred to by number; [get] is the object store.  A Python set of them is
    a list of numbers without repetition; its order carries no meaning. *)
Definition iid := nat.
Definition set_add (x : iid) (s : list iid) : list iid :=
  if existsb (Nat.eqb x) s then s else s ++ [x].

(** ACLRules.filter 1162-1169 *)
Definition rules_filter (k : nat) (h : heap) (get : iid -> item) (rules : list iid) (target : list rule)
  : result (list iid) :=
  fold_r (fun s acl =>
            do hit <- any_r (fun i => rule_and k h i (get acl)) target;
            Ok (if hit then set_add acl s else s)) rules [].
