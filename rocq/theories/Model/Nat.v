(** NAT lines: manual NAT (fwsmSemantics.py:85-203) and object NAT
    (aclSemantics.py:128-165, 410-502).  Not modelled: the [fallback] interface of a
    mapped source, which nothing in the library reads. *)
From Verif.Model Require Import Base Ip Hosts Groups Rules.

(** What NAT reads of an Interface (aclObjects.py:58-66): alias and [nameif]. *)
Record ifnames := mkifnames { in_alias : pystr; in_nameif : option pystr }.
(** [iface.nameif or iface.alias] *)
Definition ifname (i : ifnames) : pystr :=
  match truthy (in_nameif i) with Some n => n | None => in_alias i end.
(** nat_interfaces aclSemantics.py:493-502; [None] is the word "any". *)
Definition nat_interface (i : option ifnames) : ifnames :=
  match i with Some i => i | None => mkifnames (u "any") None end.

(** ** Manual NAT *)

(** nat_mapped_node / nat_mapped_src_dynamic_node (fwsm.bnf:172-184): an object, a group
    or the range of a pool; the interface; any. *)
Inductive mapped_ast := MNode (x : host) | MIface | MAny.
(** nat_real_node action, fwsmSemantics.py:158-164 *)
Inductive real_ast := RAny | RNode (x : host).
Definition nat_real_node (r : real_ast) : host :=
  match r with RAny => HLeaf LAny | RNode x => x end.

(** NATMappedSource / NATMappedDestination nodes: nat_src 166-184, nat_dst 186-203. *)
Definition nat_mapped_node (m : mapped_ast) : natnode :=
  match m with MNode x => NHost x | MIface => NIfaceName | MAny => NHost (HLeaf LAny) end.

(** nat_options, fwsm.bnf:209-217 *)
Inductive nat_option := ODescription (text : pystr) | OFlag (name : pystr).

(** Fields of the AST of [nat] (fwsm.bnf:167-170). *)
Record nat_ast := mknatast {
  na_iface : option (option ifnames * option ifnames);   (* real, mapped *)
  na_pos : bool;                                          (* after-auto / after-object given *)
  na_static : bool;                                       (* source static, else dynamic *)
  na_src : real_ast * mapped_ast;
  na_dst : option (mapped_ast * host);                    (* mapped, real *)
  na_service : option (natsvc * natsvc);                  (* as written *)
  na_options : list nat_option }.

(** truth of [service.src], [service.dst] *)
Definition given (p : option natport) : bool := match p with Some (NText []) | None => false | _ => true end.

(** 95-119: (real, mapped) service.  The third test reads [service[1]], which is white
    space (None), so it raises AttributeError instead of the intended ValueError. *)
Definition nat_services (static : bool) (s : option (natsvc * natsvc)) : result (option natsvc * option natsvc) :=
  match s with
  | None => Ok (None, None)
  | Some (s2, s4) =>
      if static then
        if given (nv_src s2) && negb (given (nv_dst s2)) && given (nv_src s4) && negb (given (nv_dst s4))
        then Ok (Some s2, Some s4)
        else if negb (given (nv_src s2)) && given (nv_dst s2) && negb (given (nv_src s4)) && given (nv_dst s4)
        then Ok (Some s4, Some s2)
        else Err AttributeError
      else Ok (Some s2, Some s4)
  end.

(** [options[k] = True]: insertion order, a key once. *)
Definition opt_add (k : pystr) (l : list pystr) : list pystr :=
  if existsb (str_eqb k) l then l else l ++ [k].
(** 121-125 *)
Fixpoint nat_opts_of (l : list nat_option) (descr : option pystr) (opts : list pystr) : option pystr * list pystr :=
  match l with
  | [] => (descr, opts)
  | ODescription t :: l' => nat_opts_of l' (Some t) opts
  | OFlag f :: l' => nat_opts_of l' descr (opt_add f opts)
  end.

(** 136-141: "interface" is replaced by the side's interface. *)
Definition resolve_iface (name : pystr) (n : natnode) : natnode :=
  match n with NIfaceName => NHost (HLeaf (LIface name)) | _ => n end.

(** [nat] 85-156; [None] for the unsupported PIX syntax. *)
Definition nat_action (a : nat_ast) : result (option natobj) :=
  match na_iface a with
  | None => Ok None
  | Some (ri, mi) =>
      let ri := ifname (nat_interface ri) in
      let mi := ifname (nat_interface mi) in
      do sv <- nat_services (na_static a) (na_service a);
      let '(rsv, msv) := sv in
      let '(descr, opts) := nat_opts_of (na_options a) None [] in
      let rsrc := Some (NHost (nat_real_node (fst (na_src a)))) in
      let msrc := Some (nat_mapped_node (snd (na_src a))) in
      let rdst := match na_dst a with Some (_, x) => Some (NHost x) | None => None end in
      let mdst := match na_dst a with Some (m, _) => Some (nat_mapped_node m) | None => None end in
      let opts := if na_pos a then opt_add (u "after-auto") opts else opts in
      Ok (Some (mknat
        (Some (mkside ri (option_map (resolve_iface ri) rsrc) (option_map (resolve_iface ri) rdst) rsv))
        (Some (mkside mi (option_map (resolve_iface mi) msrc) (option_map (resolve_iface mi) mdst) msv))
        (Some (if na_static a then u "static" else u "dynamic")) descr opts))
  end.

(** ** Object NAT *)

(** network_nat_mapped action, aclSemantics.py:410-429 *)
Inductive netmap_ast :=
| OMNode (x : host) | OMAddr (a : addr) (m : option N) | OMIface.
Definition network_nat_mapped (m : netmap_ast) : result natnode :=
  match m with
  | OMNode x => Ok (NHost x)
  | OMAddr a None => Ok (NHost (HLeaf (LHost a)))
  | OMAddr a (Some p) => do l <- mk_Network a (MaskLen p); Ok (NHost (HLeaf l))
  | OMIface => Ok NIfaceName
  end.

(** network_object_nat_service action 484-488: the words "dns", or protocol, real and
    mapped port. *)
Inductive objnat_service := OSDns | OSPorts (proto real mapped : pystr).
Record objnat_ast := mkobjnat {
  on_iface : option ifnames * option ifnames;
  on_static : bool;
  on_mapped : netmap_ast;
  on_service : option objnat_service;
  on_options : list pystr }.

(** network_object_nat 431-480.  [real["service"]] is computed but not used: NATReal is
    given [mapped.get("service")] (470). *)
Definition network_object_nat (a : objnat_ast) : result natobj :=
  let ri := ifname (nat_interface (fst (on_iface a))) in
  let mi := ifname (nat_interface (snd (on_iface a))) in
  do node <- network_nat_mapped (on_mapped a);
  let msrc := match node with NIfaceName => NHost (HLeaf (LIface mi)) | n => n end in
  let any := NHost (HLeaf LAny) in
  let service := match on_service a with
    | Some (OSPorts proto src dst) =>
        (* Service(protocol, None, service.src) *)
        Some (mknatsvc proto None (Some (NText src)))
    | _ => None end in
  let opts := match on_service a with Some OSDns => [u "auto"; u "dns"] | _ => [u "auto"] end in
  let opts := fold_left (fun l k => opt_add k l) (on_options a) opts in
  Ok (mknat
    (Some (mkside ri (Some node) (Some any) service))
    (Some (mkside mi (Some msrc) (Some any) service))
    (Some (if on_static a then u "static" else u "dynamic")) None opts).

(** [object network NAME] (acl.bnf:220-233): the definition's arguments, where a NAT line
    can stand in place of an address ([`nat`], 232) or follow it. *)
Inductive netobj_body := BArgs (a : objargs) (nat : option objnat_ast) | BNat (nat : objnat_ast).

(** [nat.real.src.node = p] *)
Definition set_real_src (n : natobj) (p : netobj) : natobj :=
  mknat (match nat_real n with
         | Some s => Some (mkside (ns_iface s) (Some (NHost (HObj p))) (ns_dst s) (ns_service s))
         | None => None end)
        (nat_mapped n) (nat_type n) (nat_descr n) (nat_opts n).

(** The table [parser.network_objects]: name to object, last entry for a name wins. *)
Definition objtable := pystr -> option netobj.
Definition learn (t : objtable) (name : pystr) (p : netobj) : objtable :=
  fun n => if str_eqb n name then Some p else t n.

(** object_type for networks 128-165: the new table, the object, and its NAT. *)
Definition network_object_def (t : objtable) (name descr : pystr) (b : netobj_body)
  : result (objtable * netobj * option natobj) :=
  let '(args, nat) := match b with BArgs a n => (a, n) | BNat n => (ANat, Some n) end in
  do n <- (match nat with Some a => do n <- network_object_nat a; Ok (Some n) | None => Ok None end);
  do p <- mk_NetworkObject name descr args;
  let t := match t name with None => learn t name p | Some _ => t end in
  Ok (t, p, option_map (fun n => set_real_src n p) n).
