(** Dictionaries keyed by strings, and interfaces (aclObjects.py:40-124). *)
From Verif.Model Require Import Base Ip.

(** Python [dict] with string keys: insertion order; assigning to an existing key keeps
    its position. *)
Definition dict V := list (pystr * V).
Fixpoint dget {V} (d : dict V) (k : pystr) : option V :=
  match d with
  | [] => None
  | (k', v) :: d' => if str_eqb k' k then Some v else dget d' k
  end.
Fixpoint dset {V} (d : dict V) (k : pystr) (v : V) : dict V :=
  match d with
  | [] => [(k, v)]
  | (k', w) :: d' => if str_eqb k' k then (k', v) :: d' else (k', w) :: dset d' k v
  end.
Definition dmem {V} (d : dict V) (k : pystr) : bool := match dget d k with Some _ => true | None => false end.

(** [ipaddress.ip_interface(f"{address}/{netmask}").network] (InterfaceAddress 40-43;
    ipaddress: IPv4Interface/IPv6Interface build the network with strict=False). *)
Definition interface_address (a : addr) (m : mask) : result net := ip_network false a m.

(** VLAN and VLANRange 104-118: the parsed strings. *)
Inductive vlan := Vlan (v : pystr) | VlanRange (start stop : pystr).

(** Switchport 52-56; [access] is never set. *)
Record switchport := mksw { sw_mode : pystr; sw_trunk : option (list vlan) }.

(** InterfaceAccessGroup 46-50; [iface] is the interface's name until ACLConfig binds it
    to the interface object, which is referred to by number. *)
Inductive ifref := IfName (n : pystr) | IfObj (i : nat).
Record agroup := mkag { ag_iface : ifref; ag_name : pystr; ag_dir : pystr }.

(** Interface 58-66.  [routes] is a set of route objects, referred to by number. *)
Record interface := mkiface {
  if_alias : pystr; if_addrs : list net; if_groups : dict agroup; if_nameif : option pystr;
  if_descr : option pystr; if_switch : option switchport; if_routes : list nat }.

(** The details of an interface: interface_detail in ios.bnf:49-58, fwsm.bnf:31-38 and the
    hand-made ASTs of pfsenseSemantics.py:87-102.  [DShort] is a [type] list of two
    elements (pfsenseSemantics.py:90), all others have three.  The mask of an IPv4 address
    is a dotted quad, of an IPv6 address a prefix length, 128 if absent. *)
Inductive ifdetail :=
| DNone                                   (* a line that is not kept *)
| DNameif (n : pystr) | DDescription (t : pystr)
| DSwMode (m : pystr) | DTrunkSet (l : list vlan) | DTrunkAdd (l : list vlan)
| DAddr4 (a : addr) (m : N) | DAddr6 (a : addr) (p : option N)
| DGroup4 (name dir : pystr) | DGroup6 (name dir : pystr)
| DShort (family word a m : pystr).

Definition sw_of (o : option switchport) : switchport := match o with Some s => s | None => mksw [] None end.

(** One iteration of the loop of Interface.__init__ 67-96; [self] is the number of the
    interface under construction. *)
Definition iface_detail (self : nat) (i : interface) (d : ifdetail) : result interface :=
  match d with
  | DNone => Ok i
  | DNameif n => Ok (mkiface (if_alias i) (if_addrs i) (if_groups i) (Some n) (if_descr i) (if_switch i) (if_routes i))
  | DDescription t => Ok (mkiface (if_alias i) (if_addrs i) (if_groups i) (if_nameif i) (Some t) (if_switch i) (if_routes i))
  | DSwMode m =>
      Ok (mkiface (if_alias i) (if_addrs i) (if_groups i) (if_nameif i) (if_descr i)
            (Some (mksw m (sw_trunk (sw_of (if_switch i))))) (if_routes i))
  | DTrunkSet l =>
      Ok (mkiface (if_alias i) (if_addrs i) (if_groups i) (if_nameif i) (if_descr i)
            (Some (mksw (sw_mode (sw_of (if_switch i))) (Some l))) (if_routes i))
  | DTrunkAdd l =>
      match sw_trunk (sw_of (if_switch i)) with
      | None => Err AttributeError
      | Some t =>
          Ok (mkiface (if_alias i) (if_addrs i) (if_groups i) (if_nameif i) (if_descr i)
                (Some (mksw (sw_mode (sw_of (if_switch i))) (Some (t ++ l)))) (if_routes i))
      end
  | DAddr4 a m =>
      do n <- interface_address a (MaskQuad m);
      Ok (mkiface (if_alias i) (if_addrs i ++ [n]) (if_groups i) (if_nameif i) (if_descr i) (if_switch i) (if_routes i))
  | DAddr6 a p =>
      do n <- interface_address a (MaskLen (match p with Some p => p | None => 128%N end));
      Ok (mkiface (if_alias i) (if_addrs i ++ [n]) (if_groups i) (if_nameif i) (if_descr i) (if_switch i) (if_routes i))
  | DGroup4 name dir =>
      Ok (mkiface (if_alias i) (if_addrs i) (dset (if_groups i) (u "ip-" ++ dir) (mkag (IfObj self) name dir))
            (if_nameif i) (if_descr i) (if_switch i) (if_routes i))
  | DGroup6 name dir =>
      Ok (mkiface (if_alias i) (if_addrs i) (dset (if_groups i) (u "ipv6-" ++ dir) (mkag (IfObj self) name dir))
            (if_nameif i) (if_descr i) (if_switch i) (if_routes i))
  | DShort family _ _ _ =>
      if str_eqb family (u "ip") || str_eqb family (u "ipv6") then Err IndexError else Ok i
  end.

(** Interface.__init__ 59-96 *)
Definition iface_init (self : nat) (alias : pystr) (details : list ifdetail) : result interface :=
  fold_r (iface_detail self) details (mkiface alias [] [] None None None []).
