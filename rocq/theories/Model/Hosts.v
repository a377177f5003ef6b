(** Address terms and their overlap operator [&] (lib/acltk/aclObjects.py,
    lib/acltk/cafObjects.py, lib/acltk/fwsmObjects.py).

    Every [__and__] method is modelled branch by branch, in the dispatch order of
    the Python code ([type(self).__and__] first).  Network groups are mutable
    shared objects and therefore live on a heap and are referred to by reference;
    all other terms are immutable after construction and are values (their
    identity matters only for [resolve], modelled in Resolve.v, and the optional
    [target] name of hosts/networks is omitted here because no [__and__] reads it). *)
From Verif.Model Require Import Base Ip.
Local Open Scope N_scope.

(** Immutable leaf terms. *)
Inductive leaf :=
| LHost (a : addr)            (* NetworkHost            aclObjects.py:565-580 *)
| LNet (n : net)              (* Network                aclObjects.py:386-429 *)
| LWild (a w : addr)          (* NetworkWildcard        aclObjects.py:432-486 *)
| LAny                        (* NetworkAny             aclObjects.py:489-497 *)
| LAny4                       (* NetworkAny4            aclObjects.py:511-535 *)
| LAny6                       (* NetworkAny6            aclObjects.py:538-562 *)
| LIface (name : pystr)       (* NetworkInterface       aclObjects.py:500-508 *)
| LWebtype (url : pystr)      (* Webtype(NetworkAny)    fwsmObjects.py:7-10   *)
| LCafAny                     (* cafNetworkAny(NetworkAny)   cafObjects.py:125-139 *)
| LCafAny4                    (* cafNetworkAny4(NetworkAny4) cafObjects.py:142-156 *)
| LCafAny6.                   (* cafNetworkAny6(NetworkAny6) cafObjects.py:159-173 *)

(** NetworkObject, aclObjects.py:347-374.  [o_type = None] models [type is None]. *)
Record netobj := mkobj {
  o_name : pystr; o_descr : pystr; o_type : option pystr; o_addrs : list leaf }.

Definition gid := nat.
Bind Scope nat_scope with gid.

(** Any term that may be the host of an ACLNode or a member of a group. *)
Inductive host :=
| HLeaf (l : leaf)
| HObj (o : netobj)
| HGrp (g : gid).

(** Group objects (subclasses of _Group, aclObjects.py:233-245): name, description,
    the protocol name of a PortGroup (920-925; empty for the other classes) and the
    list [objects].  [X] is the type of members. *)
Record group (X : Type) := mkgroup {
  g_name : pystr; g_descr : pystr; g_proto : pystr; g_objs : list X }.
Arguments mkgroup {X}. Arguments g_name {X}. Arguments g_descr {X}.
Arguments g_proto {X}. Arguments g_objs {X}.

(** The heap of group objects of one class; [h_next] is the next unused reference. *)
Record gheap (X : Type) := mkheap { h_get : gid -> group X; h_next : gid }.
Arguments mkheap {X}. Arguments h_get {X}. Arguments h_next {X}.

Definition objs {X} (h : gheap X) (g : gid) : list X := g_objs (h_get h g).

Definition h_set {X} (h : gheap X) (g : gid) (x : group X) : gheap X :=
  mkheap (fun g' => if Nat.eqb g' g then x else h_get h g') (h_next h).

(** [g.objects = l] *)
Definition set_objs {X} (h : gheap X) (g : gid) (l : list X) : gheap X :=
  h_set h g (mkgroup (g_name (h_get h g)) (g_descr (h_get h g)) (g_proto (h_get h g)) l).

(** Allocation of a new group object. *)
Definition h_alloc {X} (h : gheap X) (x : group X) : gheap X * gid :=
  (mkheap (fun g' => if Nat.eqb g' (h_next h) then x else h_get h g') (S (h_next h)), h_next h).

(** NetworkGroup objects (aclObjects.py:583-587) and their heap. *)
Definition ngroup := group host.
Definition heap := gheap host.

(** isinstance tests, including subclasses. *)
Definition is_any (x : host) : bool :=      (* isinstance(x, NetworkAny) *)
  match x with HLeaf (LAny | LWebtype _ | LCafAny) => true | _ => false end.
Definition is_any4 (x : host) : bool :=     (* isinstance(x, NetworkAny4) *)
  match x with HLeaf (LAny4 | LCafAny4) => true | _ => false end.
Definition is_any6 (x : host) : bool :=     (* isinstance(x, NetworkAny6) *)
  match x with HLeaf (LAny6 | LCafAny6) => true | _ => false end.

(** NetworkWildcard.__and__ against a host, aclObjects.py:476-477.  Python's
    [x & ~w] for non-negative integers is [N.ldiff x w]. *)
Definition wild_host (a w : addr) (h : addr) : bool :=
  N.eqb (N.ldiff (a_val h) (a_val w)) (N.ldiff (a_val a) (a_val w)).
(** ... against a network, aclObjects.py:478-481 *)
Definition wild_net (a w : addr) (n : net) : bool :=
  N.eqb (N.ldiff (n_addr n) (a_val w))
        (N.ldiff (N.land (a_val a) (netmask n)) (a_val w)).

(** [self & other].  [fuel] is the number of nested Python calls still allowed;
    running out is Python's RecursionError. *)
Fixpoint and_ (fuel : nat) (h : heap) (self other : host) {struct fuel} : result bool :=
  match fuel with
  | O => Err RecursionError
  | S k =>
    match self with
    (* Network.__and__ aclObjects.py:394-426; the assert admits every term *)
    | HLeaf (LNet n) =>
        match other with
        | HLeaf (LHost a) => Ok (net_contains n a)
        | HLeaf (LNet m) => Ok (overlaps n m || overlaps m n)
        | _ => and_ k h other self
        end
    (* NetworkWildcard.__and__ aclObjects.py:475-483 *)
    | HLeaf (LWild a w) =>
        match other with
        | HLeaf (LHost x) => Ok (wild_host a w x)
        | HLeaf (LNet n) => Ok (wild_net a w n)
        | _ => and_ k h other self
        end
    (* NetworkAny.__and__ 493-494, NetworkInterface.__and__ 504-505 *)
    | HLeaf LAny | HLeaf (LWebtype _) | HLeaf (LIface _) => Ok true
    (* NetworkAny4.__and__ aclObjects.py:514-532 *)
    | HLeaf LAny4 =>
        match other with
        | HLeaf (LHost a) => Ok (ver_eqb V4 (a_ver a))
        | HLeaf (LNet n) => Ok (ver_eqb V4 (n_ver n))
        | HLeaf (LWild _ _) => Ok true
        | _ => if is_any6 other then Ok false
               else if is_any4 other || is_any other then Ok true
               else and_ k h other self
        end
    (* NetworkAny6.__and__ aclObjects.py:541-559 *)
    | HLeaf LAny6 =>
        match other with
        | HLeaf (LHost a) => Ok (ver_eqb V6 (a_ver a))
        | HLeaf (LNet n) => Ok (ver_eqb V6 (n_ver n))
        | HLeaf (LWild _ _) => Ok false
        | _ => if is_any4 other then Ok false
               else if is_any6 other || is_any other then Ok true
               else and_ k h other self
        end
    (* NetworkHost.__and__ aclObjects.py:573-577 *)
    | HLeaf (LHost a) =>
        match other with
        | HLeaf (LHost b) => Ok (addr_eqb a b)
        | _ => and_ k h other self
        end
    (* cafNetworkAny.__and__ cafObjects.py:129-136 *)
    | HLeaf LCafAny =>
        if is_any other then Ok true
        else match other with
             | HGrp g => any_r (fun i => and_ k h self i) (objs h g)
             | _ => Ok false
             end
    (* cafNetworkAny4.__and__ cafObjects.py:146-153 *)
    | HLeaf LCafAny4 =>
        if is_any4 other then Ok true
        else match other with
             | HGrp g => any_r (fun i => and_ k h self i) (objs h g)
             | _ => Ok false
             end
    (* cafNetworkAny6.__and__ cafObjects.py:163-170 *)
    | HLeaf LCafAny6 =>
        if is_any6 other then Ok true
        else match other with
             | HGrp g => any_r (fun i => and_ k h self i) (objs h g)
             | _ => Ok false
             end
    (* NetworkObject.__and__ aclObjects.py:376-380 *)
    | HObj o => any_r (fun i => and_ k h (HLeaf i) other) (o_addrs o)
    (* NetworkGroup.__and__ aclObjects.py:669-673 *)
    | HGrp g => any_r (fun i => and_ k h i other) (objs h g)
    end
  end.

(** [Network(address, netmask)] aclObjects.py:387-388 *)
Definition mk_Network (a : addr) (m : mask) : result leaf :=
  do n <- ip_network false a m; Ok (LNet n).

(** Arguments of an [object network] definition (acl.bnf network_object), i.e. the
    keyword arguments given to NetworkObject.__init__. *)
Inductive objargs :=
| ANone | ANat
| AHost (a : addr)
| ASubnet (a : addr) (m : mask)
| ARange (start stop : addr)
| AFqdn (limit : option ver).

(** NetworkObject.__init__ aclObjects.py:348-374. [Network(i.network_address,
    i.prefixlen)] of a summarized network is rebuilt through the constructor. *)
Definition mk_NetworkObject (name descr : pystr) (args : objargs) : result netobj :=
  match args with
  | ANone => Ok (mkobj name descr None [])
  | ANat => Ok (mkobj name descr (Some (u "nat")) [])
  | AHost a => Ok (mkobj name descr (Some (u "host")) [LHost a])
  | ASubnet a m => do l <- mk_Network a m; Ok (mkobj name descr (Some (u "subnet")) [l])
  | ARange s e =>
      do nets <- summarize_address_range s e;
      do ls <- map_r (fun n => mk_Network (mkaddr (n_ver n) (n_addr n)) (MaskLen (n_plen n))) nets;
      Ok (mkobj name descr (Some (u "range")) ls)
  | AFqdn None => Ok (mkobj name descr (Some (u "fqdn")) [LAny])
  | AFqdn (Some V4) => Ok (mkobj name descr (Some (u "fqdn")) [LAny4])
  | AFqdn (Some V6) => Ok (mkobj name descr (Some (u "fqdn")) [LAny6])
  end.

(** ** NetworkWildcard._addresses, aclObjects.py:437-473.

    One iteration of the [while len(todo)] loop; state: [todo] (FIFO) and the result
    set [l] (a list, order and duplicates are irrelevant).  Simplification:
    [math.floor(math.log(wild0, 2))] is [N.log2 wild0] (checked exact for all
    2^k and 2^k-1, k <= 32; the floating point logarithm itself is not modelled). *)
Definition wa_state : Type := list (N * N) * list ipobj.

Definition wa_body (st : wa_state) : result (step_out wa_state (list ipobj)) :=
  let '(todo, l) := st in
  match todo with
  | [] => Ok (SDone l)                                     (* loop exit, return l *)
  | (addr0, wild0) :: rest =>
      if 0 <? wild0 then
        let bit := N.log2 wild0 in                         (* 451 *)
        if N.eqb wild0 (2 ^ (bit + 1) - 1) then            (* 453-457 *)
          do m <- ip_network true (mkaddr V4 addr0) (MaskLen (31 - bit));
          Ok (SMore (rest, INet m :: l))
        else
          let addr1 := N.lor addr0 (N.shiftl 1 bit) in     (* 463 *)
          let wild1 := N.ldiff wild0 (N.shiftl 1 bit) in
          let rest := if negb (N.eqb wild0 wild1) then rest ++ [(addr0, wild1)] else rest in
          if negb (N.eqb addr0 addr1 && N.eqb wild0 wild1) (* 468-471 *)
          then Ok (SMore (rest ++ [(addr1, wild1)],
                          IAddr (mkaddr V4 addr1) :: IAddr (mkaddr V4 addr0) :: l))
          else Ok (SMore (rest, l))
      else Ok (SMore (rest, l))                            (* 472 *)
  end.

Definition wild_addresses (a w : addr) : result (list ipobj) :=
  let start := N.ldiff (a_val a) (a_val w) in              (* 439 *)
  let l := if N.eqb (N.ldiff start (a_val w)) start        (* 442-443 *)
           then [IAddr (mkaddr V4 start)] else [] in
  run_loop 34 wa_body ([(start, a_val w)], l).

(** [ios_host], iosSemantics.py:21-34.  The bare [except:] of the wildcard case
    catches the ValueError of the Network constructor. *)
Inductive ios_host_ast :=
| IWildcard (address wildcard : addr) | IObjectGroup (g : gid) | IAny | IHost (address : addr).

Definition ios_host (ast : ios_host_ast) : host :=
  match ast with
  | IWildcard a w =>
      match mk_Network a (MaskQuad (a_val w)) with
      | Ok l => HLeaf l
      | Err _ => HLeaf (LWild a w)
      end
  | IObjectGroup g => HGrp g
  | IAny => HLeaf LAny
  | IHost a => HLeaf (LHost a)
  end.
