(** What a configuration built from a sequence of parsed items must contain. *)
From Verif.Model Require Import Base Ip Iface Config.
From Verif.Spec Require Import AddrSpec.

(** ** Tables *)

(** [n] is bound to [v] by the last, resp. first, definition of [n] in [defs]. *)
Definition last_def {V} (defs : list (pystr * V)) (n : pystr) (v : V) : Prop :=
  exists pre post, defs = pre ++ (n, v) :: post /\ ~ In n (map fst post).
Definition first_def {V} (defs : list (pystr * V)) (n : pystr) (v : V) : Prop :=
  exists pre post, defs = pre ++ (n, v) :: post /\ ~ In n (map fst pre).

(** Each string of [l] once, in the order of first occurrence. *)
Fixpoint first_occurrences (l : list pystr) : list pystr :=
  match l with
  | [] => []
  | x :: l' => x :: filter (fun y => negb (str_eqb x y)) (first_occurrences l')
  end.

Definition table_of_last {V} (defs : list (pystr * V)) (t : list (pystr * V)) : Prop :=
  map fst t = first_occurrences (map fst defs) /\ forall n v, In (n, v) t <-> last_def defs n v.
Definition table_of_first {V} (defs : list (pystr * V)) (t : list (pystr * V)) : Prop :=
  map fst t = first_occurrences (map fst defs) /\ forall n v, In (n, v) t <-> first_def defs n v.

(** The tables of a configuration, and what an item defines in each. *)
Inductive table := TTime | TSvcObj | TPortGrp | TSvcGrp | TProtoGrp | TIcmpGrp | TNetGrp | TIface | TNetObj.
Definition table_in (t : table) (c : config) : list (pystr * nat) :=
  match t with
  | TTime => c_time c | TSvcObj => c_svcobj c | TPortGrp => c_portgrp c | TSvcGrp => c_svcgrp c
  | TProtoGrp => c_protogrp c | TIcmpGrp => c_icmpgrp c | TNetGrp => c_netgrp c
  | TIface => c_ifaces c | TNetObj => c_netobj c
  end.
Definition definition_of (store : nat -> interface) (t : table) (i : citem) : list (pystr * nat) :=
  match t, i with
  | TTime, KTime n x | TSvcObj, KSvcObj n x | TPortGrp, KPortGrp n x | TSvcGrp, KSvcGrp n x
  | TProtoGrp, KProtoGrp n x | TIcmpGrp, KIcmpGrp n x | TNetGrp, KNetGrp n x
  | TNetObj, KNetObj n x _ => [(n, x)]
  | TIface, KIface j => [(if_alias (store j), j)]
  | _, _ => []
  end.
Definition definitions store t items : list (pystr * nat) := flat_map (definition_of store t) items.

(** ** Interfaces *)

(** The interfaces are the ones Interface(...) constructs. *)
Definition constructed (store : nat -> interface) : Prop :=
  forall j, exists alias details, iface_init j alias details = Ok (store j).

(** After the items [pre], a line naming interface [s] concerns interface [j]: the first
    one in the table of interfaces whose nameif is [s]. *)
Definition named (store : nat -> interface) (j : nat) (s : pystr) : Prop := if_nameif (store j) = Some s.
Definition concerns (store : nat -> interface) (pre : list citem) (s : pystr) (j : nat) : Prop :=
  exists t before a after, table_of_last (definitions store TIface pre) t /\
    t = before ++ (a, j) :: after /\ named store j s /\ forall b, In b before -> ~ named store (snd b) s.

(** The line [KAccessGroup s name d] at the position after [pre] binds interface [j]. *)
Definition binds store (items pre : list citem) (j : nat) (d name : pystr) : Prop :=
  exists s post, items = pre ++ KAccessGroup s name d :: post /\ concerns store pre s j.
(** ... and no later line of that direction does. *)
Definition finally_bound store items (j : nat) (d name : pystr) : Prop :=
  exists pre, binds store items pre j d name /\
    forall pre' name', (length pre < length pre')%nat -> ~ binds store items pre' j d name'.
Definition never_bound store items j d : Prop := forall pre name, ~ binds store items pre j d name.

(** Group bindings written inside an interface. *)
Definition detail_group (self : nat) (d : ifdetail) : list (pystr * agroup) :=
  match d with
  | DGroup4 name dir => [(u "ip-" ++ dir, mkag (IfObj self) name dir)]
  | DGroup6 name dir => [(u "ipv6-" ++ dir, mkag (IfObj self) name dir)]
  | _ => []
  end.

(** ** VLAN trunks *)
Definition is_set (d : ifdetail) : Prop := exists l, d = DTrunkSet l.
Definition is_add (d : ifdetail) : Prop := exists l, d = DTrunkAdd l.
Definition added (d : ifdetail) : list vlan := match d with DTrunkAdd l => l | _ => [] end.
Definition trunk_of (i : interface) : option (list vlan) :=
  match if_switch i with Some s => sw_trunk s | None => None end.
Inductive trunk_is (details : list ifdetail) : option (list vlan) -> Prop :=
| TI_none : (forall d, In d details -> ~ is_set d /\ ~ is_add d) -> trunk_is details None
| TI_some pre l post : details = pre ++ DTrunkSet l :: post -> (forall d, In d post -> ~ is_set d) ->
    trunk_is details (Some (l ++ flat_map added post)).

(** ** Routes *)
(** The line gives the interface the address [a] with mask [m]. *)
Inductive address_line : ifdetail -> addr -> mask -> Prop :=
| AL_4 a q : address_line (DAddr4 a q) a (MaskQuad q)
| AL_6 a p : address_line (DAddr6 a (Some p)) a (MaskLen p)
| AL_6_host a : address_line (DAddr6 a None) a (MaskLen 128).
(** [g] is in the subnet of one of the addresses. *)
Definition on_link (details : list ifdetail) (g : addr) : Prop :=
  exists d a m p, In d details /\ address_line d a m /\ mask_denotes (a_ver a) m p /\ agrees_leading a p g.
(** The interface objects are those of the given descriptions, whose addresses are in range. *)
Definition built_from (al : nat -> pystr) (det : nat -> list ifdetail) (store : nat -> interface) : Prop :=
  forall j, iface_init j (al j) (det j) = Ok (store j) /\ forall d a m, In d (det j) -> address_line d a m ->
      valid a /\ match m with MaskQuad q => (q < 2 ^ 32)%N | MaskLen _ => True end.
