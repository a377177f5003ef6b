(** Specification of flattening, sorting and framing of groups. *)
From Coq Require Import Permutation Sorted.
From Verif.Model Require Import Base Ip Hosts Groups.

(** [flat leafs h x l]: replacing every group below [x] by its members, left to
    right, and every remaining element [e] by [leafs e], gives the list [l]. *)
Section Flat.
  Context {X : Type} (sub : X -> option gid) (leafs : X -> list X) (h : gheap X).
  Inductive flat : X -> list X -> Prop :=
  | F_elem x : sub x = None -> flat x (leafs x)
  | F_grp x g l : sub x = Some g -> flats (objs h g) l -> flat x l
  with flats : list X -> list X -> Prop :=
  | F_nil : flats [] []
  | F_cons x xs l ls : flat x l -> flats xs ls -> flats (x :: xs) (l ++ ls).
End Flat.

(** Acyclic group graphs, for any class of groups. *)
Definition granked {X} (sub : X -> option gid) (h : gheap X) (rk : gid -> nat) : Prop :=
  forall g x g', In x (objs h g) -> sub x = Some g' -> rk g' < rk g.

(** Two heaps agree on a group. *)
Definition same_group {X} (h h' : gheap X) (g : gid) : Prop := h_get h g = h_get h' g.

(** Elements flattened with the rules of a class. *)
Definition flattened {X} (K : gkind X) (h : gheap X) (g : gid) (l : list X) : Prop :=
  flats (k_sub K) (k_post K) h (objs h g) l.

(** [x] has a key equivalent to [k] (neither smaller nor larger). *)
Definition has_key {X K} (ltb : K -> K -> bool) (key : X -> result K) (k : K) (x : X) : bool :=
  match key x with Ok a => negb (ltb a k) && negb (ltb k a) | Err _ => false end.

(** [l'] is the stable rearrangement of [l] in non-descending key order: same
    elements, ordered, and elements with equivalent keys in their original order. *)
Definition stable_sort_of {X K} (ltb : K -> K -> bool) (key : X -> result K) (l l' : list X) : Prop :=
  Permutation l l' /\
  StronglySorted (fun x y => forall a b, key x = Ok a -> key y = Ok b -> ltb b a = false) l' /\
  forall k, filter (has_key ltb key k) l' = filter (has_key ltb key k) l.

(** ** Collapsing *)
From Verif.Spec Require Import AddrSpec.

(** The group member standing for a block: a host if it is a single address. *)
Definition member_of (n : net) : host :=
  if N.eqb (n_plen n) (bits (n_ver n)) then HLeaf (LHost (mkaddr (n_ver n) (n_addr n)))
  else HLeaf (LNet n).

Definition concrete (v : ver) (l : leaf) : Prop :=
  match l with LHost a => a_ver a = v | LNet n => n_ver n = v | _ => False end.
Definition any_leaf (l : leaf) : Prop :=
  match l with LAny | LAny4 | LAny6 | LWebtype _ | LCafAny | LCafAny4 | LCafAny6 => True | _ => False end.

(** Every leaf of [x] is a host or network of version [v], or one of the any terms. *)
Definition collapsible (v : ver) (h : heap) (x : host) : Prop :=
  forall l, reaches h x l -> leaf_wf l /\ (concrete v l \/ any_leaf l).

(** Addresses matched by the hosts and networks of [x], any terms left out. *)
Definition concrete_matches (h : heap) (x : host) (a : addr) : Prop :=
  exists l, reaches h x l /\ ~ any_leaf l /\ leaf_matches l a.

(** References of existing groups point to existing groups. *)
Definition heap_closed (h : heap) : Prop :=
  forall g m, g < h_next h -> In (HGrp m) (objs h g) -> m < h_next h.

(** ** What expansion means for each class of groups: which members are groups, and
    what stands for a member that is not.  A network object stands for its addresses,
    a service object for the plain service; everything else for itself. *)
Definition host_sub (x : host) : option gid := match x with HGrp g => Some g | _ => None end.
Definition host_leafs (x : host) : list host :=
  match x with HObj o => map HLeaf (o_addrs o) | _ => [x] end.
Definition port_sub (x : pmember) : option gid := match x with PGrp g => Some g | _ => None end.
Definition service_sub (x : smember) : option gid := match x with SGrp g => Some g | _ => None end.
Definition service_leafs (x : smember) : list smember :=
  match x with SObject _ _ s => [SService s] | _ => [x] end.
Definition proto_sub (x : prmember) : option gid := match x with PrGrp g => Some g | _ => None end.
Definition icmp_sub (x : imember) : option gid := match x with IcGrp g => Some g | _ => None end.
Definition itself {X} (x : X) : list X := [x].

(** The flattening of group [g]. *)
Definition flattening {X} (sub : X -> option gid) (leafs : X -> list X) (h : gheap X) (g : gid) (l : list X) : Prop :=
  flats sub leafs h (objs h g) l.

(** Same group up to its members. *)
Definition same_header {X} (a b : group X) : Prop :=
  g_name a = g_name b /\ g_descr a = g_descr b /\ g_proto a = g_proto b.

(** [op limit h g] is an in-place expansion of [g]: on every acyclic graph, with a
    recursion limit above the nesting depth, it succeeds; [g] then holds its
    flattening, which contains no groups and nothing left to replace; [g]'s name,
    description and all other groups are as before; repeating it changes nothing. *)
Definition expands_in_place {X} (sub : X -> option gid) (leafs : X -> list X)
    (op : nat -> gheap X -> gid -> result (gheap X)) : Prop :=
  forall h rk limit g, granked sub h rk -> rk g < limit ->
  exists h', op limit h g = Ok h' /\
    flattening sub leafs h g (objs h' g) /\
    (forall x, In x (objs h' g) -> sub x = None /\ leafs x = [x]) /\
    same_header (h_get h g) (h_get h' g) /\
    (forall g', g' <> g -> h_get h' g' = h_get h g') /\ h_next h' = h_next h /\
    (exists h'', op limit h' g = Ok h'' /\ forall g', h_get h'' g' = h_get h' g').

(** Members of allocated groups refer to allocated groups. *)
Definition closed_heap {X} (sub : X -> option gid) (h : gheap X) : Prop :=
  forall g x g', g < h_next h -> In x (objs h g) -> sub x = Some g' -> g' < h_next h.

(** [op limit h g] returns a new group: not allocated before, holding the flattening
    of [g], of the same name and description; every other group is as before. *)
Definition expands_to_new {X} (sub : X -> option gid) (leafs : X -> list X)
    (op : nat -> gheap X -> gid -> result (gheap X * gid)) : Prop :=
  forall h rk limit g, closed_heap sub h -> g < h_next h -> granked sub h rk -> rk g < limit ->
  exists h' o, op limit h g = Ok (h', o) /\ h_next h <= o < h_next h' /\
    flattening sub leafs h g (objs h' o) /\
    g_name (h_get h' o) = g_name (h_get h g) /\ g_descr (h_get h' o) = g_descr (h_get h g) /\
    (forall g', g' <> o -> h_get h' g' = h_get h g').
