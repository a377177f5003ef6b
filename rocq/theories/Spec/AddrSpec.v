(** Independent specification of which addresses a term matches.  Nothing here
    uses the model's algorithms: networks are intervals, wildcards are bit-wise
    agreement, groups are the union of their members. *)
From Coq Require Import Sorted.
From Verif.Model Require Import Base Ip Hosts.
Local Open Scope N_scope.

(** [x] is one of the 2^(bits-plen) addresses starting at the network address. *)
Definition in_net (n : net) (x : addr) : Prop :=
  a_ver x = n_ver n /\
  n_addr n <= a_val x < n_addr n + 2 ^ (bits (n_ver n) - n_plen n).

(** A valid address of its version. *)
Definition valid (x : addr) : Prop := a_val x < 2 ^ bits (a_ver x).

(** [x] agrees with [a] on every bit where the wildcard [w] is 0 (IPv4). *)
Definition in_wild (a w : addr) (x : addr) : Prop :=
  a_ver x = V4 /\ valid x /\
  forall i, N.testbit (a_val w) i = false -> N.testbit (a_val x) i = N.testbit (a_val a) i.

(** Addresses matched by a leaf.  Interfaces match everything: the code's
    documented convention for "interface" terms, whose address is not known. *)
Definition leaf_matches (l : leaf) (x : addr) : Prop :=
  match l with
  | LHost a => x = a
  | LNet n => in_net n x
  | LWild a w => in_wild a w x
  | LAny | LIface _ | LWebtype _ | LCafAny => valid x
  | LAny4 | LCafAny4 => a_ver x = V4 /\ valid x
  | LAny6 | LCafAny6 => a_ver x = V6 /\ valid x
  end.

(** Addresses matched by a term in a heap: least fixed point, so that even a
    cyclic group graph has a meaning. *)
Inductive matches (h : heap) : host -> addr -> Prop :=
| M_leaf l x : leaf_matches l x -> matches h (HLeaf l) x
| M_obj o l x : In l (o_addrs o) -> leaf_matches l x -> matches h (HObj o) x
| M_grp g m x : In m (objs h g) -> matches h m x -> matches h (HGrp g) x.

(** [x] and [y] have an address in common. *)
Definition common (h : heap) (x y : host) : Prop :=
  exists a, matches h x a /\ matches h y a.

Definition inhabited (h : heap) (x : host) : Prop := exists a, matches h x a.

(** Leaves of a term: [reaches h x l] when [l] is a leaf of [x] through objects
    and groups. *)
Inductive reaches (h : heap) : host -> leaf -> Prop :=
| R_leaf l : reaches h (HLeaf l) l
| R_obj o l : In l (o_addrs o) -> reaches h (HObj o) l
| R_grp g m l : In m (objs h g) -> reaches h m l -> reaches h (HGrp g) l.

(** Data invariants established by the constructors (ipaddress objects are always
    in range, networks have no host bits). *)
Definition net_wf (n : net) : Prop :=
  n_plen n <= bits (n_ver n) /\ n_addr n < 2 ^ bits (n_ver n) /\
  (2 ^ (bits (n_ver n) - n_plen n) | n_addr n).
Definition leaf_wf (l : leaf) : Prop :=
  match l with
  | LHost a => valid a
  | LNet n => net_wf n
  | LWild a w => a_ver a = V4 /\ valid a /\ a_ver w = V4 /\ valid w
  | _ => True
  end.
Definition term_wf (h : heap) (x : host) : Prop := forall l, reaches h x l -> leaf_wf l.

(** The special caf terms (ANY, ANY4, ANY6): excluded from address-set semantics. *)
Definition is_caf (l : leaf) : bool :=
  match l with LCafAny | LCafAny4 | LCafAny6 => true | _ => false end.
Definition plain (h : heap) (x : host) : Prop := forall l, reaches h x l -> is_caf l = false.

Definition is_wild (l : leaf) : bool := match l with LWild _ _ => true | _ => false end.
Definition wildfree (h : heap) (x : host) : Prop := forall l, reaches h x l -> is_wild l = false.

(** No concrete IPv6 host or network among the leaves. *)
Definition v6_leaf (l : leaf) : bool :=
  match l with
  | LHost a => ver_eqb (a_ver a) V6
  | LNet n => ver_eqb (n_ver n) V6
  | _ => false
  end.
Definition v6free (h : heap) (x : host) : Prop := forall l, reaches h x l -> v6_leaf l = false.

(** If a wildcard occurs on one side, the other side has neither wildcards nor
    concrete IPv6 addresses. *)
Definition wild_ok (h : heap) (x y : host) : Prop :=
  (wildfree h x \/ (wildfree h y /\ v6free h y)) /\
  (wildfree h y \/ (wildfree h x /\ v6free h x)).

(** Acyclic group graphs: a rank that strictly decreases from a group to the
    groups among its members. *)
Definition ranked (h : heap) (rk : gid -> nat) : Prop :=
  forall g m, In (HGrp m) (objs h g) -> (rk m < rk g)%nat.
Definition acyclic (h : heap) : Prop := exists rk, ranked h rk.
Definition rank (rk : gid -> nat) (x : host) : nat :=
  match x with HLeaf _ => 0 | HObj _ => 1 | HGrp g => 2 + rk g end.

(** Reachability through groups only: [y] is the term itself or a (nested) group
    member; network objects are not looked into. *)
Inductive via_groups (h : heap) : host -> host -> Prop :=
| VG_self x : via_groups h x x
| VG_grp g m x : In m (objs h g) -> via_groups h m x -> via_groups h (HGrp g) x.

(** The literal terms that satisfy the caf terms ANY, ANY4, ANY6. *)
Definition literal_any (l : leaf) : leaf -> Prop :=
  match l with
  | LCafAny => fun m => m = LAny \/ (exists url, m = LWebtype url) \/ m = LCafAny
  | LCafAny4 => fun m => m = LAny4 \/ m = LCafAny4
  | LCafAny6 => fun m => m = LAny6 \/ m = LCafAny6
  | _ => fun _ => False
  end.

(** Addresses covered by a list of ipaddress objects. *)
Definition item_matches (i : ipobj) (x : addr) : Prop :=
  match i with IAddr a => x = a | INet n => in_net n x end.
Definition covers (l : list ipobj) (x : addr) : Prop := exists i, In i l /\ item_matches i x.

(** [x] has the same version as [a] and agrees with it on the leading [p] bits. *)
Definition agrees_leading (a : addr) (p : N) (x : addr) : Prop :=
  a_ver x = a_ver a /\ valid x /\
  forall i, bits (a_ver a) - p <= i -> N.testbit (a_val x) i = N.testbit (a_val a) i.

(** 32-bit values of the shape 1...10...0 with [p] ones, and 0...01...1 with [p] zeros. *)
Definition netmask_shape (q p : N) : Prop := p <= 32 /\ q = 2 ^ 32 - 2 ^ (32 - p).
Definition hostmask_shape (q p : N) : Prop := p <= 32 /\ q = 2 ^ (32 - p) - 1.

(** The prefix length a mask argument stands for (netmask reading has precedence). *)
Definition mask_denotes (v : ver) (m : mask) (p : N) : Prop :=
  match m with
  | MaskLen n => n = p /\ p <= bits v
  | MaskQuad q => v = V4 /\
      (netmask_shape q p \/ (hostmask_shape q p /\ ~ exists p', netmask_shape q p'))
  end.
Definition mask_in_range (m : mask) : Prop :=
  match m with MaskQuad q => q < 2 ^ 32 | MaskLen _ => True end.

(** Lists of networks: pairwise disjoint in increasing order, and canonical. *)
Definition net_before (a b : net) : Prop :=
  n_ver a = n_ver b /\ n_addr a + 2 ^ (bits (n_ver a) - n_plen a) <= n_addr b.
Definition increasing (l : list net) : Prop := StronglySorted net_before l.
(** Two networks could be merged: together they are exactly one network. *)
Definition mergeable (a b : net) : Prop :=
  exists s, net_wf s /\ forall x, in_net s x <-> in_net a x \/ in_net b x.
Definition canonical (l : list net) : Prop :=
  Forall net_wf l /\ increasing l /\
  forall a b, In a l -> In b l -> a <> b -> ~ mergeable a b.
Definition net_covers (l : list net) (x : addr) : Prop := exists n, In n l /\ in_net n x.
