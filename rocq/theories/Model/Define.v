(** Definitions of object groups (aclSemantics.py:173-205, acl.bnf:378-387,396-434).
    The members of a definition are read, and references in them looked up, before the
    action of the definition creates the group. *)
From Verif.Model Require Import Base Ip Hosts Groups Iface.

(** A member as written: an element, or [group-object NAME]. *)
Inductive member (X : Type) := Lit (x : X) | Ref (n : pystr).
Arguments Lit {X} x.
Arguments Ref {X} n.
Record gdef (X : Type) := mkgdef { gd_name : pystr; gd_descr : pystr; gd_proto : pystr; gd_members : list (member X) }.
Arguments mkgdef {X}. Arguments gd_name {X}. Arguments gd_descr {X}. Arguments gd_proto {X}. Arguments gd_members {X}.

(** The table of names and the group objects of one class. *)
Definition gworld (X : Type) : Type := dict gid * gheap X.

Section Define.
  Context {X : Type} (mk : gid -> X) (allowed : X -> bool).

  (** [*_group_object] 237-306 and the references acl_object_group_* 373-408: an unknown
      name leaves only the alternative [type:None], whose action asserts. *)
  Definition read_member (t : dict gid) (m : member X) : result X :=
    match m with
    | Lit x => Ok x
    | Ref n => match dget t n with Some g => Ok (mk g) | None => Err AssertionError end
    end.
  (** _Group.add 241-245 *)
  Definition group_add (h : gheap X) (g : gid) (x : X) : result (gheap X) :=
    if allowed x then Ok (set_objs h g (objs h g ++ [x])) else Err AssertionError.
  (** object_group_type 173-205 with _learn 520-533 *)
  Definition define (w : gworld X) (d : gdef X) : result (gworld X) :=
    let (t, h) := w in
    do ms <- map_r (read_member t) (gd_members d);
    let (h, g) := h_alloc h (mkgroup (gd_name d) (gd_descr d) (gd_proto d) []) in
    let t := dset t (gd_name d) g in
    do h <- fold_r (fun h x => group_add h g x) ms h;
    Ok (t, h).
End Define.

(** The five classes; [add] accepts the classes' elements and groups of the same class
    (294, 337, 584, 710, 918).  The elements the model has are all of these classes,
    except the interface term for network groups. *)
Definition net_allowed (x : host) : bool :=
  match x with HLeaf (LIface _ | LWild _ _) => false | _ => true end.
Definition any_allowed {X} (x : X) : bool := true.

(** A definition of any class, and the world of all classes. *)
Inductive anydef :=
| DNet (d : gdef host) | DPort (d : gdef pmember) | DService (d : gdef smember)
| DProto (d : gdef prmember) | DIcmp (d : gdef imember).
Record world := mkworld {
  w_net : gworld host; w_port : gworld pmember; w_service : gworld smember;
  w_proto : gworld prmember; w_icmp : gworld imember }.
Definition define_any (w : world) (d : anydef) : result world :=
  match d with
  | DNet d => do x <- define HGrp net_allowed (w_net w) d;
      Ok (mkworld x (w_port w) (w_service w) (w_proto w) (w_icmp w))
  | DPort d => do x <- define PGrp any_allowed (w_port w) d;
      Ok (mkworld (w_net w) x (w_service w) (w_proto w) (w_icmp w))
  | DService d => do x <- define SGrp any_allowed (w_service w) d;
      Ok (mkworld (w_net w) (w_port w) x (w_proto w) (w_icmp w))
  | DProto d => do x <- define PrGrp any_allowed (w_proto w) d;
      Ok (mkworld (w_net w) (w_port w) (w_service w) x (w_icmp w))
  | DIcmp d => do x <- define IcGrp any_allowed (w_icmp w) d;
      Ok (mkworld (w_net w) (w_port w) (w_service w) (w_proto w) x)
  end.
Definition define_all (w : world) (l : list anydef) : result world := fold_r define_any l w.

(** aclParser.__init__ 506-518: nothing known. *)
Definition gworld_init {X} : gworld X := ([], mkheap (fun _ => mkgroup [] [] [] []) 0).
Definition world_init : world := mkworld gworld_init gworld_init gworld_init gworld_init gworld_init.
Definition groups_of (w : world) : groups :=
  mkgroups (snd (w_net w)) (snd (w_port w)) (snd (w_service w)) (snd (w_proto w)) (snd (w_icmp w)).
