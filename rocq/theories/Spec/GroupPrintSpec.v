(** Printed rules and groups. *)
From Coq Require Import String.
From Verif.Model Require Import Base Ip Hosts Groups Rules.
From Verif.Spec Require Import AddrSpec CafPrintSpec.
Local Open Scope list_scope.

Section Printed.
  Context (odescr : netobj -> pystr) (gdescr : gid -> pystr) (h : heap).
  (** A term; the members of a group in their order, each as it is printed itself. *)
  Inductive printed : host -> pystr -> Prop :=
  | PT_leaf l t : leaf_text l t -> printed (HLeaf l) t
  | PT_obj o t : or_none (o_type o) t -> printed (HObj o) (u "NetworkObject " ++ o_name o ++ u " " ++ t ++ u " # " ++ odescr o)
  | PT_grp g ts s : Forall2 printed (objs h g) ts -> listed (u ", ") ts s ->
      printed (HGrp g) (u "NetworkGroup " ++ g_name (h_get h g) ++ u " (" ++ s ++ u ") # " ++ gdescr g).
  Inductive end_printed : host -> option pystr -> pystr -> Prop :=
  | EP_plain x s : printed x s -> end_printed x None (u "ACLNode (" ++ s ++ u ")")
  | EP_port x p s : printed x s -> end_printed x (Some p) (u "ACLNode (" ++ s ++ u ":" ++ p ++ u ")").
  Inductive rule_printed (mode protocol remark : pystr) (sport dport : option pystr) (r : rule) : pystr -> Prop :=
  | RP_rule i s d : or_none (r_id r) i -> end_printed (r_src r) sport s -> end_printed (r_dst r) dport d ->
      rule_printed mode protocol remark sport dport r
        (u "ACLRule " ++ i ++ u " " ++ mode ++ u " " ++ protocol ++ u " src:" ++ s ++ u " dst:" ++ d ++ u " # " ++ remark).
End Printed.

(** The group holds the other one, itself or in a group it holds. *)
Inductive holds_group (h : heap) : gid -> gid -> Prop :=
| HO_here g g' : In (HGrp g') (objs h g) -> holds_group h g g'
| HO_deep g m g' : In (HGrp m) (objs h g) -> holds_group h m g' -> holds_group h g g'.
