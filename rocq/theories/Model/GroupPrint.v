(** What printing a rule of a configuration shows of its ends: [print(rule)] as in
    examples/caf-filter.py:13 and acl-filter.py:45-47.  Simplification: the texts of mode,
    protocol, ports and remarks and of descriptions ("None" if there is none) are parameters. *)
From Coq Require Import String.
From Verif.Model Require Import Base Ip Hosts Groups AddrStr Rules CafPrint.
Local Open Scope list_scope.

Section Print.
  (** The description of a network object and of a group, as printed. *)
  Context (odescr : netobj -> pystr) (gdescr : gid -> pystr).
  (** The [__repr__] of hosts: [leaf_repr] (aclObjects.py:428, 485, 496, 507, 534, 561, 579),
      NetworkObject 382-383, NetworkGroup 675-678; [k] nested calls for groups. *)
  Fixpoint term_repr (k : nat) (h : heap) (x : host) : result pystr :=
    match x with
    | HLeaf l => Ok (leaf_repr l)
    | HObj o => Ok (u "NetworkObject " ++ o_name o ++ u " " ++ opt_str (o_type o) ++ u " # " ++ odescr o)
    | HGrp g =>
        match k with
        | O => Err RecursionError
        | S k =>
            do ms <- map_r (term_repr k h) (objs h g);
            Ok (u "NetworkGroup " ++ g_name (h_get h g) ++ u " (" ++ str_join (u ", ") ms ++ u ") # " ++ gdescr g)
        end
    end.
  (** ACLNode 1046-1049 *)
  Definition end_repr (k : nat) (h : heap) (x : host) (port : option pystr) : result pystr :=
    do s <- term_repr k h x;
    Ok (match port with
        | Some p => u "ACLNode (" ++ s ++ u ":" ++ p ++ u ")"
        | None => u "ACLNode (" ++ s ++ u ")"
        end).
  (** ACLRule 1130-1133 *)
  Definition aclrule_repr (k : nat) (h : heap) (mode protocol remark : pystr) (sport dport : option pystr) (r : rule) : result pystr :=
    do s <- end_repr k h (r_src r) sport;
    do d <- end_repr k h (r_dst r) dport;
    Ok (u "ACLRule " ++ opt_str (r_id r) ++ u " " ++ mode ++ u " " ++ protocol ++ u " src:" ++ s ++ u " dst:" ++ d ++ u " # " ++ remark).
End Print.
