(** References to named objects (aclSemantics.py:505-600, acl.bnf:66-160,281-283). *)
From Coq Require Import String.
From Verif.Model Require Import Base Ip Iface Peg.
Local Open Scope list_scope.

Section Ids.
  Context (isalpha isalnum : N -> bool).
  Notation token := (token isalpha isalnum).

  (** aclParser.__acl_internal_ids 535-547: the known names in reverse sorted order, each
      an option of an ordered choice; no option at all if nothing is known. *)
  Definition ids {V} (table : dict V) : parser pystr :=
    choice (map token (rev (sorted str_ltb (map fst table)))).

  (** [table[name]] in the semantic actions acl_* 373-408. *)
  Definition subscript {V} (table : dict V) (n : pystr) : result V :=
    match dget table n with Some v => Ok v | None => Err KeyError end.

  (** acl.bnf, e.g. acl_object_network 75-77: [&(id (WS|NL)) name:id]. *)
  Definition reference {V} (table : dict V) : parser V :=
    act (subscript table)
        (let% _ := look (let% _ := ids table in por ws nl) in ids table).

  (** acl.bnf:129-131 acl_name_slash: [&(acl_names_id "/") name:acl_names_id]. *)
  Definition name_slash {V} (table : dict V) : parser V :=
    act (subscript table)
        (let% _ := look (let% _ := ids table in char 47) in ids table).

  (** acl.bnf:133-136 acl_name. *)
  Definition acl_name {V} (table : dict V) : parser V := por (reference table) (name_slash table).

  (** nat_interfaces: acl.bnf:281-283 and aclSemantics.py:493-502;
      [inl tt] is the fresh interface "any". *)
  Definition nat_iface {V} (table : dict V) : parser (unit + V) :=
    act (fun v => if str_eqb v (u "any") then Ok (inl tt)
                  else do i <- subscript table v; Ok (inr i))
        (por (token (u "any")) (ids table)).
  Definition nat_interfaces {V} (table : dict V) : parser ((unit + V) * (unit + V)) :=
    let% _ := char 40 in
    let% real := nat_iface table in
    let% _ := char 44 in
    let% mapped := nat_iface table in
    let% _ := char 41 in
    ret (real, mapped).
End Ids.
