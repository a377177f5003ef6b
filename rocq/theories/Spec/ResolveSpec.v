(** What resolve ought to return: the least set that contains the selection, what the
    selected rules and NAT objects mention, and is closed under going from a group to its
    members, from an address to the name it was written with, from an access-group to its
    interface, and from a thing to the name of its kind. *)
From Coq Require Import String.
From Verif.Model Require Import Base Iface Resolve.
Local Open Scope list_scope.

Section Spec.
  Context (st : store).

  (** Attributes of a selected rule. *)
  Inductive rule_attr (r : rrule) : elem -> Prop :=
  | ra_protocol : rule_attr r (rr_protocol r)
  | ra_shost : rule_attr r (rr_shost r)
  | ra_sport : rule_attr r (rr_sport r)
  | ra_dhost : rule_attr r (rr_dhost r)
  | ra_dport : rule_attr r (rr_dport r)
  | ra_id s : rr_id r = Some s -> rule_attr r (EStr s)
  | ra_noid : rr_id r = None -> rule_attr r ENone
  | ra_icmp i n : rr_protocol r = EObj i -> st_name st i = Some (Some n) -> n = u "icmp" \/ n = u "icmp6" ->
      rr_icmp r <> ENone -> rule_attr r (rr_icmp r)
  | ra_time t : In t (rr_times r) -> rule_attr r t.

  (** Attributes of one side of a selected NAT object. *)
  Inductive side_attr (d : rside) : elem -> Prop :=
  | sa_src e : rs_src d = Some e -> side_attr d e
  | sa_dst e : rs_dst d = Some e -> side_attr d e
  | sa_iface : side_attr d (rs_iface d)
  | sa_service : side_attr d (rs_service d).

  (** From one thing to the next. *)
  Inductive edge (i : nat) : elem -> Prop :=
  | ed_member c m e : st_kind st i = KGroup c m -> In e m -> edge i e
  | ed_group c m : st_kind st i = KGroup c m -> edge i (EStr c)
  | ed_target t : st_kind st i = KAddr (Some t) -> edge i t
  | ed_names t : st_kind st i = KAddr (Some t) -> edge i (EStr (u "Names"))
  | ed_named c : st_kind st i = KNamed c -> edge i (EStr c)
  | ed_iface f : st_kind st i = KAccess f -> edge i f
  | ed_interface f : st_kind st i = KAccess f -> edge i (EStr (u "Interface"))
  | ed_nat a b : st_kind st i = KNat a b -> edge i (EStr (u "NAT")).

  Inductive reachable (start : list elem) : elem -> Prop :=
  | re_start e : In e start -> reachable start e
  | re_rule i r e : In (EObj i) start -> st_kind st i = KRule r -> rule_attr r e -> reachable start e
  | re_real i a b e : In (EObj i) start -> st_kind st i = KNat (Some a) b -> side_attr a e -> reachable start e
  | re_mapped i a b e : In (EObj i) start -> st_kind st i = KNat a (Some b) -> side_attr b e -> reachable start e
  | re_edge i e : reachable start (EObj i) -> edge i e -> reachable start e.

  (** Well-formed selections: rules have a protocol that has a name, NAT objects have
      both sides.  (True of everything the parsers build.) *)
  Definition well_formed (start : list elem) : Prop :=
    forall i, In (EObj i) start ->
      (forall r, st_kind st i = KRule r -> exists j n, rr_protocol r = EObj j /\ st_name st j = Some n) /\
      (forall a b, st_kind st i = KNat a b -> a <> None /\ b <> None).
End Spec.
