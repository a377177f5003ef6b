(** What filtering by rules made by hand keeps. *)
From Verif.Model Require Import Base Ip Hosts Rules IosFile Pfsense PfFile Auto.
From Coq Require Import String.
From Verif.Spec Require Import AddrSpec FilterSpec AutoSpec IosFilterSpec AddrStrSpec.
Local Open Scope list_scope.

(** The rules of a configuration: its entries that are no NAT. *)
Definition config_rule (c : aclconfig) (x : nat) (r : Rules.rule) : Prop := config_entry c x (Rules.IRule r).

(** A rule to filter by: its hosts, objects and groups hold valid addresses and no
    wildcards. *)
Definition by_hand (c : aclconfig) (t : rule) : Prop :=
  id_regular (r_id t) /\
  term_wf (config_groups c) (r_src t) /\ term_wf (config_groups c) (r_dst t) /\
  wildfree (config_groups c) (r_src t) /\ wildfree (config_groups c) (r_dst t).
(** No IPv6 addresses against IOS wildcards; ids of pfSense rules regular. *)
Definition rules_comparable (c c' : aclconfig) (t : rule) : Prop :=
  match c with
  | CAsa _ _ _ => True
  | CIos cs _ _ => (v6free (config_groups c') (r_src t) /\ v6free (config_groups c') (r_dst t)) \/ no_wildcards cs
  | CPf cfg _ => forall r, In r (pcf_rules cfg) -> id_regular (p_id r)
  end.

(** Both ends are "any" or a webtype URL (or the term ANY, which no configuration has). *)
Definition any_end (x : host) : Prop := x = HLeaf LAny \/ (exists url, x = HLeaf (LWebtype url)) \/ x = HLeaf LCafAny.
Definition from_any_to_any (r : rule) : Prop := any_end (r_src r) /\ any_end (r_dst r).
(** One of the rules selects it. *)
Definition one_selects (c : aclconfig) (target : list rule) (r : rule) : Prop :=
  exists t, In t target /\ selects_rule (config_groups c) t r.

(** What the program of examples/acl-filter.py prints first: five counts. *)
Definition counted {A} (P : A -> Prop) (n : nat) : Prop := exists l, NoDup l /\ (forall x, In x l <-> P x) /\ List.length l = n.
Definition count_text (label : pystr) (P : nat -> Prop) (t : pystr) : Prop :=
  exists n d, counted P n /\ plain_decimal d (N.of_nat n) /\ t = label ++ u " " ++ d ++ [10%N].
