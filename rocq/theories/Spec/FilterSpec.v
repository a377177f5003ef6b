(** What a filter selects, in terms of addresses, ids and set algebra. *)
From Verif.Model Require Import Base Ip Hosts Groups Rules Caf.
From Verif.Spec Require Import AddrSpec GlobSpec.

(** The terms that select every rule side, whatever it holds. *)
Definition everything (l : leaf) : Prop :=
  match l with LAny | LWebtype _ | LIface _ => True | _ => False end.

(** A clause term [x] selects the rule side [y]: through an any term, through an
    address both have in common, or (ANY, ANY4, ANY6) through a literal any. *)
Definition term_selects (h : heap) (x y : host) : Prop :=
  exists l, reaches h x l /\
    match l with
    | LCafAny | LCafAny4 | LCafAny6 => exists m, via_groups h y (HLeaf m) /\ literal_any l m
    | _ => everything l \/ common h (HLeaf l) y
    end.

(** [id] is [/p/] with a non-empty pattern [p]. *)
Definition slash : N := 47%N.
Definition wrapped (id p : pystr) : Prop := id = slash :: p ++ [slash] /\ p <> [].
Definition is_wrapped (id : pystr) : Prop := exists p, wrapped id p.
(** [id] begins and ends with a slash ([/] and [//] do, too). *)
Definition between_slashes (id : pystr) : Prop :=
  (exists s, id = slash :: s) /\ (exists s, id = s ++ [slash]).

Definition absent (id : option pystr) : Prop := id = None \/ id = Some [].

(** A clause id selects a rule id.  The last case is the code's peculiarity that a rule
    whose own id is written [/p/] is itself taken as a pattern for the clause's id. *)
Inductive id_selects : option pystr -> option pystr -> Prop :=
| IS_no_clause c r : absent c -> id_selects c r
| IS_no_rule c r : absent r -> id_selects c r
| IS_pattern c p r : wrapped c p -> r <> [] -> glob p r -> id_selects (Some c) (Some r)
| IS_equal c : ~ is_wrapped c -> id_selects (Some c) (Some c)
| IS_rule_pattern c r p : ~ between_slashes c -> c <> [] -> wrapped r p -> glob p c ->
    id_selects (Some c) (Some r).

(** Ids whose pattern CPython's fnmatch treats regularly (see GlobSpec). *)
Definition id_regular (id : option pystr) : Prop :=
  forall s p, id = Some s -> wrapped s p -> regular p.

(** A clause selects a rule. *)
Definition selects_rule (h : heap) (c r : rule) : Prop :=
  id_selects (r_id c) (r_id r) /\ term_selects h (r_src c) (r_src r) /\ term_selects h (r_dst c) (r_dst r).

(** The host an endpoint of a NAT side holds, if any. *)
Inductive endpoint : option natnode -> host -> Prop := EP x : endpoint (Some (NHost x)) x.
Definition missing (n : option natnode) : Prop := n = None \/ n = Some NNone.

(** A clause selects one side of a NAT: every endpoint present overlaps, and there is one. *)
Definition selects_side (h : heap) (c : rule) (s : natside) : Prop :=
  (forall x, endpoint (ns_src s) x -> term_selects h (r_src c) x) /\
  (forall x, endpoint (ns_dst s) x -> term_selects h (r_dst c) x) /\
  ((exists x, endpoint (ns_src s) x) \/ (exists x, endpoint (ns_dst s) x)).
Definition selects_nat (h : heap) (c : rule) (n : natobj) : Prop :=
  (exists s, nat_real n = Some s /\ selects_side h c s) \/
  (exists s, nat_mapped n = Some s /\ selects_side h c s).

Definition selects (h : heap) (c : rule) (i : item) : Prop :=
  match i with IRule r => selects_rule h c r | INat n => selects_nat h c n end.

(** Set algebra of a filter expression over a clause-level selection. *)
Fixpoint denotes {A} (sel : rule -> A -> Prop) (c : caf) (x : A) : Prop :=
  match c with
  | CClause r => sel r x
  | CBlock b => denotes sel b x
  | COp Union a b => denotes sel a x \/ denotes sel b x
  | COp Intersect a b => denotes sel a x /\ denotes sel b x
  | COp Except a b => denotes sel a x /\ ~ denotes sel b x
  end.

(** The clauses of an expression. *)
Fixpoint clauses (c : caf) : list rule :=
  match c with CClause r => [r] | CBlock b => clauses b | COp _ a b => clauses a ++ clauses b end.

(** The endpoints of an item, paired with the clause side they are compared with. *)
Definition node_host (n : option natnode) : list host :=
  match n with Some (NHost x) => [x] | _ => [] end.
Definition side_srcs (s : option natside) : list host :=
  match s with Some s => node_host (ns_src s) | None => [] end.
Definition side_dsts (s : option natside) : list host :=
  match s with Some s => node_host (ns_dst s) | None => [] end.
Definition item_srcs (i : item) : list host :=
  match i with IRule r => [r_src r] | INat n => side_srcs (nat_real n) ++ side_srcs (nat_mapped n) end.
Definition item_dsts (i : item) : list host :=
  match i with IRule r => [r_dst r] | INat n => side_dsts (nat_real n) ++ side_dsts (nat_mapped n) end.

(** NAT objects as the parser builds them: both sides there, no unresolved
    "interface" endpoint left. *)
Definition resolved_node (n : option natnode) : Prop := n <> Some NIfaceName.
Definition resolved_side (s : option natside) : Prop :=
  exists x, s = Some x /\ resolved_node (ns_src x) /\ resolved_node (ns_dst x).
Definition resolved (i : item) : Prop :=
  match i with IRule _ => True | INat n => resolved_side (nat_real n) /\ resolved_side (nat_mapped n) end.

(** A clause term and a rule side for which the overlap is defined by addresses:
    well-formed; the rule side without ANY terms; the clause without wildcards; and
    either no wildcard in the rule side or no IPv6 literal in the clause term. *)
Definition comparable (h : heap) (x y : host) : Prop :=
  term_wf h x /\ term_wf h y /\ plain h y /\ wildfree h x /\ (wildfree h y \/ v6free h x).
Definition comparable_item (h : heap) (c : rule) (i : item) : Prop :=
  resolved i /\
  (forall y, In y (item_srcs i) -> comparable h (r_src c) y) /\
  (forall y, In y (item_dsts i) -> comparable h (r_dst c) y) /\
  id_regular (r_id c) /\ match i with IRule r => id_regular (r_id r) | INat _ => True end.

(** Recursion depth sufficient for comparing a clause with an item. *)
Definition deep_enough (rk : gid -> nat) (c : rule) (i : item) (k : nat) : Prop :=
  (forall y, In y (item_srcs i) -> rank rk (r_src c) + rank rk y + 3 <= k) /\
  (forall y, In y (item_dsts i) -> rank rk (r_dst c) + rank rk y + 3 <= k).
