(** What running a filter prints. *)
From Coq Require Import String.
From Verif.Model Require Import Base Ip Hosts Groups Rules Caf.
From Verif.Spec Require Import AddrSpec FilterSpec AddrTextSpec CafMeanSpec AddrStrSpec.
Local Open Scope list_scope.

(** The canonical texts of addresses and networks. *)
Definition canonical_text (a : addr) (t : pystr) : Prop :=
  match a_ver a with
  | V4 => t = quad (a_val a)
  | V6 => exists vs, length vs = 8 /\ number_of vs = a_val a /\ Forall (fun v => v < 65536)%N vs /\ canonical6 t vs
  end.
Definition network_text (n : net) (t : pystr) : Prop :=
  exists a p, canonical_text (mkaddr (n_ver n) (n_addr n)) a /\ plain_decimal p (n_plen n) /\ t = a ++ u "/" ++ p.

(** A list with separators. *)
Inductive listed (sep : pystr) : list pystr -> pystr -> Prop :=
| LI_none : listed sep [] []
| LI_one t : listed sep [t] t
| LI_more t l s : l <> [] -> listed sep l s -> listed sep (t :: l) (t ++ sep ++ s).

(** Terms. *)
Inductive leaf_text : leaf -> pystr -> Prop :=
| LT_host a t : canonical_text a t -> leaf_text (LHost a) (u "NetworkHost " ++ t)
| LT_net n t : network_text n t -> leaf_text (LNet n) (u "Network " ++ t)
| LT_wild a w t s : canonical_text a t -> canonical_text w s -> leaf_text (LWild a w) (u "NetworkWildcard " ++ t ++ u "/" ++ s)
| LT_any : leaf_text LAny (u "NetworkAny")
| LT_web url : leaf_text (LWebtype url) (u "NetworkAny")
| LT_any4 : leaf_text LAny4 (u "NetworkAny4")
| LT_any6 : leaf_text LAny6 (u "NetworkAny6")
| LT_iface n : leaf_text (LIface n) (u "NetworkInterface " ++ n)
| LT_ANY : leaf_text LCafAny (u "cafNetworkAny")
| LT_ANY4 : leaf_text LCafAny4 (u "cafNetworkAny4")
| LT_ANY6 : leaf_text LCafAny6 (u "cafNetworkAny6").
Inductive or_none : option pystr -> pystr -> Prop :=
| ON_none : or_none None (u "None")
| ON_some s : or_none (Some s) s.
Inductive term_text (h : heap) : host -> pystr -> Prop :=
| TT_leaf l t : leaf_text l t -> term_text h (HLeaf l) t
| TT_obj o t : or_none (o_type o) t ->
    term_text h (HObj o) (u "NetworkObject " ++ o_name o ++ u " " ++ t ++ u " # " ++ o_descr o)
| TT_grp g ts s : Forall2 (term_text h) (objs h g) ts -> listed (u ", ") ts s ->
    term_text h (HGrp g) (u "NetworkGroup " ++ g_name (h_get h g) ++ u " (" ++ s ++ u ") # " ++ g_descr (h_get h g)).

(** Clauses and expressions. *)
Inductive clause_text (h : heap) : rule -> pystr -> Prop :=
| CT_rule r i s d : or_none (r_id r) i -> term_text h (r_src r) s -> term_text h (r_dst r) d ->
    clause_text h r (u "ACLRule " ++ i ++ u " None None src:ACLNode (" ++ s ++ u ") dst:ACLNode (" ++ d ++ u ") # []").
Definition operator_name (o : cafop) : pystr :=
  match o with Union => u "cafOpUnion" | Intersect => u "cafOpIntersect" | Except => u "cafOpExcept" end.
Inductive filter_text (h : heap) : caf -> pystr -> Prop :=
| FT_clause r t : clause_text h r t -> filter_text h (CClause r) (u "{ " ++ t ++ u " }")
| FT_block c t : filter_text h c t -> filter_text h (CBlock c) (u "{ " ++ t ++ u " }")
| FT_op o a b s t : filter_text h a s -> filter_text h b t ->
    filter_text h (COp o a b) (s ++ u " " ++ operator_name o ++ u " " ++ t).

(** The report: for every clause and every operator, the parts of an operator first, the
    number of entries among [rules] that this part of the filter selects. *)
Definition count {A} (sel : rule -> A -> Prop) (rules : list A) (c : caf) (n : nat) : Prop :=
  exists s, NoDup s /\ length s = n /\ forall x, In x s <-> In x rules /\ denotes sel c x.
Inductive report {A} (h : heap) (sel : rule -> A -> Prop) (rules : list A) : caf -> pystr -> Prop :=
| RP_clause r t n d : clause_text h r t -> count sel rules (CClause r) n -> plain_decimal d (N.of_nat n) ->
    report h sel rules (CClause r) ([10%N] ++ u "cafBlock " ++ t ++ u ": " ++ d ++ [10%N])
| RP_block c p : report h sel rules c p -> report h sel rules (CBlock c) p
| RP_op o a b p q s t n d : report h sel rules a p -> report h sel rules b q ->
    filter_text h a s -> filter_text h b t -> count sel rules (COp o a b) n -> plain_decimal d (N.of_nat n) ->
    report h sel rules (COp o a b)
      (p ++ q ++ [10%N] ++ operator_name o ++ [10%N; 9%N] ++ s ++ [10%N; 9%N] ++ t ++ u ": " ++ d ++ [10%N; 10%N]).
