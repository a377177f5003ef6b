(** What running a filter with [verbose=True] prints (cafObjects.py:16-25 and 82-123), as
    ACLConfig.filter does for the NAT entries (aclObjects.py:1379). *)
From Coq Require Import String.
From Verif.Model Require Import Base Ip Hosts Groups Ports AddrStr Rules Caf.
Local Open Scope list_scope.

Definition opt_str (s : option pystr) : pystr := match s with Some s => s | None => u "None" end.
(** The [__repr__] of the leaf classes: aclObjects.py:579, 428, 485, 496, 534, 561, 507 and
    cafObjects.py:138, 155, 172; Webtype has the one of NetworkAny. *)
Definition leaf_repr (l : leaf) : pystr :=
  match l with
  | LHost a => u "NetworkHost " ++ addr_str a
  | LNet n => u "Network " ++ net_str n
  | LWild a w => u "NetworkWildcard " ++ addr_str a ++ u "/" ++ addr_str w
  | LAny | LWebtype _ => u "NetworkAny"
  | LAny4 => u "NetworkAny4"
  | LAny6 => u "NetworkAny6"
  | LIface name => u "NetworkInterface " ++ name
  | LCafAny => u "cafNetworkAny"
  | LCafAny4 => u "cafNetworkAny4"
  | LCafAny6 => u "cafNetworkAny6"
  end.
(** NetworkObject 382-383; NetworkGroup 675-678.  [k]: the recursion limit, counted in
    nested groups. *)
Fixpoint host_repr (k : nat) (h : heap) (x : host) : result pystr :=
  match x with
  | HLeaf l => Ok (leaf_repr l)
  | HObj o => Ok (u "NetworkObject " ++ o_name o ++ u " " ++ opt_str (o_type o) ++ u " # " ++ o_descr o)
  | HGrp g =>
      match k with
      | O => Err RecursionError
      | S k =>
          do ms <- map_r (host_repr k h) (objs h g);
          Ok (u "NetworkGroup " ++ g_name (h_get h g) ++ u " (" ++ str_join (u ", ") ms ++ u ") # " ++ g_descr (h_get h g))
      end
  end.
(** ACLNode 1046-1049 without a port and ACLRule 1130-1133, for the rules a filter has
    (cafSemantics.py:115: mode, protocol and remarks are never given there). *)
Definition node_repr (k : nat) (h : heap) (x : host) : result pystr :=
  do s <- host_repr k h x; Ok (u "ACLNode (" ++ s ++ u ")").
Definition rule_repr (k : nat) (h : heap) (r : rule) : result pystr :=
  do s <- node_repr k h (r_src r);
  do d <- node_repr k h (r_dst r);
  Ok (u "ACLRule " ++ opt_str (r_id r) ++ u " None None src:" ++ s ++ u " dst:" ++ d ++ u " # []").
(** The class names. *)
Definition op_name (o : cafop) : pystr :=
  match o with Union => u "cafOpUnion" | Intersect => u "cafOpIntersect" | Except => u "cafOpExcept" end.
(** cafBlock 13-14, cafOp 91-92; the depth of the expression is not counted. *)
Fixpoint caf_repr (k : nat) (h : heap) (c : caf) : result pystr :=
  match c with
  | CClause r => do s <- rule_repr k h r; Ok (u "{ " ++ s ++ u " }")
  | CBlock b => do s <- caf_repr k h b; Ok (u "{ " ++ s ++ u " }")
  | COp o a b => do s <- caf_repr k h a; do t <- caf_repr k h b; Ok (s ++ u " " ++ op_name o ++ u " " ++ t)
  end.

Definition nl : pystr := [10%N].
Definition tab : pystr := [9%N].
(** The two calls of [print], 23 and 89; each adds a line feed. *)
Definition clause_line (s : pystr) (n : nat) : pystr :=
  nl ++ u "cafBlock " ++ s ++ u ": " ++ dec_str (N.of_nat n) ++ nl.
Definition op_lines (o : cafop) (a b : pystr) (n : nat) : pystr :=
  nl ++ op_name o ++ nl ++ tab ++ a ++ nl ++ tab ++ b ++ u ": " ++ dec_str (N.of_nat n) ++ nl ++ nl.

(** [run] with [verbose=True]: what was printed, and the result or exception. *)
Fixpoint caf_run_v (k : nat) (h : heap) (get : iid -> item) (c : caf) (rules : list iid) : pystr * result (list iid) :=
  match c with
  | CClause r =>
      match rules_filter k h get rules [r] with
      | Err e => ([], Err e)
      | Ok x => match rule_repr k h r with
                | Err e => ([], Err e)
                | Ok s => (clause_line s (length x), Ok x)
                end
      end
  | CBlock b => caf_run_v k h get b rules
  | COp o a b =>
      let (p, x) := caf_run_v k h get a rules in
      match x with Err e => (p, Err e) | Ok x =>
      let (q, y) := caf_run_v k h get b rules in
      match y with Err e => (p ++ q, Err e) | Ok y =>
      let r := set_op o x y in
      match (do s <- caf_repr k h a; do t <- caf_repr k h b; Ok (s, t)) with
      | Err e => (p ++ q, Err e)
      | Ok (s, t) => (p ++ q ++ op_lines o s t (length r), Ok r)
      end end end
  end.
(** ACLConfig.filter 1368-1380, with what it prints. *)
Definition config_filter_v (k : nat) (h : heap) (get : iid -> item) (c : caf)
    (rules : list iid) (nats : list (list iid)) : pystr * result (list iid) :=
  match caf_run k h get c rules with
  | Err e => ([], Err e)
  | Ok a =>
      let (p, b) := caf_run_v k h get c (concat nats) in
      (p, do b <- b; Ok (set_op Union (set_op Union [] a) b))
  end.
