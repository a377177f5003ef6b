(** Filtering by rules made by hand (ACLRules.filter, aclObjects.py:1162-1169) as
    examples/acl-filter.py does, and by an expression on the rules alone
    (examples/caf-filter.py), on a configuration of any format. *)
From Coq Require Import String.
From Verif.Model Require Import Base Ip Hosts Groups Rules Caf AddrStr AddrText CafPrint CafText AclText Define GroupText ObjText NatText FileText FileFilter IosFile IosFilter Pfsense PfFile Auto.
From Verif.Model Require Config.
Local Open Scope list_scope.

(** [config.rules.rules]: filled in aclObjects.py:1205-1208, iosObjects.py:24-33 and
    pfsenseSemantics.py:220-228. *)
Definition rules_of (c : aclconfig) : list iid :=
  match c with
  | CAsa _ ms _ => Config.c_rules (config_of ms)
  | CIos _ ms _ => Config.c_rules (fst (iconfig_of ms))
  | CPf cfg _ => seq 0 (length (pcf_rules cfg))
  end.
Definition object_at (c : aclconfig) : iid -> item :=
  match c with CAsa _ ms _ => item_at ms | CIos _ ms _ => irule_at ms | CPf cfg _ => prule_at (pcf_rules cfg) end.
Definition groups_in (c : aclconfig) : heap :=
  match c with CAsa _ _ T => snd (w_net (tb_world T)) | CIos _ _ T => snd (w_net (it_world T)) | CPf _ s => ps_nh s end.

(** ACLRule.__init__ 1067-1101 with ACLNode.__init__ 1021-1044 around its hosts: both ends
    must be given.  Keywords it does not know ([**kwargs]) are dropped. *)
Definition aclrule (id : option pystr) (src dst : option host) : result rule :=
  match src, dst with
  | Some s, Some d => Ok (mkrule id s d)
  | _, _ => Err AssertionError
  end.
(** Network(address=a, netmask=m) 386-391 *)
Definition network (a m : pystr) : result host := do n <- ip_network_text a m; Ok (HLeaf (LNet n)).

(** [config.rules.filter(target)] *)
Definition acl_rules_filter (k : nat) (c : aclconfig) (target : list rule) : result (list iid) :=
  rules_filter k (groups_in c) (object_at c) (rules_of c) target.
(** [ast.run(aclConfig.rules)], caf-filter.py:12 *)
Definition acl_rules_run (isalpha isalnum isspace : N -> bool) (k : nat) (c : aclconfig) (query : pystr) : result (list iid) :=
  do (h, x) <- caf_read isalpha isalnum isspace (groups_in c) query;
  caf_run k h (object_at c) x (rules_of c).

(** [isinstance(x, NetworkAny)]; Webtype (fwsmObjects.py:7) and cafNetworkAny
    (cafObjects.py:125) are subclasses. *)
Definition is_any (x : host) : bool :=
  match x with HLeaf LAny | HLeaf (LWebtype _) | HLeaf LCafAny => true | _ => false end.
(** acl-filter.py:16-18; the objects of [rules.rules] are rules. *)
Definition any_any (i : item) : bool :=
  match i with Rules.IRule r => is_any (r_src r) && is_any (r_dst r) | INat _ => false end.
(** acl-filter.py:15-48: what is printed before the rules, and the rules printed, in order
    (not their text).  [base], [target]: the two lists that are built. *)
Definition count_line (label : pystr) (l : list iid) : pystr := label ++ u " " ++ dec_str (N.of_nat (length l)) ++ nl.
Definition manual (k : nat) (c : aclconfig) (base target : result (list rule)) : pystr * result (list iid) :=
  let anyany := fold_left (fun s x => if any_any (object_at c x) then set_add x s else s) (rules_of c) [] in
  let p := count_line (u "anyany") anyany in
  match (do t <- base; acl_rules_filter k c t) with
  | Err e => (p, Err e)
  | Ok base =>
      let un := set_op Union anyany base in
      let p := p ++ count_line (u "base") base ++ count_line (u "union") un in
      match (do t <- target; acl_rules_filter k c t) with
      | Err e => (p, Err e)
      | Ok rules =>
          let remain := set_op Except rules un in
          (p ++ count_line (u "rules") rules ++ count_line (u "remain") remain, Ok (filter (fun x => mem x remain) (rules_of c)))
      end
  end.
(** acl-filter.py:21-24 and 31-34 as written: [source] and [dest] are no parameters of
    ACLRule. *)
Definition example_rule (id : pystr) (source dest : result host) : result rule :=
  do _ <- source; do _ <- dest; aclrule (Some id) None None.
Definition example_rules (net : pystr) : result (list rule) :=
  do a <- example_rule (u "inside_in") (Ok (HLeaf LAny)) (network net (u "24"));
  do b <- example_rule (u "outside_in") (network net (u "24")) (Ok (HLeaf LAny));
  Ok [a; b].
Definition example (k : nat) (c : aclconfig) : pystr * result (list iid) :=
  manual k c (example_rules (u "10.2.0.0")) (example_rules (u "10.1.0.0")).
(** The same with [src] and [dst]. *)
Definition intended_rules (net : pystr) : result (list rule) :=
  do n <- network net (u "24");
  do a <- aclrule (Some (u "inside_in")) (Some (HLeaf LAny)) (Some n);
  do m <- network net (u "24");
  do b <- aclrule (Some (u "outside_in")) (Some m) (Some (HLeaf LAny));
  Ok [a; b].
