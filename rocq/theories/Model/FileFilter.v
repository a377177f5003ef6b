(** Filtering a configuration read from a text by an expression read from a text:
    ACLConfig.fromString (lib/acltk/aclObjects.py:1275-1281), cafBlock.fromString
    (lib/acltk/cafObjects.py:27-54) and ACLConfig.filter (lib/acltk/aclObjects.py:1368-1380),
    as examples/render/static.py:40-49 and examples/acl-filter.py use them. *)
From Verif.Model Require Import Base Ip Hosts Groups Rules Caf Nat AclText Define NatText FileText CafText.
From Verif.Model Require Config.

(** What ACLRule.__and__ (aclObjects.py:1103-1128) reads of a rule: id, source.host, dest.host. *)
Definition rule_of (x : aclrule) : rule := mkrule (Some (ar_id x)) (th_host (an_host (ar_src x))) (th_host (an_host (ar_dst x))).
(** The objects that are filtered: rules, and NAT entries written as NAT commands or in
    network objects. *)
Definition made_item (m : made) : option item :=
  match m with
  | MRule x => Some (IRule (rule_of x))
  | MNat n | MNetObj _ (Some n) => Some (INat n)
  | _ => None
  end.
(** Objects are numbered by the position of their command. *)
Definition item_at (ms : list made) (k : iid) : item :=
  match nth_error ms k with
  | Some m => match made_item m with Some i => i | None => IRule (mkrule None (HLeaf LAny) (HLeaf LAny)) end
  | None => IRule (mkrule None (HLeaf LAny) (HLeaf LAny))
  end.

Section FileFilter.
  Context (isalpha isalnum isspace : N -> bool) (py_int : pystr -> option Z).
  (** ACLConfig.filter on the configuration of [data]; the groups the expression makes are
      added to those of the configuration. *)
  Definition file_filter (fuel : nat) (data query : pystr) : result (list iid) :=
    do x <- parse_file isalpha isalnum isspace py_int data;
    let '(_, ms, T) := x in
    do y <- caf_read isalpha isalnum isspace (snd (w_net (tb_world T))) query;
    let '(h, c) := y in
    let cfg := config_of ms in
    config_filter fuel h (item_at ms) c (Config.c_rules cfg) [Config.c_nat1 cfg; Config.c_nat2 cfg; Config.c_nat3 cfg].
  (** cafBlock.run on the rules only (cafObjects.py:16-25), as in examples/caf-filter.py. *)
  Definition file_rules_filter (fuel : nat) (data query : pystr) : result (list iid) :=
    do x <- parse_file isalpha isalnum isspace py_int data;
    let '(_, ms, T) := x in
    do y <- caf_read isalpha isalnum isspace (snd (w_net (tb_world T))) query;
    let '(h, c) := y in
    caf_run fuel h (item_at ms) c (Config.c_rules (config_of ms)).
End FileFilter.
