(** Filtering an IOS configuration read from a text by an expression read from a text:
    ACLConfig.fromString (lib/acltk/aclObjects.py:1275-1281), cafBlock.fromString
    (lib/acltk/cafObjects.py:27-54) and ACLConfig.filter (lib/acltk/aclObjects.py:1368-1380)
    on an iosConfig (lib/acltk/iosObjects.py:20-47), which does not override them. *)
From Verif.Model Require Import Base Ip Hosts Groups Rules Caf AclText Define IosText IosFile CafText.
From Verif.Model Require Config.

(** What ACLRule.__and__ (aclObjects.py:1103-1128) reads of a rule: id, source.host, dest.host. *)
Definition irule_of (x : irule) : rule := mkrule (Some (ir_id x)) (th_host (an_host (ir_src x))) (th_host (an_host (ir_dst x))).
(** Rules are numbered by their position among the rules; the other case does not occur. *)
Definition irule_at (ms : list imade) (k : iid) : item :=
  match nth_error (flat_map rules_made ms) k with
  | Some x => Rules.IRule (irule_of x)
  | None => Rules.IRule (mkrule None (HLeaf LAny) (HLeaf LAny))
  end.

Section IosFilter.
  Context (isalpha isalnum isspace : N -> bool) (py_int : pystr -> option Z).
  Definition ios_filter (fuel : nat) (data query : pystr) : result (list iid) :=
    do x <- ios_parse isalpha isalnum isspace py_int data;
    let '(_, ms, T) := x in
    do y <- caf_read isalpha isalnum isspace (snd (w_net (it_world T))) query;
    let '(h, c) := y in
    let cfg := fst (iconfig_of ms) in
    config_filter fuel h (irule_at ms) c (Config.c_rules cfg) [Config.c_nat1 cfg; Config.c_nat2 cfg; Config.c_nat3 cfg].
End IosFilter.
