(** ACLConfig.resolve (lib/acltk/aclObjects.py:1291-1354) on a configuration that was read,
    and the entries a filter selected, as in examples/render/static.py:49-62. *)
From Verif.Model Require Import Base Iface FileText IosFile Resolve Auto.
From Verif.Model Require Config.

(** [self.access_groups] has the key [a] (1213-1216, where Interface objects come in).
    pfSense interfaces never have access groups (pfsenseSemantics.py:82-105, C39). *)
Definition access_groups (c : aclconfig) (a : pystr) : bool :=
  match c with
  | CAsa _ ms _ => dmem (Config.c_agroups (config_of ms)) a
  | CIos _ ms _ => dmem (Config.c_agroups (fst (iconfig_of ms))) a
  | CPf _ _ => false
  end.
(** The objects are those of [st]; [entry] gives the object of a rule or NAT. *)
Definition acl_resolve (c : aclconfig) (st : store) (entry : nat -> nat) (order : nat -> list elem -> list elem)
    (fuel : nat) (l : list nat) : list elem * result (list elem) :=
  resolve st (access_groups c) order fuel (map (fun x => EObj (entry x)) l).
