(** What ACLConfig.filter prints on a configuration of any format (aclObjects.py:1368-1380
    with cafObjects.py:16-25, 82-123). *)
From Verif.Model Require Import Base Hosts Groups Rules Caf CafPrint CafText AclText Define GroupText ObjText NatText FileText FileFilter IosFile IosFilter Pfsense PfFile Auto.
From Verif.Model Require Config.

(** [acl_filter] of Model/Auto.v, with the printing. *)
Definition acl_filter_v (isalpha isalnum isspace : N -> bool) (fuel : nat) (c : aclconfig) (query : pystr) : pystr * result (list iid) :=
  let run h get rules nats :=
    match caf_read isalpha isalnum isspace h query with
    | Err e => ([], Err e)
    | Ok (h, x) => config_filter_v fuel h get x rules nats
    end in
  match c with
  | CAsa _ ms T =>
      let cfg := config_of ms in
      run (snd (w_net (tb_world T))) (item_at ms) (Config.c_rules cfg) [Config.c_nat1 cfg; Config.c_nat2 cfg; Config.c_nat3 cfg]
  | CIos _ ms T =>
      let cfg := fst (iconfig_of ms) in
      run (snd (w_net (it_world T))) (irule_at ms) (Config.c_rules cfg) [Config.c_nat1 cfg; Config.c_nat2 cfg; Config.c_nat3 cfg]
  | CPf cfg s => run (ps_nh s) (prule_at (pcf_rules cfg)) (seq 0 (length (pcf_rules cfg))) [[]; []; []]
  end.
