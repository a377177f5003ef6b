(** What a filter expression selects of a pfSense configuration. *)
From Verif.Model Require Import Base Ip Hosts Groups Rules Pfsense.
From Verif.Spec Require Import AddrSpec.

(** The rule number [k], with its list, source and destination. *)
Inductive prule_entry (rs : list prule) : nat -> item -> Prop :=
| PRE k r : nth_error rs k = Some r -> prule_entry rs k (IRule (mkrule (p_id r) (pn_host (p_src r)) (pn_host (p_dst r)))).

(** What the library makes of a text is an address, a network. *)
Definition addresses_valid (ip_addr : pystr -> option addr) (ip_net : pystr -> pystr -> result net) : Prop :=
  (forall s a, ip_addr s = Some a -> valid a) /\ (forall a m n, ip_net a m = Ok n -> net_wf n).
