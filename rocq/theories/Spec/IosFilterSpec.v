(** What a filter expression selects of an IOS configuration, both written as text. *)
From Verif.Model Require Import Base Ip Hosts Groups Rules Caf AclText CafText IosText IosFile.
From Verif.Spec Require Import CafMeanSpec IosConfigSpec.

(** The rule number [k] of the text, with its id, source and destination. *)
Inductive irule_entry (cs : list icommand) : nat -> item -> Prop :=
| IRE k x : nth_error (flat_map irules_in cs) k = Some x ->
    irule_entry cs k (Rules.IRule (mkrule (Some (ir_id x)) (th_host (an_host (ir_src x))) (th_host (an_host (ir_dst x))))).

(** The networks an expression names. *)
Fixpoint named_nets (e : cexpr) : list nettext :=
  match e with CE f l => nets_of_set f ++ flat_map (fun x => nets_of_set (snd x)) l end
with nets_of_set (x : cset) : list nettext :=
  match x with CS _ l => flat_map nets_of_obj l end
with nets_of_obj (o : cobj) : list nettext :=
  match o with OIp _ l => l | OExpr e => named_nets e end.
(** No IPv6 address is written in it; "any6" and "ANY6" may be. *)
Definition no_ipv6 (e : cexpr) : Prop :=
  forall t n, In t (named_nets e) -> net_reads t n -> match n with NtHost a | NtNet a _ => a_ver a = V4 | _ => True end.
(** No rule has a wildcard that is neither a mask nor an inverse mask. *)
Definition no_wildcards (cs : list icommand) : Prop :=
  forall x a w, In x (flat_map irules_in cs) -> th_host (an_host (ir_src x)) <> HLeaf (LWild a w) /\ th_host (an_host (ir_dst x)) <> HLeaf (LWild a w).
