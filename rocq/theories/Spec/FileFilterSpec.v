(** What a filter expression selects of a configuration, both written as text. *)
From Verif.Model Require Import Base Ip Hosts Groups Rules Caf Nat AclText CafText FileText.
From Verif.Spec Require Import FilterSpec.

(** The entries of a configuration, by the positions of their commands: access-list rules
    with their id, source and destination, NAT commands, and the NAT of network objects. *)
Inductive rule_entry (cs : list command) : nat -> item -> Prop :=
| RE_rule k x : nth_error cs k = Some (CRule x) ->
    rule_entry cs k (IRule (mkrule (Some (ar_id x)) (th_host (an_host (ar_src x))) (th_host (an_host (ar_dst x))))).
Inductive entry (cs : list command) (ms : list made) : nat -> item -> Prop :=
| EN_rule k i : rule_entry cs k i -> entry cs ms k i
| EN_nat k n : nth_error cs k = Some (CNat (Some n)) -> entry cs ms k (INat n)
| EN_object k p n : nth_error ms k = Some (MNetObj p (Some n)) -> entry cs ms k (INat n).

(** The ids an expression asks for. *)
Fixpoint expr_ids (e : cexpr) : list (option pystr) :=
  match e with CE f l => set_ids f ++ flat_map (fun x => set_ids (snd x)) l end
with set_ids (x : cset) : list (option pystr) :=
  match x with CS _ [OExpr e] => expr_ids e | CS id _ => [id] end.
