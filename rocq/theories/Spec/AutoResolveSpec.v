(** What resolving selected entries of a configuration means. *)
From Coq Require Import String.
From Verif.Model Require Import Base Ip Hosts Groups Rules Iface Resolve Auto FileText IosFile.
From Verif.Spec Require Import AddrSpec FilterSpec ResolveSpec AutoSpec.
Local Open Scope list_scope.

(** ** The access lists an interface block of IOS names: for each direction the last line
    counts. *)
Inductive binds (lines : list ifdetail) : pystr -> Prop :=
| BI_4 p a dir q : lines = p ++ DGroup4 a dir :: q -> (forall b, ~ In (DGroup4 b dir) q) -> binds lines a
| BI_6 p a dir q : lines = p ++ DGroup6 a dir :: q -> (forall b, ~ In (DGroup6 b dir) q) -> binds lines a.
(** ASA and FWSM have no such line in their interface blocks; their access-group lines and
    pfSense do not count. *)
Definition bound_in (c : aclconfig) (a : pystr) : Prop :=
  match c with
  | CIos cs _ _ => exists k n lines, nth_error cs k = Some (IIface n lines) /\ binds lines a
  | _ => False
  end.

(** ** Which groups a host refers to, directly or through groups *)
Inductive refers (h : heap) : host -> gid -> Prop :=
| RF_here g : refers h (HGrp g) g
| RF_in g x k : In x (objs h g) -> refers h x k -> refers h (HGrp g) k.
(** ... and which groups some entries refer to. *)
Definition entries_refer (c : aclconfig) (l : list nat) (g : gid) : Prop :=
  exists x i y, In x l /\ config_entry c x i /\ In y (item_srcs i ++ item_dsts i) /\ refers (config_groups c) y g.
Definition an_id (c : aclconfig) (l : list nat) (s : pystr) : Prop :=
  exists x r, In x l /\ config_entry c x (Rules.IRule r) /\ r_id r = Some s.

(** The names of kinds of things a selection can contain. *)
Definition kind_name (s : pystr) : Prop :=
  In s (map u ["NetworkGroup"; "PortGroup"; "ServiceGroup"; "ProtocolGroup"; "ICMPGroup"; "NetworkObject"; "ServiceObject"; "TimeRange"; "Names"; "Interface"; "NAT"]%string).

(** ** The objects of a configuration: [st] are the objects, [entry x] is the rule or NAT
    number [x], [netgrp g] the network group number [g], and [other] holds of everything
    that is neither, among them all that the remaining attributes lead to. *)
Section Shown.
  Context (c : aclconfig) (st : store) (entry : nat -> nat) (netgrp : gid -> nat) (other : elem -> Prop).
  Inductive host_shown : host -> elem -> Prop :=
  | HS_group g : host_shown (HGrp g) (EObj (netgrp g))
  | HS_object o i : st_kind st i = KNamed (u "NetworkObject") -> other (EObj i) -> host_shown (HObj o) (EObj i)
  | HS_host a i t : st_kind st i = KAddr t -> other (EObj i) -> host_shown (HLeaf (LHost a)) (EObj i)
  | HS_net n i t : st_kind st i = KAddr t -> other (EObj i) -> host_shown (HLeaf (LNet n)) (EObj i)
  | HS_rest l i : (forall a, l <> LHost a) -> (forall n, l <> LNet n) -> st_kind st i = KOther -> other (EObj i) -> host_shown (HLeaf l) (EObj i).
  Inductive node_shown : option natnode -> option elem -> Prop :=
  | NS_no : node_shown None None
  | NS_none : node_shown (Some NNone) (Some ENone)
  | NS_host x e : host_shown x e -> node_shown (Some (NHost x)) (Some e).
  Definition side_shown (d : natside) (s : rside) : Prop :=
    node_shown (ns_src d) (rs_src s) /\ node_shown (ns_dst d) (rs_dst s) /\ other (rs_iface s) /\ other (rs_service s).
  Definition rule_shown (r : rule) (s : rrule) : Prop :=
    rr_id s = r_id r /\ host_shown (r_src r) (rr_shost s) /\ host_shown (r_dst r) (rr_dhost s) /\
    (exists j n, rr_protocol s = EObj j /\ st_name st j = Some n) /\
    other (rr_protocol s) /\ other (rr_sport s) /\ other (rr_dport s) /\ other (rr_icmp s) /\ forall t, In t (rr_times s) -> other t.
  Record shown : Prop := {
    sh_rule : forall x r, config_entry c x (Rules.IRule r) -> exists s, st_kind st (entry x) = KRule s /\ rule_shown r s;
    sh_nat : forall x n a b, config_entry c x (INat n) -> nat_real n = Some a -> nat_mapped n = Some b ->
      exists s t, st_kind st (entry x) = KNat (Some s) (Some t) /\ side_shown a s /\ side_shown b t;
    sh_group : forall g, exists ms, st_kind st (netgrp g) = KGroup (u "NetworkGroup") ms /\ Forall2 host_shown (objs (config_groups c) g) ms;
    (** what the others lead to are others, and none of them is a network group *)
    sh_other : forall i, other (EObj i) -> forall e, edge st i e -> other e;
    sh_names : forall s, other (EStr s) -> kind_name s /\ s <> u "NetworkGroup" /\ s <> u "NAT";
    sh_apart_group : forall g, ~ other (EObj (netgrp g));
    sh_apart_entry : forall x i, config_entry c x i -> ~ other (EObj (entry x)) /\ forall g, entry x <> netgrp g;
    sh_one_entry : forall x y, entry x = entry y -> x = y;
    sh_one_group : forall g g', netgrp g = netgrp g' -> g = g' }.
  (** Finitely many objects can be reached. *)
  Definition finitely_many : Prop := exists all, forall l e, (forall x, In x l -> exists i, config_entry c x i) ->
    reachable st (map (fun x => EObj (entry x)) l) e -> In e all.
End Shown.
