(** How manual NAT lines of an ASA configuration are written. *)
From Coq Require Import String.
From Verif.Model Require Import Base Ip Hosts Groups Rules Nat Iface AddrText Ports AclText Define ObjText NatText.
From Verif.Spec Require Import AddrSpec AddrTextSpec RefSpec CafMeanSpec AclTextSpec GroupTextSpec ObjTextSpec LineTextSpec.
Local Open Scope list_scope.

Section ManualNat.
  Variables (E : env) (IF : dict ifnames).
  (** Names of objects come first, then names of groups, then words. *)
  Inductive node_text : host -> pystr -> Prop :=
  | NX_object n o : dget (e_netobj E) n = Some o -> node_text (HObj o) n
  | NX_group n x : dget (e_netgrp E) n = Some x -> ~ is_known (e_netobj E) n -> node_text (HGrp x) n.
  Inductive real_text : real_ast -> pystr -> Prop :=
  | RT_node h t : node_text h t -> real_text (RNode h) t
  | RT_any : unknown E (u "any") -> real_text RAny (u "any").
  Inductive mapped_node_text : bool -> mapped_ast -> pystr -> Prop :=
  | MX_node static h t f : node_text h t -> fallback_text f -> (static = true -> f = []) -> mapped_node_text static (MNode h) (t ++ f)
  | MX_iface static t : unknown E (u "interface") -> opt_ipv6_text t -> mapped_node_text static MIface (u "interface" ++ t)
  | MX_any : unknown E (u "any") -> mapped_node_text true MAny (u "any")
  | MX_pool g h n l o f : unknown E (u "pat-pool") -> gap g -> pool_range E h n -> each (fun _ : unit => pool_option_text) l o -> fallback_text f ->
      mapped_node_text false (MNode h) (u "pat-pool" ++ g ++ n ++ o ++ f).
  Inductive pos_text : bool -> pystr -> Prop :=
  | PO_none : pos_text false []
  | PO_after g w : gap g -> words ["object"; "auto"]%string w -> pos_text true (g ++ u "after-" ++ w)
  | PO_number g w g' d v : gap g -> words ["object"; "auto"]%string w -> gap g' -> decimal_text d v -> pos_text true (g ++ u "after-" ++ w ++ g' ++ d).
  (** A name that is taken for the word ipv6 after "interface". *)
  Definition ipv6_like (n : pystr) : Prop := exists q, n = u "ipv6" ++ q /\ forall c q', q = c :: q' -> ~ letter c /\ ~ digit c.
  Inductive dst_text : option (mapped_ast * host) -> pystr -> Prop :=
  | DX_none : dst_text None []
  | DX_some g g1 g2 m tm g3 h th : gap g -> gap g1 -> gap g2 -> mapped_node_text true m tm -> gap g3 -> node_text h th -> (tm = u "interface" -> m = MIface -> ~ ipv6_like th) ->
      dst_text (Some (m, h)) (g ++ u "destination" ++ g1 ++ u "static" ++ g2 ++ tm ++ g3 ++ th).
  Inductive srv_text : option (natsvc * natsvc) -> pystr -> Prop :=
  | SV_none : srv_text None []
  | SV_some g g1 n a g2 m b : gap g -> gap g1 -> dget (e_svcobj E) n = Some a -> gap g2 -> dget (e_svcobj E) m = Some b ->
      srv_text (Some (nat_service_of a, nat_service_of b)) (g ++ u "service" ++ g1 ++ n ++ g2 ++ m).
  Inductive flag_text : nat_option -> pystr -> Prop :=
  | FL w : words ["net-to-net"; "dns"; "unidirectional"; "no-proxy-arp"; "inactive"; "route-lookup"]%string w -> flag_text (OFlag w) w.
  (** A description takes the rest of the line. *)
  Inductive tail_text : list nat_option -> pystr -> Prop :=
  | TA_flags l t z : each flag_text l t -> end_text z -> tail_text l (t ++ z)
  | TA_descr l t g g1 d : each flag_text l t -> gap g -> gap g1 -> one_line d -> ~ opens_blank d ->
      tail_text (l ++ [ODescription d]) (t ++ g ++ u "description" ++ g1 ++ d ++ lf).
  Inductive nat_line_text : nat_ast -> pystr -> Prop :=
  | NL_manual g n i n' i' pos tp g1 g2 (static : bool) g3 r tr g4 m tm d td v tv o to :
      gap g -> iface_of IF n i -> iface_of IF n' i' -> pos_text pos tp -> gap g1 -> gap g2 -> gap g3 -> real_text r tr -> gap g4 -> mapped_node_text static m tm ->
      dst_text d td -> srv_text v tv -> tail_text o to ->
      nat_line_text (mknatast (Some (i, i')) pos static (r, m) d v o)
        (u "nat" ++ g ++ u "(" ++ n ++ u "," ++ n' ++ u ")" ++ tp ++ g1 ++ u "source" ++ g2 ++ (if static then u "static" else u "dynamic") ++ g3 ++ tr ++ g4 ++ tm ++ td ++ tv ++ to).
  (** The PIX form, of which nothing is kept; the end of the line is not part of it. *)
  Inductive pix_text : pystr -> Prop :=
  | PX g n q : gap g -> is_known IF n -> one_line q -> pix_text (u "nat" ++ g ++ u "(" ++ n ++ u ")" ++ q).
End ManualNat.
