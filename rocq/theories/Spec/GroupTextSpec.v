(** How object-group definitions of an ASA/FWSM configuration are written. *)
From Coq Require Import String.
From Verif.Model Require Import Base Ip Hosts Groups Iface AddrText Ports AclText Define.
From Verif.Spec Require Import AddrSpec AddrTextSpec CafMeanSpec AclTextSpec.
Local Open Scope list_scope.

Definition name_chars (n : pystr) : Prop :=
  forall c, In c n -> letter c \/ digit c \/ c = 95%N \/ c = 45%N \/ c = 46%N \/ c = 43%N.
(** Blanks and the end of the line. *)
Definition end_text (t : pystr) : Prop := exists g z, blanks g /\ eol_text z /\ t = g ++ z.
(** [gap_or free g]: a gap, which may be missing if [free]. *)
Definition gap_or (free : Prop) (g : pystr) : Prop := gap g \/ g = [] /\ free.

Section Groups.
  Variable E : env.
  Definition is_known {V} (d : dict V) (n : pystr) : Prop := exists x, dget d n = Some x.

  Inductive groupref_text {V X} (d : dict V) (endp : pystr -> Prop) : member X -> pystr -> Prop :=
  | GR g n z : gap g -> is_known d n -> endp z -> groupref_text d endp (Ref n) (u "group-object" ++ g ++ n ++ z).

  Inductive net_member_text : member host -> pystr -> Prop :=
  | NM_host g g' a x t z : gap g -> gap g' -> address_ref E (fun _ => True) a x t -> eol_text z ->
      net_member_text (Lit (HLeaf (LHost a))) (u "network-object" ++ g ++ u "host" ++ g' ++ t ++ z)
  | NM_object g g' n o z : gap g -> gap g' -> dget (e_netobj E) n = Some o -> eol_text z ->
      net_member_text (Lit (HObj o)) (u "network-object" ++ g ++ u "object" ++ g' ++ n ++ z)
  | NM_mask g a x t g' m n z : gap g -> address_ref E (eq V4) a x t -> gap g' -> (m < 2 ^ 32)%N -> net_of a (MaskQuad m) n -> eol_text z ->
      net_member_text (Lit (HLeaf (LNet n))) (u "network-object" ++ g ++ t ++ g' ++ quad m ++ z)
  | NM_length g a x t d p n z : gap g -> address_ref E (eq V6) a x t -> decimal_text d p -> net_of a (MaskLen p) n -> eol_text z ->
      net_member_text (Lit (HLeaf (LNet n))) (u "network-object" ++ g ++ t ++ u "/" ++ d ++ z)
  | NM_group m t : groupref_text (e_netgrp E) eol_text m t -> net_member_text m t.

  (** A comparison of ports, or a range. *)
  Inductive op_text : pmember -> pystr -> Prop :=
  | OT_op w g p : words ["gt"; "lt"; "eq"; "neq"]%string w -> gap g -> port_name p ->
      op_text (PPort (Some w) (Some p)) (w ++ g ++ p)
  | OT_range g a g' b : gap g -> gap g' -> port_name a -> port_name b -> range_allowed a b ->
      op_text (PRange (Some a) (Some b)) (u "range" ++ g ++ a ++ g' ++ b).
  (** The last port is given as a number. *)
  Definition ends_in_number (m : pmember) : Prop :=
    match m with PPort _ (Some p) | PRange _ (Some p) => number_text p 65535 | _ => False end.
  Definition side_text (w : string) (m : pmember) (t : pystr) : Prop :=
    exists g x, gap g /\ op_text m x /\ t = u w ++ g ++ x.
  (** Protocol and ports of a service, up to the end of the line.  The gap after "tcp-udp",
      and the one between a port number and "destination", may be missing. *)
  Inductive ports_text (p : pystr) : option pmember -> option pmember -> pystr -> Prop :=
  | PO_none z : end_text z -> ports_text p None None (p ++ z)
  | PO_src g m s z : gap_or (p = u "tcp-udp") g -> side_text "source" m s -> end_text z ->
      ports_text p (Some m) None (p ++ g ++ s ++ z)
  | PO_dst g m d z : gap_or (p = u "tcp-udp") g -> side_text "destination" m d -> end_text z ->
      ports_text p None (Some m) (p ++ g ++ d ++ z)
  | PO_both g m s g' m' d z : gap_or (p = u "tcp-udp") g -> side_text "source" m s ->
      gap_or (ends_in_number m) g' -> side_text "destination" m' d -> end_text z ->
      ports_text p (Some m) (Some m') (p ++ g ++ s ++ g' ++ d ++ z).
  (** An ICMP message: nothing, a type, a type and a code. *)
  Inductive message_text : option pystr -> option pystr -> pystr -> Prop :=
  | MS_none : message_text None None []
  | MS_type g t : gap g -> icmp_name t -> message_text (Some t) None (g ++ t)
  | MS_code g t g' c : gap g -> icmp_name t -> gap g' -> number_text c 255 -> message_text (Some t) (Some c) (g ++ t ++ g' ++ c).
  Inductive service_text (icmp_end : pystr -> Prop) : service -> pystr -> Prop :=
  | SV_icmp p ty c i z : words ["icmp"; "icmp6"]%string p -> message_text ty c i -> icmp_end z ->
      service_text icmp_end (mkservice p None None ty c) (p ++ i ++ z)
  | SV_ports p src dst t : words ["tcp-udp"; "tcp"; "udp"]%string p -> ports_text p src dst t ->
      service_text icmp_end (mkservice p src dst None None) t.
  Inductive service_member_text : member smember -> pystr -> Prop :=
  | SM_service g s t : gap g -> service_text end_text s t -> service_member_text (Lit (SService s)) (u "service-object" ++ g ++ t)
  | SM_proto g p z : gap g -> In p protocol_codes \/ number_text p 255 -> end_text z ->
      service_member_text (Lit (SService (mkservice p None None None None))) (u "service-object" ++ g ++ p ++ z)
  | SM_object g g' n o z : gap g -> gap g' -> dget (e_svcobj E) n = Some o -> end_text z ->
      service_member_text (Lit (SObject (so_name o) (so_descr o) (so_service o))) (u "service-object" ++ g ++ u "object" ++ g' ++ n ++ z)
  | SM_group m t : groupref_text (e_svcgrp E) end_text m t -> service_member_text m t.

  (** The port of a line with "eq" is not kept (C46). *)
  Inductive port_member_text : member pmember -> pystr -> Prop :=
  | PM_eq g g' p z : gap g -> gap g' -> port_name p -> eol_text z ->
      port_member_text (Lit (PPort (Some (u "eq")) None)) (u "port-object" ++ g ++ u "eq" ++ g' ++ p ++ z)
  | PM_range g g1 a g2 b z : gap g -> gap g1 -> gap g2 -> port_name a -> port_name b -> range_allowed a b -> eol_text z ->
      port_member_text (Lit (PRange (Some a) (Some b))) (u "port-object" ++ g ++ u "range" ++ g1 ++ a ++ g2 ++ b ++ z)
  | PM_group m t : groupref_text (e_portgrp E) eol_text m t -> port_member_text m t.
  Inductive icmp_member_text : member imember -> pystr -> Prop :=
  | IM_type g t z : gap g -> icmp_name t -> eol_text z -> icmp_member_text (Lit (IcmpType t None)) (u "icmp-object" ++ g ++ t ++ z)
  | IM_group m t : groupref_text (e_icmpgrp E) eol_text m t -> icmp_member_text m t.
  (** Any name, even none. *)
  Inductive proto_member_text : member prmember -> pystr -> Prop :=
  | RM_name g n z : gap g -> name_chars n -> eol_text z -> proto_member_text (Lit (PrProto n)) (u "protocol-object" ++ g ++ n ++ z)
  | RM_group m t : groupref_text (e_protogrp E) eol_text m t -> proto_member_text m t.

  (** Every member is on a line of its own, indented by one blank. *)
  Inductive lines_text {X} (P : X -> pystr -> Prop) : list X -> pystr -> Prop :=
  | LI_nil : lines_text P [] []
  | LI_more m t l t' : P m t -> lines_text P l t' -> lines_text P (m :: l) (32%N :: t ++ t').
  (** Port groups: indented by one or more blanks; blanks may follow. *)
  Inductive ragged_text {X} (P : X -> pystr -> Prop) : list X -> pystr -> Prop :=
  | RG_nil : ragged_text P [] []
  | RG_blank l t : ragged_text P l t -> ragged_text P l (32%N :: t)
  | RG_more m t l t' : P m t -> ragged_text P l t' -> ragged_text P (m :: l) (32%N :: t ++ t').
  (** No description, or a line with one. *)
  Inductive descr_text : pystr -> pystr -> Prop :=
  | DT_none : descr_text [] []
  | DT_some g d : gap g -> d <> [] -> ~ In 10%N d -> (forall c d', d = c :: d' -> c <> 32%N /\ c <> 9%N) ->
      descr_text d (u " description" ++ g ++ d ++ [10%N]).

  Definition group_text (w : string) (n t : pystr) : Prop :=
    exists g z, gap g /\ name_chars n /\ end_text z /\ t = u w ++ g ++ n ++ z.
  Inductive plain_group {X} (w : string) (P : member X -> pystr -> Prop) : gdef X -> pystr -> Prop :=
  | PG n h d td ms tm : group_text w n h -> descr_text d td -> lines_text P ms tm ->
      plain_group w P (mkgdef n d [] ms) (h ++ td ++ tm).
  Inductive def_text : anydef -> pystr -> Prop :=
  | DT_net g d t : gap g -> plain_group "network" net_member_text d t -> def_text (DNet d) (u "object-group" ++ g ++ t)
  | DT_service g d t : gap g -> plain_group "service" service_member_text d t -> def_text (DService d) (u "object-group" ++ g ++ t)
  | DT_icmp g d t : gap g -> plain_group "icmp-type" icmp_member_text d t -> def_text (DIcmp d) (u "object-group" ++ g ++ t)
  | DT_proto g d t : gap g -> plain_group "protocol" proto_member_text d t -> def_text (DProto d) (u "object-group" ++ g ++ t)
  | DT_port g g1 n g2 p z d td ms tm : gap g -> gap g1 -> name_text n -> gap g2 -> words ["tcp-udp"; "tcp"; "udp"]%string p ->
      end_text z -> descr_text d td -> ragged_text port_member_text ms tm ->
      def_text (DPort (mkgdef n d p ms)) (u "object-group" ++ g ++ u "service" ++ g1 ++ n ++ g2 ++ p ++ z ++ td ++ tm).
End Groups.
