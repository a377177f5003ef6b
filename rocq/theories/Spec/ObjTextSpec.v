(** How object definitions of an ASA/FWSM configuration are written. *)
From Coq Require Import String.
From Verif.Model Require Import Base Ip Hosts Groups Rules Nat Iface AddrText Ports AclText Define ObjText.
From Verif.Spec Require Import AddrSpec AddrTextSpec RefSpec CafMeanSpec AclTextSpec GroupTextSpec.
Local Open Scope list_scope.

Section Objects.
  Variables (isspace : N -> bool) (E : env) (IF : dict ifnames).

  (** ** NAT lines of network objects *)
  Definition iface_of (n : pystr) (i : option ifnames) : Prop :=
    (n = u "any" /\ i = None) \/ (n <> u "any" /\ exists v, dget IF n = Some v /\ i = Some v).
  (** [ipv6]; [interface [ipv6]] *)
  Definition opt_ipv6_text (t : pystr) : Prop := t = [] \/ exists g, gap g /\ t = g ++ u "ipv6".
  Definition fallback_text (t : pystr) : Prop :=
    t = [] \/ exists g t', gap g /\ opt_ipv6_text t' /\ t = g ++ u "interface" ++ t'.
  Definition pool_option_text (t : pystr) : Prop :=
    t = u "round-robin" \/ t = u "extended" \/ t = u "flat" \/ exists g, gap g /\ t = u "flat" ++ g ++ u "include-reserve".
  (** Each after a gap. *)
  Inductive each {X} (P : X -> pystr -> Prop) : list X -> pystr -> Prop :=
  | EA_nil : each P [] []
  | EA_more x l g t t' : gap g -> P x t -> each P l t' -> each P (x :: l) (g ++ t ++ t').
  Definition unknown (n : pystr) : Prop := ~ is_known (e_netobj E) n /\ ~ is_known (e_netgrp E) n.
  Inductive pool_range : host -> pystr -> Prop :=
  | PR_group n x : dget (e_netgrp E) n = Some x -> pool_range (HGrp x) n
  | PR_object n o : dget (e_netobj E) n = Some o -> ~ is_known (e_netgrp E) n -> pool_range (HObj o) n.
  (** What the address becomes.  Names of objects come first, then names of groups. *)
  Inductive mapped_text : netmap_ast -> pystr -> Prop :=
  | MP_object n o f : dget (e_netobj E) n = Some o -> fallback_text f -> mapped_text (OMNode (HObj o)) (n ++ f)
  | MP_group n x f : dget (e_netgrp E) n = Some x -> ~ is_known (e_netobj E) n -> fallback_text f -> mapped_text (OMNode (HGrp x)) (n ++ f)
  | MP_addr a t f : address_text t a -> unknown t -> fallback_text f -> mapped_text (OMAddr a None) (t ++ f)
  | MP_net a t d p n f : a_ver a = V6 -> address_text t a -> decimal_text d p -> net_of a (MaskLen p) n -> fallback_text f ->
      mapped_text (OMAddr a (Some p)) (t ++ u "/" ++ d ++ f)
  | MP_iface t : unknown (u "interface") -> opt_ipv6_text t -> mapped_text OMIface (u "interface" ++ t)
  | MP_pool g h n l o f : unknown (u "pat-pool") -> gap g -> pool_range h n -> each (fun _ : unit => pool_option_text) l o -> fallback_text f ->
      mapped_text (OMNode h) (u "pat-pool" ++ g ++ n ++ o ++ f).
  Inductive nat_service_text : objnat_service -> pystr -> Prop :=
  | NS_ports g p g1 a g2 b : gap g -> words ["tcp"; "udp"]%string p -> gap g1 -> port_name a -> gap g2 -> port_name b ->
      nat_service_text (OSPorts p a b) (u "service" ++ g ++ p ++ g1 ++ a ++ g2 ++ b)
  | NS_dns : nat_service_text OSDns (u "dns").
  Definition nat_option_text (o t : pystr) : Prop := t = o /\ words ["route-lookup"; "no-proxy-arp"; "dns"]%string o.
  (** Without a service, "dns" as the first option of a static NAT is the service. *)
  Inductive opt_service_text : option objnat_service -> pystr -> Prop :=
  | SX_none : opt_service_text None []
  | SX_some g s t : gap g -> nat_service_text s t -> opt_service_text (Some s) (g ++ t).
  Inductive nat_text : objnat_ast -> pystr -> Prop :=
  | NT g n i n' i' g1 static g2 m tm s ts o to z :
      gap g -> iface_of n i -> iface_of n' i' -> gap g1 -> gap g2 -> mapped_text m tm ->
      opt_service_text s ts -> (static = false -> s = None) ->
      (static = true -> s = None -> forall o', o <> u "dns" :: o') ->
      each nat_option_text o to -> end_text z ->
      nat_text (mkobjnat (i, i') static m s o)
        (u "nat" ++ g ++ u "(" ++ n ++ u "," ++ n' ++ u ")" ++ g1 ++ (if static then u "static" else u "dynamic") ++ g2 ++ tm ++ ts ++ to ++ z).

  (** ** Contents *)
  Inductive args_text : objargs -> pystr -> Prop :=
  | AT_host g a t z : gap g -> address_text t a -> eol_text z -> args_text (AHost a) (u "host" ++ g ++ t ++ z)
  | AT_mask g a g' m z : gap g -> (a < 2 ^ 32)%N -> gap g' -> (m < 2 ^ 32)%N -> eol_text z ->
      args_text (ASubnet (mkaddr V4 a) (MaskQuad m)) (u "subnet" ++ g ++ quad a ++ g' ++ quad m ++ z)
  | AT_length g a t d p z : gap g -> a_ver a = V6 -> address_text t a -> decimal_text d p -> eol_text z ->
      args_text (ASubnet a (MaskLen p)) (u "subnet" ++ g ++ t ++ u "/" ++ d ++ z)
  | AT_range g a t g' b t' z : gap g -> address_text t a -> gap g' -> address_text t' b -> a_ver a = a_ver b -> eol_text z ->
      args_text (ARange a b) (u "range" ++ g ++ t ++ g' ++ t' ++ z)
  | AT_fqdn g x z : gap g -> url_text isspace x -> eol_text z -> args_text (AFqdn None) (u "fqdn" ++ g ++ x ++ z)
  | AT_fqdn_limit g v g' x z : gap g -> gap g' -> url_text isspace x -> eol_text z ->
      args_text (AFqdn (Some v)) (u "fqdn" ++ g ++ (match v with V4 => u "v4" | V6 => u "v6" end) ++ g' ++ x ++ z).
  Inductive opt_nat_text : option objnat_ast -> pystr -> Prop :=
  | ON_none : opt_nat_text None []
  | ON_some m t : nat_text m t -> opt_nat_text (Some m) (u " " ++ t).
  (** After the name: contents and NAT, or NAT alone on a line of its own (a second one
      counts for nothing), or at most NAT on the line of the name. *)
  Inductive body_text : netobj_body -> pystr -> Prop :=
  | BT_args z a ta n tn : eol_text z -> args_text a ta -> opt_nat_text n tn -> body_text (BArgs a n) (z ++ u " " ++ ta ++ tn)
  | BT_nat z m tm n tn : eol_text z -> nat_text m tm -> opt_nat_text n tn -> body_text (BNat m) (z ++ u " " ++ tm ++ tn)
  | BT_none n tn : opt_nat_text n tn -> body_text (BArgs ANone n) tn.
  Inductive objservice_text : service -> pystr -> Prop :=
  | OS_service g s t : gap g -> service_text eol_text s t -> objservice_text s (u "service" ++ g ++ t)
  | OS_int g p z : gap g -> number_text p 255 -> eol_text z -> objservice_text (mkservice p None None None None) (u "service" ++ g ++ p ++ z).

  (** The flag tells that the text ends with the name. *)
  Inductive obj_text : bool -> objdef -> pystr -> Prop :=
  | OB_net g g' n b t d td : gap g -> gap g' -> name_chars n -> body_text b t -> descr_text d td -> (t ++ td <> [] -> n = [] -> exists z q, eol_text z /\ t = z ++ q) ->
      obj_text (is_empty (t ++ td)) (ONet n d b) (u "object" ++ g ++ u "network" ++ g' ++ n ++ t ++ td)
  | OB_service g g' n z s t d td : gap g -> gap g' -> name_chars n -> eol_text z -> objservice_text s t -> descr_text d td ->
      obj_text false (OSvc n d s) (u "object" ++ g ++ u "service" ++ g' ++ n ++ z ++ u " " ++ t ++ td).
  (** What may follow: nothing indented; after an object without contents no character of a
      name and no blank, and nothing indented on the next line. *)
  Definition name_over (r : pystr) : Prop :=
    forall c q, r = c :: q -> ~ (letter c \/ digit c \/ c = 95%N \/ c = 45%N \/ c = 46%N \/ c = 43%N).
  Definition obj_rest (bare : bool) (r : pystr) : Prop :=
    if bare then name_over r /\ ~ (exists c q, r = c :: q /\ (c = 32%N \/ c = 9%N)) /\ (forall z r', eol_text z -> r = z ++ r' -> ~ (exists q, r' = 32%N :: q))
    else ~ (exists q, r = 32%N :: q).
End Objects.
(** Interfaces by the names a NAT line can use. *)
Definition ifaces_ok (isalnum : N -> bool) (IF : dict ifnames) : Prop :=
  forall n, dmem IF n = true -> freeof (in_class [44; 41]%N) n /\ clear_of_any isalnum n.
