(** Group operations: add, expand, collapse, sort (aclObjects.py:233-279 and the
    subclasses NetworkGroup 583-679, ServiceGroup 709-757, PortGroup 917-970,
    ProtocolGroup 293-324, ICMPGroup 336-344).

    Group objects are mutable and shared, hence live on a heap; a group holds, apart
    from elements, only groups of its own class ([add]'s assertion, 241-245), so each
    class has its own heap.  Methods that can both mutate and raise return the heap
    next to the result. *)
From Verif.Model Require Import Base Ip Hosts.

(** What a class of groups needs: which members are groups ([isinstance(obj,
    self.__class__)], 252) and what the subclass's [expand] override replaces a
    member by ([k_post]; the member itself where there is no override). *)
Record gkind (X : Type) := mkkind { k_sub : X -> option gid; k_post : X -> list X }.
Arguments mkkind {X}. Arguments k_sub {X}. Arguments k_post {X}.

(** [_Group._expand] 247-258: [expand_r] on a list of members.  [fuel] bounds the
    Python recursion depth. *)
Fixpoint expand_r {X} (sub : X -> option gid) (h : gheap X) (fuel : nat) (l : list X)
  : result (list X) :=
  match fuel with
  | O => Err RecursionError
  | S k =>
      (fix go (l : list X) : result (list X) :=
         match l with
         | [] => Ok []
         | x :: l' =>
             do a <- (match sub x with
                      | Some g => expand_r sub h k (objs h g)
                      | None => Ok [x]
                      end);
             do b <- go l'; Ok (a ++ b)
         end) l
  end.

(** [expand(insitu=True)]: _Group.expand 269-271, then the override's replacement
    loop (NetworkGroup.expand 589-600, ServiceGroup.expand 741-752; identity otherwise). *)
Definition expand_in {X} (K : gkind X) (fuel : nat) (h : gheap X) (g : gid) : result (gheap X) :=
  do l <- expand_r (k_sub K) h fuel (objs h g);
  let h := set_objs h g l in
  Ok (set_objs h g (flat_map (k_post K) (objs h g))).

(** [expand(insitu=False)]: _Group.expand 272-276; [obj.expand()] dispatches to the
    override, which afterwards runs its replacement loop once more on the result. *)
Definition expand_new {X} (K : gkind X) (fuel : nat) (h : gheap X) (g : gid)
  : result (gheap X * gid) :=
  let '(h, o) := h_alloc h (mkgroup (g_name (h_get h g)) (g_descr (h_get h g)) [] []) in
  do l <- expand_r (k_sub K) h fuel (objs h g);
  let h := set_objs h o l in
  do h <- expand_in K fuel h o;
  Ok (set_objs h o (flat_map (k_post K) (objs h o)), o).

(** PortGroup.expand(insitu=False) 927-934: own constructor call with the protocol. *)
Definition port_expand_new {X} (K : gkind X) (fuel : nat) (h : gheap X) (g : gid)
  : result (gheap X * gid) :=
  let '(h, o) := h_alloc h (mkgroup (g_name (h_get h g)) (g_descr (h_get h g)) (g_proto (h_get h g)) []) in
  do l <- expand_r (k_sub K) h fuel (objs h g);
  Ok (set_objs h o l, o).

(** ** The five classes *)

(** NetworkGroup: NetworkObjects are replaced by their addresses (593-599). *)
Definition net_kind : gkind host :=
  mkkind (fun x => match x with HGrp g => Some g | _ => None end)
         (fun x => match x with HObj o => map HLeaf (o_addrs o) | _ => [x] end).

(** Members of port groups: Port 872-899, PortRange 902-914, PortGroup.  [None] is
    Python's None; numbers are kept as the parsed strings. *)
Inductive pmember :=
| PPort (op num : option pystr) | PRange (start stop : option pystr) | PGrp (g : gid).
Definition port_kind : gkind pmember :=
  mkkind (fun x => match x with PGrp g => Some g | _ => None end) (fun x => [x]).

(** Service 681-694: protocol name, ports, icmp type and code (None when absent). *)
Record service := mkservice {
  sv_proto : pystr; sv_src : option pmember; sv_dst : option pmember;
  sv_icmp_type : option pystr; sv_icmp_code : option pystr }.
(** Members of service groups: Service, ServiceObject (697-706), ServiceGroup. *)
Inductive smember :=
| SService (s : service) | SObject (name descr : pystr) (s : service) | SGrp (g : gid).
(** ServiceGroup.expand 741-752: a ServiceObject is replaced by a plain Service. *)
Definition service_kind : gkind smember :=
  mkkind (fun x => match x with SGrp g => Some g | _ => None end)
         (fun x => match x with SObject _ _ s => [SService s] | _ => [x] end).

(** Protocol 282-290 (by its name) and ProtocolGroup. *)
Inductive prmember := PrProto (name : pystr) | PrGrp (g : gid).
Definition proto_kind : gkind prmember :=
  mkkind (fun x => match x with PrGrp g => Some g | _ => None end) (fun x => [x]).

(** ICMP 327-333 and ICMPGroup. *)
Inductive imember := IcmpType (type : pystr) (code : option pystr) | IcGrp (g : gid).
Definition icmp_kind : gkind imember :=
  mkkind (fun x => match x with IcGrp g => Some g | _ => None end) (fun x => [x]).

(** ** ACLConfig.expand 1356-1366: every registered group, class by class, in table
    order ([dict.values()]). *)
Definition expand_all {X} (K : gkind X) (fuel : nat) (h : gheap X) (gs : list gid)
  : result (gheap X) := fold_r (expand_in K fuel) gs h.

(** The heaps of the five classes, and the registered groups of each. *)
Record groups := mkgroups {
  gs_network : heap; gs_port : gheap pmember; gs_service : gheap smember;
  gs_protocol : gheap prmember; gs_icmp : gheap imember }.
Record gtables := mkgtables {
  gt_network : list gid; gt_port : list gid; gt_service : list gid;
  gt_protocol : list gid; gt_icmp : list gid }.
Definition config_expand (fuel : nat) (t : gtables) (s : groups) : result groups :=
  do n <- expand_all net_kind fuel (gs_network s) (gt_network t);
  do p <- expand_all port_kind fuel (gs_port s) (gt_port t);
  do sv <- expand_all service_kind fuel (gs_service s) (gt_service t);
  do pr <- expand_all proto_kind fuel (gs_protocol s) (gt_protocol t);
  do ic <- expand_all icmp_kind fuel (gs_icmp s) (gt_icmp t);
  Ok (mkgroups n p sv pr ic).

(** ** NetworkGroup.collapse 602-642 *)

(** [isinstance(o, (Network, NetworkObject))], 612 *)
Definition is_net_or_obj (x : host) : bool :=
  match x with HLeaf (LNet _) | HObj _ => true | _ => false end.
(** [isinstance(o, (NetworkAny, NetworkAny4, NetworkAny6))], 622 *)
Definition is_any_kind (x : host) : bool := is_any x || is_any4 x || is_any6 x.

(** The dictionary dispatch on the exact class, 628-630; any other class: KeyError. *)
Definition ip_of (x : host) : result ipobj :=
  match x with
  | HLeaf (LNet n) => Ok (INet n)
  | HLeaf (LHost a) => Ok (IAddr a)
  | _ => Err KeyError
  end.

(** The [for h in ...] loop 634-641: objects are added one by one, so that an
    exception leaves the earlier ones in the group.  [Network(h.network_address,
    h.netmask)] passes the mask in dotted form (IPv4) respectively as an IPv6 address,
    which the ipaddress module does not accept as a netmask. *)
Fixpoint readd (h : heap) (g : gid) (l : list net) : heap * result gid :=
  match l with
  | [] => (h, Ok g)
  | n :: l' =>
      match (if (1 <? num_addresses n)%N
             then mk_Network (mkaddr (n_ver n) (n_addr n)) (MaskQuad (netmask n))
             else Ok (LHost (mkaddr (n_ver n) (n_addr n)))) with
      | Ok x => readd (set_objs h g (objs h g ++ [HLeaf x])) g l'
      | Err e => (h, Err e)
      end
  end.

(** [_collapse] 620-642 *)
Definition collapse_ (h : heap) (g : gid) : heap * result gid :=
  let h := if existsb is_any_kind (objs h g)
           then set_objs h g (filter (fun x => negb (is_any_kind x)) (objs h g)) else h in
  match map_r ip_of (objs h g) with
  | Err e => (h, Err e)
  | Ok addresses =>
      let h := set_objs h g [] in
      match collapse_addresses addresses with
      | Err e => (h, Err e)
      | Ok l => readd h g l
      end
  end.

(** [collapse(insitu)] 602-618 *)
Definition collapse (fuel : nat) (insitu : bool) (h : heap) (g : gid) : heap * result gid :=
  if existsb (fun x => negb (is_net_or_obj x)) (objs h g) then
    if insitu then (h, Err ValueError)
    else match expand_new net_kind fuel h g with
         | Err e => (h, Err e)
         | Ok (h, o) => collapse_ h o
         end
  else collapse_ h g.

(** ** Sorting *)

(** [nstrsum] aclObjects.py:13-15: sum of (ord(c)-255) * 2^position. *)
Fixpoint nstrsum_from (idx : N) (s : pystr) : Z :=
  match s with
  | [] => 0
  | c :: s' => (Z.of_N c - 255) * 2 ^ Z.of_N idx + nstrsum_from (idx + 1) s'
  end%Z.
Definition nstrsum (s : pystr) : Z := nstrsum_from 0 s.

(** [sorted(l, key=key)]: all keys are computed first, then a stable sort. *)
Definition sort_by {X K} (ltb : K -> K -> bool) (key : X -> result K) (l : list X) : result (list X) :=
  do ks <- map_r key l;
  Ok (map snd (sorted (fun a b => ltb (fst a) (fst b)) (combine ks l))).

(** NetworkGroup.key_of 645-656 *)
Definition net_key (h : heap) (x : host) : result Z :=
  match x with
  | HLeaf (LNet n) => Ok (Z.of_N (n_addr n))
  | HLeaf (LHost a) => Ok (Z.of_N (a_val a))
  | HGrp g => Ok (nstrsum (g_name (h_get h g)))
  | HLeaf LAny => Ok (nstrsum (u "NetworkAny"))
  | HLeaf (LWebtype _) => Ok (nstrsum (u "Webtype"))
  | HLeaf LCafAny => Ok (nstrsum (u "cafNetworkAny"))
  | HLeaf LAny4 => Ok (nstrsum (u "NetworkAny4"))
  | HLeaf LCafAny4 => Ok (nstrsum (u "cafNetworkAny4"))
  | HLeaf LAny6 => Ok (nstrsum (u "NetworkAny6"))
  | HLeaf LCafAny6 => Ok (nstrsum (u "cafNetworkAny6"))
  | HObj o => Ok (nstrsum (o_name o))
  | HLeaf (LWild _ _) | HLeaf (LIface _) => Err ValueError
  end.

(** NetworkGroup.sort 659-667: without insitu the sorted members of [self] are put
    into the group returned by collapse(insitu=False). *)
Definition net_sort (fuel : nat) (insitu : bool) (h : heap) (g : gid) : heap * result gid :=
  let '(h, r) := if insitu then (h, Ok g) else collapse fuel false h g in
  match r with
  | Err e => (h, Err e)
  | Ok o => match sort_by Z.ltb (net_key h) (objs h g) with
            | Ok l => (set_objs h o l, Ok o)
            | Err e => (h, Err e)
            end
  end.

Section SortKeys.
  (** Python's [int(str)] ([None] = ValueError) and the operating system's service
      database ([socket.getservbyname], [None] = OSError): parameters, every theorem
      holds whatever they are. *)
  Variable py_int : pystr -> option Z.
  Variable servbyname : pystr -> option Z.

  (** ProtocolGroup.key_of 300-309 *)
  Definition proto_key (h : gheap prmember) (x : prmember) : result Z :=
    match x with
    | PrProto n => Ok (match py_int n with Some z => z | None => nstrsum n end)
    | PrGrp g => Ok (nstrsum (g_name (h_get h g)))
    end.

  (** PortGroup.key_of 937-956; [int(None)] is a TypeError, which is not caught. *)
  Definition num_key (x : option pystr) : result Z :=
    match x with
    | None => Err TypeError
    | Some s => Ok (match py_int s with
                    | Some z => z
                    | None => match servbyname s with Some z => z | None => nstrsum s end
                    end)
    end.
  Definition port_key (h : gheap pmember) (x : pmember) : result Z :=
    match x with
    | PPort _ num => num_key num
    | PRange start _ => num_key start
    | PGrp g => Ok (nstrsum (g_name (h_get h g)))
    end.

  (** ServiceGroup.key_of 716-730; [o.src] may refer to a port group. *)
  Definition skey : Type := pystr * Z * Z * pystr * pystr.
  Definition opt_str (o : option pystr) : pystr := match o with Some s => s | None => [] end.
  Definition service_key (hp : gheap pmember) (h : gheap smember) (x : smember) : result skey :=
    match x with
    | SService s | SObject _ _ s =>
        do a <- (match sv_src s with Some p => port_key hp p | None => Ok 0%Z end);
        do b <- (match sv_dst s with Some p => port_key hp p | None => Ok 0%Z end);
        Ok (sv_proto s, a, b, opt_str (sv_icmp_code s), opt_str (sv_icmp_type s))
    | SGrp g => Ok (g_name (h_get h g), 0%Z, 0%Z, [], [])
    end.

  (** Python's tuple order. *)
  Definition skey_ltb (x y : skey) : bool :=
    let '(n, a, b, c, d) := x in
    let '(n', a', b', c', d') := y in
    if negb (str_eqb n n') then str_ltb n n'
    else if negb (Z.eqb a a') then Z.ltb a a'
    else if negb (Z.eqb b b') then Z.ltb b b'
    else if negb (str_eqb c c') then str_ltb c c'
    else str_ltb d d'.

  (** The [sort] methods: ProtocolGroup 311-319, ServiceGroup 732-739 (both call the
      missing method [collapse] when not insitu), PortGroup 958-965, ICMPGroup inherits
      _Group.sort 278-279. *)
  Definition sort_in {X K} (ltb : K -> K -> bool) (key : gheap X -> X -> result K)
      (h : gheap X) (g : gid) : gheap X * result gid :=
    match sort_by ltb (key h) (objs h g) with
    | Ok l => (set_objs h g l, Ok g)
    | Err e => (h, Err e)
    end.
  Definition proto_sort (insitu : bool) (h : gheap prmember) (g : gid) :=
    if insitu then sort_in Z.ltb proto_key h g else (h, Err AttributeError).
  Definition service_sort (hp : gheap pmember) (insitu : bool) (h : gheap smember) (g : gid) :=
    if insitu then sort_in skey_ltb (service_key hp) h g else (h, Err AttributeError).
  Definition port_sort (fuel : nat) (insitu : bool) (h : gheap pmember) (g : gid) :=
    if insitu then sort_in Z.ltb port_key h g
    else match port_expand_new port_kind fuel h g with
         | Ok (h', o) => let '(h'', r) := sort_in Z.ltb port_key h' o in (h'', r)
         | Err e => (h, Err e)
         end.
  Definition icmp_sort (insitu : bool) (h : gheap imember) (g : gid) : gheap imember * result gid :=
    (h, Err NotImplementedError).
End SortKeys.

(** [add] on a NetworkGroup 241-245 with [_allowed] of 584. *)
Definition net_allowed (x : host) : bool :=
  match x with
  | HLeaf (LWild _ _) | HLeaf (LIface _) => false
  | _ => true
  end.
Definition net_add (h : heap) (g : gid) (x : host) : result heap :=
  if net_allowed x then Ok (set_objs h g (objs h g ++ [x])) else Err AssertionError.
