(** Conversion of pfSense configurations (pfsenseSemantics.py).  Not modelled: the XML
    reader itself (the model starts from the element tree), the clock and the text of the
    dates in a rule's remark (only the two times are kept), downloads (a parameter). *)
From Coq Require Import String.
From Verif.Model Require Import Base Ip Hosts Groups Iface Ports.
Local Open Scope list_scope.

(** An XML element: tag, text (None if empty), children. *)
Inductive xml := Xml (tag : pystr) (text : option pystr) (kids : list xml).
Definition x_tag (x : xml) : pystr := match x with Xml t _ _ => t end.
Definition x_text (x : xml) : option pystr := match x with Xml _ t _ => t end.
Definition x_kids (x : xml) : list xml := match x with Xml _ _ k => k end.

(** Python dictionaries over any key type. *)
Section Adict.
  Context {K V : Type} (eqb : K -> K -> bool).
  Fixpoint aget (d : list (K * V)) (k : K) : option V :=
    match d with [] => None | (k', v) :: d' => if eqb k' k then Some v else aget d' k end.
  Fixpoint aset (d : list (K * V)) (k : K) (v : V) : list (K * V) :=
    match d with
    | [] => [(k, v)]
    | (k', w) :: d' => if eqb k' k then (k', v) :: d' else (k', w) :: aset d' k v
    end.
End Adict.
Definition opt_eqb (a b : option pystr) : bool :=
  match a, b with Some s, Some t => str_eqb s t | None, None => true | _, _ => false end.

(** [values[k]]: KeyError if missing; the value may be None. *)
Definition need {V} (d : dict V) (k : pystr) : result V :=
  match dget d k with Some v => Ok v | None => Err KeyError end.

(** [values[v.tag] = v.text for v in list(i)] *)
Definition texts (kids : list xml) (init : dict (option pystr)) : dict (option pystr) :=
  fold_left (fun d v => dset d (x_tag v) (x_text v)) kids init.

(** [s.split(c)] for a one character separator. *)
Fixpoint split_on (c : N) (s : pystr) : list pystr :=
  match s with
  | [] => [[]]
  | x :: s' =>
      if N.eqb x c then [] :: split_on c s'
      else match split_on c s' with
           | w :: ws => (x :: w) :: ws
           | [] => [[x]]
           end
  end.
(** [c in s] for a one character [c] *)
Definition has_char (c : N) (s : pystr) : bool := existsb (N.eqb c) s.
(** [s.startswith(p)] *)
Fixpoint starts_with (p s : pystr) : bool :=
  match p, s with
  | [], _ => true
  | a :: p', b :: s' => N.eqb a b && starts_with p' s'
  | _ :: _, [] => false
  end.

Definition c_blank : N := 32%N.
Definition c_colon : N := 58%N.
Definition c_dash : N := 45%N.
Definition c_comma : N := 44%N.
Definition c_divide : N := 47%N.

(** An XML rule after conversion (231-358).  [None] is Python's None. *)
Record pnode := mkpnode { pn_host : host; pn_port : option pmember }.
Record prule := mkprule {
  p_id : option pystr; p_mode : pystr; p_proto : option pystr;
  p_src : pnode; p_dst : pnode; p_descr : option pystr;
  p_xref : option (option pystr);              (* None: the default -1 *)
  p_float : option (list pystr * option pystr); (* interfaces and direction *)
  p_inactive : bool; p_log : bool; p_statetype : option (option pystr);
  p_icmp : option (option pystr);
  p_created : option Z; p_updated : option Z;  (* None: the time of loading *)
  p_head : option (list (option pystr * pystr)) }.  (* captions: colour, text *)

(** State of pfsenseParser that conversions read and write. *)
Record pstate := mkps {
  ps_net : list (option pystr * gid);          (* network_groups *)
  ps_port : list (option pystr * gid);         (* port_groups *)
  ps_ifs : dict pystr;                         (* interfaces: alias to the alias of the object *)
  ps_map : dict pystr;                         (* interface_map *)
  ps_nh : gheap host; ps_ph : gheap pmember }.

Section Pf.
  (** Library functions: [html.unescape], [int], [ipaddress.ip_address],
      [ipaddress.ip_network(f"{a}/{m}", strict=False)], [int] of a time stamp followed by
      [datetime.fromtimestamp], [str.strip], the strict [ipaddress.ip_network], and the
      download of a URL table. *)
  Context (unescape : pystr -> pystr) (py_int : pystr -> option Z)
          (ip_addr : pystr -> option addr) (ip_net : pystr -> pystr -> result net)
          (to_time : option pystr -> result Z) (strip : pystr -> pystr)
          (ip_net_strict : pystr -> bool) (download : option pystr -> option (list pystr)).

  (** [html.parser.unescape(x)]: TypeError on None *)
  Definition unescape_opt (t : option pystr) : result pystr :=
    match t with Some s => Ok (unescape s) | None => Err TypeError end.

  (** NetworkHost(s) *)
  Definition mk_host (s : pystr) : result host :=
    match ip_addr s with Some a => Ok (HLeaf (LHost a)) | None => Err ValueError end.
  (** Network( *s.split("/") ): two parts; three make the third a [target] that fails the
      assertion after the network was built; any other number is a TypeError. *)
  Definition mk_net (s : pystr) : result host :=
    match split_on c_divide s with
    | [a; m] => do n <- ip_net a m; Ok (HLeaf (LNet n))
    | [a; m; _] => do n <- ip_net a m; Err AssertionError
    | _ => Err TypeError
    end.

  (** ** Interfaces, 82-114 *)

  (** The details of one interface element, 85-106, in order; alias and description. *)
  Definition pf_iface (i : xml) : result (pystr * list ifdetail * pystr) :=
    let values := texts (x_kids i) [(u "alias", Some (x_tag i))] in
    let values := dset values (u "name") (Some (x_tag i)) in
    do address <-
      match dget values (u "ipaddr") with
      | Some v =>
          if opt_eqb v (Some (u "dhcp"))
          then do n <- need values (u "if"); Ok (match n with Some n => [DNameif n] | None => [] end)
          else do m <- need values (u "subnet");
               Ok [DShort (u "ip") (u "address") (opt_str v) (opt_str m)]
      | None => do n <- need values (u "if"); Ok (match n with Some n => [DNameif n] | None => [] end)
      end;
    if starts_with (u "opt") (x_tag i)
    then do alias <- unescape_opt (match dget values (u "descr") with Some v => v | None => Some (x_tag i) end);
         Ok (alias, address ++ [DDescription (x_tag i)], x_tag i)
    else do descr <- unescape_opt (match dget values (u "descr") with Some v => v | None => Some [] end);
         Ok (x_tag i, address ++ [DDescription descr], descr).

  (** The loop 84-112: the interfaces in order, numbered from [k]. *)
  Fixpoint pf_interfaces (k : nat) (l : list xml) (s : pstate) : result (list interface * pstate) :=
    match l with
    | [] => Ok ([], s)
    | i :: l' =>
        do (alias, details, descr) <- pf_iface i;
        do obj <- iface_init k alias details;
        let s := mkps (ps_net s) (ps_port s) (dset (ps_ifs s) alias alias) (dset (ps_map s) descr alias) (ps_nh s) (ps_ph s) in
        do (objs, s) <- pf_interfaces (S k) l' s;
        Ok (obj :: objs, s)
    end.

  (** ** Aliases, 116-188 *)

  Definition learn_net (s : pstate) (name : option pystr) (descr : pystr) (members : list host) : pstate :=
    let (h, g) := h_alloc (ps_nh s) (mkgroup (opt_str name) descr [] members) in
    mkps (aset opt_eqb (ps_net s) name g) (ps_port s) (ps_ifs s) (ps_map s) h (ps_ph s).
  Definition learn_port (s : pstate) (name : option pystr) (descr : pystr) (members : list pmember) : pstate :=
    let (h, g) := h_alloc (ps_ph s) (mkgroup (opt_str name) descr (u "any") members) in
    mkps (ps_net s) (aset opt_eqb (ps_port s) name g) (ps_ifs s) (ps_map s) (ps_nh s) h.

  (** [if values["address"]: for addr in values["address"].split(" ")] *)
  Definition entries (a : option pystr) : list pystr :=
    match a with Some (c :: s) => split_on c_blank (c :: s) | _ => [] end.

  (** 133-137: a host entry; what is not an address becomes "any" *)
  Definition alias_host (s : pystr) : host :=
    match ip_addr s with Some a => HLeaf (LHost a) | None => HLeaf LAny end.
  (** 180-183 *)
  Definition alias_port (s : pystr) : result pmember :=
    if has_char c_colon s then
      match split_on c_colon s with
      | [a; b] => port_range py_int (Some a) (Some b)
      | _ => Err TypeError
      end
    else Ok (PPort (Some (u "eq")) (Some s)).
  (** 153-168: one line of a URL table; lines that fit neither way are dropped *)
  Definition urltable_line (line : pystr) : list host :=
    let line := strip line in
    if has_char c_divide line then
      if ip_net_strict line then match mk_net line with Ok n => [n] | Err _ => [] end else []
    else match ip_addr line with Some a => [HLeaf (LHost a)] | None => [] end.

  (** One alias element, 120-187.  [fetch] is the option fetch_urltable; a failing
      download leaves the group empty. *)
  Definition pf_alias (fetch : bool) (s : pstate) (i : xml) : result pstate :=
    let values := texts (x_kids i) [] in
    do descr <- need values (u "descr");
    let descr := unescape (opt_str descr) in
    do type <- need values (u "type");
    if opt_eqb type (Some (u "host")) then
      do name <- need values (u "name");
      do address <- need values (u "address");
      Ok (learn_net s name descr (map alias_host (entries address)))
    else if opt_eqb type (Some (u "network")) then
      do name <- need values (u "name");
      do address <- need values (u "address");
      do members <- map_r mk_net (entries address);
      Ok (learn_net s name descr members)
    else if opt_eqb type (Some (u "urltable")) then
      do name <- need values (u "name");
      Ok (learn_net s name descr
            (if fetch then
               match dget values (u "url") with
               | Some url => match download url with
                             | Some lines => flat_map urltable_line lines
                             | None => []
                             end
               | None => []
               end
             else [HLeaf LAny]))
    else if opt_eqb type (Some (u "port")) then
      do name <- need values (u "name");
      do address <- need values (u "address");
      do members <- map_r alias_port (entries address);
      Ok (learn_port s name descr members)
    else Err ValueError.
  Definition pf_aliases (fetch : bool) (l : list xml) (s : pstate) : result pstate := fold_r (pf_alias fetch) l s.

  (** ** Rules, 231-358 *)

  (** [self.interface_map.get(i, i)] *)
  Definition map_iface (s : pstate) (i : option pystr) : option pystr :=
    match i with
    | Some n => match dget (ps_map s) n with Some a => Some a | None => Some n end
    | None => None
    end.

  (** 271-279: the text of an address element *)
  Definition rule_address (s : pstate) (t : option pystr) : result host :=
    match aget opt_eqb (ps_net s) t with
    | Some g => Ok (HGrp g)
    | None =>
        match t with
        | None => Err TypeError
        | Some a => if has_char c_divide a then mk_net a else mk_host a
        end
    end.
  (** 280-288: the text of a port element; [split("-", 2)] gives at most three parts *)
  Definition rule_port (s : pstate) (t : option pystr) : result pmember :=
    match aget opt_eqb (ps_port s) t with
    | Some g => Ok (PGrp g)
    | None =>
        match t with
        | None => Err TypeError
        | Some p =>
            if has_char c_dash p then
              match split_on c_dash p with
              | [a; b] => port_range py_int (Some a) (Some b)
              | _ => Err TypeError
              end
            else Ok (PPort (Some (u "eq")) (Some p))
        end
    end.
  (** 289-294 *)
  Definition rule_network (s : pstate) (t : option pystr) : result host :=
    match t with
    | Some n => match dget (ps_ifs s) n with Some a => Ok (HLeaf (LIface a)) | None => Err ValueError end
    | None => Err ValueError
    end.
  (** 267-297: the children of source or destination *)
  Definition rule_node (s : pstate) (st : option host * option pmember) (n : xml) : result (option host * option pmember) :=
    if str_eqb (x_tag n) (u "any") then Ok (Some (HLeaf LAny), snd st)
    else if str_eqb (x_tag n) (u "address") then do a <- rule_address s (x_text n); Ok (Some a, snd st)
    else if str_eqb (x_tag n) (u "port") then do p <- rule_port s (x_text n); Ok (fst st, Some p)
    else if str_eqb (x_tag n) (u "network") then do a <- rule_network s (x_text n); Ok (Some a, snd st)
    else Err ValueError.
  (** [ACLNode(address, port)]: the assertion refuses a missing address *)
  Definition rule_side (s : pstate) (kids : list xml) : result pnode :=
    do (a, p) <- fold_r (rule_node s) kids (None, None);
    match a with Some h => Ok (mkpnode h p) | None => Err AssertionError end.

  (** The dictionary [values] of 234-243, split by kind of value. *)
  Record pvals := mkpv {
    pv : dict (option pystr); pv_log : bool; pv_src : pnode; pv_dst : pnode;
    pv_created : option Z; pv_updated : option Z; pv_icmp : option (option pystr) }.
  Definition pv_init : pvals :=
    mkpv [(u "protocol", Some (u "any")); (u "statetype", Some (u "keep state")); (u "floating", Some (u "no"))]
         false (mkpnode (HLeaf LAny) None) (mkpnode (HLeaf LAny) None) None None None.
  Definition valueable : list pystr :=
    map u ["tracker"; "type"; "interface"; "floating"; "direction"; "quick"; "protocol"; "descr"; "disabled"; "statetype"]%string.
  Definition ignored_tags : list pystr :=
    map u ["id"; "ipprotocol"; "tag"; "tagged"; "max"; "max-src-nodes"; "max-src-conn"; "max-src-states"; "statetimeout"; "os"]%string.
  Definition tag_in (t : pystr) (l : list pystr) : bool := existsb (str_eqb t) l.

  (** 298-301: the last [time] child *)
  Definition rule_time (old : option Z) (kids : list xml) : result (option Z) :=
    fold_r (fun t n => if str_eqb (x_tag n) (u "time") then do z <- to_time (x_text n); Ok (Some z) else Ok t) kids old.

  (** One child of a rule element, 256-320. *)
  Definition rule_child (s : pstate) (w : pvals) (v : xml) : result pvals :=
    let t := x_tag v in
    if tag_in t valueable then
      let x := if str_eqb t (u "descr") then Some (unescape (opt_str (x_text v))) else x_text v in
      Ok (mkpv (dset (pv w) t x) (pv_log w) (pv_src w) (pv_dst w) (pv_created w) (pv_updated w) (pv_icmp w))
    else if str_eqb t (u "log") then
      Ok (mkpv (pv w) true (pv_src w) (pv_dst w) (pv_created w) (pv_updated w) (pv_icmp w))
    else if str_eqb t (u "source") then
      do n <- rule_side s (x_kids v);
      Ok (mkpv (pv w) (pv_log w) n (pv_dst w) (pv_created w) (pv_updated w) (pv_icmp w))
    else if str_eqb t (u "destination") then
      do n <- rule_side s (x_kids v);
      Ok (mkpv (pv w) (pv_log w) (pv_src w) n (pv_created w) (pv_updated w) (pv_icmp w))
    else if str_eqb t (u "created") then
      do z <- rule_time (pv_created w) (x_kids v);
      Ok (mkpv (pv w) (pv_log w) (pv_src w) (pv_dst w) z (pv_updated w) (pv_icmp w))
    else if str_eqb t (u "updated") then
      do z <- rule_time (pv_updated w) (x_kids v);
      Ok (mkpv (pv w) (pv_log w) (pv_src w) (pv_dst w) (pv_created w) z (pv_icmp w))
    else if str_eqb t (u "icmptype") then
      Ok (mkpv (pv w) (pv_log w) (pv_src w) (pv_dst w) (pv_created w) (pv_updated w) (Some (x_text v)))
    else if tag_in t ignored_tags then Ok w
    else Err ValueError.

  (** _parse_filter__rule 231-358. *)
  Definition pf_rule (s : pstate) (i : xml) : result prule :=
    do w <- fold_r (rule_child s) (x_kids i) pv_init;
    let v := pv w in
    do floating <- need v (u "floating");
    do (id, fl) <-
      (if opt_eqb floating (Some (u "yes")) then
         do i <- need v (u "interface");
         match i with
         | None => Err AttributeError
         | Some i =>
             do d <- need v (u "direction");
             Ok (Some (u "floating"), Some (map (fun n => opt_str (map_iface s (Some n))) (split_on c_comma i), d))
         end
       else do i <- need v (u "interface"); Ok (map_iface s i, None));
    do state <- need v (u "statetype");
    do type <- need v (u "type");
    do proto <- need v (u "protocol");
    do descr <- need v (u "descr");
    Ok (mkprule id (if opt_eqb type (Some (u "pass")) then u "permit" else u "deny") proto
          (pv_src w) (pv_dst w) descr (dget v (u "tracker")) fl
          (dmem v (u "disabled")) (pv_log w)
          (if opt_eqb state (Some (u "keep state")) then None else Some state)
          (pv_icmp w) (pv_created w) (pv_updated w) None).

  (** ** Separators, 197-226 *)

  Definition caption : Type := option pystr * pystr.
  Definition seps : Type := list (option pystr * list (Z * list caption)).

  (** [separators[iface][row].append(c)] on nested defaultdicts *)
  Definition sep_add (d : seps) (iface : option pystr) (row : Z) (c : caption) : seps :=
    let rows := match aget opt_eqb d iface with Some r => r | None => [] end in
    let cs := match aget Z.eqb rows row with Some l => l | None => [] end in
    aset opt_eqb d iface (aset Z.eqb rows row (cs ++ [c])).

  (** 200-213: one separator of an interface.  [row] is None if the element is empty. *)
  Definition pf_sep (s : pstate) (d : seps) (sep : xml) : result seps :=
    match py_int (skipn 3 (x_tag sep)) with
    | None => Err ValueError
    | Some _ =>
        let values := texts (x_kids sep) [] in
        do iface <- need values (u "if");
        let iface := if opt_eqb iface (Some (u "floatingrules")) then Some (u "floating") else map_iface s iface in
        do row <- need values (u "row");
        match row with
        | None => Err TypeError
        | Some row =>
            match py_int (skipn 2 row) with
            | None => Err ValueError
            | Some row =>
                do color <- need values (u "color");
                do text <- need values (u "text");
                do text <- unescape_opt text;
                Ok (sep_add d iface row (color, text))
            end
        end
    end.
  Definition pf_seps (s : pstate) (e : xml) : result seps :=
    fold_r (fun d ifname => fold_r (pf_sep s) (x_kids ifname) d) (x_kids e) [].

  (** [ast[idx].head = l] *)
  Definition set_head (r : prule) (l : list caption) : prule :=
    mkprule (p_id r) (p_mode r) (p_proto r) (p_src r) (p_dst r) (p_descr r) (p_xref r) (p_float r)
      (p_inactive r) (p_log r) (p_statetype r) (p_icmp r) (p_created r) (p_updated r) (Some l).

  (** The loop 215-226 over the rules read so far; [idx] and [last] count from 0. *)
  Fixpoint attach (d : seps) (idx last : nat) (ifname : option pystr) (l : list prule) : list prule :=
    match l with
    | [] => []
    | r :: l' =>
        let '(last, ifname) := if opt_eqb (p_id r) ifname then (last, ifname) else (idx, p_id r) in
        let sidx := Z.of_nat (idx - last) in
        let r' := match aget opt_eqb d ifname with
                  | Some rows => match aget Z.eqb rows sidx with Some cs => set_head r cs | None => r end
                  | None => r
                  end in
        r' :: attach d (S idx) last ifname l'
    end.

  (** _parse_filter 190-229 *)
  Definition pf_filter_item (s : pstate) (ast : list prule) (i : xml) : result (list prule) :=
    if str_eqb (x_tag i) (u "rule") then do r <- pf_rule s i; Ok (ast ++ [r])
    else if str_eqb (x_tag i) (u "separator") then do d <- pf_seps s i; Ok (attach d 0 0 None ast)
    else Err ValueError.
  Definition pf_filter (s : pstate) (l : list xml) : result (list prule) := fold_r (pf_filter_item s) l [].
End Pf.
