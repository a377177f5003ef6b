(** What the elements of a pfSense configuration mean, read off the XML tree. *)
From Coq Require Import String.
From Verif.Model Require Import Base Ip Hosts Groups Iface Ports Pfsense.
Local Open Scope list_scope.

(** The last child with a given tag, and its text ([Some None]: the element is empty). *)
Definition last_child (tag : pystr) (kids : list xml) (c : xml) : Prop :=
  exists before after, kids = before ++ c :: after /\ x_tag c = tag /\ forall d, In d after -> x_tag d <> tag.
Definition no_child (tag : pystr) (kids : list xml) : Prop := forall d, In d kids -> x_tag d <> tag.
Definition child_text (tag : pystr) (kids : list xml) (t : option pystr) : Prop :=
  exists c, last_child tag kids c /\ x_text c = t.
(** The text of a child, or a default if there is no such child. *)
Definition text_or (tag : pystr) (dflt : option pystr) (kids : list xml) (t : option pystr) : Prop :=
  child_text tag kids t \/ (no_child tag kids /\ t = dflt).

(** [a], the separator character, [b]; the separator occurs nowhere else. *)
Definition parts2 (c : N) (s a b : pystr) : Prop := s = a ++ c :: b /\ ~ In c a /\ ~ In c b.

Section Spec.
  Context (unescape : pystr -> pystr) (py_int : pystr -> option Z)
          (ip_addr : pystr -> option addr) (ip_net : pystr -> pystr -> result net)
          (to_time : option pystr -> result Z).
  Context (s : pstate).

  (** The text of an address: a known alias, a network written with a slash, or a host. *)
  Inductive address_means (t : option pystr) : host -> Prop :=
  | am_alias g : aget opt_eqb (ps_net s) t = Some g -> address_means t (HGrp g)
  | am_net a x m n : aget opt_eqb (ps_net s) t = None -> t = Some a -> parts2 47 a x m ->
      ip_net x m = Ok n -> address_means t (HLeaf (LNet n))
  | am_host a v : aget opt_eqb (ps_net s) t = None -> t = Some a -> ~ In 47%N a ->
      ip_addr a = Some v -> address_means t (HLeaf (LHost v)).

  (** The text of a port: a known alias, a range written with a dash, or a single port. *)
  Inductive port_means (t : option pystr) : pmember -> Prop :=
  | pm_alias g : aget opt_eqb (ps_port s) t = Some g -> port_means t (PGrp g)
  | pm_range p a b r : aget opt_eqb (ps_port s) t = None -> t = Some p -> parts2 45 p a b ->
      port_range py_int (Some a) (Some b) = Ok r -> port_means t r
  | pm_single p : aget opt_eqb (ps_port s) t = None -> t = Some p -> ~ In 45%N p ->
      port_means t (PPort (Some (u "eq")) (Some p)).

  (** A child of source or destination that gives the address. *)
  Inductive address_child (c : xml) : host -> Prop :=
  | ac_any : x_tag c = u "any" -> address_child c (HLeaf LAny)
  | ac_address h : x_tag c = u "address" -> address_means (x_text c) h -> address_child c h
  | ac_network n a : x_tag c = u "network" -> x_text c = Some n -> dget (ps_ifs s) n = Some a ->
      address_child c (HLeaf (LIface a)).
  (** One that gives the port. *)
  Inductive port_child (c : xml) : pmember -> Prop :=
  | pc_port p : x_tag c = u "port" -> port_means (x_text c) p -> port_child c p.

  (** The children of source or destination: each must be understood; the last one that
      gives an address counts, and the last one that gives a port. *)
  Definition side_means (kids : list xml) (n : pnode) : Prop :=
    (forall c, In c kids -> (exists h, address_child c h) \/ (exists p, port_child c p)) /\
    (exists before c after, kids = before ++ c :: after /\ address_child c (pn_host n) /\
       forall d, In d after -> x_tag d = u "port") /\
    ((exists before c after p, kids = before ++ c :: after /\ port_child c p /\ pn_port n = Some p /\
       forall d, In d after -> x_tag d <> u "port") \/
     (no_child (u "port") kids /\ pn_port n = None)).

  (** A side of a rule: the last element of that name, or any if there is none. *)
  Definition side_of (tag : pystr) (kids : list xml) (n : pnode) : Prop :=
    (exists c, last_child tag kids c /\ side_means (x_kids c) n) \/
    (no_child tag kids /\ n = mkpnode (HLeaf LAny) None).

  (** A time: the last [time] element in any of the elements of that name. *)
  Definition times (tag : pystr) (kids : list xml) : list xml :=
    flat_map (fun c => if str_eqb (x_tag c) tag then x_kids c else []) kids.
  Definition time_of (tag : pystr) (kids : list xml) (z : option Z) : Prop :=
    (exists c t, last_child (u "time") (times tag kids) c /\ to_time (x_text c) = Ok t /\ z = Some t) \/
    (no_child (u "time") (times tag kids) /\ z = None).

  (** A child of a rule that is understood. *)
  Definition known_tags : list pystr :=
    map u ["tracker"; "type"; "interface"; "floating"; "direction"; "quick"; "protocol"; "descr"; "disabled";
           "statetype"; "log"; "source"; "destination"; "created"; "updated"; "icmptype"; "id"; "ipprotocol"; "tag";
           "tagged"; "max"; "max-src-nodes"; "max-src-conn"; "max-src-states"; "statetimeout"; "os"]%string.
  Definition understood (c : xml) : Prop :=
    In (x_tag c) known_tags /\
    (x_tag c = u "source" \/ x_tag c = u "destination" -> exists n, side_means (x_kids c) n) /\
    (x_tag c = u "created" \/ x_tag c = u "updated" ->
       forall d, In d (x_kids c) -> x_tag d = u "time" -> exists t, to_time (x_text d) = Ok t).

  (** The name the rule list of an interface goes by: its alias if there is one. *)
  Definition alias_of (n : pystr) : pystr := match dget (ps_map s) n with Some a => a | None => n end.

  (** The names between commas. *)
  Inductive comma_list : pystr -> list pystr -> Prop :=
  | cl_one a : ~ In 44%N a -> comma_list a [a]
  | cl_more a r l : ~ In 44%N a -> comma_list r l -> comma_list (a ++ 44%N :: r) (a :: l).

  (** The interface part: a floating rule goes to the list "floating" and keeps its
      interfaces and direction as an option; any other goes to its interface's list. *)
  Definition place_of (kids : list xml) (id : option pystr) (fl : option (list pystr * option pystr)) : Prop :=
    (child_text (u "floating") kids (Some (u "yes")) /\ id = Some (u "floating") /\
       exists i names d, child_text (u "interface") kids (Some i) /\ comma_list i names /\
         child_text (u "direction") kids d /\ fl = Some (map alias_of names, d)) \/
    (~ child_text (u "floating") kids (Some (u "yes")) /\ fl = None /\
       exists i, child_text (u "interface") kids i /\ id = option_map alias_of i).

  (** The rule an element stands for. *)
  Definition rule_means (kids : list xml) (r : prule) : Prop :=
    (forall c, In c kids -> understood c) /\
    place_of kids (p_id r) (p_float r) /\
    (exists t, child_text (u "type") kids t /\ (t = Some (u "pass") -> p_mode r = u "permit") /\
       (t <> Some (u "pass") -> p_mode r = u "deny")) /\
    text_or (u "protocol") (Some (u "any")) kids (p_proto r) /\
    side_of (u "source") kids (p_src r) /\
    side_of (u "destination") kids (p_dst r) /\
    (exists t, child_text (u "descr") kids t /\
       p_descr r = Some (unescape (match t with Some x => x | None => [] end))) /\
    ((exists t, child_text (u "tracker") kids t /\ p_xref r = Some t) \/ (no_child (u "tracker") kids /\ p_xref r = None)) /\
    (p_inactive r = true <-> ~ no_child (u "disabled") kids) /\
    (p_log r = true <-> ~ no_child (u "log") kids) /\
    (exists t, text_or (u "statetype") (Some (u "keep state")) kids t /\
       (t = Some (u "keep state") -> p_statetype r = None) /\ (t <> Some (u "keep state") -> p_statetype r = Some t)) /\
    ((exists t, child_text (u "icmptype") kids t /\ p_icmp r = Some t) \/ (no_child (u "icmptype") kids /\ p_icmp r = None)) /\
    time_of (u "created") kids (p_created r) /\ time_of (u "updated") kids (p_updated r) /\
    p_head r = None.
End Spec.

(** ** Interfaces *)
Section IfSpec.
  Context (unescape : pystr -> pystr).

  (** An interface element that can be loaded: no static address, a device, and no empty
      description element. *)
  Definition loadable (i : xml) : Prop :=
    (no_child (u "ipaddr") (x_kids i) \/ child_text (u "ipaddr") (x_kids i) (Some (u "dhcp"))) /\
    (exists d, child_text (u "if") (x_kids i) d) /\
    ~ child_text (u "descr") (x_kids i) None.
  (** An interface element with a static address (not necessarily a valid one). *)
  Definition static (i : xml) : Prop :=
    exists a, child_text (u "ipaddr") (x_kids i) a /\ a <> Some (u "dhcp").

  (** The interface an element stands for.  An optional interface ("opt1", ...) goes by
      its description and is described by its tag; any other the other way round. *)
  Definition iface_means (i : xml) (o : interface) : Prop :=
    (exists d, child_text (u "if") (x_kids i) d /\ if_nameif o = d) /\
    (((exists n, x_tag i = u "opt" ++ n) /\ if_descr o = Some (x_tag i) /\
        exists a, text_or (u "descr") (Some (x_tag i)) (x_kids i) (Some a) /\ if_alias o = unescape a) \/
     (~ (exists n, x_tag i = u "opt" ++ n) /\ if_alias o = x_tag i /\
        exists a, text_or (u "descr") (Some []) (x_kids i) (Some a) /\ if_descr o = Some (unescape a))) /\
    if_addrs o = [] /\ if_groups o = [] /\ if_switch o = None /\ if_routes o = [].
End IfSpec.

(** The last interface of a list with a given description. *)
Definition last_described (l : list interface) (n : pystr) (o : interface) : Prop :=
  exists before after, l = before ++ o :: after /\ if_descr o = Some n /\ forall p, In p after -> if_descr p <> Some n.

(** ** Separators *)
Section SepSpec.
  Context (unescape : pystr -> pystr) (py_int : pystr -> option Z) (s : pstate).

  (** A separator element: the rule list it belongs to, the row, and the caption. *)
  Definition sep_means (e : xml) (m : option pystr * Z * (option pystr * pystr)) : Prop :=
    exists i row color text,
      (exists n, py_int (skipn 3 (x_tag e)) = Some n) /\
      child_text (u "if") (x_kids e) i /\
      child_text (u "row") (x_kids e) (Some row) /\ py_int (skipn 2 row) = Some (snd (fst m)) /\
      child_text (u "color") (x_kids e) color /\ child_text (u "text") (x_kids e) (Some text) /\
      snd m = (color, unescape text) /\
      (i = Some (u "floatingrules") -> fst (fst m) = Some (u "floating")) /\
      (i <> Some (u "floatingrules") -> fst (fst m) = option_map (alias_of s) i).

  (** [caps] are the captions, in document order, of the marks for a list and a row. *)
  Inductive captions (id : option pystr) (row : Z) :
    list (option pystr * Z * (option pystr * pystr)) -> list (option pystr * pystr) -> Prop :=
  | cap_nil : captions id row [] []
  | cap_here c ms cs : captions id row ms cs -> captions id row ((id, row, c) :: ms) (c :: cs)
  | cap_other i r c ms cs : (i, r) <> (id, row) -> captions id row ms cs -> captions id row ((i, r, c) :: ms) cs.

  (** The rule at position [n] is number [k] (from 0) of its run of rules with one id. *)
  Definition run_index (ids : list (option pystr)) (n k : nat) : Prop :=
    k <= n /\ n < length ids /\
    (forall j, n - k <= j <= n -> nth_error ids j = nth_error ids n) /\
    (forall j, S j = n - k -> nth_error ids j <> nth_error ids n).

  (** Two rules that differ at most in their captions. *)
  Definition same_but_head (r r' : prule) : Prop :=
    p_id r' = p_id r /\ p_mode r' = p_mode r /\ p_proto r' = p_proto r /\ p_src r' = p_src r /\ p_dst r' = p_dst r /\
    p_descr r' = p_descr r /\ p_xref r' = p_xref r /\ p_float r' = p_float r /\ p_inactive r' = p_inactive r /\
    p_log r' = p_log r /\ p_statetype r' = p_statetype r /\ p_icmp r' = p_icmp r /\
    p_created r' = p_created r /\ p_updated r' = p_updated r.
  (** The effect of a separator element on the rules read so far. *)
  Definition separated (ms : list (option pystr * Z * (option pystr * pystr))) (l l' : list prule) : Prop :=
    length l' = length l /\
    forall n r, nth_error l n = Some r -> exists r' k caps,
      nth_error l' n = Some r' /\ same_but_head r r' /\
      run_index (map p_id l) n k /\ captions (p_id r) (Z.of_nat k) ms caps /\
      (caps = [] -> p_head r' = p_head r) /\ (caps <> [] -> p_head r' = Some caps).
End SepSpec.

(** ** Aliases *)
(** The pieces of a text between occurrences of a character. *)
Inductive pieces (c : N) : pystr -> list pystr -> Prop :=
| pc_one a : ~ In c a -> pieces c a [a]
| pc_more a r l : ~ In c a -> pieces c r l -> pieces c (a ++ c :: r) (a :: l).

Section AliasSpec.
  Context (unescape : pystr -> pystr) (py_int : pystr -> option Z)
          (ip_addr : pystr -> option addr) (ip_net : pystr -> pystr -> result net)
          (strip : pystr -> pystr) (ip_net_strict : pystr -> bool) (download : option pystr -> option (list pystr)).

  (** The blank-separated entries of an address element; none if it is empty. *)
  Definition entries_of (a : option pystr) (l : list pystr) : Prop :=
    match a with
    | None | Some [] => l = []
    | Some s => pieces 32 s l
    end.
  (** An entry of a host alias: an address, and "any" for everything else. *)
  Definition host_entry (e : pystr) (h : host) : Prop :=
    (exists a, ip_addr e = Some a /\ h = HLeaf (LHost a)) \/ (ip_addr e = None /\ h = HLeaf LAny).
  (** An entry of a network alias: address and mask. *)
  Definition network_entry (e : pystr) (h : host) : Prop :=
    exists a m n, parts2 47 e a m /\ ip_net a m = Ok n /\ h = HLeaf (LNet n).
  (** An entry of a port alias: a range or a single port. *)
  Definition port_entry (e : pystr) (p : pmember) : Prop :=
    (exists a b, parts2 58 e a b /\ port_range py_int (Some a) (Some b) = Ok p) \/
    (~ In 58%N e /\ p = PPort (Some (u "eq")) (Some e)).
  (** A line of a downloaded table. *)
  Definition table_entry (line : pystr) (l : list host) : Prop :=
    (exists a m n, parts2 47 (strip line) a m /\ ip_net_strict (strip line) = true /\ ip_net a m = Ok n /\ l = [HLeaf (LNet n)]) \/
    (exists v, ~ In 47%N (strip line) /\ ip_addr (strip line) = Some v /\ l = [HLeaf (LHost v)]) \/
    (~ (exists a m n, parts2 47 (strip line) a m /\ ip_net_strict (strip line) = true /\ ip_net a m = Ok n) /\
     ~ (exists v, ~ In 47%N (strip line) /\ ip_addr (strip line) = Some v) /\ l = []).

  Inductive content := CHosts (l : list host) | CPorts (l : list pmember).
  Context (fetch : bool).
  (** What an alias element of the given type holds. *)
  Inductive content_means (kids : list xml) : pystr -> content -> Prop :=
  | cm_host a es l : child_text (u "address") kids a -> entries_of a es -> Forall2 host_entry es l ->
      content_means kids (u "host") (CHosts l)
  | cm_network a es l : child_text (u "address") kids a -> entries_of a es -> Forall2 network_entry es l ->
      content_means kids (u "network") (CHosts l)
  | cm_port a es l : child_text (u "address") kids a -> entries_of a es -> Forall2 port_entry es l ->
      content_means kids (u "port") (CPorts l)
  | cm_not_fetched : fetch = false -> content_means kids (u "urltable") (CHosts [HLeaf LAny])
  | cm_fetched url ls hs : fetch = true -> child_text (u "url") kids url -> download url = Some ls ->
      Forall2 table_entry ls hs -> content_means kids (u "urltable") (CHosts (concat hs))
  | cm_failed : fetch = true -> (forall url, child_text (u "url") kids url -> download url = None) ->
      content_means kids (u "urltable") (CHosts []).
  Definition alias_means (kids : list xml) (name : option pystr) (descr : pystr) (c : content) : Prop :=
    child_text (u "name") kids name /\
    (exists d, child_text (u "descr") kids d /\ descr = unescape (match d with Some x => x | None => [] end)) /\
    exists t, child_text (u "type") kids (Some t) /\ content_means kids t c.
End AliasSpec.

(** A name now stands for a new group with the given members; everything else is as it was. *)
Definition bound {X} (tab tab' : list (option pystr * gid)) (h h' : gheap X) (name : option pystr) (g : group X) : Prop :=
  exists i, i = h_next h /\ h_next h' = S i /\ h_get h' i = g /\
    (forall j, j <> i -> h_get h' j = h_get h j) /\
    aget opt_eqb tab' name = Some i /\ (forall n, n <> name -> aget opt_eqb tab' n = aget opt_eqb tab n).
Definition registered (s s' : pstate) (name : option pystr) (descr : pystr) (c : content) : Prop :=
  ps_ifs s' = ps_ifs s /\ ps_map s' = ps_map s /\
  match c with
  | CHosts l => bound (ps_net s) (ps_net s') (ps_nh s) (ps_nh s') name (mkgroup (opt_str name) descr [] l) /\
                ps_port s' = ps_port s /\ ps_ph s' = ps_ph s
  | CPorts l => bound (ps_port s) (ps_port s') (ps_ph s) (ps_ph s') name (mkgroup (opt_str name) descr (u "any") l) /\
                ps_net s' = ps_net s /\ ps_nh s' = ps_nh s
  end.
