(** A whole pfSense configuration (pfsenseSemantics.py:39-81, pfsenseObjects.py:15-32,
    aclObjects.py:1190-1250), from the element tree; and filtering it. *)
From Coq Require Import String.
From Verif.Model Require Import Base Ip Hosts Groups Rules Caf Iface Ports Pfsense CafText.
Local Open Scope list_scope.

(** The list [ast] handed to pfsenseConfig.  [QBirth]: the key "birth" of the revision's
    dictionary, which is what [ast.extend] adds (the time itself is lost); groups with their
    name and number. *)
Inductive pitem :=
| QBirth
| QNet (name : option pystr) (g : gid) | QPort (name : option pystr) (g : gid)
| QIface (o : interface) | QRule (r : prule) | QHostname (s : pystr).

(** [root.findall(tag)] for a plain tag: the children so named, in order *)
Definition findall (tag : pystr) (root : xml) : list xml := filter (fun e => str_eqb (x_tag e) tag) (x_kids root).
(** [f"{x}"] of a string or None *)
Definition show_opt (t : option pystr) : pystr := match t with Some s => s | None => u "None" end.

(** pfsenseConfig: what ACLConfig.__init__ fills for these objects. *)
Record pconfig := mkpconfig {
  pcf_hostname : pystr; pcf_domain : pystr;
  pcf_ifaces : dict interface;
  pcf_net : list (option pystr * gid); pcf_port : list (option pystr * gid);
  pcf_rules : list prule }.
Definition pc_init : pconfig := mkpconfig [] [] [] [] [] [].
(** The loop body aclObjects.py:1203-1250; the other cases do not occur.  [QBirth] is a
    string and skipped (1248-1249).  The interfaces have no access groups to collect. *)
Definition pc_step (c : pconfig) (i : pitem) : pconfig :=
  match i with
  | QBirth => c
  | QHostname s => mkpconfig s (pcf_domain c) (pcf_ifaces c) (pcf_net c) (pcf_port c) (pcf_rules c)
  | QIface o => mkpconfig (pcf_hostname c) (pcf_domain c) (dset (pcf_ifaces c) (if_alias o) o) (pcf_net c) (pcf_port c) (pcf_rules c)
  | QNet n g => mkpconfig (pcf_hostname c) (pcf_domain c) (pcf_ifaces c) (aset opt_eqb (pcf_net c) n g) (pcf_port c) (pcf_rules c)
  | QPort n g => mkpconfig (pcf_hostname c) (pcf_domain c) (pcf_ifaces c) (pcf_net c) (aset opt_eqb (pcf_port c) n g) (pcf_rules c)
  | QRule r => mkpconfig (pcf_hostname c) (pcf_domain c) (pcf_ifaces c) (pcf_net c) (pcf_port c) (pcf_rules c ++ [r])
  end.
Definition pc_build (l : list pitem) : pconfig := fold_left pc_step l pc_init.
(** [ACLConfig.name] aclObjects.py:1252-1254 *)
Definition pc_name (c : pconfig) : pystr := pcf_hostname c ++ u "." ++ pcf_domain c.

Definition no_groups {X} : gheap X := mkheap (fun _ => mkgroup [] [] [] []) 0.
Definition ps_empty : pstate := mkps [] [] [] [] no_groups no_groups.

Section PfFile.
  Context (unescape : pystr -> pystr) (py_int : pystr -> option Z)
          (ip_addr : pystr -> option addr) (ip_net : pystr -> pystr -> result net)
          (to_time : option pystr -> result Z) (strip : pystr -> pystr)
          (ip_net_strict : pystr -> bool) (download : option pystr -> option (list pystr))
          (fetch : bool).

  (** _parse_revision 61-69: the first [time] child must hold a time *)
  Fixpoint pf_revision (l : list xml) : result unit :=
    match l with
    | [] => Ok tt
    | i :: l => if str_eqb (x_tag i) (u "time") then do _ <- to_time (x_text i); Ok tt else pf_revision l
    end.
  (** _parse_system 71-80 *)
  Definition pf_system (l : list xml) : pystr :=
    let '(d, h) := fold_left (fun '(d, h) i =>
      if str_eqb (x_tag i) (u "domain") then (x_text i, h)
      else if str_eqb (x_tag i) (u "hostname") then (d, x_text i) else (d, h)) l (None, None) in
    show_opt h ++ u "." ++ show_opt d.
  (** _parse_aliases: the group each alias makes (its name and the number it gets) *)
  Definition alias_item (s : pstate) (i : xml) : result pitem :=
    let values := texts (x_kids i) [] in
    do type <- need values (u "type");
    do name <- need values (u "name");
    Ok (if opt_eqb type (Some (u "port")) then QPort name (h_next (ps_ph s)) else QNet name (h_next (ps_nh s))).
  Fixpoint alias_items (l : list xml) (s : pstate) : result (list pitem * pstate) :=
    match l with
    | [] => Ok ([], s)
    | i :: l =>
        do s' <- pf_alias unescape py_int ip_addr ip_net strip ip_net_strict download fetch s i;
        do x <- alias_item s i;
        do (xs, s') <- alias_items l s';
        Ok (x :: xs, s')
    end.

  (** The loop body 53-58; there is no method for "filter/separator". *)
  Definition pf_section (tag : pystr) (st : list pitem * pstate) (e : xml) : result (list pitem * pstate) :=
    let '(ast, s) := st in
    if str_eqb tag (u "revision") then do _ <- pf_revision (x_kids e); Ok (ast ++ [QBirth], s)
    else if str_eqb tag (u "aliases") then do (xs, s) <- alias_items (x_kids e) s; Ok (ast ++ xs, s)
    else if str_eqb tag (u "interfaces") then
      do (os, s) <- pf_interfaces unescape (length ast) (x_kids e) s; Ok (ast ++ map QIface os, s)
    else if str_eqb tag (u "filter") then
      do rs <- pf_filter unescape py_int ip_addr ip_net to_time s (x_kids e); Ok (ast ++ map QRule rs, s)
    else if str_eqb tag (u "system") then Ok (ast ++ [QHostname (pf_system (x_kids e))], s)
    else Ok (ast, s).
  (** 50 without the last one, for which [findall] is not called on direct children; it
      selects separators, for which there is no method *)
  Definition pf_tags : list pystr := map u ["revision"; "aliases"; "interfaces"; "filter"; "system"]%string.
  (** pfsenseParser.parse 45-59 *)
  Definition pf_parse (root : xml) : result (pconfig * pstate) :=
    if str_eqb (x_tag root) (u "pfsense") || str_eqb (x_tag root) (u "opnsense") then
      do (ast, s) <- fold_r (fun st tag => fold_r (pf_section tag) (findall tag root) st) pf_tags ([], ps_empty);
      Ok (pc_build ast, s)
    else Err ValueError.

  (** ** Filtering (ACLConfig.filter aclObjects.py:1368-1380, cafBlock.fromString cafObjects.py:27-54) *)
  Context (isalpha isalnum isspace : N -> bool).
  (** What ACLRule.__and__ (aclObjects.py:1103-1128) reads of a rule. *)
  Definition prule_of (r : prule) : rule := mkrule (p_id r) (pn_host (p_src r)) (pn_host (p_dst r)).
  Definition prule_at (l : list prule) (k : iid) : item :=
    match nth_error l k with
    | Some r => IRule (prule_of r)
    | None => IRule (mkrule None (HLeaf LAny) (HLeaf LAny))
    end.
  Definition pf_config_filter (fuel : nat) (root : xml) (query : pystr) : result (list iid) :=
    do (cfg, s) <- pf_parse root;
    do (h, c) <- caf_read isalpha isalnum isspace (ps_nh s) query;
    config_filter fuel h (prule_at (pcf_rules cfg)) c (seq 0 (length (pcf_rules cfg))) [[]; []; []].
End PfFile.
