(** What a pfSense document stands for, read off its element tree. *)
From Coq Require Import String.
From Verif.Model Require Import Base Ip Hosts Groups Iface Ports Pfsense.
From Verif.Spec Require Import PfSpec.
Local Open Scope list_scope.

(** The top-level sections with a given tag, and everything inside them, in document order. *)
Definition sections (tag : pystr) (root : xml) : list xml := filter (fun e => str_eqb (x_tag e) tag) (x_kids root).
Definition contents (tag : pystr) (root : xml) : list xml := flat_map x_kids (sections tag root).

(** [k] is the position of the last entry with a property. *)
Definition last_at {A} (P : A -> Prop) (l : list A) (k : nat) : Prop :=
  (exists x, nth_error l k = Some x /\ P x) /\ forall j x, k < j -> nth_error l j = Some x -> ~ P x.

(** ** Aliases: the groups are numbered in order, and a name stands for the last alias so named. *)
Definition alias : Type := option pystr * pystr * content.
Definition host_groups (l : list alias) : list (option pystr * group host) :=
  flat_map (fun '(n, d, c) => match c with CHosts m => [(n, mkgroup (opt_str n) d [] m)] | CPorts _ => [] end) l.
Definition service_groups (l : list alias) : list (option pystr * group pmember) :=
  flat_map (fun '(n, d, c) => match c with CPorts m => [(n, mkgroup (opt_str n) d (u "any") m)] | CHosts _ => [] end) l.
Definition names_stand_for {X} (defs : list (option pystr * group X)) (tab : list (option pystr * gid)) (h : gheap X) : Prop :=
  h_next h = length defs /\
  (forall k n g, nth_error defs k = Some (n, g) -> h_get h k = g) /\
  forall n k, aget opt_eqb tab n = Some k <-> last_at (fun x => fst x = n) defs k.

(** ** Interfaces *)
Definition interfaces_known (objs : list interface) (s : pstate) : Prop :=
  (forall n a, dget (ps_ifs s) n = Some a <-> a = n /\ In n (map if_alias objs)) /\
  (forall n a, dget (ps_map s) n = Some a <-> exists o, last_described objs n o /\ a = if_alias o).

Section Doc.
  Context (unescape : pystr -> pystr) (py_int : pystr -> option Z)
          (ip_addr : pystr -> option addr) (ip_net : pystr -> pystr -> result net)
          (to_time : option pystr -> result Z) (strip : pystr -> pystr)
          (ip_net_strict : pystr -> bool) (download : option pystr -> option (list pystr))
          (fetch : bool).

  (** A filter section: rules, and separators that give captions to the rules before them. *)
  Inductive filter_reads (s : pstate) : list xml -> list prule -> Prop :=
  | FR_nil : filter_reads s [] []
  | FR_rule l rs c r : filter_reads s l rs -> x_tag c = u "rule" ->
      rule_means unescape py_int ip_addr ip_net to_time s (x_kids c) r -> filter_reads s (l ++ [c]) (rs ++ [r])
  | FR_separator l rs c ms rs' : filter_reads s l rs -> x_tag c = u "separator" ->
      Forall2 (sep_means unescape py_int s) (flat_map x_kids (x_kids c)) ms -> separated ms rs rs' ->
      filter_reads s (l ++ [c]) rs'.

  (** The revision: its first time, if any, can be read. *)
  Definition revision_ok (e : xml) : Prop :=
    no_child (u "time") (x_kids e) \/
    exists before c after t, x_kids e = before ++ c :: after /\ no_child (u "time") before /\ x_tag c = u "time" /\ to_time (x_text c) = Ok t.

  (** The host name: name and domain, the last of each; "None" for what is missing. *)
  Definition shown (t : option pystr) : pystr := match t with Some x => x | None => u "None" end.
  Definition hostname_of (e : xml) (n : pystr) : Prop :=
    exists h d, text_or (u "hostname") None (x_kids e) h /\ text_or (u "domain") None (x_kids e) d /\ n = shown h ++ u "." ++ shown d.

  (** The names known to the rules: those of all aliases and interfaces of the document. *)
  Definition names_of (root : xml) (s : pstate) : Prop :=
    (exists l, Forall2 (fun i '(n, d, c) => alias_means unescape py_int ip_addr ip_net strip ip_net_strict download fetch (x_kids i) n d c) (contents (u "aliases") root) l /\
       names_stand_for (host_groups l) (ps_net s) (ps_nh s) /\ names_stand_for (service_groups l) (ps_port s) (ps_ph s)) /\
    (exists objs, Forall2 (iface_means unescape) (contents (u "interfaces") root) objs /\ interfaces_known objs s).

  (** A document that can be read. *)
  Definition document (root : xml) (s : pstate) : Prop :=
    (x_tag root = u "pfsense" \/ x_tag root = u "opnsense") /\
    (forall e, In e (sections (u "revision") root) -> revision_ok e) /\
    (forall i, In i (contents (u "interfaces") root) -> loadable i) /\
    names_of root s /\
    forall e, In e (sections (u "filter") root) -> exists rs, filter_reads s (x_kids e) rs.
  (** The rules of a document: those of its filter sections in order. *)
  Definition rules_of (root : xml) (s : pstate) (rs : list prule) : Prop :=
    exists rss, Forall2 (fun e r => filter_reads s (x_kids e) r) (sections (u "filter") root) rss /\ rs = concat rss.
End Doc.
