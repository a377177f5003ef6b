(** How a whole ASA/FWSM configuration is written: commands one after the other, each
    written with the names defined before it. *)
From Coq Require Import String.
From Verif.Model Require Import Base Ip Hosts Groups Rules Nat Iface AddrText Ports AclText Define GroupText ObjText LineText NatText FileText.
From Verif.Spec Require Import AddrSpec AddrTextSpec RefSpec CafMeanSpec AclTextSpec GroupTextSpec ObjTextSpec LineTextSpec.
From Verif.Spec Require NatTextSpec.
Local Open Scope list_scope.

(** ** Commands that are skipped, by their first word *)
(** anything may follow the word *)
Definition open_words : list string :=
  [":"; "!"; "app-agent"; "boot"; "call-home"; "clock"; "command-alias"; "Cryptochecksum:"; "dns"; "dns-guard"; "enable";
   "firewall"; "flow-export"; "fragment"; "ftp"; "hpm"; "mac-address"; "mac-address-table"; "management-access"; "multicast-routing";
   "nac-policy"; "nat-control"; "no"; "passwd"; "resource"; "same-security-traffic"; "virtual"; "vpdn"; "vpn"; "vpn-group-policy";
   "webvpn"; "xlate-bypass"]%string.
(** blanks must follow the word *)
Definition spaced_words : list string :=
  ["aaa"; "aaa-server"; "arp"; "arp-inspection"; "asdm"; "auth-prompt"; "class-map"; "console"; "crypto"; "dhcpd"; "dhcprelay";
   "dynamic-access-policy-record"; "eou"; "established"; "global"; "group-policy"; "http"; "icmp"; "ip"; "ipv6"; "ldap"; "license";
   "logging"; "monitor-interface"; "mtu"; "ntp"; "pager"; "password-policy"; "policy-map"; "privilege"; "prompt"; "route"; "router";
   "service"; "service-module"; "service-policy"; "sla"; "smtp-server"; "snmp-map"; "snmp-server"; "ssh"; "ssl"; "static"; "sysopt";
   "tcp-map"; "telnet"; "terminal"; "tftp-server"; "threat-detection"; "timeout"; "tls-proxy"; "tunnel-group"; "tunnel-group-map";
   "url-cache"; "user-identity"; "username"; "xlate"]%string.
(** indented lines may follow the line *)
Definition block_words : list string :=
  ["aaa-server"; "call-home"; "class-map"; "crypto"; "dns"; "dynamic-access-policy-record"; "group-policy"; "ldap"; "license";
   "nac-policy"; "policy-map"; "router"; "sla"; "snmp-map"; "ssh"; "tcp-map"; "tunnel-group"; "username"; "vpn"; "webvpn"]%string.
(** The rest of the line after the word. *)
Inductive after_word : string -> pystr -> Prop :=
| AW_open w q : In w open_words -> one_line q -> after_word w (q ++ lf)
| AW_spaced w g q : In w spaced_words \/ w = "failover"%string -> gap g -> one_line q -> after_word w (g ++ q ++ lf)
| AW_alone w z : w = "failover"%string \/ w = "names"%string -> eol_text z -> after_word w z.
(** One or more indented lines, each may have an empty line before it. *)
Inductive block_text : pystr -> Prop :=
| BL_nil : block_text []
| BL_more e q t : e = [] \/ eol_text e -> one_line q -> block_text t -> block_text (e ++ u " " ++ q ++ lf ++ t).
Section File.
  Variables (isalnum isspace : N -> bool) (other : pystr -> Prop).
  (** A word of letters and digits ends where no letter or digit follows. *)
  Definition plain_word (w : string) : Prop := forall c, In c (u w) -> letter c \/ digit c.
  Definition skipped_line (w : string) (l : pystr) : Prop :=
    exists x, l = u w ++ x /\ after_word w x /\ (plain_word w -> ~ opens_alnum isalnum x).
  (** If several words fit the longest one counts. *)
  Inductive skipped_text : pystr -> Prop :=
  | SK w l t : skipped_line w l -> (forall w', skipped_line w' l -> (length (u w') <= length (u w))%nat) ->
      (t = [] \/ In w block_words /\ block_text t) -> skipped_text (l ++ t).

  (** ** One command, and what may follow it *)
  Definition ident_over (r : pystr) : Prop := forall c q, r = c :: q -> ~ (letter c \/ digit c \/ c = 95%N \/ c = 45%N \/ c = 46%N).
  Inductive command_text (T : tables) : command -> pystr -> pystr -> Prop :=
  | CX_simple x t r : simple_text isalnum isspace other x t -> (forall n, x = SDomain n -> ident_over r) -> command_text T (CSimple x) t r
  | CX_object bare d t r : obj_text isspace (env_of T) (tb_if T) bare d t -> (bare = true -> name_over r) -> command_text T (CObject d) t r
  | CX_group d t r : def_text (env_of T) d t -> command_text T (CGroup d) t r
  | CX_rule x t r : rule_text (env_of T) isspace x t -> command_text T (CRule x) t r
  | CX_ethertype t r : ethertype_text isalnum t -> command_text T CEthertype t r
  (** remarks with no rule after them *)
  | CX_remarks l ts r : l <> [] -> Forall2 remark_text l ts -> (forall q, r <> u "access-list" ++ q) -> command_text T (CRemarks l) (concat ts) r
  | CX_nat a n t r : NatTextSpec.nat_line_text (env_of T) (tb_if T) a t -> nat_action a = Ok (Some n) -> command_text T (CNat (Some n)) t r
  | CX_pix t r : NatTextSpec.pix_text (tb_if T) t -> (exists q, r = lf ++ q) -> command_text T (CNat None) t r
  | CX_skipped t r : skipped_text t -> command_text T CSkipped t r
  | CX_empty t r : eol_text t -> command_text T CEmpty t r.
  (** Commands one after the other, what they make and the tables at the end. *)
  Inductive file_text : tables -> list command -> list made -> tables -> pystr -> Prop :=
  | FX_nil T : file_text T [] [] T []
  | FX_more T c t r T' m cs ms T'' : command_text T c t r -> learn T c = Ok (T', m) -> file_text T' cs ms T'' r ->
      file_text T (c :: cs) (m :: ms) T'' (t ++ r).
End File.

(** ** Naming rules for the names a configuration defines *)
Inductive sort := NetGroup | SvcGroup | PortGroup | IcmpGroup | ProtoGroup.
Inductive group_named : sort -> pystr -> command -> Prop :=
| GN_net d : group_named NetGroup (gd_name d) (CGroup (DNet d))
| GN_svc d : group_named SvcGroup (gd_name d) (CGroup (DService d))
| GN_port d : group_named PortGroup (gd_name d) (CGroup (DPort d))
| GN_icmp d : group_named IcmpGroup (gd_name d) (CGroup (DIcmp d))
| GN_proto d : group_named ProtoGroup (gd_name d) (CGroup (DProto d)).
Inductive object_named : pystr -> command -> Prop :=
| BN_net n d b : object_named n (CObject (ONet n d b))
| BN_svc n d s : object_named n (CObject (OSvc n d s)).
Inductive interface_named : pystr -> command -> Prop :=
| IN_alias a l : interface_named a (CSimple (SInterface a l))
| IN_nameif a l n : In (DNameif n) l -> interface_named n (CSimple (SInterface a l)).
(** Two sorts of groups one name is not used for: what a reference means would depend on
    the place it is at. *)
Definition exclusive (a b : sort) : Prop :=
  In (a, b) [(NetGroup, SvcGroup); (NetGroup, PortGroup); (IcmpGroup, SvcGroup); (IcmpGroup, PortGroup); (SvcGroup, PortGroup); (SvcGroup, ProtoGroup)].
Record well_named (isalnum : N -> bool) (cs : list command) : Prop := {
  wn_hosts : forall x, In (CSimple (SName x)) cs -> hostname_ok (nm_host x);
  wn_objects : forall n c, In c cs -> object_named n c -> n <> [];
  wn_groups : forall k n c, In c cs -> group_named k n c -> n <> [];
  wn_exclusive : forall a b n c c', In c cs -> In c' cs -> group_named a n c -> group_named b n c' -> exclusive a b -> False;
  wn_ifaces : forall n c, In c cs -> interface_named n c -> freeof (in_class [44; 41]%N) n /\ clear_of_any isalnum n }.
