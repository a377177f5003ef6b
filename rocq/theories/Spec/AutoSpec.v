(** What reading a configuration of an unknown format means. *)
From Verif.Model Require Import Base Ip Hosts Groups Rules Caf CafText Define FileText IosFile Pfsense PfFile Detect Auto.
From Verif.Spec Require Import AclTextSpec GroupTextSpec FilterSpec LineTextSpec FileTextSpec FileFilterSpec IosFileSpec IosFilterSpec PfFilterSpec.
Local Open Scope N_scope.

(** ** UTF-8 (RFC 3629, section 3) *)
Definition scalar (c : N) : Prop := c < 0x110000 /\ ~ (0xD800 <= c <= 0xDFFF).
Inductive utf8_char : N -> list N -> Prop :=
| U8_1 c : c < 0x80 -> utf8_char c [c]
| U8_2 c : 0x80 <= c < 0x800 -> utf8_char c [0xC0 + c / 64; 0x80 + c mod 64]
| U8_3 c : 0x800 <= c < 0x10000 -> ~ (0xD800 <= c <= 0xDFFF) -> utf8_char c [0xE0 + c / 4096; 0x80 + c / 64 mod 64; 0x80 + c mod 64]
| U8_4 c : 0x10000 <= c < 0x110000 -> utf8_char c [0xF0 + c / 262144; 0x80 + c / 4096 mod 64; 0x80 + c / 64 mod 64; 0x80 + c mod 64].
(** The bytes of a text. *)
Inductive utf8_text : pystr -> list N -> Prop :=
| UT_nil : utf8_text [] []
| UT_cons c b s l : utf8_char c b -> utf8_text s l -> utf8_text (c :: s) (b ++ l).
(** The bytes of a file: a byte order mark may come first and does not belong to the text. *)
Inductive file_bytes : pystr -> list N -> Prop :=
| FB_mark s l : utf8_text s l -> file_bytes s ([0xEF; 0xBB; 0xBF] ++ l)
| FB_none s l : utf8_text s l -> (forall q, s <> 0xFEFF :: q) -> file_bytes s l.
Local Close Scope N_scope.

(** ** The formats *)
(** Lines before the first command that both formats skip: empty or starting with [!]. *)
Inductive comments : pystr -> Prop :=
| CM_nil : comments []
| CM_empty t : comments t -> comments (lf ++ t)
| CM_mark q t : one_line q -> comments t -> comments (u "!" ++ q ++ lf ++ t).

Section Kinds.
  Context (isalnum isspace : N -> bool).
  Inductive reads_as (data : pystr) : aclconfig -> Prop :=
  | RA_asa cs ms T : FileTextSpec.file_text isalnum isspace other_line no_tables cs ms T (data ++ lf) -> reads_as data (CAsa cs ms T)
  | RA_ios cs ms T : ifile_text isalnum isspace clean_detail clean_route no_itables cs ms T (data ++ lf) -> cs <> [] -> reads_as data (CIos cs ms T).
  (** The naming rules; none for pfSense. *)
  Definition named_well (c : aclconfig) : Prop :=
    match c with CAsa cs _ _ => well_named isalnum cs | CIos cs _ _ => iwell_named cs | CPf _ _ => True end.
End Kinds.

(** ** What a configuration holds that can be filtered *)
Definition config_entry (c : aclconfig) (k : nat) (i : item) : Prop :=
  match c with
  | CAsa cs ms _ => entry cs ms k i
  | CIos cs _ _ => irule_entry cs k i
  | CPf cfg _ => prule_entry (pcf_rules cfg) k i
  end.
Definition config_groups (c : aclconfig) : gheap host :=
  match c with
  | CAsa _ _ T => snd (w_net (tb_world T))
  | CIos _ _ T => snd (w_net (it_world T))
  | CPf _ s => ps_nh s
  end.
(** What the comparison with the expression asks of a configuration: no IPv6 against IOS
    wildcards, ids of pfSense rules regular. *)
Definition comparable (c : aclconfig) (e : cexpr) : Prop :=
  match c with
  | CAsa _ _ _ => True
  | CIos cs _ _ => no_ipv6 e \/ no_wildcards cs
  | CPf cfg _ => forall r, In r (pcf_rules cfg) -> id_regular (p_id r)
  end.
