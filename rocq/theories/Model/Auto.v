(** Reading a configuration of an unknown format: ACLConfig.fromString and fromFile
    (lib/acltk/aclObjects.py:1255-1284) over the three formats, and ACLConfig.filter
    (lib/acltk/aclObjects.py:1368-1380) on the result.  ET.fromstring (the XML parser of the
    standard library) is a parameter. *)
From Verif.Model Require Import Base Ip Hosts Groups Rules Caf CafText Define FileText FileFilter IosFile IosFilter Pfsense PfFile Detect.
From Verif.Model Require Config.

(** ** bytes.decode("utf-8-sig"), as fromFile 1279-1283 calls it (CPython's encodings/utf_8_sig.py
    and the strict UTF-8 decoder).  UnicodeDecodeError is a ValueError. *)
Definition continues (b : N) : bool := (128 <=? b)%N && (b <? 192)%N.
Definition low_bits (b : N) : N := (b - 128)%N.
Fixpoint utf8_decode (l : list N) : result pystr :=
  let cons c (r : result pystr) := match r with Ok s => Ok (c :: s) | Err e => Err e end in
  match l with
  | [] => Ok []
  | a :: l1 =>
      if (a <? 128)%N then cons a (utf8_decode l1)
      else if (a <? 194)%N then Err ValueError
      else match l1 with
      | [] => Err ValueError
      | b :: l2 =>
          if negb (continues b) then Err ValueError
          else if (a <? 224)%N then cons ((a - 192) * 64 + low_bits b)%N (utf8_decode l2)
          else match l2 with
          | [] => Err ValueError
          | c :: l3 =>
              if negb (continues c) then Err ValueError
              else if (a <? 240)%N then
                if (a =? 224)%N && (b <? 160)%N || (a =? 237)%N && (160 <=? b)%N then Err ValueError
                else cons ((a - 224) * 4096 + low_bits b * 64 + low_bits c)%N (utf8_decode l3)
              else match l3 with
              | [] => Err ValueError
              | d :: l4 =>
                  if negb (continues d) then Err ValueError
                  else if (a <? 245)%N then
                    if (a =? 240)%N && (b <? 144)%N || (a =? 244)%N && (144 <=? b)%N then Err ValueError
                    else cons ((a - 240) * 262144 + low_bits b * 4096 + low_bits c * 64 + low_bits d)%N (utf8_decode l4)
                  else Err ValueError
              end
          end
      end
  end.
Definition bom : list N := [239; 187; 191]%N.
Definition decode_sig (l : list N) : result pystr :=
  match l with
  | a :: b :: c :: r => if (a =? 239)%N && (b =? 187)%N && (c =? 191)%N then utf8_decode r else utf8_decode l
  | _ => utf8_decode l
  end.

(** fwsmConfig, iosConfig, pfsenseConfig: what is in them and the tables of the parser. *)
Inductive aclconfig :=
| CAsa (cs : list command) (ms : list made) (T : tables)
| CIos (cs : list icommand) (ms : list imade) (T : itables)
| CPf (cfg : pconfig) (s : pstate).

Section Auto.
  Context (isalpha isalnum isspace : N -> bool) (py_int : pystr -> option Z).
  Context (xml_read : pystr -> result xml) (unescape : pystr -> pystr)
          (ip_addr : pystr -> option addr) (ip_net : pystr -> pystr -> result net)
          (to_time : option pystr -> result Z) (strip : pystr -> pystr)
          (ip_net_strict : pystr -> bool) (download : option pystr -> option (list pystr)).
  (** The options are a pfsenseParserOptions with its [fetch_urltable] (pfsenseObjects.py:5-11);
      a plain ACLParserOptions, which has no such attribute, is not modelled.  The parsers
      get the text with its line feed; [parse_file] and [ios_parse] append it themselves. *)
  Definition asa_parser : @fparser aclconfig bool := fun t _ _ =>
    do x <- parse_file isalpha isalnum isspace py_int (removelast t);
    let '(cs, ms, T) := x in Ok (CAsa cs ms T).
  Definition ios_parser : @fparser aclconfig bool := fun t _ _ =>
    do x <- ios_parse isalpha isalnum isspace py_int (removelast t);
    let '(cs, ms, T) := x in Ok (CIos cs ms T).
  (** pfsenseParser.__init__ and parse, pfsenseSemantics.py:40-59 *)
  Definition fetch_of (o : popts bool) : bool := match o with Options b => b | _ => true end.
  Definition pf_parser : @fparser aclconfig bool := fun t _ o =>
    do root <- xml_read t;
    do x <- pf_parse unescape py_int ip_addr ip_net to_time strip ip_net_strict download (fetch_of o) root;
    Ok (CPf (fst x) (snd x)).

  (** ACLConfig.fromString 1271-1277 *)
  Definition auto_parse (data : pystr) (filename : option pystr) (o : popts bool) : result aclconfig :=
    from_string (acl_parse asa_parser ios_parser pf_parser) (DStr data) filename o.
  (** ACLConfig.fromFile 1279-1283: the file's [name], or "stdin" *)
  Definition auto_file (bytes : list N) (name : pystr) (o : popts bool) : result aclconfig :=
    do data <- decode_sig bytes; auto_parse data (Some name) o.

  (** ACLConfig.filter 1368-1380 with an expression given as text (cafBlock.fromString,
      cafObjects.py:27-54) *)
  Definition acl_filter (fuel : nat) (c : aclconfig) (query : pystr) : result (list iid) :=
    match c with
    | CAsa _ ms T =>
        do (h, c) <- caf_read isalpha isalnum isspace (snd (w_net (tb_world T))) query;
        let cfg := config_of ms in
        config_filter fuel h (item_at ms) c (Config.c_rules cfg) [Config.c_nat1 cfg; Config.c_nat2 cfg; Config.c_nat3 cfg]
    | CIos _ ms T =>
        do (h, c) <- caf_read isalpha isalnum isspace (snd (w_net (it_world T))) query;
        let cfg := fst (iconfig_of ms) in
        config_filter fuel h (irule_at ms) c (Config.c_rules cfg) [Config.c_nat1 cfg; Config.c_nat2 cfg; Config.c_nat3 cfg]
    | CPf cfg s =>
        do (h, c) <- caf_read isalpha isalnum isspace (ps_nh s) query;
        config_filter fuel h (prule_at (pcf_rules cfg)) c (seq 0 (length (pcf_rules cfg))) [[]; []; []]
    end.
End Auto.

(** The groups of a configuration: [config.groups.network], [.port], [.service], [.protocol],
    [.icmp], filled in aclObjects.py:1203-1250 *)
Definition all_groups (c : aclconfig) : groups :=
  match c with
  | CAsa _ _ T => Define.groups_of (tb_world T)
  | CIos _ _ T => Define.groups_of (it_world T)
  | CPf _ s => mkgroups (ps_nh s) (ps_ph s) no_groups no_groups no_groups
  end.
Definition tables_of_config (cfg : Config.config) : gtables :=
  mkgtables (map snd (Config.c_netgrp cfg)) (map snd (Config.c_portgrp cfg)) (map snd (Config.c_svcgrp cfg)) (map snd (Config.c_protogrp cfg)) (map snd (Config.c_icmpgrp cfg)).
Definition group_tables (c : aclconfig) : gtables :=
  match c with
  | CAsa _ ms _ => tables_of_config (config_of ms)
  | CIos _ ms _ => tables_of_config (fst (iconfig_of ms))
  | CPf cfg _ => mkgtables (map snd (pcf_net cfg)) (map snd (pcf_port cfg)) [] [] []
  end.
(** The objects after an expansion: rules and tables refer to the same groups, whose
    members are replaced *)
Definition put_groups (w : world) (s : groups) : world :=
  mkworld (fst (w_net w), gs_network s) (fst (w_port w), gs_port s) (fst (w_service w), gs_service s) (fst (w_proto w), gs_protocol s) (fst (w_icmp w), gs_icmp s).
Definition with_groups (c : aclconfig) (s : groups) : aclconfig :=
  match c with
  | CAsa cs ms T => CAsa cs ms (mktables (tb_names T) (tb_netobj T) (tb_svcobj T) (put_groups (tb_world T) s) (tb_time T) (tb_if T) (tb_count T))
  | CIos cs ms T => CIos cs ms (mkitables (put_groups (it_world T) s) (it_if T) (it_count T))
  | CPf cfg st => CPf cfg (mkps (ps_net st) (ps_port st) (ps_ifs st) (ps_map st) (gs_network s) (gs_port s))
  end.
(** ACLConfig.expand 1356-1366 *)
Definition acl_expand (fuel : nat) (c : aclconfig) : result aclconfig :=
  do s <- config_expand fuel (group_tables c) (all_groups c); Ok (with_groups c s).
