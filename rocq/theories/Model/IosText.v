(** Access lists and routes of an IOS configuration as text: the grammar rules of
    lib/acltk/ios.bnf (and those of lib/acltk/acl.bnf they use) with the semantic actions of
    lib/acltk/iosSemantics.py.  The parser runs with [whitespace=""] and [nameguard=True]
    (iosObjects.py:58-64). *)
From Coq Require Import String.
From Verif.Model Require Import Base Ip Hosts Groups Iface Peg Ids AddrText Ports AclText.
Local Open Scope list_scope.

(** ACLRule 1067-1102 as the IOS actions build it: [extended] is the type of a named list and
    None otherwise; the options are a dictionary of words. *)
Record irule := mkirule {
  ir_id : pystr; ir_kind : option pystr; ir_mode : pystr; ir_proto : aproto;
  ir_src : anode; ir_dst : anode; ir_icmp : option imember; ir_opts : dict (option pystr);
  ir_remark : list pystr }.

Definition icmp6_words : list pystr := map u ["nd-ns"; "nd-na"; "router-solicitation"; "router-advertisement"; "redirect"]%string.

Section IosText.
  Context (isalpha isalnum : N -> bool) (py_int : pystr -> option Z).
  Notation token := (token isalpha isalnum).
  Notation reference := (reference isalpha isalnum).
  Notation kw := (kw isalpha isalnum).
  Notation tokens := (tokens isalpha isalnum).
  Variable E : env.
  Notation acl_protocol := (acl_protocol isalpha isalnum E).
  Notation acl_port := (acl_port isalpha isalnum py_int E).
  Notation acl_icmp_options := (acl_icmp_options isalpha isalnum E).

  (** ** Hosts: ios.bnf:200-206 ios_host, iosSemantics.py:21-34 *)
  Definition wildcard_host : parser thost :=
    let% a := ip4 in let% _ := ws in let% w := ip4 in ret (mkthost (ios_host (IWildcard a w)) None).
  Definition bare_host : parser thost := let% a := ip4 in ret (mkthost (ios_host (IHost a)) None).
  Definition host_ : parser thost := choice [
    wildcard_host;
    bare_host;
    (let% _ := kw "host" in let% _ := ws in let% a := ip4 in ret (mkthost (ios_host (IHost a)) None));
    (let% _ := kw "object-group" in let% _ := ws in let% g := reference (e_netgrp E) in ret (mkthost (ios_host (IObjectGroup g)) None));
    (let% _ := kw "any" in ret (mkthost (ios_host IAny) None))].
  (** ios.bnf:208-210 ios_node, iosSemantics.py:36-37 *)
  Definition with_port (p : parser thost) : parser anode :=
    act (fun x => acl_node (fst x) (snd x)) (let% h := p in let% q := popt (then_ ws acl_port) in ret (h, q)).
  Definition inode : parser anode := with_port host_.
  Definition bare_node : parser anode := let% h := host_ in ret (mkanode h None).
  (** ios.bnf:212-216 ios_ipv6_host, 218-220 ios_ipv6_node, iosSemantics.py:39-48 *)
  Definition host6 : parser thost := choice [
    (let% a := ip6 in let% _ := char 47 in act (fun m => network (a, None) (MaskLen (int10 m))) int_);
    (let% _ := kw "host" in let% _ := ws in let% a := ip6 in ret (mkthost (HLeaf (LHost a)) None));
    (let% _ := kw "any" in ret (mkthost (HLeaf LAny) None))].
  Definition inode6 : parser anode := with_port host6.

  (** ** Options.  A closure of [WS option]; the actions make a dictionary of them
      (iosSemantics.py:182-186,196-206). *)
  Definition valued (w : string) : parser (pystr * option pystr) :=
    let% _ := kw w in let% _ := ws in let% v := identifier in ret (u w, Some v).
  Definition flag (w : string) : parser (pystr * option pystr) := let% _ := kw w in ret (u w, None).
  Definition maybe (w : string) : parser (pystr * option pystr) :=
    let% _ := kw w in let% v := popt (then_ ws identifier) in ret (u w, v).
  (** ios.bnf:184-186 ip_access_list_standard_rule_option *)
  Definition std_option := maybe "log".
  (** ios.bnf:227-236 ip_access_list_extended_rule_option *)
  Definition ext_option := choice [valued "precedence"; valued "dscp"; valued "tos"; valued "time-range";
    flag "fragments"; maybe "log-input"; maybe "log"; flag "established"].
  (** ios.bnf:124-136 ipv6_access_list_rule_option *)
  Definition opt6 := choice [valued "dest-option-type"; valued "dscp"; valued "flow-label"; flag "fragments";
    flag "log"; flag "log-input"; flag "mobility";
    (let% _ := kw "mobility-type" in let% n := int_ in ret (u "mobility-type", Some n));
    flag "routing";
    (let% _ := kw "routing-type" in let% n := popt int_ in ret (u "routing-type", n));
    valued "time-range"].
  (** ios.bnf:144-151 ipv6_access_list_icmp_rule_option *)
  Definition icmp_opt6 : parser (pystr * option pystr) :=
    let% w := por (tokens icmp6_words) (tokens icmp_type_names) in ret (w, None).
  Definition opts_of (l : list (pystr * option pystr)) : dict (option pystr) :=
    fold_left (fun d x => dset d (fst x) (snd x)) l [].
  Definition options (p : parser (pystr * option pystr)) : parser (dict (option pystr)) :=
    let% l := many (then_ ws p) in ret (opts_of l).

  (** ** Named lists *)
  Definition mode_ : parser pystr := tokens [u "permit"; u "deny"].
  (** [[seq:int WS]]; the number is not used (ACLRule's [**kwargs]). *)
  Definition seq_ : parser unit := let% _ := popt (let% _ := int_ in ws) in ret tt.
  (** ios.bnf:192-194 ip_access_list_remark *)
  Definition list_remark : parser pystr :=
    let% _ := seq_ in let% _ := kw "remark" in let% _ := sp in let% t := toeol in let% _ := nl in ret t.
  (** A rule before the name of its list is known. *)
  Definition rule_in := pystr -> list pystr -> irule.
  Definition any_dst : anode := mkanode (mkthost (HLeaf LAny) None) None.
  (** ios.bnf:196-198 ip_access_list_standard_rule, iosSemantics.py:91-109 *)
  Definition std_rule : parser rule_in :=
    let% _ := seq_ in let% m := mode_ in let% _ := ws in let% h := host_ in let% o := options std_option in let% _ := nl in
    ret (fun id rem => mkirule id (Some (u "standard")) m (APName (u "ip")) (mkanode h None) any_dst None o rem).
  (** ios.bnf:242-246 ip_access_list_extended_rule, iosSemantics.py:82-90 *)
  Definition ext_head {A} (proto : parser A) : parser (pystr * A) :=
    let% _ := seq_ in let% m := mode_ in let% _ := ws in let% p := proto in let% _ := ws in ret (m, p).
  Definition ext_rule : parser rule_in := choice [
    (let% x := ext_head (tokens [u "icmp"; u "icmp6"]) in
     let% s := bare_node in let% _ := ws in let% d := bare_node in let% i := acl_icmp_options in
     let% o := options ext_option in let% _ := nl in
     ret (fun id rem => mkirule id (Some (u "extended")) (fst x) (APName (snd x)) s d i o rem));
    (let% x := ext_head acl_protocol in
     let% s := inode in let% _ := ws in let% d := inode in let% o := options ext_option in let% _ := nl in
     ret (fun id rem => mkirule id (Some (u "extended")) (fst x) (snd x) s d None o rem));
    (let% x := ext_head acl_protocol in
     let% s := bare_node in let% _ := ws in let% d := bare_node in let% o := options ext_option in let% _ := nl in
     ret (fun id rem => mkirule id (Some (u "extended")) (fst x) (snd x) s d None o rem))].
  (** ios.bnf:222-225 ip_access_list_standard, 248-251 ip_access_list_extended,
      iosSemantics.py:62-78 *)
  Definition list_item (p : parser rule_in) : parser (pystr -> irule) := por
    (let% l := many1 (then_ sp list_remark) in let% _ := sp in let% f := p in ret (fun id => f id l))
    (let% _ := sp in let% f := p in ret (fun id => f id [])).
  (** ios.bnf:178-182 ip_access_list, iosSemantics.py:80-110 *)
  Definition named_list (kind : string) (p : parser rule_in) : parser (list irule) :=
    let% _ := kw kind in let% _ := ws in let% n := obj_name in let% _ := nl in
    let% l := many (list_item p) in ret (map (fun f => f n) l).
  Definition ip_access_list : parser (list irule) :=
    por (named_list "standard" std_rule) (named_list "extended" ext_rule).

  (** ** Numbered lists: ios.bnf:257-303, iosSemantics.py:112-155 *)
  (** A pattern of character classes, and blanks after it ([&WS]). *)
  Fixpoint pattern (l : list (N * N)) : parser pystr := fun s =>
    match l, s with
    | [], _ => POk [] s
    | (a, b) :: l', c :: s' => if in_range a b c then
        match pattern l' s' with POk t r => POk (c :: t) r | e => e end else PFail
    | _ :: _, [] => PFail
    end.
  Definition followed (p : parser pystr) : parser pystr := let% n := p in let% _ := look ws in ret n.
  (** ios.bnf:295-298 access_list_ip_standard_id: [[1-9][0-9]?] and [13[0-9][0-9]] *)
  Definition std_id : parser pystr := por
    (followed (por (pattern [(49, 57); (48, 57)]%N) (pattern [(49, 57)]%N)))
    (followed (pattern [(49, 49); (51, 51); (48, 57); (48, 57)]%N)).
  (** ios.bnf:300-303 access_list_ip_extended_id: [1[0-9][0-9]] and [2[0-6][0-9][0-9]] *)
  Definition ext_id : parser pystr := por
    (followed (pattern [(49, 49); (48, 57); (48, 57)]%N))
    (followed (pattern [(50, 50); (48, 54); (48, 57); (48, 57)]%N)).
  (** ios.bnf:267-269 access_list_remark *)
  Definition line_remark : parser pystr :=
    let% _ := kw "access-list" in let% _ := ws in let% _ := obj_name in let% _ := ws in
    let% _ := kw "remark" in let% _ := ws in let% t := toeol in let% _ := nl in ret t.
  Definition line_head (p : parser pystr) : parser (pystr * pystr) :=
    let% _ := kw "access-list" in let% _ := ws in let% id := p in let% _ := ws in let% m := mode_ in let% _ := ws in ret (id, m).
  (** ios.bnf:258-260 access_list_ip_standard_rule *)
  Definition std_line (rem : list pystr) : parser irule :=
    let% x := line_head std_id in let% h := host_ in let% o := options std_option in let% _ := nl in
    ret (mkirule (fst x) None (snd x) (APName (u "ip")) (mkanode h None) any_dst None o rem).
  (** ios.bnf:285-288 access_list_ip_extended_rule; the hosts are those of ASA lines. *)
  Definition ext_line (rem : list pystr) : parser irule := por
    (let% x := line_head ext_id in let% p := tokens [u "icmp"; u "icmp6"] in let% _ := ws in
     let% s := icmp_node isalpha isalnum E in let% _ := ws in let% d := icmp_node isalpha isalnum E in let% i := acl_icmp_options in
     let% o := options ext_option in let% _ := nl in
     ret (mkirule (fst x) None (snd x) (APName p) s d i o rem))
    (let% x := line_head ext_id in let% p := acl_protocol in let% _ := ws in
     let% s := node isalpha isalnum py_int E in let% _ := ws in let% d := node isalpha isalnum py_int E in
     let% o := options ext_option in let% _ := nl in
     ret (mkirule (fst x) None (snd x) p s d None o rem)).
  (** ios.bnf:262-265 access_list_ip_standard, 290-293 access_list_ip_extended, 271-274 access_list *)
  Definition numbered_line : parser irule :=
    let rs := many1 line_remark in
    choice [(let% l := rs in ext_line l); ext_line []; (let% l := rs in std_line l); std_line []].

  (** ** IPv6 lists: ios.bnf:96-155, iosSemantics.py:157-186 *)
  (** ios.bnf:104-122 ipv6_access_list_rule; [extended] is None: these lists have no type. *)
  Definition rule6 : parser (pystr -> irule) := por
    (let% m := mode_ in let% _ := ws in let% p := acl_protocol in let% _ := ws in
     let% s := inode6 in let% _ := ws in let% d := inode6 in let% o := options opt6 in let% _ := nl in
     ret (fun id => mkirule id None m p s d None o []))
    (let% m := mode_ in let% _ := ws in let% p := tokens [u "icmp"; u "icmp6"] in let% _ := ws in
     let% s := inode6 in let% _ := ws in let% d := inode6 in let% o := options icmp_opt6 in let% _ := nl in
     ret (fun id => mkirule id None m (APName p) s d None o [])).
  (** iosSemantics.py:175-177 *)
  Definition set_sequence (n : pystr) (x : irule) : irule :=
    mkirule (ir_id x) (ir_kind x) (ir_mode x) (ir_proto x) (ir_src x) (ir_dst x) (ir_icmp x) (dset (ir_opts x) (u "sequence") (Some n)) (ir_remark x).
  (** ios.bnf:100-102 ipv6_access_list_seq: the number becomes an option. *)
  Definition item6 : parser (pystr -> irule) :=
    let% _ := sp in let% _ := kw "sequence" in let% _ := ws in let% n := int_ in let% _ := ws in let% f := rule6 in
    ret (fun id => set_sequence n (f id)).
  (** ios.bnf:96-98 ipv6_access_list, iosSemantics.py:164-173 *)
  Definition ipv6_access_list : parser (list irule) :=
    let% _ := kw "access-list" in let% _ := ws in let% n := obj_name in let% _ := nl in
    let% l := many1 item6 in ret (map (fun f => f n) l).
End IosText.
