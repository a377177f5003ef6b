(** How access-list lines of an ASA/FWSM configuration are written.  [X_text x t]: the
    text [t] is a way to write [x]; tables of known names are given by [E]. *)
From Coq Require Import String.
From Verif.Model Require Import Base Ip Hosts Groups Iface AddrText AclText Ports.
From Verif.Spec Require Import AddrSpec AddrTextSpec CafMeanSpec.
Local Open Scope list_scope.

(** Blanks and tabs between words; the end of a line. *)
Definition blanks (g : pystr) : Prop := forall c, In c g -> c = 32%N \/ c = 9%N.
Definition gap (g : pystr) : Prop := g <> [] /\ blanks g.
Definition eol_text (t : pystr) : Prop := t = [10%N] \/ t = [13%N; 10%N].
Definition letter (c : N) : Prop := (97 <= c <= 122 \/ 65 <= c <= 90)%N.
Definition digit (c : N) : Prop := (48 <= c <= 57)%N.
(** Names of ACLs, objects and groups: letters, digits and _ - . + *)
Definition name_text (n : pystr) : Prop :=
  n <> [] /\ forall c, In c n -> letter c \/ digit c \/ c = 95%N \/ c = 45%N \/ c = 46%N \/ c = 43%N.
(** Host names and interface names: the same without +, beginning with a letter or _ *)
Definition ident_text (n : pystr) : Prop :=
  (exists c n', n = c :: n' /\ (letter c \/ c = 95%N)) /\
  forall c, In c n -> letter c \/ digit c \/ c = 95%N \/ c = 45%N \/ c = 46%N.
Definition number_text (n : pystr) (limit : N) : Prop := exists v, decimal_text n v /\ (v <= limit)%N.

(** The network of an address and a mask. *)
Definition net_of (a : addr) (m : mask) (n : net) : Prop :=
  mask_denotes (a_ver a) m (n_plen n) /\ n_ver n = a_ver a /\
  (n_addr n = a_val a / 2 ^ (bits (a_ver a) - n_plen n) * 2 ^ (bits (a_ver a) - n_plen n))%N.

Definition words (l : list string) (t : pystr) : Prop := exists w, In w l /\ t = u w.

(** What one may write for a port and an ICMP type. *)
Definition port_name (p : pystr) : Prop := In p port_code \/ number_text p 65535.
Definition icmp_name (p : pystr) : Prop := In p icmp_type_names \/ number_text p 255.

Section Acl.
  Variable E : env.

  (** An address as literal or as known name. *)
  Inductive address_ref (v : ver -> Prop) : addr -> option nameobj -> pystr -> Prop :=
  | AR_name n x : dget (e_names E) n = Some x -> address_ref v (nm_addr x) (Some x) n
  | AR_addr a t : v (a_ver a) -> address_text t a -> address_ref v a None t.

  Inductive host_text : thost -> pystr -> Prop :=
  | HT_host w g a n t : words ["host"; "ip"]%string w -> gap g -> address_ref (fun _ => True) a n t ->
      host_text (mkthost (HLeaf (LHost a)) n) (w ++ g ++ t)
  | HT_iface g n : gap g -> ident_text n -> host_text (mkthost (HLeaf (LIface n)) None) (u "interface" ++ g ++ n)
  | HT_any : host_text (mkthost (HLeaf LAny) None) (u "any")
  | HT_any4 : host_text (mkthost (HLeaf LAny4) None) (u "any4")
  | HT_any6 : host_text (mkthost (HLeaf LAny6) None) (u "any6")
  | HT_object g n o : gap g -> dget (e_netobj E) n = Some o ->
      host_text (mkthost (HObj o) None) (u "object" ++ g ++ n)
  | HT_group g n x : gap g -> dget (e_netgrp E) n = Some x ->
      host_text (mkthost (HGrp x) None) (u "object-group" ++ g ++ n)
  | HT_mask a x t g m n : address_ref (eq V4) a x t -> gap g -> (m < 2 ^ 32)%N -> net_of a (MaskQuad m) n ->
      host_text (mkthost (HLeaf (LNet n)) x) (t ++ g ++ quad m)
  | HT_length a x t d p n : address_ref (eq V6) a x t -> decimal_text d p -> net_of a (MaskLen p) n ->
      host_text (mkthost (HLeaf (LNet n)) x) (t ++ u "/" ++ d).

  (** The bounds of a range of numbers are in code point order (as texts). *)
  Definition range_allowed (a b : pystr) : Prop :=
    In a port_code \/ In b port_code \/ str_ltb a b = true.
  Inductive port_text : pmember -> pystr -> Prop :=
  | PT_group g n x : gap g -> dget (e_portgrp E) n = Some x -> port_text (PGrp x) (u "object-group" ++ g ++ n)
  | PT_op w g p : words ["gt"; "lt"; "eq"; "neq"]%string w -> gap g -> port_name p ->
      port_text (PPort (Some w) (Some p)) (w ++ g ++ p)
  | PT_range g a g' b : gap g -> gap g' -> port_name a -> port_name b -> range_allowed a b ->
      port_text (PRange (Some a) (Some b)) (u "range" ++ g ++ a ++ g' ++ b).
  Inductive node_text : anode -> pystr -> Prop :=
  | ND_host h t : host_text h t -> node_text (mkanode h None) t
  | ND_port h t g p t' : host_text h t -> gap g -> port_text p t' -> node_text (mkanode h (Some p)) (t ++ g ++ t').

  (** The ICMP part after the destination: nothing, a group, a type, a type and a code. *)
  Inductive icmp_text : option imember -> pystr -> Prop :=
  | IT_none : icmp_text None []
  | IT_group g g' n x : gap g -> gap g' -> dget (e_icmpgrp E) n = Some x ->
      icmp_text (Some (IcGrp x)) (g ++ u "object-group" ++ g' ++ n)
  | IT_type g t : gap g -> icmp_name t -> icmp_text (Some (IcmpType t None)) (g ++ t)
  | IT_code g t g' c : gap g -> icmp_name t -> gap g' -> number_text c 255 ->
      icmp_text (Some (IcmpType t (Some c))) (g ++ t ++ g' ++ c).

  Inductive proto_text : aproto -> pystr -> Prop :=
  | RT_name p : In p protocol_codes \/ number_text p 255 -> proto_text (APName p) p
  | RT_object g n o : gap g -> dget (e_svcobj E) n = Some o -> proto_text (APSvcObj o) (u "object" ++ g ++ n)
  | RT_svc g n x : gap g -> dget (e_svcgrp E) n = Some x -> proto_text (APSvcGrp x) (u "object-group" ++ g ++ n)
  | RT_proto g n x : gap g -> dget (e_protogrp E) n = Some x -> proto_text (APProtoGrp x) (u "object-group" ++ g ++ n).

  Inductive logopt_text : logopt -> pystr -> Prop :=
  | LT_word w : words ["debugging"; "disable"; "default"; "notifications"; "warnings"; "critical";
                       "0"; "1"; "2"; "3"; "4"; "5"; "6"; "7"]%string w -> logopt_text (LogWord w) w
  | LT_interval g d v : gap g -> decimal_text d v -> logopt_text (LogInterval d) (u "interval" ++ g ++ d).
  Inductive logopts_text : list logopt -> pystr -> Prop :=
  | LL_nil : logopts_text [] []
  | LL_more g o t l t' : gap g -> logopt_text o t -> logopts_text l t' -> logopts_text (o :: l) (g ++ t ++ t').
  Inductive option_text : aoption -> pystr -> Prop :=
  | OX_log l t : logopts_text l t -> option_text (OLog l) (u "log" ++ t)
  | OX_time g n x : gap g -> dget (e_time E) n = Some x -> option_text (OTime x) (u "time-range" ++ g ++ n)
  | OX_inactive : option_text OInactive (u "inactive").
  (** Two options may be written without a gap if a number ends the first. *)
  Definition ends_in_digit (t : pystr) : Prop := exists t' c, t = t' ++ [c] /\ digit c.
  Inductive options_text : list aoption -> pystr -> Prop :=
  | OS_one o t g : option_text o t -> blanks g -> options_text [o] (t ++ g)
  | OS_more o t g o' l t' : option_text o t -> (gap g \/ g = [] /\ ends_in_digit t /\ exists x, o = OLog x) ->
      options_text (o' :: l) t' -> options_text (o :: o' :: l) (t ++ g ++ t').
  (** The last of several options of one kind counts. *)
  Fixpoint last_log (l : list aoption) : option (list logopt) :=
    match l with
    | [] => None
    | o :: l' => match last_log l' with Some x => Some x | None => match o with OLog x => Some x | _ => None end end
    end.
  Fixpoint last_time (l : list aoption) : option nat :=
    match l with
    | [] => None
    | o :: l' => match last_time l' with Some x => Some x | None => match o with OTime x => Some x | _ => None end end
    end.
  Definition options_mean (l : list aoption) (o : aopts) : Prop :=
    ao_log o = last_log l /\ ao_time o = last_time l /\ (ao_inactive o = true <-> In OInactive l).
  (** Options and the end of the line. *)
  Inductive tail_text : aopts -> pystr -> Prop :=
  | TT_none o g z : options_mean [] o -> blanks g -> eol_text z -> tail_text o (g ++ z)
  | TT_opts o l g t z : options_mean l o -> gap g -> options_text l t -> eol_text z -> tail_text o (g ++ t ++ z).

  (** [access-list ID KIND permit|deny] *)
  Definition head_text (kind : string) (id mode t : pystr) : Prop :=
    exists g1 g2 g3, gap g1 /\ gap g2 /\ gap g3 /\ name_text id /\ words ["permit"; "deny"]%string mode /\
      t = u "access-list" ++ g1 ++ id ++ g2 ++ u kind ++ g3 ++ mode.
  Definition any_end : anode := mkanode (mkthost (HLeaf LAny) None) None.
  (** No white space. *)
  Definition url_text (isspace : N -> bool) (t : pystr) : Prop := t <> [] /\ forall c, In c t -> isspace c = false.

  Inductive line_text (isspace : N -> bool) (rem : list pystr) : aclrule -> pystr -> Prop :=
  | LN_icmp id mode hd p g g1 src s g2 dst d icmp i o z :
      head_text "extended"%string id mode hd -> gap g -> words ["icmp"; "icmp6"]%string p -> gap g1 -> host_text src s ->
      gap g2 -> host_text dst d -> icmp_text icmp i -> tail_text o z ->
      line_text isspace rem
        (mkaclrule id (u "extended") mode (APName p) (mkanode src None) (mkanode dst None) icmp o rem)
        (hd ++ g ++ p ++ g1 ++ s ++ g2 ++ d ++ i ++ z)
  | LN_extended id mode hd proto p g g1 src s g2 dst d o z :
      head_text "extended"%string id mode hd -> gap g -> proto_text proto p -> gap g1 -> node_text src s ->
      gap g2 -> node_text dst d -> tail_text o z ->
      line_text isspace rem
        (mkaclrule id (u "extended") mode proto src dst None o rem) (hd ++ g ++ p ++ g1 ++ s ++ g2 ++ d ++ z)
  | LN_standard id mode hd g src s g1 z :
      head_text "standard"%string id mode hd -> gap g -> host_text src s -> blanks g1 -> eol_text z ->
      line_text isspace rem
        (mkaclrule id (u "standard") mode (APName (u "ip")) (mkanode src None) any_end None (mkaopts None None false) rem)
        (hd ++ g ++ s ++ g1 ++ z)
  | LN_url id mode hd g g1 url o z :
      head_text "webtype"%string id mode hd -> gap g -> gap g1 -> url_text isspace url -> tail_text o z ->
      line_text isspace rem
        (mkaclrule id (u "webtype") mode (APName (u "url")) any_end
           (mkanode (mkthost (HLeaf (LWebtype url)) None) None) None o rem)
        (hd ++ g ++ u "url" ++ g1 ++ url ++ z)
  | LN_tcp id mode hd g g1 dst d o z :
      head_text "webtype"%string id mode hd -> gap g -> gap g1 -> node_text dst d -> tail_text o z ->
      line_text isspace rem
        (mkaclrule id (u "webtype") mode (APName (u "tcp")) any_end dst None o rem)
        (hd ++ g ++ u "tcp" ++ g1 ++ d ++ z).

  (** Remark lines before the rule. *)
  Inductive remark_text : pystr -> pystr -> Prop :=
  | RM id g g' x : gap g -> gap g' -> name_text id -> ~ In 10%N x ->
      remark_text x (u "access-list" ++ g ++ id ++ g' ++ u "remark " ++ x ++ [10%N]).
  Inductive rule_text (isspace : N -> bool) : aclrule -> pystr -> Prop :=
  | RU x ts t : Forall2 remark_text (ar_remark x) ts -> line_text isspace (ar_remark x) x t ->
      rule_text isspace x (concat ts ++ t).
  (** Ethertype lines; the word "ethertype" is not continued by a letter or digit. *)
  Inductive ethertype_text (isalnum : N -> bool) : pystr -> Prop :=
  | ET ts rems id g g' x : Forall2 remark_text rems ts -> gap g -> gap g' -> name_text id -> ~ In 10%N x ->
      (forall c x', x = c :: x' -> isalnum c = false) ->
      ethertype_text isalnum (concat ts ++ u "access-list" ++ g ++ id ++ g' ++ u "ethertype" ++ x ++ [10%N]).
End Acl.

(** Tables as a configuration that keeps to the naming rules makes them: names are words,
    no host name is a word of the access-list language, no two groups share a name. *)
Definition reserved : list string :=
  ["host"; "ip"; "interface"; "any"; "any4"; "any6"; "object"; "object-group"; "gt"; "lt"; "eq"; "neq"; "range"]%string.
Definition keys {V} (P : pystr -> Prop) (d : dict V) : Prop := forall n, dmem d n = true -> P n.
Definition no_common {V W} (d : dict V) (d' : dict W) : Prop := forall n, dmem d n = true -> dmem d' n = false.
Definition hostname_ok (n : pystr) : Prop :=
  ident_text n /\ (forall w, In w reserved -> n <> u w) /\
  (* not "any", "any4" or "any6" followed by a punctuation character *)
  (forall w c n', In w ["any"; "any4"; "any6"]%string -> n = u w ++ c :: n' -> letter c \/ digit c).
Definition env_ok (E : env) : Prop :=
  keys hostname_ok (e_names E) /\ keys name_text (e_netobj E) /\ keys name_text (e_netgrp E) /\
  keys name_text (e_svcobj E) /\ keys name_text (e_svcgrp E) /\ keys name_text (e_portgrp E) /\
  keys name_text (e_icmpgrp E) /\ keys name_text (e_protogrp E) /\
  keys (fun n => n <> [] /\ forall c, In c n -> ~ In c [32; 9; 10; 13]%N) (e_time E) /\
  (forall n x, dget (e_names E) n = Some x -> valid (nm_addr x)) /\
  no_common (e_netgrp E) (e_svcgrp E) /\ no_common (e_netgrp E) (e_portgrp E) /\
  no_common (e_icmpgrp E) (e_svcgrp E) /\ no_common (e_icmpgrp E) (e_portgrp E) /\
  no_common (e_svcgrp E) (e_portgrp E) /\ no_common (e_svcgrp E) (e_protogrp E).
