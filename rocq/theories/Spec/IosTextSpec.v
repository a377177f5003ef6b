(** How access lists of an IOS configuration are written.  [X_text x t]: the text [t] is a
    way to write [x]; the tables of known groups are given by [E]. *)
From Coq Require Import String.
From Verif.Model Require Import Base Ip Hosts Groups Iface AddrText AclText Ports IosText.
From Verif.Spec Require Import AddrSpec AddrTextSpec CafMeanSpec AclTextSpec GroupTextSpec ConfigSpec.
Local Open Scope list_scope.

(** A dotted quad. *)
Definition quad_text (t : pystr) (a : addr) : Prop := a_ver a = V4 /\ address_text t a.
Definition opens_digit (t : pystr) : Prop := exists c t', t = c :: t' /\ digit c.

(** An optional number and a gap. *)
Definition seq_text (t : pystr) : Prop := t = [] \/ exists d v g, decimal_text d v /\ gap g /\ t = d ++ g.

(** ** Options: a name and maybe a word *)
Definition iopt := (pystr * option pystr)%type.
Inductive opt_text (plain valued loose : list string) : iopt -> pystr -> Prop :=
| OP_plain w : In w plain -> opt_text plain valued loose (u w, None) (u w)
| OP_valued w g v : In w valued \/ In w loose -> gap g -> ident_text v -> opt_text plain valued loose (u w, Some v) (u w ++ g ++ v)
| OP_loose w : In w loose -> opt_text plain valued loose (u w, None) (u w).
(** A loose option without a word is the last one: a word that follows is its word. *)
Inductive opts_text (plain valued loose : list string) : list iopt -> pystr -> Prop :=
| OP_nil : opts_text plain valued loose [] []
| OP_more g o t l t' : gap g -> opt_text plain valued loose o t -> opts_text plain valued loose l t' ->
    (forall w, In w loose -> o = (u w, None) -> l = []) -> opts_text plain valued loose (o :: l) (g ++ t ++ t').
(** The dictionary: the last of several options of one name counts. *)
Definition options_text (plain valued loose : list string) (d : list iopt) (t : pystr) : Prop :=
  exists l, opts_text plain valued loose l t /\ table_of_last l d.
Definition std_options := options_text [] [] ["log"]%string.
Definition ext_options := options_text ["fragments"; "established"]%string ["precedence"; "dscp"; "tos"; "time-range"]%string ["log-input"; "log"]%string.
Definition options6 := options_text ["fragments"; "log"; "mobility"; "routing"]%string
  ["dest-option-type"; "dscp"; "flow-label"; "time-range"]%string [].
Definition icmp6_names : list string := ["nd-ns"; "nd-na"; "router-solicitation"; "router-advertisement"; "redirect"]%string.
(** ICMPv6 messages as options. *)
Inductive messages_text : list iopt -> pystr -> Prop :=
| MG_nil : messages_text [] []
| MG_more g w l t : gap g -> words icmp6_names w \/ In w icmp_type_names -> messages_text l t -> messages_text ((w, None) :: l) (g ++ w ++ t).

Section Ios.
  Variable E : env.

  (** ** Hosts *)
  Inductive ihost_text : thost -> pystr -> Prop :=
  | IH_net t a g m n : quad_text t a -> gap g -> (m < 2 ^ 32)%N -> net_of a (MaskQuad m) n ->
      ihost_text (mkthost (HLeaf (LNet n)) None) (t ++ g ++ quad m)
  (** neither a mask nor an inverse mask *)
  | IH_wild t a g m : quad_text t a -> gap g -> (m < 2 ^ 32)%N -> (forall n, ~ net_of a (MaskQuad m) n) ->
      ihost_text (mkthost (HLeaf (LWild a (mkaddr V4 m))) None) (t ++ g ++ quad m)
  | IH_bare t a : quad_text t a -> ihost_text (mkthost (HLeaf (LHost a)) None) t
  | IH_host g t a : gap g -> quad_text t a -> ihost_text (mkthost (HLeaf (LHost a)) None) (u "host" ++ g ++ t)
  | IH_group g n x : gap g -> dget (e_netgrp E) n = Some x -> ihost_text (mkthost (HGrp x) None) (u "object-group" ++ g ++ n)
  | IH_any : ihost_text (mkthost (HLeaf LAny) None) (u "any").
  (** A host and maybe a port. *)
  Inductive end_text (host : thost -> pystr -> Prop) : anode -> pystr -> Prop :=
  | NE_host h t : host h t -> end_text host (mkanode h None) t
  | NE_port h t g p t' : host h t -> gap g -> port_text E p t' -> end_text host (mkanode h (Some p)) (t ++ g ++ t').
  Definition inode_text := end_text ihost_text.
  (** After an address alone no other address may be written: it would be a wildcard. *)
  Definition apart (s d : pystr) : Prop := (exists a, quad_text s a) -> ~ opens_digit d.

  Inductive ihost6_text : thost -> pystr -> Prop :=
  | I6_net t a d p n : a_ver a = V6 -> address_text t a -> decimal_text d p -> net_of a (MaskLen p) n ->
      ihost6_text (mkthost (HLeaf (LNet n)) None) (t ++ u "/" ++ d)
  | I6_host g t a : gap g -> a_ver a = V6 -> address_text t a -> ihost6_text (mkthost (HLeaf (LHost a)) None) (u "host" ++ g ++ t)
  | I6_any : ihost6_text (mkthost (HLeaf LAny) None) (u "any").
  Definition inode6_text := end_text ihost6_text.

  Definition mode_text (m : pystr) : Prop := words ["permit"; "deny"]%string m.
  Definition any_end : anode := mkanode (mkthost (HLeaf LAny) None) None.

  (** ** Rules of named lists *)
  Inductive std_rule_text (id : pystr) (rem : list pystr) : irule -> pystr -> Prop :=
  | SR q m g h t o ot z : seq_text q -> mode_text m -> gap g -> ihost_text h t -> std_options o ot -> eol_text z ->
      std_rule_text id rem (mkirule id (Some (u "standard")) m (APName (u "ip")) (mkanode h None) any_end None o rem)
        (q ++ m ++ g ++ t ++ ot ++ z).
  Inductive ext_rule_text (id : pystr) (rem : list pystr) : irule -> pystr -> Prop :=
  | ER_icmp q m g p g1 src s g2 dst d icmp i o ot z : seq_text q -> mode_text m -> gap g -> words ["icmp"; "icmp6"]%string p -> gap g1 ->
      ihost_text src s -> gap g2 -> ihost_text dst d -> apart s d -> icmp_text E icmp i -> ext_options o ot -> eol_text z ->
      ext_rule_text id rem (mkirule id (Some (u "extended")) m (APName p) (mkanode src None) (mkanode dst None) icmp o rem)
        (q ++ m ++ g ++ p ++ g1 ++ s ++ g2 ++ d ++ i ++ ot ++ z)
  | ER_other q m g p pt g1 src s g2 dst d o ot z : seq_text q -> mode_text m -> gap g -> proto_text E p pt -> gap g1 ->
      inode_text src s -> gap g2 -> inode_text dst d -> apart s d -> ext_options o ot -> eol_text z ->
      ext_rule_text id rem (mkirule id (Some (u "extended")) m p src dst None o rem)
        (q ++ m ++ g ++ pt ++ g1 ++ s ++ g2 ++ d ++ ot ++ z).
  (** Remarks and the rule they belong to, each line indented by one blank. *)
  Inductive list_remark_text : pystr -> pystr -> Prop :=
  | LR q x : seq_text q -> ~ In 10%N x -> list_remark_text x (u " " ++ q ++ u "remark " ++ x ++ [10%N]).
  Inductive item_text (rule : list pystr -> irule -> pystr -> Prop) : irule -> pystr -> Prop :=
  | IX x ts t : Forall2 list_remark_text (ir_remark x) ts -> rule (ir_remark x) x t -> item_text rule x (concat ts ++ u " " ++ t).
  (** The list: its kind, its name, its rules. *)
  Inductive named_list_text : list irule -> pystr -> Prop :=
  | NL_std g n z xs ts : gap g -> name_chars n -> eol_text z -> Forall2 (item_text (std_rule_text n)) xs ts ->
      named_list_text xs (u "standard" ++ g ++ n ++ z ++ concat ts)
  | NL_ext g n z xs ts : gap g -> name_chars n -> eol_text z -> Forall2 (item_text (ext_rule_text n)) xs ts ->
      named_list_text xs (u "extended" ++ g ++ n ++ z ++ concat ts).

  (** ** Lines of numbered lists *)
  Definition list_number (lo hi : N) (t : pystr) : Prop :=
    exists v, decimal_text t v /\ (lo <= v <= hi)%N /\ forall t', t <> 48%N :: t'.
  Definition line_begin (id m t : pystr) : Prop :=
    exists g1 g2, gap g1 /\ gap g2 /\ mode_text m /\ t = u "access-list" ++ g1 ++ id ++ g2 ++ m.
  Inductive numbered_text (rem : list pystr) : irule -> pystr -> Prop :=
  | NU_std id m hd g h t o ot z : list_number 1 99 id \/ list_number 1300 1399 id -> line_begin id m hd -> gap g ->
      ihost_text h t -> std_options o ot -> eol_text z ->
      numbered_text rem (mkirule id None m (APName (u "ip")) (mkanode h None) any_end None o rem) (hd ++ g ++ t ++ ot ++ z)
  | NU_icmp id m hd g p g1 src s g2 dst d icmp i o ot z : list_number 100 199 id \/ list_number 2000 2699 id -> line_begin id m hd -> gap g ->
      words ["icmp"; "icmp6"]%string p -> gap g1 -> host_text E src s -> gap g2 -> host_text E dst d -> icmp_text E icmp i ->
      ext_options o ot -> eol_text z ->
      numbered_text rem (mkirule id None m (APName p) (mkanode src None) (mkanode dst None) icmp o rem)
        (hd ++ g ++ p ++ g1 ++ s ++ g2 ++ d ++ i ++ ot ++ z)
  | NU_ext id m hd g p pt g1 src s g2 dst d o ot z : list_number 100 199 id \/ list_number 2000 2699 id -> line_begin id m hd -> gap g ->
      proto_text E p pt -> gap g1 -> node_text E src s -> gap g2 -> node_text E dst d -> ext_options o ot -> eol_text z ->
      numbered_text rem (mkirule id None m p src dst None o rem) (hd ++ g ++ pt ++ g1 ++ s ++ g2 ++ d ++ ot ++ z).
  Inductive line_remark_text : pystr -> pystr -> Prop :=
  | LM g id g' g1 x : gap g -> name_text id -> gap g' -> gap g1 -> ~ In 10%N x -> (forall c x', x = c :: x' -> ~ (c = 32%N \/ c = 9%N)) ->
      line_remark_text x (u "access-list" ++ g ++ id ++ g' ++ u "remark" ++ g1 ++ x ++ [10%N]).
  Inductive numbered_rule_text : irule -> pystr -> Prop :=
  | NR x ts t : Forall2 line_remark_text (ir_remark x) ts -> numbered_text (ir_remark x) x t -> numbered_rule_text x (concat ts ++ t).

  (** ** IPv6 lists *)
  Inductive rule6_text (id : pystr) : irule -> pystr -> Prop :=
  | R6_other n v g0 g m g1 p pt g2 src s g3 dst d l ot o z : decimal_text n v -> gap g0 -> gap g -> mode_text m -> gap g1 -> proto_text E p pt -> gap g2 ->
      inode6_text src s -> gap g3 -> inode6_text dst d ->
      opts_text ["fragments"; "log"; "mobility"; "routing"]%string ["dest-option-type"; "dscp"; "flow-label"; "time-range"]%string [] l ot ->
      table_of_last (l ++ [(u "sequence", Some n)]) o -> eol_text z ->
      rule6_text id (mkirule id None m p src dst None o [])
        (u " sequence" ++ g0 ++ n ++ g ++ m ++ g1 ++ pt ++ g2 ++ s ++ g3 ++ d ++ ot ++ z)
  | R6_icmp n v g0 g m g1 p g2 src s g3 dst d l ot o z : decimal_text n v -> gap g0 -> gap g -> mode_text m -> gap g1 -> words ["icmp"; "icmp6"]%string p -> gap g2 ->
      inode6_text src s -> gap g3 -> inode6_text dst d -> messages_text l ot ->
      table_of_last (l ++ [(u "sequence", Some n)]) o -> eol_text z ->
      rule6_text id (mkirule id None m (APName p) src dst None o [])
        (u " sequence" ++ g0 ++ n ++ g ++ m ++ g1 ++ p ++ g2 ++ s ++ g3 ++ d ++ ot ++ z).
  Inductive list6_text : list irule -> pystr -> Prop :=
  | L6 g n z xs ts : gap g -> name_chars n -> eol_text z -> xs <> [] -> Forall2 (rule6_text n) xs ts ->
      list6_text xs (u "access-list" ++ g ++ n ++ z ++ concat ts).
End Ios.
