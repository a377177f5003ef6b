(** How filter expressions are written.  [X x s r]: the text [s] begins with a way to
    write [x], after which [r] remains. *)
From Coq Require Import String.
From Verif.Model Require Import Base Ip Hosts Groups Rules Caf AddrText CafText.
From Verif.Spec Require Import AddrSpec FilterSpec CafSpec AddrTextSpec.
Local Open Scope list_scope.

(** Python's character classes are those of ASCII on ASCII characters. *)
Definition ascii_alpha (c : N) : bool := in_range 65 90 c || in_range 97 122 c.
Definition ascii_space (c : N) : bool := in_range 9 13 c || in_range 28 32 c.
Definition classes_ok (isalpha isalnum isspace : N -> bool) : Prop :=
  forall c, (c < 128)%N -> isalpha c = ascii_alpha c /\ isalnum c = ascii_alpha c || is_digit c /\
                           isspace c = ascii_space c.

Definition starts (f : N -> bool) (s : pystr) : Prop := exists c s', s = c :: s' /\ f c = true.

Section Layout.
  Context (isalnum isspace : N -> bool).
  Definition blank (b : pystr) : Prop := forallb isspace b = true.
  (** White space, then [w]; a word is not followed by a letter or digit. *)
  Definition sym (w s r : pystr) : Prop := exists b, blank b /\ s = b ++ w ++ r.
  Definition word (w s r : pystr) : Prop := sym w s r /\ ~ starts isalnum r.
  (** White space, then the longest run of characters of a class, at least one. *)
  Definition run (f : N -> bool) (x s r : pystr) : Prop :=
    sym x s r /\ x <> [] /\ forallb f x = true /\ ~ starts f r.

  (** A comment: no star in it is followed by a slash, reading stars in pairs with the
      character after them. *)
  Inductive comment_inner : pystr -> Prop :=
  | CI_nil : comment_inner []
  | CI_char c b : c <> 42%N -> comment_inner b -> comment_inner (c :: b)
  | CI_star c b : c <> 47%N -> comment_inner b -> comment_inner (42%N :: c :: b).
  Definition comment (s r : pystr) : Prop :=
    exists b, comment_inner b /\ sym (u "/*") s (b ++ u "*/" ++ r).
  Inductive comments : pystr -> pystr -> Prop :=
  | C_nil s : comments s s
  | C_more s s1 r : comment s s1 -> comments s1 r -> comments s r.

  Definition netword_text (w : netword) : pystr :=
    match w with WAny => u "any" | WAny4 => u "any4" | WAny6 => u "any6"
               | WANY => u "ANY" | WANY4 => u "ANY4" | WANY6 => u "ANY6" end.
  (** A number of a dotted address: one or two digits, or 100 to 255. *)
  Definition octet_text (d : pystr) : Prop :=
    (forallb is_digit d = true /\ (length d = 1 \/ length d = 2)) \/
    exists v, (100 <= v <= 255)%N /\ d = dec3 v.
  Definition addr4_text (t r : pystr) : Prop :=
    exists a b c d, octet_text a /\ octet_text b /\ octet_text c /\ octet_text d /\
      t = a ++ 46%N :: b ++ 46%N :: c ++ 46%N :: d /\
      forall x r', r = x :: r' -> ~ octet_text (d ++ [x]).
  Definition addr6_text (t r : pystr) : Prop :=
    exists a b, forallb is_hex a = true /\ b <> [] /\ forallb is_hexdotcolon b = true /\
      t = a ++ 58%N :: b /\ ~ starts is_hexdotcolon r.
  Definition addr_text (t s r : pystr) : Prop :=
    sym t s r /\ (addr4_text t r \/ addr6_text t r).
  Definition mask_text (m s r : pystr) : Prop :=
    exists s1, sym (u "/") s s1 /\ run is_digit m s1 r.
  Inductive net_text : nettext -> pystr -> pystr -> Prop :=
  | NT_word w s r : word (netword_text w) s r -> net_text (TWord w) s r
  | NT_addr a s r : addr_text a s r -> ~ (exists m r', mask_text m r r') -> net_text (TAddr a None) s r
  | NT_mask a m s s1 r : addr_text a s s1 -> mask_text m s1 r -> net_text (TAddr a (Some m)) s r.
  Inductive nets_text : list nettext -> pystr -> pystr -> Prop :=
  | NL_one n s r : net_text n s r -> nets_text [n] s r
  | NL_more n l s s1 r : net_text n s s1 -> nets_text l s1 r -> nets_text (n :: l) s r.
  Definition dir_text (d : dir) : pystr := match d with Src => u "src" | Dst => u "dst" end.
  Definition op_text (o : cafop) : pystr :=
    match o with Union => u "union" | Intersect => u "intersect" | Except => u "except" end.
  Definition id_text (id : option pystr) (s r : pystr) : Prop :=
    match id with
    | None => s = r
    | Some p => exists s1, word (u "id") s s1 /\ run is_pattern_char p s1 r
    end.

  Inductive expr_text : cexpr -> pystr -> pystr -> Prop :=
  | ET f l s s1 r : set_text f s s1 -> ops_text l s1 r -> expr_text (CE f l) s r
  with ops_text : list (cafop * cset) -> pystr -> pystr -> Prop :=
  | OPT_nil s : ops_text [] s s
  | OPT_more o x l s s1 s2 r : word (op_text o) s s1 -> set_text x s1 s2 -> ops_text l s2 r ->
      ops_text ((o, x) :: l) s r
  with set_text : cset -> pystr -> pystr -> Prop :=
  | ST id l s s1 s2 r : comments s s1 -> id_text id s1 s2 -> objs_text l s2 r -> set_text (CS id l) s r
  with objs_text : list cobj -> pystr -> pystr -> Prop :=
  | OT_nil s : objs_text [] s s
  | OT_comment l s s1 r : comment s s1 -> objs_text l s1 r -> objs_text l s r
  | OT_ip d ns l s s1 s2 s3 r : word (u "ip") s s1 -> word (dir_text d) s1 s2 -> nets_text ns s2 s3 ->
      objs_text l s3 r -> objs_text (OIp d ns :: l) s r
  | OT_expr e l s s1 s2 s3 r : sym (u "(") s s1 -> expr_text e s1 s2 -> sym (u ")") s2 s3 ->
      objs_text l s3 r -> objs_text (OExpr e :: l) s r.

  (** The whole text. *)
  Definition written_as (e : cexpr) (s : pystr) : Prop := exists r, expr_text e s r /\ blank r.
End Layout.
