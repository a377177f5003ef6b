(** Addresses as text: the patterns of ip.bnf and the string parsing of Python's
    ipaddress module (CPython 3.11 Lib/ipaddress.py, cited as [ipaddress:lines]). *)
From Verif.Model Require Import Base Ip Peg.
Local Open Scope N_scope.

(** ** Characters *)
Definition dot : N := 46.
Definition colon : N := 58.
Definition is_digit (c : N) : bool := (48 <=? c) && (c <=? 57).
(** [[a-fA-F0-9]], also [_HEX_DIGITS] ipaddress:1623 *)
Definition is_hex (c : N) : bool :=
  is_digit c || ((97 <=? c) && (c <=? 102)) || ((65 <=? c) && (c <=? 70)).
(** [int(s, 10)] for ASCII digits, [int(s, 16)] for hex digits *)
Definition digit_val (c : N) : N := c - 48.
Definition hex_val (c : N) : N := if c <=? 57 then c - 48 else if c <=? 70 then c - 55 else c - 87.
Definition int10 (s : pystr) : N := fold_left (fun a c => 10 * a + digit_val c) s 0.
Definition int16 (s : pystr) : N := fold_left (fun a c => 16 * a + hex_val c) s 0.

(** [str.split(sep)] for a one-character separator *)
Fixpoint split (sep : N) (s : pystr) : list pystr :=
  match s with
  | [] => [[]]
  | c :: s' =>
      if c =? sep then [] :: split sep s'
      else match split sep s' with p :: ps => (c :: p) :: ps | [] => [[c]] end
  end.
Definition has (c : N) (s : pystr) : bool := existsb (N.eqb c) s.

(** ** IPv4: [_parse_octet] ipaddress:1213-1247 *)
Definition parse_octet (s : pystr) : result N :=
  match s with
  | [] => Err ValueError
  | c :: s' =>
      if negb (forallb is_digit s) then Err ValueError
      else if (3 <? length s)%nat then Err ValueError
      else if negb (str_eqb s [48]) && (c =? 48) then Err ValueError
      else if 255 <? int10 s then Err ValueError
      else Ok (int10 s)
  end.
(** [_ip_int_from_string] ipaddress:1187-1211 *)
Definition parse4 (s : pystr) : result N :=
  match s with
  | [] => Err ValueError
  | _ =>
      match split dot s with
      | [a; b; c; d] =>
          do a <- parse_octet a; do b <- parse_octet b; do c <- parse_octet c; do d <- parse_octet d;
          Ok (((a * 256 + b) * 256 + c) * 256 + d)
      | _ => Err ValueError
      end
  end.

(** ** IPv6: [_parse_hextet] ipaddress:1755-1779 ([int("", 16)] raises ValueError) *)
Definition parse_hextet (s : pystr) : result N :=
  match s with
  | [] => Err ValueError
  | _ =>
      if negb (forallb is_hex s) then Err ValueError
      else if (4 <? length s)%nat then Err ValueError
      else Ok (int16 s)
  end.
(** ['%x' % n] for n below 2^16 *)
Definition hexdig (d : N) : N := if d <? 10 then 48 + d else 87 + d.
Definition hex16 (n : N) : pystr :=
  if n <? 16 then [hexdig n]
  else if n <? 256 then [hexdig (n / 16); hexdig (n mod 16)]
  else if n <? 4096 then [hexdig (n / 256); hexdig (n / 16 mod 16); hexdig (n mod 16)]
  else [hexdig (n / 4096); hexdig (n / 256 mod 16); hexdig (n / 16 mod 16); hexdig (n mod 16)].

(** The [for] loops 1738-1744: shift in one hextet after the other. *)
Definition shift_in (n : N) (l : list pystr) : result N :=
  fold_r (fun n p => do v <- parse_hextet p; Ok (N.lor (N.shiftl n 16) v)) l n.

Definition part (l : list pystr) (i : nat) : pystr := nth i l [].
Definition is_empty (s : pystr) : bool := match s with [] => true | _ => false end.

(** The IPv4-style suffix is replaced by two hextets, 1679-1686. *)
Definition dotted_suffix (parts : list pystr) : result (list pystr) :=
  if has dot (last parts []) then
    do v <- parse4 (last parts []);
    Ok (removelast parts ++ [hex16 (N.land (N.shiftr v 16) 65535); hex16 (N.land v 65535)])
  else Ok parts.
(** The positions of empty parts apart from both ends, 1698-1706. *)
Definition skips (parts : list pystr) : list nat :=
  filter (fun i => is_empty (part parts i)) (seq 1 (length parts - 2)).

(** [_ip_int_from_string] ipaddress:1651-1753 *)
Definition parse6 (s : pystr) : result N :=
  match s with
  | [] => Err ValueError
  | _ =>
      let parts := split colon s in
      if (length parts <? 3)%nat then Err ValueError else
      do parts <- dotted_suffix parts;
      let n := length parts in
      if (9 <? n)%nat then Err ValueError else
      match skips parts with
      | _ :: _ :: _ => Err ValueError
      | [i] =>
          let hi := i in
          let lo := (n - i - 1)%nat in
          do hi <- (if is_empty (part parts 0)
                    then if (hi - 1 =? 0)%nat then Ok 0%nat else Err ValueError else Ok hi);
          do lo <- (if is_empty (last parts [])
                    then if (lo - 1 =? 0)%nat then Ok 0%nat else Err ValueError else Ok lo);
          if (7 <? hi + lo)%nat then Err ValueError else
          do v <- shift_in 0 (firstn hi parts);
          shift_in (N.shiftl v (16 * N.of_nat (8 - (hi + lo)))) (skipn (n - lo) parts)
      | [] =>
          if negb (n =? 8)%nat then Err ValueError
          else if is_empty (part parts 0) then Err ValueError
          else if is_empty (last parts []) then Err ValueError
          else shift_in 0 parts
      end
  end.

(** [ipaddress.ip_address] ipaddress:28-54 (scope ids are not modelled) *)
Definition ip_address (s : pystr) : result addr :=
  match parse4 s with
  | Ok n => Ok (mkaddr V4 n)
  | Err _ => match parse6 s with Ok n => Ok (mkaddr V6 n) | Err _ => Err ValueError end
  end.

(** Mask text: [_prefix_from_prefix_string] 474-497 and, for IPv4 (1162-1185), the dotted
    form of [_prefix_from_ip_string] 500-531.  [None]: rejected. *)
Definition read_mask (s : pystr) : option mask :=
  if negb (is_empty s) && forallb is_digit s then Some (MaskLen (int10 s))
  else match parse4 s with Ok n => Some (MaskQuad n) | Err _ => None end.

(** [ipaddress.ip_network(f"{address}/{mask}", strict=False)] (aclObjects.py:388) for
    an address text without a slash; a mask text with a slash is refused, too. *)
Definition ip_network_text (a m : pystr) : result net :=
  do a <- ip_address a;
  match read_mask m with Some m => ip_network false a m | None => Err ValueError end.

(** ** The patterns of ip.bnf *)
Definition in_range (lo hi c : N) : bool := (lo <=? c) && (c <=? hi).
(** [25[0-5]|(?:2[0-4]|1{0,1}[0-9]){0,1}[0-9]], three digits *)
Definition octet3 (a b c : N) : bool :=
  (N.eqb a 50 && N.eqb b 53 && in_range 48 53 c) ||
  (N.eqb a 50 && in_range 48 52 b && is_digit c) ||
  (N.eqb a 49 && is_digit b && is_digit c).
(** ... followed by a dot: the alternatives back off until the dot matches. *)
Definition octet_dot (s : pystr) : option (pystr * pystr) :=
  match s with
  | a :: b :: c :: d :: r =>
      if octet3 a b c && N.eqb d dot then Some ([a; b; c], r)
      else if is_digit a && is_digit b && N.eqb c dot then Some ([a; b], d :: r)
      else if is_digit a && N.eqb b dot then Some ([a], c :: d :: r) else None
  | a :: b :: c :: r =>
      if is_digit a && is_digit b && N.eqb c dot then Some ([a; b], r)
      else if is_digit a && N.eqb b dot then Some ([a], c :: r) else None
  | a :: b :: r => if is_digit a && N.eqb b dot then Some ([a], r) else None
  | _ => None
  end.
(** ... not followed by anything in particular: the first alternative that matches,
    which is the longest one. *)
Definition octet_end (s : pystr) : option (pystr * pystr) :=
  match s with
  | a :: b :: c :: r =>
      if octet3 a b c then Some ([a; b; c], r)
      else if is_digit a && is_digit b then Some ([a; b], c :: r)
      else if is_digit a then Some ([a], b :: c :: r) else None
  | a :: b :: r =>
      if is_digit a && is_digit b then Some ([a; b], r)
      else if is_digit a then Some ([a], b :: r) else None
  | a :: r => if is_digit a then Some ([a], r) else None
  | [] => None
  end.
(** ip.bnf:1 *)
Definition ip4_pat : parser pystr := fun s =>
  match octet_dot s with
  | Some (a, s) => match octet_dot s with
    | Some (b, s) => match octet_dot s with
      | Some (c, s) => match octet_end s with
        | Some (d, s) => POk (a ++ dot :: b ++ dot :: c ++ dot :: d)%list s
        | None => PFail end
      | None => PFail end
    | None => PFail end
  | None => PFail end.
(** ip.bnf:3 *)
Definition is_hexdotcolon (c : N) : bool := is_hex c || N.eqb c dot || N.eqb c colon.
Definition ip6_pat : parser pystr := fun s =>
  let (a, s1) := span is_hex s in
  match s1 with
  | c :: s2 => if N.eqb c colon then
      match span is_hexdotcolon s2 with
      | ([], _) => PFail
      | (b, r) => POk (a ++ colon :: b)%list r
      end else PFail
  | [] => PFail
  end.
