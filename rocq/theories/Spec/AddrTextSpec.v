(** Standard notations of addresses. *)
From Verif.Model Require Import Base Ip.
Local Open Scope N_scope.

(** Decimal notation of a number up to 255, without leading zeros. *)
Definition dec3 (n : N) : pystr :=
  if n <? 10 then [48 + n]
  else if n <? 100 then [48 + n / 10; 48 + n mod 10]
  else [48 + n / 100; 48 + n / 10 mod 10; 48 + n mod 10].
(** Dotted notation of four numbers. *)
Definition dotted (a b c d : N) : pystr := (dec3 a ++ 46 :: dec3 b ++ 46 :: dec3 c ++ 46 :: dec3 d)%list.
(** The IPv4 address [n] as text. *)
Definition quad (n : N) : pystr :=
  dotted (n / 2 ^ 24) (n / 2 ^ 16 mod 256) (n / 2 ^ 8 mod 256) (n mod 256).

(** A group of one to four hex digits with its value. *)
Definition hex_value (c v : N) : Prop :=
  (48 <= c <= 57 /\ v = c - 48) \/ (97 <= c <= 102 /\ v = c - 97 + 10) \/ (65 <= c <= 70 /\ v = c - 65 + 10).
Inductive hex_number : pystr -> N -> Prop :=
| HN_one c v : hex_value c v -> hex_number [c] v
| HN_more s n c v : hex_number s n -> hex_value c v -> hex_number (s ++ [c])%list (16 * n + v).
Definition hextet (s : pystr) (v : N) : Prop := hex_number s v /\ (length s <= 4)%nat.

(** Groups separated by single colons, with their values; [Groups_quad] has an IPv4
    address in place of the last two. *)
Inductive hextets : pystr -> list N -> Prop :=
| HX_one s v : hextet s v -> hextets s [v]
| HX_quad a : a < 2 ^ 32 -> hextets (quad a) [a / 2 ^ 16; a mod 2 ^ 16]
| HX_more s v t vs : hextet s v -> hextets t vs -> hextets (s ++ 58 :: t)%list (v :: vs).
(** No dotted part. *)
Inductive plain_hextets : pystr -> list N -> Prop :=
| PX_one s v : hextet s v -> plain_hextets s [v]
| PX_more s v t vs : hextet s v -> plain_hextets t vs -> plain_hextets (s ++ 58 :: t)%list (v :: vs).

Definition number_of (vs : list N) : N := fold_left (fun n v => 65536 * n + v) vs 0.

(** IPv6 notation: eight groups, or fewer with one "::" for at least one zero group. *)
Inductive ipv6_text : pystr -> N -> Prop :=
| T6_full s vs : hextets s vs -> length vs = 8%nat -> ipv6_text s (number_of vs)
| T6_short s t hi lo : (s = [] /\ hi = [] \/ plain_hextets s hi) -> (t = [] /\ lo = [] \/ hextets t lo) ->
    (length hi + length lo <= 7)%nat ->
    ipv6_text (s ++ 58 :: 58 :: t)%list (number_of (hi ++ repeat 0 (8 - length hi - length lo) ++ lo)).
