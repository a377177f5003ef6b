(** The recommended way of writing an address (RFC 5952 for IPv6). *)
From Verif.Model Require Import Base Ip.
From Verif.Spec Require Import AddrTextSpec CafMeanSpec.
Local Open Scope N_scope.

(** Decimal and hexadecimal notation with small letters and without leading zeros. *)
Definition plain_start (s : pystr) : Prop := forall t, s = 48 :: t -> t = [].
Definition plain_decimal (s : pystr) (v : N) : Prop := decimal_text s v /\ plain_start s.
Definition plain_hex (s : pystr) (v : N) : Prop :=
  hex_number s v /\ plain_start s /\ forall c, In c s -> ~ (65 <= c <= 70).

Inductive groups_text : pystr -> list N -> Prop :=
| GT_one s v : plain_hex s v -> groups_text s [v]
| GT_more s v t vs : plain_hex s v -> groups_text t vs -> groups_text (s ++ 58 :: t)%list (v :: vs).
Definition part_text (s : pystr) (vs : list N) : Prop := (s = [] /\ vs = []) \/ groups_text s vs.

(** [n] zeros from position [i] on. *)
Definition zeros_at (vs : list N) (i n : nat) : Prop :=
  (i + n <= length vs)%nat /\ forall j, (i <= j < i + n)%nat -> nth j vs 0 = 0.
(** The longest such run, the first one of several. *)
Definition longest_zeros (vs : list N) (i n : nat) : Prop :=
  zeros_at vs i n /\ forall j m, zeros_at vs j m -> (m < n)%nat \/ (m = n /\ (i <= j)%nat).

Inductive canonical6 : pystr -> list N -> Prop :=
| K_full s vs : groups_text s vs -> (forall i n, zeros_at vs i n -> (n <= 1)%nat) -> canonical6 s vs
| K_short s t hi n lo : part_text s hi -> part_text t lo -> (2 <= n)%nat ->
    longest_zeros (hi ++ repeat 0 n ++ lo) (length hi) n ->
    canonical6 (s ++ 58 :: 58 :: t)%list (hi ++ repeat 0 n ++ lo).
