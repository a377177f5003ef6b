(** [str] of addresses and networks, as the [__repr__] methods of aclObjects.py:428-429,
    485-486 and 579-580 print them: CPython's ipaddress module, lib/python3.11/ipaddress.py. *)
From Verif.Model Require Import Base Ip Ports AddrText.
Local Open Scope N_scope.

(** [str(n)], ['%d' % n] for a number that is not negative. *)
Fixpoint dec_go (fuel : nat) (n : N) (acc : pystr) : pystr :=
  match fuel with
  | O => acc
  | S k => let acc := 48 + n mod 10 :: acc in if n <? 10 then acc else dec_go k (n / 10) acc
  end.
Definition dec_str (n : N) : pystr := dec_go (S (N.size_nat n)) n [].

(** [sep.join(l)] *)
Fixpoint str_join (sep : pystr) (l : list pystr) : pystr :=
  match l with [] => [] | [x] => x | x :: l => (x ++ sep ++ str_join sep l)%list end.

(** IPv4, 1250-1260: the four bytes, the first one first. *)
Definition bytes4 (n : N) : list N := [n / 2 ^ 24 mod 256; n / 2 ^ 16 mod 256; n / 2 ^ 8 mod 256; n mod 256].
Definition str4 (n : N) : pystr := str_join (u ".") (map dec_str (bytes4 n)).

(** IPv6, 1849-1850: four digits of ['%032x' % n] at a time, as numbers (the text of the
    whole number is not modelled). *)
Definition words6 (n : N) : list N :=
  map (fun i => n / 2 ^ (16 * i) mod 65536) [7; 6; 5; 4; 3; 2; 1; 0].
(** The loop of [_compress_hextets], 1798-1814; [start] None is -1. *)
Record runs := mkruns { best : option nat; best_len : nat; start : option nat; len : nat }.
Definition run_step (r : runs) (index : nat) (hextet : pystr) : runs :=
  if str_eqb hextet (u "0") then
    let len := S (len r) in
    let start := match start r with None => Some index | s => s end in
    if (best_len r <? len)%nat then mkruns start len start len else mkruns (best r) (best_len r) start len
  else mkruns (best r) (best_len r) None 0.
Fixpoint run_loop (r : runs) (index : nat) (l : list pystr) : runs :=
  match l with [] => r | x :: l => run_loop (run_step r index x) (S index) l end.
(** 1816-1828; [l[a:b] = ['']] is [firstn a l ++ [''] ++ skipn b l]. *)
Definition compress (l : list pystr) : list pystr :=
  let r := run_loop (mkruns None 0 None 0) 0 l in
  match best r with
  | Some b => if (1 <? best_len r)%nat then
      let e := (b + best_len r)%nat in
      let l1 := if (e =? length l)%nat then l ++ [[]] else l in
      let l2 := firstn b l1 ++ [] :: skipn e l1 in
      if (b =? 0)%nat then [] :: l2 else l2
    else l
  | None => l
  end.
(** 1852-1853 *)
Definition str6 (n : N) : pystr := str_join (u ":") (compress (map hex16 (words6 n))).
(** 609-610 and 1963-1965, without a scope id. *)
Definition addr_str (a : addr) : pystr := match a_ver a with V4 => str4 (a_val a) | V6 => str6 (a_val a) end.
(** 682-683 *)
Definition net_str (n : net) : pystr := (addr_str (mkaddr (n_ver n) (n_addr n)) ++ u "/" ++ dec_str (n_plen n))%list.
