(** Model of the parts of Python's [ipaddress] module that acltk relies on
    (CPython 3.11 Lib/ipaddress.py, cited as [ipaddress:lines]).  Addresses are
    unbounded [N] values tagged with a version; the code's constructors keep
    them below 2^32 / 2^128 (see [addr_ok]). IPv6 scope ids are not modelled. *)
From Verif.Model Require Import Base.
Local Open Scope N_scope.

Inductive ver := V4 | V6.

Definition ver_eqb (a b : ver) : bool :=
  match a, b with V4, V4 => true | V6, V6 => true | _, _ => false end.

(** [_max_prefixlen] (ipaddress: class attributes of _BaseV4/_BaseV6). *)
Definition bits (v : ver) : N := match v with V4 => 32 | V6 => 128 end.

(** [_ALL_ONES] *)
Definition all_ones (v : ver) : N := N.ones (bits v).

(** IPv4Address / IPv6Address objects: [_version], [_ip]. *)
Record addr := mkaddr { a_ver : ver; a_val : N }.

(** Addresses the constructors of ipaddress can produce (ipaddress:415-422). *)
Definition addr_ok (a : addr) : bool := a_val a <? 2 ^ bits (a_ver a).

(** [_BaseAddress.__eq__] ipaddress:577-582 *)
Definition addr_eqb (a b : addr) : bool :=
  N.eqb (a_val a) (a_val b) && ver_eqb (a_ver a) (a_ver b).

(** IPv4Network / IPv6Network objects: version, network_address, _prefixlen. *)
Record net := mknet { n_ver : ver; n_addr : N; n_plen : N }.

(** [_ip_int_from_prefix] ipaddress:432-442 *)
Definition ip_int_from_prefix (v : ver) (plen : N) : N :=
  N.lxor (all_ones v) (N.shiftr (all_ones v) plen).

Definition netmask (n : net) : N := ip_int_from_prefix (n_ver n) (n_plen n).

(** [hostmask] ipaddress:764-765 *)
Definition hostmask (n : net) : N := N.lxor (netmask n) (all_ones (n_ver n)).

(** [broadcast_address] ipaddress:759-761 *)
Definition broadcast (n : net) : N := N.lor (n_addr n) (hostmask n).

(** [_BaseNetwork.__contains__] for an address argument, ipaddress:739-749 *)
Definition net_contains (n : net) (a : addr) : bool :=
  if ver_eqb (n_ver n) (a_ver a)
  then N.eqb (N.land (a_val a) (netmask n)) (n_addr n)
  else false.

(** [overlaps] ipaddress:751-756: is [self] partly contained in [other]? *)
Definition overlaps (self other : net) : bool :=
  net_contains other (mkaddr (n_ver self) (n_addr self))
  || net_contains other (mkaddr (n_ver self) (broadcast self))
  || net_contains self (mkaddr (n_ver other) (n_addr other))
  || net_contains self (mkaddr (n_ver other) (broadcast other)).

(** [num_addresses] ipaddress:780-782 *)
Definition num_addresses (n : net) : N := broadcast n - n_addr n + 1.

(** [_BaseNetwork.__eq__] ipaddress:728-734 *)
Definition net_eqb (a b : net) : bool :=
  ver_eqb (n_ver a) (n_ver b) && N.eqb (n_addr a) (n_addr b) && N.eqb (netmask a) (netmask b).

(** [_BaseNetwork.__lt__] ipaddress:716-726 for networks of the same version
    (a mixed comparison raises TypeError; see [collapse_addresses]). *)
Definition net_ltb (a b : net) : bool :=
  if negb (N.eqb (n_addr a) (n_addr b)) then n_addr a <? n_addr b
  else if negb (N.eqb (netmask a) (netmask b)) then netmask a <? netmask b
  else false.

(** [_count_righthand_zero_bits] ipaddress:184-197; Python's
    [~number & (number-1)] for number > 0 is [ldiff (number-1) number]. *)
Definition count_righthand_zero_bits (number nbits : N) : N :=
  if N.eqb number 0 then nbits
  else N.min nbits (N.size (N.ldiff (number - 1) number)).

(** [_prefix_from_ip_int] ipaddress:445-467; [None] = ValueError. *)
Definition prefix_from_ip_int (v : ver) (ip_int : N) : option N :=
  let trailing_zeroes := count_righthand_zero_bits ip_int (bits v) in
  let prefixlen := bits v - trailing_zeroes in
  let leading_ones := N.shiftr ip_int trailing_zeroes in
  let all_ones := N.shiftl 1 prefixlen - 1 in
  if N.eqb leading_ones all_ones then Some prefixlen else None.

(** The two textual shapes of the mask part of "address/mask": a digit string
    (prefix length) or a dotted quad, already converted to numbers.
    Simplification: the text to number conversion of the mask is not modelled here. *)
Inductive mask := MaskLen (n : N) | MaskQuad (m : N).

(** [_make_netmask] of IPv4 (ipaddress:1162-1185) with [_prefix_from_prefix_string]
    (475-497) and [_prefix_from_ip_string] (500-531); of IPv6 only the prefix form
    is accepted.  [None] = NetmaskValueError. *)
Definition make_netmask (v : ver) (m : mask) : option N :=
  match m with
  | MaskLen n => if n <=? bits v then Some n else None
  | MaskQuad q =>
      match v with
      | V6 => None
      | V4 =>
          match prefix_from_ip_int V4 q with
          | Some p => Some p
          | None => prefix_from_ip_int V4 (N.lxor q (all_ones V4))
          end
      end
  end.

(** [ipaddress.ip_network(f"{address}/{mask}", strict)] ipaddress:57-83 with the
    constructors of IPv4Network/IPv6Network (1537-1552): host bits are masked away
    when not strict, and raise ValueError when strict. *)
Definition ip_network (strict : bool) (a : addr) (m : mask) : result net :=
  match make_netmask (a_ver a) m with
  | None => Err ValueError
  | Some p =>
      let nm := ip_int_from_prefix (a_ver a) p in
      if N.eqb (N.land (a_val a) nm) (a_val a) then Ok (mknet (a_ver a) (a_val a) p)
      else if strict then Err ValueError
      else Ok (mknet (a_ver a) (N.land (a_val a) nm) p)
  end.

(** [supernet()] with the default [prefixlen_diff=1], ipaddress:982-1021 *)
Definition supernet (n : net) : net :=
  if N.eqb (n_plen n) 0 then n
  else mknet (n_ver n) (N.land (n_addr n) (N.shiftl (netmask n) 1)) (n_plen n - 1).

(** Loop body of [summarize_address_range], ipaddress:245-252.  State: networks
    yielded so far and [first_int]. *)
Definition summarize_nbits (v : ver) (first last : N) : N :=
  N.min (count_righthand_zero_bits first (bits v)) (N.size (last - first + 1) - 1).

Definition summarize_body (v : ver) (last : N) (st : list net * N)
  : result (step_out (list net * N) (list net)) :=
  let '(out, first) := st in
  if first <=? last then
    let nbits := summarize_nbits v first last in
    let out' := out ++ [mknet v first (bits v - nbits)] in
    let first' := first + N.shiftl 1 nbits in
    if N.eqb (first' - 1) (all_ones v) then Ok (SDone out') else Ok (SMore (out', first'))
  else Ok (SDone out).

(** [summarize_address_range(first, last)] ipaddress:200-252.  The budget of 2^129
    iterations exceeds the number of addresses (proved sufficient). *)
Definition summarize_address_range (first last : addr) : result (list net) :=
  if negb (ver_eqb (a_ver first) (a_ver last)) then Err TypeError
  else if a_val last <? a_val first then Err ValueError
  else run_loop 129 (summarize_body (a_ver first) (a_val last)) ([], a_val first).

(** Input items of [collapse_addresses]: address or network. *)
Inductive ipobj := IAddr (a : addr) | INet (n : net).

(** Generic stable sort (Python's [sorted] is stable): insertion from the right,
    [lt] is the strict order used. *)
Section Sort.
  Context {A : Type} (lt : A -> A -> bool).
  (* insert before the first element that is not smaller: stability *)
  Fixpoint insert (x : A) (l : list A) : list A :=
    match l with
    | [] => [x]
    | y :: l' => if lt y x then y :: insert x l' else x :: y :: l'
    end.
  Fixpoint sorted (l : list A) : list A :=
    match l with [] => [] | x :: l' => insert x (sorted l') end.
End Sort.

(** [sorted(set(ips))] ipaddress:348: sort and drop duplicates. *)
Fixpoint dedup_sorted (l : list N) : list N :=
  match l with
  | [] => []
  | x :: l' => match l' with
               | [] => [x]
               | y :: _ => if N.eqb x y then dedup_sorted l' else x :: dedup_sorted l'
               end
  end.
Definition sorted_set (l : list N) : list N := dedup_sorted (sorted N.ltb l).

(** [_find_address_range] ipaddress:164-181 on the remaining iterator. *)
Fixpoint find_ranges (first last : N) (it : list N) : list (N * N) :=
  match it with
  | [] => [(first, last)]
  | ip :: it' =>
      if negb (N.eqb ip (last + 1)) then (first, last) :: find_ranges ip ip it'
      else find_ranges first ip it'
  end.
Definition find_address_range (l : list N) : list (N * N) :=
  match l with [] => [] | x :: l' => find_ranges x x l' end.

(** The dictionary [subnets] of [_collapse_addresses_internal]. *)
Definition subnets := list (net * net).
Fixpoint sub_get (d : subnets) (k : net) : option net :=
  match d with
  | [] => None
  | (k', v) :: d' => if net_eqb k' k then Some v else sub_get d' k
  end.
Fixpoint sub_del (d : subnets) (k : net) : subnets :=
  match d with
  | [] => []
  | (k', v) :: d' => if net_eqb k' k then d' else (k', v) :: sub_del d' k
  end.

(** Merge loop, ipaddress:280-291.  [to_merge.pop()] takes the last element; the
    list is kept reversed so that the stack top is the head. *)
Fixpoint merge_loop (fuel : nat) (to_merge : list net) (d : subnets) : result subnets :=
  match to_merge with
  | [] => Ok d
  | n :: rest =>
      match fuel with
      | O => Err RecursionError
      | S fuel' =>
          let sup := supernet n in
          match sub_get d sup with
          | None => merge_loop fuel' rest (d ++ [(sup, n)])
          | Some existing =>
              if negb (net_eqb existing n)
              then merge_loop fuel' (sup :: rest) (sub_del d sup)
              else merge_loop fuel' rest d
          end
      end
  end.

(** Final loop, ipaddress:293-301: skip networks inside the last yielded one. *)
Fixpoint skip_subsumed (last : option net) (l : list net) : list net :=
  match l with
  | [] => []
  | n :: l' =>
      match last with
      | Some m => if broadcast n <=? broadcast m then skip_subsumed last l'
                  else n :: skip_subsumed (Some n) l'
      | None => n :: skip_subsumed (Some n) l'
      end
  end.

(** All networks have the same version: comparing two networks of different
    version raises TypeError (ipaddress:719-721) and any comparison sort of a
    mixed list must make such a comparison. *)
Definition same_version (l : list net) : bool :=
  match l with [] => true | n :: l' => forallb (fun m => ver_eqb (n_ver n) (n_ver m)) l' end.

Definition collapse_internal (l : list net) : result (list net) :=
  do d <- merge_loop (2 * List.length l + 1) (rev l) [];
  let vals := map snd d in
  if same_version vals then Ok (skip_subsumed None (sorted net_ltb vals)) else Err TypeError.

(** Splitting loop of [collapse_addresses], ipaddress:327-345. [ips] and [nets]
    are accumulated reversed, so [ips[-1]] is the head. *)
Fixpoint collapse_split (l : list ipobj) (ips : list addr) (nets : list net)
  : result (list addr * list net) :=
  let push_ip (a : addr) (k : list addr -> result (list addr * list net)) :=
    match ips with
    | a' :: _ => if negb (ver_eqb (a_ver a') (a_ver a)) then Err TypeError else k (a :: ips)
    | [] => k (a :: ips)
    end in
  match l with
  | [] => Ok (rev ips, rev nets)
  | IAddr a :: l' => push_ip a (fun ips' => collapse_split l' ips' nets)
  | INet n :: l' =>
      if N.eqb (n_plen n) (bits (n_ver n))
      then push_ip (mkaddr (n_ver n) (n_addr n)) (fun ips' => collapse_split l' ips' nets)
      else match nets with
           | n' :: _ => if negb (ver_eqb (n_ver n') (n_ver n)) then Err TypeError
                        else collapse_split l' ips (n :: nets)
           | [] => collapse_split l' ips (n :: nets)
           end
  end.

(** [collapse_addresses] ipaddress:304-355.  The first part is eager, the final
    generator is consumed entirely by acltk's [for h in ...] loop. *)
Definition collapse_addresses (l : list ipobj) : result (list net) :=
  do (ips, nets) <- collapse_split l [] [];
  match ips with
  | [] => collapse_internal nets
  | a0 :: _ =>
      let v := a_ver a0 in
      let s := sorted_set (map a_val ips) in
      do addrs <- map_r (fun '(f, l) => summarize_address_range (mkaddr v f) (mkaddr v l))
                        (find_address_range s);
      collapse_internal (List.concat addrs ++ nets)
  end.
