(** Specification of the sort orders of groups (independent of the model's keys). *)
From Coq Require Import Permutation Sorted.
From Verif.Model Require Import Base Ip Hosts Groups.

(** The weight of a name c0 c1 c2 ...: (c0-255) + 2*((c1-255) + 2*(...)). *)
Fixpoint name_weight (s : pystr) : Z :=
  match s with [] => 0 | c :: s' => (Z.of_N c - 255) + 2 * name_weight s' end%Z.

(** [l'] is [l] stably sorted by [key] w.r.t. the comparison [cmp]: same elements,
    non-descending keys, equal keys in their original order. *)
Definition stably_sorted {X K} (cmp : K -> K -> comparison) (key : X -> option K) (l l' : list X) : Prop :=
  Permutation l l' /\
  StronglySorted (fun x y => forall a b, key x = Some a -> key y = Some b -> cmp a b <> Gt) l' /\
  forall k, let eqk x := match key x with Some a => match cmp a k with Eq => true | _ => false end | None => false end in
    filter eqk l' = filter eqk l.

(** Hosts and networks go by address, everything that has a name by its weight. *)
Definition net_sort_key (h : heap) (x : host) : option Z :=
  match x with
  | HLeaf (LHost a) => Some (Z.of_N (a_val a))
  | HLeaf (LNet n) => Some (Z.of_N (n_addr n))
  | HGrp g => Some (name_weight (g_name (h_get h g)))
  | HObj o => Some (name_weight (o_name o))
  | HLeaf LAny => Some (name_weight (u "NetworkAny"))
  | HLeaf LAny4 => Some (name_weight (u "NetworkAny4"))
  | HLeaf LAny6 => Some (name_weight (u "NetworkAny6"))
  | HLeaf LCafAny => Some (name_weight (u "cafNetworkAny"))
  | HLeaf LCafAny4 => Some (name_weight (u "cafNetworkAny4"))
  | HLeaf LCafAny6 => Some (name_weight (u "cafNetworkAny6"))
  | HLeaf (LWebtype _) => Some (name_weight (u "Webtype"))
  | HLeaf (LWild _ _) | HLeaf (LIface _) => None
  end.

Section Keys.
  Variable py_int : pystr -> option Z.
  Variable servbyname : pystr -> option Z.

  (** Protocols go by number, or by the weight of their name. *)
  Definition proto_sort_key (h : gheap prmember) (x : prmember) : option Z :=
    match x with
    | PrProto n => match py_int n with Some z => Some z | None => Some (name_weight n) end
    | PrGrp g => Some (name_weight (g_name (h_get h g)))
    end.

  (** Ports go by number (numeric, or known service name), else by weight; a port
      without number has no key. *)
  Definition portnum_sort_key (s : pystr) : Z :=
    match py_int s, servbyname s with
    | Some z, _ => z
    | None, Some z => z
    | None, None => name_weight s
    end.
  Definition port_sort_key (h : gheap pmember) (x : pmember) : option Z :=
    match x with
    | PPort _ (Some s) | PRange (Some s) _ => Some (portnum_sort_key s)
    | PPort _ None | PRange None _ => None
    | PGrp g => Some (name_weight (g_name (h_get h g)))
    end.

  (** Services go by protocol name, source port, destination port, icmp code, icmp type. *)
  Definition opt_port_key (hp : gheap pmember) (p : option pmember) : option Z :=
    match p with None => Some 0%Z | Some p => port_sort_key hp p end.
  Definition service_sort_key (hp : gheap pmember) (h : gheap smember) (x : smember)
    : option (pystr * (Z * (Z * (pystr * pystr)))) :=
    match x with
    | SService s | SObject _ _ s =>
        match opt_port_key hp (sv_src s), opt_port_key hp (sv_dst s) with
        | Some a, Some b =>
            Some (sv_proto s, (a, (b, (match sv_icmp_code s with Some c => c | None => [] end,
                                       match sv_icmp_type s with Some t => t | None => [] end))))
        | _, _ => None
        end
    | SGrp g => Some (g_name (h_get h g), (0%Z, (0%Z, ([], []))))
    end.
End Keys.

(** Lexicographic comparisons. *)
Definition lex {A B} (ca : A -> A -> comparison) (cb : B -> B -> comparison) (x y : A * B) : comparison :=
  match ca (fst x) (fst y) with Eq => cb (snd x) (snd y) | c => c end.
Fixpoint str_compare (a b : pystr) : comparison :=
  match a, b with
  | [], [] => Eq
  | [], _ => Lt
  | _, [] => Gt
  | x :: a', y :: b' => match N.compare x y with Eq => str_compare a' b' | c => c end
  end.
Definition service_compare :=
  lex str_compare (lex Z.compare (lex Z.compare (lex str_compare str_compare))).
