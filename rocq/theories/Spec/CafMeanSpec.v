(** What a written filter expression selects. *)
From Verif.Model Require Import Base Ip Hosts Groups Rules Caf CafText.
From Verif.Spec Require Import AddrSpec FilterSpec CafSpec AddrTextSpec.

(** A text is the notation of an address. *)
Definition address_text (t : pystr) (a : addr) : Prop :=
  match a_ver a with
  | V4 => (a_val a < 2 ^ 32)%N /\ t = quad (a_val a)
  | V6 => ipv6_text t (a_val a)
  end.
(** Decimal notation, leading zeros allowed. *)
Inductive decimal_text : pystr -> N -> Prop :=
| DT_one c : (48 <= c <= 57)%N -> decimal_text [c] (c - 48)
| DT_more s n c : decimal_text s n -> (48 <= c <= 57)%N -> decimal_text (s ++ [c]) (10 * n + (c - 48)).

(** The network a term stands for. *)
Inductive net_reads : nettext -> netast -> Prop :=
| NR_any : net_reads (TWord WAny) NtAny
| NR_any4 : net_reads (TWord WAny4) NtAny4
| NR_any6 : net_reads (TWord WAny6) NtAny6
| NR_ANY : net_reads (TWord WANY) NtANY
| NR_ANY4 : net_reads (TWord WANY4) NtANY4
| NR_ANY6 : net_reads (TWord WANY6) NtANY6
| NR_host t a : address_text t a -> net_reads (TAddr t None) (NtHost a)
| NR_net t m a p : address_text t a -> decimal_text m p -> (p <= bits (a_ver a))%N ->
    net_reads (TAddr t (Some m)) (NtNet a p).

Section Means.
  Context (h : heap).
  (** The terms of one direction select a rule side: one of their networks does, or the
      clause has none for that direction. *)
  Definition side_selects (d : dir) (objects : list cobj) (y : host) : Prop :=
    (forall l, ~ In (OIp d l) objects) \/
    exists l t n, In (OIp d l) objects /\ In t l /\ net_reads t n /\ net_selects h n y.
  Definition nat_side_selects (objects : list cobj) (s : natside) : Prop :=
    (forall x, endpoint (ns_src s) x -> side_selects Src objects x) /\
    (forall x, endpoint (ns_dst s) x -> side_selects Dst objects x) /\
    ((exists x, endpoint (ns_src s) x) \/ (exists x, endpoint (ns_dst s) x)).
  Definition clause_selects (id : option pystr) (objects : list cobj) (i : item) : Prop :=
    match i with
    | IRule r => id_selects id (r_id r) /\ side_selects Src objects (r_src r) /\ side_selects Dst objects (r_dst r)
    | INat n => (exists s, nat_real n = Some s /\ nat_side_selects objects s) \/
                (exists s, nat_mapped n = Some s /\ nat_side_selects objects s)
    end.

  (** A sequence of operators after a first operand.  [p]: the product read so far;
      [before]: what it will be combined with.  [intersect] binds tighter, [union] and
      [except] associate to the left. *)
  Definition sequence {X} (M : X -> Prop) := fix go (before : Prop -> Prop) (p : Prop) (l : list (cafop * X)) : Prop :=
    match l with
    | [] => before p
    | (Intersect, x) :: l => go before (p /\ M x) l
    | (Union, x) :: l => go (fun q => before p \/ q) (M x) l
    | (Except, x) :: l => go (fun q => before p /\ ~ q) (M x) l
    end.

  Fixpoint expr_means (i : item) (e : cexpr) : Prop :=
    match e with CE f l => sequence (set_means i) (fun q => q) (set_means i f) l end
  with set_means (i : item) (x : cset) : Prop :=
    match x with
    | CS _ [OExpr e] => expr_means i e
    | CS id objects => clause_selects id objects i
    end.
End Means.

(** Expressions that can be read: every network is one, and a set holds either one
    parenthesised expression or only ip terms. *)
Inductive readable : cexpr -> Prop :=
| RE f l : readable_set f -> Forall (fun x => readable_set (snd x)) l -> readable (CE f l)
with readable_set : cset -> Prop :=
| RS_expr id e : readable e -> readable_set (CS id [OExpr e])
| RS_clause id objects :
    (forall o, In o objects -> exists d l, o = OIp d l /\ forall t, In t l -> exists n, net_reads t n) ->
    readable_set (CS id objects).
