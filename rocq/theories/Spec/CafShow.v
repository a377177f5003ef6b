(** Filter expressions written out with explicit parentheses. *)
From Coq Require Import String.
From Verif.Model Require Import Base Ip Hosts Groups Rules Caf AddrText CafText.
From Verif.Spec Require Import AddrSpec FilterSpec CafSpec AddrTextSpec CafTextSpec.
Local Open Scope list_scope.

(** A clause: an id and ip terms; or two expressions joined by an operator. *)
Inductive fexpr :=
| FClause (id : option pystr) (terms : list (dir * list netast))
| FOp (o : cafop) (a b : fexpr).

(** Its meaning: set algebra over the clauses. *)
Definition fclause_selects (h : heap) (id : option pystr) (terms : list (dir * list netast)) (i : item) : Prop :=
  let side d y := (forall l, ~ In (d, l) terms) \/ exists l n, In (d, l) terms /\ In n l /\ net_selects h n y in
  let natside s :=
    (forall x, endpoint (ns_src s) x -> side Src x) /\ (forall x, endpoint (ns_dst s) x -> side Dst x) /\
    ((exists x, endpoint (ns_src s) x) \/ (exists x, endpoint (ns_dst s) x)) in
  match i with
  | IRule r => id_selects id (r_id r) /\ side Src (r_src r) /\ side Dst (r_dst r)
  | INat n => (exists s, nat_real n = Some s /\ natside s) \/ (exists s, nat_mapped n = Some s /\ natside s)
  end.
Fixpoint fmeans (h : heap) (f : fexpr) (i : item) : Prop :=
  match f with
  | FClause id terms => fclause_selects h id terms i
  | FOp Union a b => fmeans h a i \/ fmeans h b i
  | FOp Intersect a b => fmeans h a i /\ fmeans h b i
  | FOp Except a b => fmeans h a i /\ ~ fmeans h b i
  end.

(** Printable: ids made of the characters of the grammar, valid networks, at least one
    network in a term. *)
Fixpoint printable (f : fexpr) : Prop :=
  match f with
  | FClause id terms =>
      (forall p, id = Some p -> p <> [] /\ forallb is_pattern_char p = true) /\
      (forall d l, In (d, l) terms -> l <> [] /\ Forall net_valid l)
  | FOp _ a b => printable a /\ printable b
  end.

(** The text. *)
Definition hexdigit (v : N) : N := if (v <? 10)%N then (48 + v)%N else (87 + v)%N.
Definition group4 (v : N) : pystr := [hexdigit (v / 4096); hexdigit (v / 256 mod 16); hexdigit (v / 16 mod 16); hexdigit (v mod 16)].
Fixpoint groups (k : nat) (n : N) : pystr :=       (* the last [k]+1 groups of [n] *)
  match k with
  | O => group4 (n mod 65536)
  | S k => group4 (n / 65536 ^ N.of_nat (S k) mod 65536) ++ u ":" ++ groups k n
  end.
Definition show_addr (a : addr) : pystr := match a_ver a with V4 => quad (a_val a) | V6 => groups 7 (a_val a) end.
Definition show_net (n : netast) : pystr :=
  match n with
  | NtAny => u "any" | NtAny4 => u "any4" | NtAny6 => u "any6"
  | NtANY => u "ANY" | NtANY4 => u "ANY4" | NtANY6 => u "ANY6"
  | NtHost a => show_addr a
  | NtNet a p => show_addr a ++ u "/" ++ dec3 p
  end.
Definition show_term (t : dir * list netast) : pystr :=
  u " ip " ++ dir_text (fst t) ++ flat_map (fun n => u " " ++ show_net n) (snd t).
Fixpoint show (f : fexpr) : pystr :=
  match f with
  | FClause id terms =>
      match id with Some p => u "id " ++ p | None => [] end ++ flat_map show_term terms
  | FOp o a b => u "(" ++ show a ++ u ") " ++ op_text o ++ u " (" ++ show b ++ u ")"
  end.
