(** Shell patterns, declaratively: [*] any string, [?] any character, [[...]] one
    character of a set, everything else itself. *)
From Verif.Model Require Import Base.
Local Open Scope N_scope.

Definition star : N := 42.  Definition quest : N := 63.  Definition bang : N := 33.
Definition lbracket : N := 91.  Definition rbracket : N := 93.  Definition dash : N := 45.

(** [c] is one of the characters or inside one of the ranges [lo-hi] listed in [s],
    read from left to right. *)
Inductive listed : pystr -> N -> Prop :=
| L_range lo hi s c : lo <= c <= hi -> listed (lo :: dash :: hi :: s) c
| L_range_skip lo hi s c : listed s c -> listed (lo :: dash :: hi :: s) c
| L_char x s : (forall hi s', s <> dash :: hi :: s') -> listed (x :: s) x
| L_char_skip x s c : (forall hi s', s <> dash :: hi :: s') -> listed s c -> listed (x :: s) c.

(** The set written between brackets; a leading [!] negates. *)
Inductive set_has : pystr -> N -> Prop :=
| S_neg s c : ~ listed s c -> set_has (bang :: s) c
| S_pos s c : (forall s', s <> bang :: s') -> listed s c -> set_has s c.

(** [p] (the text after an opening bracket) is [stuff ++ "]" ++ rest], with [stuff] the
    shortest such text that is neither empty nor just [!]. *)
Definition set_text (stuff : pystr) : Prop := stuff <> [] /\ stuff <> [bang].
Definition brackets (p stuff rest : pystr) : Prop :=
  p = stuff ++ rbracket :: rest /\ set_text stuff /\
  forall stuff' rest', p = stuff' ++ rbracket :: rest' -> set_text stuff' ->
    (length stuff <= length stuff')%nat.

Inductive glob : pystr -> pystr -> Prop :=
| G_nil : glob [] []
| G_star p s1 s2 : glob p s2 -> glob (star :: p) (s1 ++ s2)
| G_any p c s : glob p s -> glob (quest :: p) (c :: s)
| G_set p stuff rest c s : brackets p stuff rest -> set_has stuff c -> glob rest s ->
    glob (lbracket :: p) (c :: s)
| G_open p s : (forall stuff rest, ~ brackets p stuff rest) -> glob p s ->
    glob (lbracket :: p) (lbracket :: s)
| G_lit p c s : c <> star -> c <> quest -> c <> lbracket -> glob p s -> glob (c :: p) (c :: s).

(** Set texts in which a [!] comes to stand in front once empty ranges (like [b-a])
    before it are left out: the one case where CPython's fnmatch deviates. *)
Inductive hidden_bang : pystr -> Prop :=
| HB_here lo hi s : hi < lo -> lo <> bang -> hidden_bang (lo :: dash :: hi :: bang :: s)
| HB_skip lo hi s : hi < lo -> lo <> bang -> hidden_bang s -> hidden_bang (lo :: dash :: hi :: s).

(** No bracketed part of the pattern has that shape. *)
Definition regular (p : pystr) : Prop :=
  forall a s b, p = a ++ lbracket :: s ++ rbracket :: b -> ~ hidden_bang s.
