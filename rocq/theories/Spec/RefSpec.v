(** Vocabulary of C26: words and separators in configuration text. *)
From Coq Require Import String.
From Verif.Model Require Import Base Iface.

(** The text begins with a separator: a blank, a tab, a line feed, or a carriage return
    before a line feed. *)
Definition sep_start (r : pystr) : Prop :=
  exists r', r = 32%N :: r' \/ r = 9%N :: r' \/ r = 10%N :: r' \/ r = 13%N :: 10%N :: r'.

(** The text begins with a character of the class. *)
Definition headin (cls : N -> Prop) (r : pystr) : Prop := exists c r', r = c :: r' /\ cls c.
(** The text has no character of the class. *)
Definition freeof (cls : N -> Prop) (n : pystr) : Prop := forall c, In c n -> ~ cls c.
Definition in_class (l : list N) (c : N) : Prop := In c l.

(** White space characters: blank, tab, carriage return, line feed. *)
Definition white : N -> Prop := in_class [32; 9; 13; 10]%N.

(** An interface as written between parentheses: [any], or a known name. *)
Definition iface_named {V} (table : dict V) (n : pystr) (i : unit + V) : Prop :=
  (n = u "any" /\ i = inl tt) \/ (n <> u "any" /\ exists v, dget table n = Some v /\ i = inr v).

(** The name does not go on with a punctuation character after "any". *)
Definition clear_of_any (isalnum : N -> bool) (n : pystr) : Prop :=
  forall c n', n = u "any" ++ c :: n' -> isalnum c = true.
