(** The parsing machinery the generated parsers run on (lib/acltk/{fwsm,ios,caf}.py are
    generated from the .bnf files by tatsu; the parsers are configured in
    fwsmObjects.py:25-26, iosObjects.py:58-66 and cafObjects.py:34-36 with
    [whitespace=""], [nameguard=True]; caf with default white space).

    A parser takes the remaining text.  It fails softly ([PFail], tatsu's FailedParse:
    the enclosing choice tries its next option), or raises a Python exception from a
    semantic action ([PErr], which no choice catches), or succeeds.
    tatsu itself is not part of /repo; this file models its documented operators:
    ordered choice, sequence, optional, closure, look-ahead, token with name guard. *)
From Coq Require Import String.
From Verif.Model Require Import Base.
Local Open Scope list_scope.

Inductive pres (A : Type) := PFail | PErr (e : exn) | POk (a : A) (rest : pystr).
Arguments PFail {A}.
Arguments PErr {A} e.
Arguments POk {A} a rest.

Definition parser (A : Type) := pystr -> pres A.

Definition ret {A} (a : A) : parser A := fun s => POk a s.
Definition fail {A} : parser A := fun _ => PFail.
Definition raise {A} (e : exn) : parser A := fun _ => PErr e.
Definition pbind {A B} (p : parser A) (f : A -> parser B) : parser B :=
  fun s => match p s with POk a r => f a r | PErr e => PErr e | PFail => PFail end.
Notation "'let%' x ':=' p 'in' q" := (pbind p (fun x => q))
  (at level 200, x pattern, p at level 100, q at level 200, right associativity).
(** Ordered choice [p | q]. *)
Definition por {A} (p q : parser A) : parser A :=
  fun s => match p s with PFail => q s | r => r end.
Definition choice {A} (l : list (parser A)) : parser A := fold_right por fail l.
(** [[p]]. *)
Definition popt {A} (p : parser A) : parser (option A) :=
  fun s => match p s with POk a r => POk (Some a) r | PFail => POk None s | PErr e => PErr e end.
(** Positive look-ahead [&(p)]: consumes nothing. *)
Definition look {A} (p : parser A) : parser unit :=
  fun s => match p s with POk _ _ => POk tt s | PFail => PFail | PErr e => PErr e end.
(** Closure [{p}]: an iteration that consumes nothing ends the closure without counting. *)
Fixpoint many_f {A} (fuel : nat) (p : parser A) : parser (list A) :=
  fun s =>
    match fuel with
    | O => POk [] s
    | S fuel' =>
        match p s with
        | PFail => POk [] s
        | PErr e => PErr e
        | POk a r =>
            if (length r <? length s)%nat then
              match many_f fuel' p r with
              | POk l r' => POk (a :: l) r'
              | PFail => PFail
              | PErr e => PErr e
              end
            else POk [] s
        end
    end.
(** At most [length s] iterations succeed, since each one consumes a character. *)
Definition many {A} (p : parser A) : parser (list A) := fun s => many_f (S (length s)) p s.
(** A semantic action that may raise. *)
Definition act {A B} (f : A -> result B) (p : parser A) : parser B :=
  let% a := p in fun s => match f a with Ok b => POk b s | Err e => PErr e end.

(** The text after a prefix. *)
Fixpoint strip_prefix (t s : pystr) : option pystr :=
  match t, s with
  | [], _ => Some s
  | a :: t', b :: s' => if N.eqb a b then strip_prefix t' s' else None
  | _ :: _, [] => None
  end.

(** Greedy run of characters of a class: the patterns [[...]*] and [[...]+]. *)
Fixpoint span (f : N -> bool) (s : pystr) : pystr * pystr :=
  match s with
  | [] => ([], [])
  | c :: s' => if f c then let (a, b) := span f s' in (c :: a, b) else ([], s)
  end.
Definition pat0 (f : N -> bool) : parser pystr := fun s => let (a, b) := span f s in POk a b.
Definition pat1 (f : N -> bool) : parser pystr :=
  fun s => match span f s with ([], _) => PFail | (a, b) => POk a b end.

Section Guard.
  (** Python's [str.isalpha] and [str.isalnum] on one character. *)
  Context (isalpha isalnum : N -> bool).
  (** The name guard applies to tokens that look like names: a letter, then letters and
      digits; such a token does not match if a letter or digit follows. *)
  Definition name_like (t : pystr) : bool :=
    match t with [] => false | c :: t' => isalpha c && forallb isalnum t' end.
  Definition next_alnum (s : pystr) : bool := match s with [] => false | c :: _ => isalnum c end.
  Definition token (t : pystr) : parser pystr :=
    fun s => match strip_prefix t s with
             | None => PFail
             | Some r => if name_like t && next_alnum r then PFail else POk t r
             end.
End Guard.

(** acl.bnf:3-4: [SP = " "], [WS = /[ \t]+/]; acl.bnf:1: [NL = ["\r"] "\n"]. *)
Definition is_blank (c : N) : bool := N.eqb c 32 || N.eqb c 9.
Definition ws : parser unit := let% _ := pat1 is_blank in ret tt.
Definition char (c : N) : parser unit :=
  fun s => match s with d :: s' => if N.eqb d c then POk tt s' else PFail | [] => PFail end.
Definition sp : parser unit := char 32.
Definition nl : parser unit := let% _ := popt (char 13) in char 10.
