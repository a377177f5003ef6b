(** Common vocabulary of the model: Python exceptions as values, strings as
    lists of code points, short-circuiting loops. *)
From Coq Require Export List NArith ZArith Bool Arith.
From Coq Require Import String Ascii.
Export ListNotations.
Export String.StringSyntax.

(** Python exception classes the modelled code can raise. *)
Inductive exn :=
| RecursionError | TypeError | ValueError | AssertionError | KeyError
| AttributeError | IndexError | FailedParse | NotImplementedError.

Inductive result (A : Type) :=
| Ok (a : A)
| Err (e : exn).
Arguments Ok {A} a.
Arguments Err {A} e.

Definition bind {A B} (r : result A) (f : A -> result B) : result B :=
  match r with Ok a => f a | Err e => Err e end.
Notation "'do' x <- r ; k" := (bind r (fun x => k))
  (at level 200, x pattern, r at level 100, k at level 200, right associativity).

(** Python [str]: a list of Unicode code points. *)
Definition pystr := list N.

(** ASCII literal to Python string (notation helper only). *)
Definition u (s : string) : pystr := map N_of_ascii (list_ascii_of_string s).
Arguments u s%string_scope.

(** Python [==] on strings. *)
Fixpoint str_eqb (a b : pystr) : bool :=
  match a, b with
  | [], [] => true
  | x :: a', y :: b' => N.eqb x y && str_eqb a' b'
  | _, _ => false
  end.

(** Python [<] on strings: lexicographic by code point. *)
Fixpoint str_ltb (a b : pystr) : bool :=
  match a, b with
  | _, [] => false
  | [], _ :: _ => true
  | x :: a', y :: b' => if N.ltb x y then true else if N.ltb y x then false else str_ltb a' b'
  end.

(** [for i in l: if f(i): return True] ... [return False], with exceptions. *)
Fixpoint any_r {A} (f : A -> result bool) (l : list A) : result bool :=
  match l with
  | [] => Ok false
  | x :: l' => match f x with
               | Ok true => Ok true
               | Ok false => any_r f l'
               | Err e => Err e
               end
  end.

(** [a and b] on results of already-effectful expressions. *)
Definition and_r (a : result bool) (b : result bool) : result bool :=
  match a with Ok true => b | r => r end.

(** Loops that collect or transform, stopping at the first exception. *)
Fixpoint map_r {A B} (f : A -> result B) (l : list A) : result (list B) :=
  match l with
  | [] => Ok []
  | x :: l' => do y <- f x; do ys <- map_r f l'; Ok (y :: ys)
  end.

Fixpoint fold_r {A S} (f : S -> A -> result S) (l : list A) (s : S) : result S :=
  match l with
  | [] => Ok s
  | x :: l' => do s' <- f s x; fold_r f l' s'
  end.

(** [while] loops that may run very often: [iter2 k] performs up to 2^k steps of the
    loop body.  [SDone] is loop exit, [SMore] one more iteration. *)
Inductive step_out (S A : Type) := SDone (a : A) | SMore (s : S).
Arguments SDone {S A} a.
Arguments SMore {S A} s.

Fixpoint iter2 {S A} (k : nat) (step : S -> result (step_out S A)) (s : S)
  : result (step_out S A) :=
  match k with
  | O => step s
  | Datatypes.S k' =>
      match iter2 k' step s with
      | Ok (SMore s') => iter2 k' step s'
      | r => r
      end
  end.

(** Run a loop with a given iteration budget (2^k); running out of the budget is
    reported as RecursionError and excluded by the theorems. *)
Definition run_loop {S A} (k : nat) (step : S -> result (step_out S A)) (s : S) : result A :=
  match iter2 k step s with
  | Ok (SDone a) => Ok a
  | Ok (SMore _) => Err RecursionError
  | Err e => Err e
  end.
