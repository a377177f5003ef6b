(** Shell pattern matching as used by ACLRule.__and__ (aclObjects.py:1122):
    [fnmatch.fnmatchcase] of CPython 3.11 (Lib/fnmatch.py:64-199).

    [translate] builds a regular expression; the model keeps the pieces of that
    expression as tokens instead of regex text.  What the regex engine does with the
    pieces ([.], literals, character sets, [(?>.*?fixed)], [.*fixed], [\Z]) is modelled
    in [regex_match]; the engine itself is trusted to implement these constructs. *)
From Verif.Model Require Import Base.
Local Open Scope N_scope.

Definition c_star : N := 42.   Definition c_quest : N := 63.
Definition c_open : N := 91.   Definition c_close : N := 93.
Definition c_bang : N := 33.   Definition c_dash : N := 45.

(** ** Character sets: the text between the brackets, fnmatch.py:105-151 *)

(** fnmatch.py:113-120: split at range hyphens.  [skip] characters are not looked at
    ([k] starts at i+1, or i+2 after '!', and advances by 3); [acc] is the current
    chunk, reversed. *)
Fixpoint chunks_go (skip : nat) (acc : pystr) (s : pystr) : list pystr :=
  match s with
  | [] => [rev acc]
  | c :: s' =>
      match skip with
      | S n => chunks_go n (c :: acc) s'
      | O => if c =? c_dash then rev acc :: chunks_go 2 [] s' else chunks_go 0 (c :: acc) s'
      end
  end.

(** fnmatch.py:121-125: an empty last chunk puts a literal hyphen on the one before. *)
Definition close_chunks (l : list pystr) : result (list pystr) :=
  match rev l with
  | [] :: p :: r => Ok (rev ((p ++ [c_dash]) :: r))
  | [] :: [] => Err IndexError
  | _ => Ok l
  end.

(** fnmatch.py:126-130: remove empty ranges, from the last chunk down. *)
Fixpoint merge_chunks (l : list pystr) : result (list pystr) :=
  match l with
  | [] => Ok []
  | c :: l' =>
      do r <- merge_chunks l';
      match r with
      | [] => Ok [c]
      | d :: r' =>
          match rev c, d with
          | x :: _, y :: d' => if y <? x then Ok ((removelast c ++ d') :: r') else Ok (c :: r)
          | _, _ => Err IndexError
          end
      end
  end.

(** The text of the set: characters, with the range hyphens put in by join marked;
    every other hyphen (and backslash, &, ~, |) is escaped, i.e. a plain character
    (fnmatch.py:107-108, 131-136). *)
Fixpoint join_chunks (l : list pystr) : list (N * bool) :=
  match l with
  | [] => []
  | [c] => map (fun x => (x, false)) c
  | c :: l' => map (fun x => (x, false)) c ++ (c_dash, true) :: join_chunks l'
  end.

Definition class_text (stuff : pystr) : result (list (N * bool)) :=
  if existsb (N.eqb c_dash) stuff then
    let skip := match stuff with c :: _ => if c =? c_bang then 2%nat else 1%nat | [] => 1%nat end in
    do l <- close_chunks (chunks_go skip [] stuff);
    do l <- merge_chunks l;
    Ok (join_chunks l)
  else Ok (map (fun x => (x, false)) stuff).

(** What [re] reads between the brackets (re/_parser.py:567-626): a character
    followed by a range hyphen is the start of a range, which must not be descending
    (re.error, a ValueError-like exception; here ValueError). *)
Fixpoint class_items (s : list (N * bool)) : result (list (N * N)) :=
  match s with
  | [] => Ok []
  | (lo, _) :: s' =>
      match s' with
      | (d, true) :: (hi, _) :: s'' =>
          if hi <? lo then Err ValueError else do r <- class_items s''; Ok ((lo, hi) :: r)
      | _ => do r <- class_items s'; Ok ((lo, lo) :: r)
      end
  end.

(** Pieces that match exactly one character (or, [PNever], nothing). *)
Inductive piece :=
| PAny | PLit (c : N) | PNever | PSet (negate : bool) (items : list (N * N)).

(** fnmatch.py:138-149 *)
Definition class_piece (stuff : pystr) : result piece :=
  do t <- class_text stuff;
  match t with
  | [] => Ok PNever
  | (c, _) :: t' =>
      if c =? c_bang
      then match t' with
           | [] => Ok PAny
           | _ => do i <- class_items t'; Ok (PSet true i)
           end
      else do i <- class_items t; Ok (PSet false i)
  end.

(** ** Translation of the whole pattern *)

(** Search for the closing bracket, fnmatch.py:95-103: contents and rest. *)
Fixpoint until_close (s : pystr) : option (pystr * pystr) :=
  match s with
  | [] => None
  | c :: s' => if c =? c_close then Some ([], s')
               else match until_close s' with
                    | Some (a, b) => Some (c :: a, b)
                    | None => None
                    end
  end.
Definition keep (c : N) (r : option (pystr * pystr)) : option (pystr * pystr) :=
  match r with Some (a, b) => Some (c :: a, b) | None => None end.
Definition bracket_close (s : pystr) : option (pystr * pystr) :=
  match s with
  | c :: s' => if c =? c_close then keep c (until_close s') else until_close s
  | [] => None
  end.
Definition bracket (s : pystr) : option (pystr * pystr) :=
  match s with
  | c :: s' => if c =? c_bang then keep c (bracket_close s') else bracket_close s
  | [] => None
  end.

(** The piece list [res], [None] standing for the STAR marker; fnmatch.py:84-153.
    [fuel] is at least the length of the pattern. *)
Fixpoint pieces (fuel : nat) (p : pystr) : result (list (option piece)) :=
  match fuel with
  | O => Ok []
  | S k =>
      match p with
      | [] => Ok []
      | c :: p' =>
          if c =? c_star then do r <- pieces k p'; Ok (match r with None :: _ => r | _ => None :: r end)
          else if c =? c_quest then do r <- pieces k p'; Ok (Some PAny :: r)
          else if c =? c_open then
            match bracket p' with
            | None => do r <- pieces k p'; Ok (Some (PLit c) :: r)
            | Some (stuff, p'') =>
                do x <- class_piece stuff; do r <- pieces k p''; Ok (Some x :: r)
            end
          else do r <- pieces k p'; Ok (Some (PLit c) :: r)
      end
  end.

(** One piece against one character. *)
Definition piece_ok (x : piece) (c : N) : bool :=
  match x with
  | PAny => true
  | PLit d => N.eqb c d
  | PNever => false
  | PSet neg items => xorb neg (existsb (fun i => (fst i <=? c) && (c <=? snd i)) items)
  end.

(** A run of pieces at the front of [s]: what is left, if it matches. *)
Fixpoint fixed (l : list piece) (s : pystr) : option pystr :=
  match l, s with
  | [], _ => Some s
  | x :: l', c :: s' => if piece_ok x c then fixed l' s' else None
  | _ :: _, [] => None
  end.
(** [(?>.*?fixed)]: leftmost occurrence, never reconsidered. *)
Fixpoint leftmost (l : list piece) (s : pystr) : option pystr :=
  match fixed l s with
  | Some r => Some r
  | None => match s with [] => None | _ :: s' => leftmost l s' end
  end.
(** [.*fixed\Z]: some suffix is matched completely. *)
Fixpoint final (l : list piece) (s : pystr) : bool :=
  match fixed l s with
  | Some [] => true
  | _ => match s with [] => false | _ :: s' => final l s' end
  end.

(** The maximal run of pieces before the next STAR, and what follows. *)
Fixpoint run (l : list (option piece)) : list piece * list (option piece) :=
  match l with
  | Some x :: l' => let '(a, b) := run l' in (x :: a, b)
  | _ => ([], l)
  end.

(** fnmatch.py:168-199; [l] starts with STAR or is empty. *)
Fixpoint match_stars (fuel : nat) (l : list (option piece)) (s : pystr) : bool :=
  match fuel with
  | O => false
  | S k =>
      match l with
      | [] => match s with [] => true | _ => false end          (* \Z *)
      | None :: l' =>
          match run l' with
          | (f, []) => final f s                                 (* .* fixed \Z, also f = [] *)
          | (f, rest) => match leftmost f s with
                         | Some s' => match_stars k rest s'
                         | None => false
                         end
          end
      | Some _ :: _ => false
      end
  end.

Definition regex_match (l : list (option piece)) (s : pystr) : bool :=
  let '(f, rest) := run l in
  match fixed f s with
  | Some s' => match_stars (S (length rest)) rest s'
  | None => false
  end.

(** [fnmatch.fnmatchcase(name, pat)] fnmatch.py:64-71 *)
Definition fnmatchcase (name pat : pystr) : result bool :=
  do l <- pieces (length pat) pat; Ok (regex_match l name).
