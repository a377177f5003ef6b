(** The filter language as text: caf.bnf with the parser generated from it (caf.py), run
    by cafBlock.fromString (cafObjects.py:27-47) with name guard and white space skipped
    before every token and every grammar rule.

    Simplifications.  The text is first parsed into a tree, and the semantic actions
    (Model/Caf.v) are run on the tree; the code runs them while parsing.  So for a text
    that has both a syntax error and, before it, a value error, the exception class may
    differ; for any other text there is no difference.  The groups of the ip terms of a set
    are made after those of its nested expressions; only the order of allocation differs.  Comments, which have the value
    None and are filtered out (cafSemantics.py:90,117-126), leave no trace in the tree. *)
From Coq Require Import String.
From Verif.Model Require Import Base Ip Hosts Groups Rules Caf Peg AddrText.
Local Open Scope list_scope.

Inductive netword := WAny | WAny4 | WAny6 | WANY | WANY4 | WANY6.
(** [network]: a word, or an address with an optional mask *)
Inductive nettext := TWord (w : netword) | TAddr (a : pystr) (m : option pystr).
(** [expr], [set], [set_ip] and [set_expr] *)
Inductive cexpr := CE (first : cset) (rest : list (cafop * cset))
with cset := CS (id : option pystr) (objects : list cobj)
with cobj := OIp (d : dir) (l : list nettext) | OExpr (e : cexpr).

Section Grammar.
  Context (isalpha isalnum isspace : N -> bool).

  Fixpoint skip (s : pystr) : pystr :=
    match s with c :: s' => if isspace c then skip s' else s | [] => [] end.
  (** a token; a grammar rule around a parser *)
  Definition tok (t : pystr) : parser pystr := fun s => token isalpha isalnum t (skip s).
  Definition lex {A} (p : parser A) : parser A := fun s => p (skip s).

  Definition pmap {A B} (f : A -> B) (p : parser A) : parser B := let% a := p in ret (f a).
  Definition many1 {A} (p : parser A) : parser (list A) :=
    let% l := many p in match l with [] => fail | _ => ret l end.
  Definition words {A} (l : list (pystr * A)) : parser A :=
    choice (map (fun w => pmap (fun _ => snd w) (tok (fst w))) l).

  (** caf.bnf:17-18, the pattern between the comment marks *)
  Fixpoint comment_body (s : pystr) : pystr :=
    match s with
    | [] => []
    | c :: s' =>
        if N.eqb c 42 then
          match s' with
          | d :: s'' => if N.eqb d 47 then s else comment_body s''
          | [] => s
          end
        else comment_body s'
    end.
  Definition p_comment : parser unit := lex
    (let% _ := tok (u "/*") in let% _ := (fun s => POk tt (comment_body s)) in
     let% _ := tok (u "*/") in ret tt).
  Definition p_comments : parser unit := lex (pmap (fun _ => tt) (many1 p_comment)).

  (** caf.bnf:20-23, 34-37 *)
  Definition p_op : parser cafop := lex (words
    [(u "union", Union); (u "intersect", Intersect); (u "except", Except)]).
  Definition p_dir : parser dir := lex (words [(u "src", Src); (u "dst", Dst)]).

  (** caf.bnf:9-13 *)
  Definition is_pattern_char (c : N) : bool :=
    is_digit c || in_range 65 90 c || in_range 97 122 c || existsb (N.eqb c) (u "_-.?*[]!/").
  Definition p_int : parser pystr := lex (pat1 is_digit).
  Definition p_pattern : parser pystr := lex (pat1 is_pattern_char).

  (** caf.bnf:39-42 *)
  Definition p_network : parser nettext := lex (choice
    [ pmap TWord (words [(u "ANY4", WANY4); (u "ANY6", WANY6); (u "ANY", WANY);
                         (u "any4", WAny4); (u "any6", WAny6); (u "any", WAny)]);
      (let% a := choice [lex ip4_pat; lex ip6_pat] in
       let% m := popt (let% _ := tok (u "/") in p_int) in
       ret (TAddr a m)) ]).
  (** caf.bnf:44-58 *)
  Definition p_net : parser (list nettext) := lex (many1 p_network).
  Definition p_set_ip : parser cobj := lex
    (let% _ := tok (u "ip") in let% d := p_dir in let% l := p_net in ret (OIp d l)).
  Definition p_set_id : parser pystr := lex (let% _ := tok (u "id") in p_pattern).

  Section Set_.
    Context (p_expr : parser cexpr).
    (** caf.bnf:56-67 *)
    Definition p_set_expr : parser cobj := lex
      (let% _ := tok (u "(") in let% e := p_expr in let% _ := tok (u ")") in ret (OExpr e)).
    Definition p_set_r : parser (option cobj) := lex (choice
      [pmap Some p_set_ip; pmap Some p_set_expr; pmap (fun _ => None) p_comments]).
    Definition drop_none {A} (l : list (option A)) : list A :=
      flat_map (fun o => match o with Some a => [a] | None => [] end) l.
    Definition p_set : parser cset := lex
      (let% _ := popt p_comments in
       let% id := popt p_set_id in
       let% l := many p_set_r in
       ret (CS id (drop_none l))).

    (** caf.bnf:30-32 and the action 70-73, which keeps the first repetition only. *)
    Fixpoint p_expr_r (n : nat) : parser (cset * list (cafop * cset)) :=
      match n with
      | O => raise RecursionError
      | S n => lex
          (let% a := p_set in
           let% l := many1 (let% o := p_op in
                            let% x := choice [p_expr_r n; pmap (fun x => (x, [])) p_set] in
                            ret ((o, fst x) :: snd x)) in
           match l with x :: _ => ret (a, x) | [] => fail end)
      end.
  End Set_.
  (** caf.bnf:25-28.  The depth bounds the nesting of parentheses and the number of
      operators; the length of the text always suffices. *)
  Fixpoint p_expr (n : nat) : parser cexpr :=
    match n with
    | O => raise RecursionError
    | S n => lex (choice [pmap (fun x => CE (fst x) (snd x)) (p_expr_r (p_expr n) (S n));
                          pmap (fun x => CE x []) (p_set (p_expr n))])
    end.

  (** caf.bnf:3-5: [grammar = @:expr $] *)
  Definition p_grammar (s : pystr) : result cexpr :=
    match lex (p_expr (S (length s))) s with
    | POk e r => match skip r with [] => Ok e | _ => Err FailedParse end
    | PFail => Err FailedParse
    | PErr e => Err e
    end.
End Grammar.

(** ** The actions on the tree *)
(** [network], cafSemantics.py:12-27 *)
Definition net_of_text (n : nettext) : result netast :=
  match n with
  | TWord WAny => Ok NtAny | TWord WAny4 => Ok NtAny4 | TWord WAny6 => Ok NtAny6
  | TWord WANY => Ok NtANY | TWord WANY4 => Ok NtANY4 | TWord WANY6 => Ok NtANY6
  | TAddr a None => do a <- ip_address a; Ok (NtHost a)
  | TAddr a (Some m) => do a <- ip_address a; Ok (NtNet a (int10 m))
  end.
Fixpoint eval_expr (h : heap) (e : cexpr) : result (heap * cval) :=
  match e with
  | CE f rest =>
      do r <- eval_set h f; let '(h, v) := r in
      do r <- (fix go (h : heap) (l : list (cafop * cset)) : result (heap * list celem) :=
                 match l with
                 | [] => Ok (h, [])
                 | (o, x) :: l => do r <- eval_set h x; let '(h, v) := r in
                                  do r <- go h l; let '(h, vs) := r in Ok (h, EWord o :: EVal v :: vs)
                 end) h rest;
      let '(h, vs) := r in
      do v <- expr_action (EVal v :: vs); Ok (h, v)
  end
with eval_set (h : heap) (x : cset) : result (heap * cval) :=
  match x with
  | CS id objects =>
      do r <- (fix go (h : heap) (l : list cobj) : result (heap * list setobj) :=
                 match l with
                 | [] => Ok (h, [])
                 | o :: l => do r <- eval_obj h o; let '(h, v) := r in
                             do r <- go h l; let '(h, vs) := r in Ok (h, v :: vs)
                 end) h objects;
      let '(h, os) := r in set_action h id os
  end
with eval_obj (h : heap) (o : cobj) : result (heap * setobj) :=
  match o with
  | OIp d l => do ns <- map_r net_of_text l; Ok (h, SIp d ns)
  | OExpr e => do r <- eval_expr h e; let '(h, v) := r in Ok (h, SExpr v)
  end.

(** cafBlock.fromString, cafObjects.py:27-54, with the action of [grammar] 128-129 *)
Definition caf_read (isalpha isalnum isspace : N -> bool) (h : heap) (s : pystr) : result (heap * caf) :=
  do e <- p_grammar isalpha isalnum isspace s;
  do r <- eval_expr h e; let '(h, v) := r in Ok (h, wrap v).
