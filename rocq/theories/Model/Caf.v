(** The filter language: cafObjects.py and the actions of cafSemantics.py. *)
From Verif.Model Require Import Base Ip Hosts Groups Fnmatch Rules.

Inductive cafop := Union | Intersect | Except.

(** Filter objects.  [CClause r] is cafBlock(ACLRule), [CBlock b] is cafBlock of a
    cafBlock or cafOp (cafObjects.py:6-11); [COp] is a cafOp (65-80), whose operands
    that are rules have been wrapped into a cafBlock. *)
Inductive caf :=
| CClause (r : rule)
| CBlock (b : caf)
| COp (o : cafop) (a b : caf).

(** set.intersection, set.union, [-] (cafObjects.py:100, 110, 120) *)
Definition mem (x : iid) (s : list iid) : bool := existsb (Nat.eqb x) s.
Definition set_op (o : cafop) (a b : list iid) : list iid :=
  match o with
  | Intersect => filter (fun x => mem x b) a
  | Union => fold_left (fun s x => set_add x s) b a
  | Except => filter (fun x => negb (mem x b)) a
  end.

(** cafBlock.run 16-25, cafOp*.run 96-123 (the [verbose] printing is in CafPrint.v). *)
Fixpoint caf_run (k : nat) (h : heap) (get : iid -> item) (c : caf) (rules : list iid) : result (list iid) :=
  match c with
  | CClause r => rules_filter k h get rules [r]
  | CBlock b => caf_run k h get b rules
  | COp o a b =>
      do x <- caf_run k h get a rules;
      do y <- caf_run k h get b rules;
      Ok (set_op o x y)
  end.

(** ACLConfig.filter 1368-1380: the rules, then the NAT objects of the three sections
    in the order of the dictionary; [r.update] is union. *)
Definition config_filter (k : nat) (h : heap) (get : iid -> item) (c : caf)
    (rules : list iid) (nats : list (list iid)) : result (list iid) :=
  do a <- caf_run k h get c rules;
  do b <- caf_run k h get c (concat nats);
  Ok (set_op Union (set_op Union [] a) b).

(** ** Semantic actions, cafSemantics.py *)

(** Values of the grammar rules [set], [expr], ...: an ACLRule, or a cafBlock/cafOp. *)
Inductive cval := VRule (r : rule) | VCaf (c : caf).
(** cafBlock(v), cafObjects.py:7-11; also the grammar action, cafSemantics.py:128-129. *)
Definition wrap (v : cval) : caf := match v with VRule r => CClause r | VCaf c => CBlock c end.
(** Operands of a cafOp, cafObjects.py:74-80. *)
Definition block (v : cval) : caf := match v with VRule r => CClause r | VCaf c => c end.

(** Elements of the flat list handled by [expr]: at even positions operands, at odd
    positions the operator words. *)
Inductive celem := EVal (v : cval) | EWord (o : cafop).

(** One pass over the list looking at the odd positions for a wanted operator
    (cafSemantics.py:34-47 and 49-66): the first such [a op b] is replaced by the
    operator object; [None] if there is none.  The list alternates operand, word,
    operand...; any other shape makes the Python code fail in [cafOp.__init__]'s
    assertion or with IndexError. *)
Fixpoint reduce1 (want : cafop -> bool) (l : list celem) : result (option (list celem)) :=
  match l with
  | a :: EWord o :: l' =>
      if want o then
        match a, l' with
        | EVal x, EVal y :: l'' => Ok (Some (EVal (VCaf (COp o (block x) (block y))) :: l''))
        | _, [] => Err IndexError
        | _, _ => Err AssertionError
        end
      else do r <- reduce1 want l';
           Ok (match r with Some l2 => Some (a :: EWord o :: l2) | None => None end)
  | a :: b :: l' =>
      do r <- reduce1 want l';
      Ok (match r with Some l2 => Some (a :: b :: l2) | None => None end)
  | _ => Ok None
  end.

Fixpoint reduce_all (fuel : nat) (want : cafop -> bool) (l : list celem) : result (list celem) :=
  match fuel with
  | O => Ok l
  | S k => do r <- reduce1 want l;
           match r with Some l' => reduce_all k want l' | None => Ok l end
  end.

Definition is_intersect (o : cafop) : bool := match o with Intersect => true | _ => false end.
Definition is_union_except (o : cafop) : bool := match o with Intersect => false | _ => true end.

(** [expr] 29-68, on the list produced by [expr_r]. *)
Definition expr_action (l : list celem) : result cval :=
  do l <- reduce_all (length l) is_intersect l;
  do l <- reduce_all (length l) is_union_except l;
  match l with
  | EVal v :: _ => Ok v
  | EWord _ :: _ => Err AssertionError
  | [] => Err IndexError
  end.

(** ** Clauses: [network], [net], [set] *)

(** Parse result of the grammar rule [network] (caf.bnf:40-43); addresses are taken as
    already read by the ipaddress module. *)
Inductive netast :=
| NtAny | NtAny4 | NtAny6 | NtANY | NtANY4 | NtANY6
| NtHost (a : addr) | NtNet (a : addr) (plen : N).

(** [network] 12-27 *)
Definition network_action (n : netast) : result leaf :=
  match n with
  | NtAny => Ok LAny | NtAny4 => Ok LAny4 | NtAny6 => Ok LAny6
  | NtANY => Ok LCafAny | NtANY4 => Ok LCafAny4 | NtANY6 => Ok LCafAny6
  | NtHost a => Ok (LHost a)
  | NtNet a p => mk_Network a (MaskLen p)
  end.

(** A new NetworkGroup with the given members added one by one (81-84, 110-112); every
    member is of an allowed class. *)
Definition new_group (h : heap) (name : pystr) (l : list host) : heap * host :=
  let '(h, g) := h_alloc h (mkgroup name [] [] l) in (h, HGrp g).

(** [net] 78-84 *)
Definition net_action (h : heap) (l : list netast) : result (heap * host) :=
  do ls <- map_r network_action l;
  match ls with
  | [x] => Ok (h, HLeaf x)
  | _ => Ok (new_group h [] (map HLeaf ls))
  end.

Inductive dir := Src | Dst.
Definition dir_eqb (a b : dir) : bool := match a, b with Src, Src | Dst, Dst => true | _, _ => false end.

(** The objects of a [set]: comments (None), ip terms, parenthesised expressions. *)
Inductive setobj := SComment | SIp (d : dir) (l : list netast) | SExpr (v : cval).

(** The objects with their [net] actions already run (they run while parsing, left to
    right, before the [set] action). *)
Inductive setval := VIp (d : dir) (x : host) | VExpr (c : caf).
Fixpoint set_objects (h : heap) (l : list setobj) : result (heap * list setval) :=
  match l with
  | [] => Ok (h, [])
  | SComment :: l' => set_objects h l'                      (* filtered out, 90 *)
  | SIp d n :: l' =>
      do r <- net_action h n; let '(h, x) := r in
      do r <- set_objects h l'; let '(h, vs) := r in Ok (h, VIp d x :: vs)
  | SExpr v :: l' =>
      do r <- set_objects h l'; let '(h, vs) := r in Ok (h, VExpr (wrap v) :: vs)   (* set_expr 75-76 *)
  end.

(** The collecting loop 94-97: ["ip" in cafBlock] raises TypeError. *)
Fixpoint ip_terms (vs : list setval) : result (list (dir * host)) :=
  match vs with
  | [] => Ok []
  | VIp d x :: vs' => do r <- ip_terms vs'; Ok ((d, x) :: r)
  | VExpr _ :: _ => Err TypeError
  end.
Definition of_dir (d : dir) (l : list (dir * host)) : list host :=
  map snd (filter (fun p => dir_eqb d (fst p)) l).

(** 104-112: the node of one direction; [nodes] are built for src, then for dst. *)
Definition side_node (h : heap) (l : list host) : heap * host :=
  match l with
  | [] => (h, HLeaf LAny)
  | [x] => (h, x)
  | _ => new_group h [] l
  end.

(** [set] 89-115 (the two scratch groups named "src" and "dst" are not reachable from
    the result and are left out). *)
Definition set_action (h : heap) (id : option pystr) (objects : list setobj) : result (heap * cval) :=
  do r <- set_objects h objects;
  let '(h, vs) := r in
  match vs with
  | [VExpr c] => Ok (h, VCaf c)                             (* 92-93 *)
  | _ =>
      do ip <- ip_terms vs;
      let '(h, src) := side_node h (of_dir Src ip) in
      let '(h, dst) := side_node h (of_dir Dst ip) in
      Ok (h, VRule (mkrule id src dst))
  end.
