(** Grammar-shaped reading of a sequence of sets joined by operators: a sum of
    products.  [intersect] binds tighter; [union] and [except] associate to the left. *)
From Verif.Model Require Import Base Ip Hosts Groups Rules Caf.
From Verif.Spec Require Import AddrSpec FilterSpec.

Inductive prod := PVal (v : cval) | PAnd (p : prod) (v : cval).
Inductive addop := Plus | Minus.
Inductive sum := SProd (p : prod) | SAdd (s : sum) (o : addop) (p : prod).

Definition op_of (o : addop) : cafop := match o with Plus => Union | Minus => Except end.

(** The text of such a tree: operands and operator words from left to right. *)
Fixpoint prod_words (p : prod) : list celem :=
  match p with
  | PVal v => [EVal v]
  | PAnd p v => prod_words p ++ [EWord Intersect; EVal v]
  end.
Fixpoint sum_words (s : sum) : list celem :=
  match s with
  | SProd p => prod_words p
  | SAdd s o p => sum_words s ++ EWord (op_of o) :: prod_words p
  end.

(** What it stands for, given what the single sets stand for. *)
Fixpoint prod_means {A} (D : cval -> A -> Prop) (p : prod) (x : A) : Prop :=
  match p with
  | PVal v => D v x
  | PAnd p v => prod_means D p x /\ D v x
  end.
Fixpoint sum_means {A} (D : cval -> A -> Prop) (s : sum) (x : A) : Prop :=
  match s with
  | SProd p => prod_means D p x
  | SAdd s Plus p => sum_means D s x \/ prod_means D p x
  | SAdd s Minus p => sum_means D s x /\ ~ prod_means D p x
  end.

(** Sequences of operands alternating with operator words. *)
Inductive alternating : list celem -> Prop :=
| Alt_one v : alternating [EVal v]
| Alt_more v o l : alternating l -> alternating (EVal v :: EWord o :: l).

(** What a single operand stands for. *)
Definition val_denotes {A} (sel : rule -> A -> Prop) (v : cval) (x : A) : Prop :=
  match v with VRule r => sel r x | VCaf c => denotes sel c x end.

(** ** Clauses as written *)

(** A written network selects a rule side [y]. *)
Definition net_selects (h : heap) (n : netast) (y : host) : Prop :=
  match n with
  | NtAny => True
  | NtAny4 => exists a, a_ver a = V4 /\ valid a /\ matches h y a
  | NtAny6 => exists a, a_ver a = V6 /\ valid a /\ matches h y a
  | NtANY => exists m, via_groups h y (HLeaf m) /\ literal_any LCafAny m
  | NtANY4 => exists m, via_groups h y (HLeaf m) /\ literal_any LCafAny4 m
  | NtANY6 => exists m, via_groups h y (HLeaf m) /\ literal_any LCafAny6 m
  | NtHost a => matches h y a
  | NtNet a p => exists b, agrees_leading a p b /\ matches h y b
  end.
(** The written terms of one direction select [y]: one of their networks does, or
    there are none. *)
Definition written_selects (h : heap) (d : dir) (objects : list setobj) (y : host) : Prop :=
  (forall ns, ~ In (SIp d ns) objects) \/
  exists ns n, In (SIp d ns) objects /\ In n ns /\ net_selects h n y.

Definition net_valid (n : netast) : Prop :=
  match n with
  | NtHost a => valid a
  | NtNet a p => valid a /\ (p <= bits (a_ver a))%N
  | _ => True
  end.
Definition obj_valid (o : setobj) : Prop :=
  match o with SIp _ ns => Forall net_valid ns | _ => True end.
Definition is_expr (o : setobj) : bool := match o with SExpr _ => true | _ => false end.
Definition is_ip (o : setobj) : bool := match o with SIp _ _ => true | _ => false end.

(** [h'] has all groups of [h], unchanged, and perhaps new ones. *)
Definition extends (h h' : heap) : Prop :=
  h_next h <= h_next h' /\ forall g, g < h_next h -> h_get h' g = h_get h g.
