(** C17-C23: filters. *)
From Verif.Model Require Import Base Ip Hosts Groups Fnmatch Rules Caf.
From Verif.Spec Require Import AddrSpec GlobSpec FilterSpec CafSpec.
From Verif.Proofs Require Import AndFacts GlobFacts FilterFacts CafFacts.

From Coq Require Import Lia.

Definition str (l : list N) : pystr := l.

(** ** C17: ids *)
Theorem C17_ids_exact : forall c r, id_regular c -> id_regular r ->
  exists b, ids_and c r = Ok b /\ (b = true <-> id_selects c r).
Proof. exact ids_exact. Qed.
Print Assumptions C17_ids_exact.

(** The id part never fails, whatever the strings. *)
Theorem C17_total : forall c r, exists b, ids_and c r = Ok b.
Proof.
  intros c r. unfold ids_and.
  destruct (truthy c) as [a|], (truthy r) as [b|]; eauto.
  destruct (slashed a).
  - destruct b, (inner a); eauto using fnmatchcase_total.
  - destruct (slashed b); eauto. destruct a, (inner b); eauto using fnmatchcase_total.
Qed.
Print Assumptions C17_total.

(** A clause id without slashes at both ends selects exactly the equal id, among rules
    whose own id is not written between slashes. *)
Theorem C17_plain_id : forall c r, c <> [] -> r <> [] ->
  ~ between_slashes c -> ~ between_slashes r ->
  ids_and (Some c) (Some r) = Ok true <-> c = r.
Proof.
  intros c r Nc Nr Sc Sr.
  assert (Rg : forall s, ~ between_slashes s -> id_regular (Some s)).
  { intros s H s' p E W. injection E as <-. destruct (wrapped_inner _ _ W). contradiction. }
  assert (Nw : forall s, ~ between_slashes s -> ~ is_wrapped s).
  { intros s H (p & W). destruct (wrapped_inner _ _ W). contradiction. }
  destruct (ids_exact (Some c) (Some r) (Rg _ Sc) (Rg _ Sr)) as (b & E & B). rewrite E. split.
  - intros H. injection H as ->. destruct B as [B _]. specialize (B eq_refl).
    apply id_selects_inv in B as [(p & W & _)|[(_ & ->)|(_ & p & W & _)]]; auto.
    + destruct (Nw _ Sc). now exists p.
    + destruct (Nw _ Sr). now exists p.
  - intros <-. f_equal. apply B. apply IS_equal. auto.
Qed.
Print Assumptions C17_plain_id.

(** [/p/] selects exactly the ids matching the shell pattern [p]. *)
Theorem C17_pattern_id : forall p r, p <> [] -> r <> [] -> regular p ->
  ids_and (Some (slash :: p ++ [slash])) (Some r) = Ok true <-> glob p r.
Proof.
  intros p r Np Nr Rp. unfold ids_and. cbn [truthy].
  destruct r as [|r0 r]; [congruence|]. cbn [truthy].
  assert (W : wrapped (slash :: p ++ [slash]) p) by now split.
  destruct (wrapped_inner _ _ W) as [B I].
  apply slashed_between in B. rewrite B, I. destruct p as [|p0 p]; [congruence|].
  destruct (fnmatchcase_total (r0 :: r) (p0 :: p)) as [b E]. rewrite E.
  pose proof (fnmatchcase_glob (r0 :: r) (p0 :: p) Rp) as G. rewrite E in G.
  destruct G as (b' & Eb & G). injection Eb as <-. rewrite <- G. split; congruence.
Qed.
Print Assumptions C17_pattern_id.

(** A missing clause id (or an empty one) selects every rule. *)
Theorem C17_missing_id : forall r, ids_and None r = Ok true /\ ids_and (Some []) r = Ok true.
Proof. intros r. split; reflexivity. Qed.
Print Assumptions C17_missing_id.

(** Patterns without [-] or without [!] are regular, so the theorem covers them. *)
Theorem C17_common_patterns_regular : forall p,
  ~ In dash p \/ ~ In bang p -> regular p.
Proof. intros p [H|H]; [now apply no_dash_regular|now apply no_bang_regular]. Qed.
Print Assumptions C17_common_patterns_regular.

(** Unconditionally false: a rule id written between slashes acts as a pattern on a
    plain clause id ("abc" selects the rule with id "/a*/")... *)
Theorem C17_plain_id_refuted :
  exists c r, ~ between_slashes c /\ c <> r /\ ids_and (Some c) (Some r) = Ok true.
Proof.
  exists (str [97;98;99]%N), (str [47;97;42;47]%N). split; [|split; [discriminate|reflexivity]].
  intros [[s H] _]. discriminate H.
Qed.
Print Assumptions C17_plain_id_refuted.
(** ... and a pattern like [[b-a!x]] selects every character but [x], though it lists
    only [!] and [x]. *)
Theorem C17_irregular_pattern_refuted :
  exists p r, ~ glob p r /\ ids_and (Some (slash :: p ++ [slash])) (Some r) = Ok true.
Proof.
  exists (str [91;98;45;97;33;120;93]%N), (str [99]%N). split; [|reflexivity].
  intros G. inversion G as [| | |p stuff rest c s B H G' E1 E2|p s B G' E1 E2|p c s n1 n2 n3 G' E1 E2]; subst.
  destruct B as (E & _ & _).
  assert (S : stuff = str [98;45;97;33;120]%N).
  { unfold str in *. destruct stuff as [|a [|b [|c0 [|d [|e [|f stuff]]]]]]; cbn in E; inversion E; subst; try reflexivity.
    destruct stuff; discriminate. }
  subst stuff. inversion H; subst.
  unfold str in *.
  repeat match goal with
  | H : listed (_ :: _) _ |- _ => inversion H; subst; clear H
  | H : listed [] _ |- _ => inversion H
  | H : forall hi s', _ <> _ |- _ => now (exfalso; eapply H; reflexivity)
  end; lia.
Qed.
Print Assumptions C17_irregular_pattern_refuted.

(** Instances: "outside_in" and "/out*_[a-z]n/" against "outside_in". *)
Definition outside_in : pystr := str [111;117;116;115;105;100;101;95;105;110]%N.
Definition out_pat : pystr := str [111;117;116;42;95;91;97;45;122;93;110]%N.
Example C17_hypotheses : regular out_pat /\ ~ between_slashes outside_in.
Proof.
  split.
  - apply no_bang_regular. unfold out_pat, str. cbn. unfold bang. intuition discriminate.
  - intros [[s H] _]. discriminate H.
Qed.
Example C17_instance : ids_and (Some (slash :: out_pat ++ [slash])) (Some outside_in) = Ok true /\
  ids_and (Some outside_in) (Some outside_in) = Ok true /\
  ids_and (Some (slash :: out_pat ++ [slash])) (Some (str [105;110]%N)) = Ok false.
Proof. repeat split. Qed.

(** ** C18: one clause against one rule *)
Theorem C18_rule_exact : forall h c r, acyclic h -> comparable_item h c (IRule r) ->
  exists limit, forall k, limit <= k ->
    exists b, rule_and k h c (IRule r) = Ok b /\
      (b = true <-> id_selects (r_id c) (r_id r) /\
                    term_selects h (r_src c) (r_src r) /\ term_selects h (r_dst c) (r_dst r)).
Proof.
  intros h c r (rk & R) C.
  exists (rank rk (r_src c) + rank rk (r_src r) + 3 + (rank rk (r_dst c) + rank rk (r_dst r) + 3)).
  intros k K. apply (rule_exact h rk R k c r C). split; cbn; intros y [<-|[]]; lia.
Qed.
Print Assumptions C18_rule_exact.

(** ** C22: one clause against one NAT object *)
Theorem C22_nat_exact : forall h c n, acyclic h -> comparable_item h c (INat n) ->
  exists limit, forall k, limit <= k ->
    exists b, rule_and k h c (INat n) = Ok b /\ (b = true <-> selects_nat h c n).
Proof.
  intros h c n (rk & R) C.
  set (m := fun (x : host) l => fold_right (fun y a => rank rk x + rank rk y + 3 + a) 0 l).
  assert (M : forall x l y, In y l -> rank rk x + rank rk y + 3 <= m x l).
  { intros x l y. induction l as [|z l IH]; cbn; [tauto|]. intros [->|H]; [lia|]. apply IH in H. unfold m in H. lia. }
  exists (m (r_src c) (item_srcs (INat n)) + m (r_dst c) (item_dsts (INat n))). intros k K.
  apply (nat_exact h rk R k c n C). split; intros y H; [apply (M (r_src c)) in H|apply (M (r_dst c)) in H]; lia.
Qed.
Print Assumptions C22_nat_exact.

(** The clause's id has no influence on NAT objects. *)
Theorem C22_id_ignored : forall k h id id' s d n,
  rule_and k h (mkrule id s d) (INat n) = rule_and k h (mkrule id' s d) (INat n).
Proof. reflexivity. Qed.
Print Assumptions C22_id_ignored.

(** ** C19: set algebra *)
Lemma depth_bound rk (cs : list rule) (is_ : list item) :
  exists limit, forall k, limit <= k -> forall c i, In c cs -> In i is_ -> deep_enough rk c i k.
Proof.
  set (m := fun (x : host) l => fold_right (fun y a => rank rk x + rank rk y + 3 + a) 0 l).
  assert (M : forall x l y, In y l -> rank rk x + rank rk y + 3 <= m x l).
  { intros x l y. induction l as [|z l IH]; cbn; [tauto|]. intros [->|H]; [lia|]. apply IH in H. unfold m in H. lia. }
  assert (S : forall {A} (f : A -> nat) l x, In x l -> f x <= fold_right (fun y a => f y + a) 0 l).
  { intros A f l x. induction l as [|z l IH]; cbn; [tauto|]. intros [->|H]; [lia|]. apply IH in H. lia. }
  set (f := fun c i => m (r_src c) (item_srcs i) + m (r_dst c) (item_dsts i)).
  exists (fold_right (fun c a => fold_right (fun i b => f c i + b) 0 is_ + a) 0 cs).
  intros k K c i Hc Hi.
  pose proof (S rule (fun c => fold_right (fun i b => f c i + b) 0 is_) cs c Hc) as K1.
  pose proof (S item (f c) is_ i Hi) as K2. cbn beta in *.
  split; intros y Hy; pose proof (M (r_src c) _ _ Hy); pose proof (M (r_dst c) _ _ Hy); unfold f in *; lia.
Qed.

Theorem C19_run_exact : forall h get c rules, acyclic h ->
  (forall r x, In r (clauses c) -> In x rules -> comparable_item h r (get x)) ->
  exists limit, forall k, limit <= k ->
    exists s, caf_run k h get c rules = Ok s /\ NoDup s /\
      forall x, In x s <-> In x rules /\ denotes (fun r x => selects h r (get x)) c x.
Proof.
  intros h get c rules (rk & R) C.
  destruct (depth_bound rk (clauses c) (map get rules)) as (limit & D). exists limit. intros k K.
  apply (run_exact k h get (fun r x => selects h r (get x))). intros r x Hr Hx.
  apply (item_exact h rk R); [now apply C|]. apply (D k K); auto. now apply in_map.
Qed.
Print Assumptions C19_run_exact.

(** For the result to be a duplicate-free subset, no condition is needed; and the result
    does not depend on the recursion limit. *)
Theorem C19_subset : forall k h get c rules s, caf_run k h get c rules = Ok s ->
  NoDup s /\ incl s rules.
Proof. exact run_subset. Qed.
Print Assumptions C19_subset.

(** Order and multiplicity of the given rules are irrelevant. *)
Theorem C19_order_irrelevant : forall h get c rules rules', acyclic h ->
  (forall r x, In r (clauses c) -> In x rules -> comparable_item h r (get x)) ->
  (forall x, In x rules <-> In x rules') ->
  exists limit, forall k, limit <= k ->
    exists s s', caf_run k h get c rules = Ok s /\ caf_run k h get c rules' = Ok s' /\
      forall x, In x s <-> In x s'.
Proof.
  intros h get c rules rules' A C E.
  destruct (C19_run_exact h get c rules A C) as (l1 & H1).
  destruct (C19_run_exact h get c rules' A) as (l2 & H2).
  { intros r x Hr Hx. apply C; auto. now apply E. }
  exists (l1 + l2). intros k K.
  destruct (H1 k) as (s & Es & _ & Is); [lia|]. destruct (H2 k) as (s' & Es' & _ & Is'); [lia|].
  exists s, s'. split; auto. split; auto. intros x. rewrite Is, Is', E. reflexivity.
Qed.
Print Assumptions C19_order_irrelevant.

(** ** C20: precedence *)
(** Every alternating list of operands and operators reads as a sum of products (with
    intersect binding tighter, union/except to the left)... *)
Theorem C20_precedence : forall l, alternating l ->
  exists s v, sum_words s = l /\ expr_action l = Ok v /\
    forall A (sel : rule -> A -> Prop) x, denotes sel (wrap v) x <-> sum_means (val_denotes sel) s x.
Proof.
  intros l A. destruct (alternating_sum l A) as (s & <-). exists s, (caf_sum s).
  split; auto. split; [apply expr_action_sum|]. intros B sel x. rewrite <- sum_meaning.
  destruct (caf_sum s); reflexivity.
Qed.
Print Assumptions C20_precedence.
(** ... in only one way. *)
Theorem C20_reading_unique : forall s s', sum_words s = sum_words s' -> s = s'.
Proof. exact sum_words_inj. Qed.
Print Assumptions C20_reading_unique.

(** a union b intersect c except d  reads as  (a union (b intersect c)) except d. *)
Example C20_instance : forall a b c d,
  sum_words (SAdd (SAdd (SProd (PVal a)) Plus (PAnd (PVal b) c)) Minus (PVal d)) =
  [EVal a; EWord Union; EVal b; EWord Intersect; EVal c; EWord Except; EVal d].
Proof. reflexivity. Qed.

(** ** C21: clauses *)
Theorem C21_clause : forall h id objects, acyclic h -> Forall obj_valid objects ->
  existsb is_expr objects = false ->
  exists h' r, set_action h id objects = Ok (h', VRule r) /\ r_id r = id /\ extends h h' /\ acyclic h' /\
    forall y, (term_selects h' (r_src r) y <-> written_selects h' Src objects y) /\
              (term_selects h' (r_dst r) y <-> written_selects h' Dst objects y).
Proof.
  intros h id objects A V N.
  destruct (set_action_clause h id objects A V N) as (h' & r & E & I & X & A' & S & D).
  exists h', r. split; auto. split; auto. split; auto. split; auto. intros y.
  assert (X' : extends h' h') by apply extends_refl.
  split; [apply (written_selection h' Src objects (r_src r) V (fun l => S h' l X'))|apply (written_selection h' Dst objects (r_dst r) V (fun l => D h' l X'))].
Qed.
Print Assumptions C21_clause.

(** Together with C18: the clause selects a rule exactly if the id does, some src term
    does and some dst term does. *)
Theorem C21_clause_selects : forall h id objects, acyclic h -> Forall obj_valid objects ->
  existsb is_expr objects = false ->
  exists h' c, set_action h id objects = Ok (h', VRule c) /\ extends h h' /\
    forall r, selects_rule h' c r <->
      id_selects id (r_id r) /\ written_selects h' Src objects (r_src r) /\ written_selects h' Dst objects (r_dst r).
Proof.
  intros h id objects A V N. destruct (C21_clause h id objects A V N) as (h' & c & E & I & X & A' & S).
  exists h', c. split; auto. split; auto. intros r. unfold selects_rule. rewrite I.
  destruct (S (r_src r)) as [S1 _], (S (r_dst r)) as [_ S2]. rewrite S1, S2. reflexivity.
Qed.
Print Assumptions C21_clause_selects.

(** An id with a single parenthesised expression is dropped. *)
Theorem C21_id_dropped : forall h id c n m,
  set_action h id (repeat SComment n ++ SExpr c :: repeat SComment m) = Ok (h, VCaf (wrap c)).
Proof.
  intros h id c n m.
  assert (Cm : forall h m, set_objects h (repeat SComment m) = Ok (h, [])).
  { intros h0 m0. induction m0; cbn; auto. }
  unfold set_action.
  assert (E : set_objects h (repeat SComment n ++ SExpr c :: repeat SComment m) = Ok (h, [VExpr (wrap c)])).
  { induction n as [|n IH]; cbn [repeat app set_objects]; auto. rewrite Cm. reflexivity. }
  rewrite E. reflexivity.
Qed.
Print Assumptions C21_id_dropped.

(** A parenthesised expression next to anything else is an error. *)
Theorem C21_mixed : forall h id objects, Forall obj_valid objects ->
  existsb is_expr objects = true ->
  length (filter (fun o => is_ip o || is_expr o) objects) >= 2 ->
  set_action h id objects = Err TypeError.
Proof. exact set_action_mixed. Qed.
Print Assumptions C21_mixed.

Definition some_net : netast := NtNet (mkaddr V4 167772160%N) 8%N.
Example C21_hypotheses : acyclic (mkheap (fun _ => mkgroup [] [] [] []) 0) /\
  Forall obj_valid [SIp Src [some_net; NtAny6]; SComment; SIp Dst [NtHost (mkaddr V6 1%N)]; SIp Src [NtANY]].
Proof.
  split.
  - exists (fun _ => 0). intros g m [].
  - repeat constructor; cbn; unfold valid; cbn; try lia; auto.
Qed.

(** ** C23: the whole configuration *)
Theorem C23_config_filter : forall h get c rules nats, acyclic h ->
  (forall r x, In r (clauses c) -> In x (rules ++ concat nats) -> comparable_item h r (get x)) ->
  exists limit, forall k, limit <= k ->
    exists s, config_filter k h get c rules nats = Ok s /\ NoDup s /\
      forall x, In x s <->
        (In x rules \/ exists section, In section nats /\ In x section) /\
        denotes (fun r x => selects h r (get x)) c x.
Proof.
  intros h get c rules nats A C.
  destruct (C19_run_exact h get c rules A) as (l1 & H1).
  { intros r x Hr Hx. apply C; auto. apply in_or_app; auto. }
  destruct (C19_run_exact h get c (concat nats) A) as (l2 & H2).
  { intros r x Hr Hx. apply C; auto. apply in_or_app; auto. }
  exists (l1 + l2). intros k K.
  destruct (H1 k) as (s1 & E1 & N1 & I1); [lia|]. destruct (H2 k) as (s2 & E2 & N2 & I2); [lia|].
  unfold config_filter. rewrite E1, E2. cbn [bind].
  eexists. split; [reflexivity|]. split.
  { apply set_op_NoDup, set_op_NoDup. constructor. }
  intros x. rewrite !set_op_In. cbn [op_spec]. rewrite I1, I2, in_concat. cbn [In].
  firstorder.
Qed.
Print Assumptions C23_config_filter.

(** A concrete configuration: a rule over a group, a NAT object, and a filter. *)
Definition ex_heap : heap :=
  mkheap (fun _ => mkgroup [] [] [] [HLeaf (LNet (mknet V4 167772160%N 8%N)); HLeaf (LHost (mkaddr V4 1%N))]) 1.
Definition ex_get (i : iid) : item :=
  match i with
  | 0 => IRule (mkrule (Some outside_in) (HGrp 0) (HLeaf LAny))
  | _ => INat (mknat (Some (mkside [] (Some (NHost (HLeaf (LNet (mknet V4 167772160%N 8%N))))) None None))
                     (Some (mkside [] None (Some (NHost (HLeaf (LHost (mkaddr V4 1%N))))) None)) None None [])
  end.
Definition ex_clause : rule := mkrule (Some outside_in) (HLeaf (LHost (mkaddr V4 167772161%N))) (HLeaf LAny).
Definition ex_filter : caf := COp Except (CClause ex_clause) (CBlock (CClause (mkrule None (HLeaf (LHost (mkaddr V4 1%N))) (HLeaf LCafAny)))).
Example C23_instance : config_filter 100 ex_heap ex_get ex_filter [0] [[1]; []; []] = Ok [1] /\
  config_filter 100 ex_heap ex_get (CClause ex_clause) [0] [[1]; []; []] = Ok [0; 1].
Proof. split; reflexivity. Qed.
Example C23_hypotheses : acyclic ex_heap /\
  forall r x, In r (clauses ex_filter) -> In x ([0] ++ concat [[1]; []; []]) -> comparable_item ex_heap r (ex_get x).
Proof.
  assert (A : ranked ex_heap (fun _ => 0)).
  { intros g m. cbn. intros [H|[H|[]]]; discriminate H. }
  split; [eexists; exact A|].
  assert (RG : forall l, reaches ex_heap (HGrp 0) l -> l = LNet (mknet V4 167772160%N 8%N) \/ l = LHost (mkaddr V4 1%N)).
  { intros l H. inversion H as [| |g m l' Hm Hr]; subst. cbn in Hm.
    destruct Hm as [<-|[<-|[]]]; inversion Hr; subst; auto. }
  assert (RL : forall j l, reaches ex_heap (HLeaf j) l -> l = j).
  { intros j l H. now inversion H. }
  assert (K : forall x y, (forall l, reaches ex_heap x l -> leaf_wf l /\ is_wild l = false) ->
     (forall l, reaches ex_heap y l -> leaf_wf l /\ is_wild l = false /\ is_caf l = false) -> comparable ex_heap x y).
  { intros x y Hx Hy. repeat split; [intros l Hl; apply Hx|intros l Hl; apply Hy|intros l Hl; apply Hy|intros l Hl; apply Hx|]; auto.
    left. intros l Hl. apply Hy; auto. }
  assert (RO : id_regular (Some outside_in)).
  { intros s p E W. injection E as <-. destruct W as [W _]. discriminate W. }
  assert (RN : id_regular None) by (intros s p E; discriminate E).
  intros r x Hr Hx. cbn in Hr, Hx.
  destruct Hr as [<-|[<-|[]]], Hx as [<-|[<-|[]]]; (split; [cbn; auto|split; [|split; [|split]]]); cbn; auto;
    try (eexists; split; [reflexivity|split; intros E; discriminate E]).
  all: try (split; eexists; (split; [reflexivity|split; intros E; discriminate E])).
  all: intros y Hy; repeat (destruct Hy as [<-|Hy]); try contradiction; apply K; intros l Hl;
    (apply RL in Hl || apply RG in Hl); subst; try (destruct Hl; subst); cbn; unfold valid, net_wf; cbn; auto; try lia.
  all: split; [split; [lia|split; [lia|]]|split; reflexivity].
  all: exists 10%N; reflexivity.
Qed.
