(** C14: filtering before and after [ACLConfig.expand()]. *)
From Coq Require Import Lia.
From Verif.Model Require Import Base Ip Hosts Groups Rules Caf.
From Verif.Spec Require Import AddrSpec GlobSpec GroupSpec FilterSpec.
From Verif.Proofs Require Import AndFacts GroupFacts FilterFacts.
From Verif.Props Require Import Expand Filter.

(** Clauses written with ordinary addresses, any, any4, any6 only. *)
Definition ordinary (h : heap) (c : rule) : Prop := plain h (r_src c) /\ plain h (r_dst c).

Section Ext.
  Variables (h h' : heap).
  Hypothesis Rc : forall x l, reaches h x l <-> reaches h' x l.

  Lemma comparable_ext x y : comparable h x y -> comparable h' x y.
  Proof.
    intros (A & B & C & D & E). split; [|split; [|split; [|split]]].
    - intros l Hl. apply A. now apply Rc.
    - intros l Hl. apply B. now apply Rc.
    - intros l Hl. apply C. now apply Rc.
    - intros l Hl. apply D. now apply Rc.
    - destruct E as [E|E]; [left|right]; intros l Hl; apply E; now apply Rc.
  Qed.
  Lemma comparable_item_ext c i : comparable_item h c i -> comparable_item h' c i.
  Proof.
    intros (A & B & C & D). split; auto. split; [|split; [|exact D]];
      intros y Hy; apply comparable_ext; auto.
  Qed.
  Lemma term_selects_ext x y : plain h x -> (term_selects h x y <-> term_selects h' x y).
  Proof.
    intros P. unfold term_selects, common.
    assert (M : forall x a, matches h x a <-> matches h' x a) by (now apply matches_ext).
    split; intros (l & Hl & H); exists l.
    - split; [now apply Rc|]. specialize (P l Hl).
      destruct l; try discriminate P; (destruct H as [H|(a0 & A & B)]; [now left|]; right; exists a0; split; now apply M).
    - apply Rc in Hl. split; auto. specialize (P l Hl).
      destruct l; try discriminate P; (destruct H as [H|(a0 & A & B)]; [now left|]; right; exists a0; split; now apply M).
  Qed.
  Lemma selects_ext c i : ordinary h c -> (selects h c i <-> selects h' c i).
  Proof.
    intros [Ps Pd]. destruct i as [r|n]; cbn [selects].
    - unfold selects_rule. rewrite (term_selects_ext _ _ Ps), (term_selects_ext _ _ Pd). reflexivity.
    - assert (S : forall s, selects_side h c s <-> selects_side h' c s).
      { intros s. unfold selects_side. split; intros (A & B & C); (split; [|split; auto]);
          intros x Hx; first [apply (term_selects_ext _ _ Ps); now apply A|apply (term_selects_ext _ _ Pd); now apply B]. }
      unfold selects_nat. split; (intros [(s & E & H)|(s & E & H)]; [left|right]; exists s; split; auto; now apply S).
  Qed.
End Ext.

Theorem C14_filter_after_expand : forall get c rules nats t s limit,
  groups_depth_below s limit ->
  (forall r, In r (clauses c) -> ordinary (gs_network s) r) ->
  (forall r x, In r (clauses c) -> In x (rules ++ concat nats) -> comparable_item (gs_network s) r (get x)) ->
  exists s', config_expand limit t s = Ok s' /\
    exists depth, forall k, depth <= k ->
      exists before after,
        config_filter k (gs_network s) get c rules nats = Ok before /\
        config_filter k (gs_network s') get c rules nats = Ok after /\
        forall x, In x before <-> In x after.
Proof.
  intros get c rules nats t s limit D O C.
  destruct (C13_config_expand t s limit D) as (s' & E & _ & _). exists s'. split; auto.
  assert (X : (exists rk, ranked (gs_network s') rk) /\
              forall x l, reaches (gs_network s) x l <-> reaches (gs_network s') x l).
  { unfold config_expand in E. destruct D as ((rk & R & L) & _).
    destruct (expand_all_ok net_kind net_kind_good (gs_network s) rk limit (gt_network t) R (fun g _ => L g))
      as (h' & Eh & R' & _ & _ & _ & U).
    rewrite Eh in E. cbn [bind] in E.
    repeat match type of E with (do _ <- ?r; _) = _ => destruct r; [cbn [bind] in E|discriminate E] end.
    injection E as <-. cbn [gs_network]. split.
    - exists rk. now apply granked_ranked.
    - apply expand_all_reaches; eauto. }
  destruct X as [A' Rc].
  assert (A : acyclic (gs_network s)).
  { destruct D as ((rk & R & _) & _). exists rk. now apply granked_ranked. }
  destruct (C23_config_filter (gs_network s) get c rules nats A C) as (l1 & H1).
  destruct (C23_config_filter (gs_network s') get c rules nats A') as (l2 & H2).
  { intros r x Hr Hx. eapply comparable_item_ext; eauto. }
  exists (l1 + l2). intros k K.
  destruct (H1 k) as (b & Eb & _ & Ib); [lia|]. destruct (H2 k) as (a & Ea & _ & Ia); [lia|].
  exists b, a. split; auto. split; auto. intros x. rewrite Ib, Ia.
  assert (DE : denotes (fun r x => selects (gs_network s) r (get x)) c x <->
               denotes (fun r x => selects (gs_network s') r (get x)) c x); [|now rewrite DE].
  apply denotes_ext. intros r Hr. apply selects_ext; auto.
Qed.
Print Assumptions C14_filter_after_expand.

(** With the term ANY it is false: a group holding a network object for a host name
    (whose address is "any") is not selected before, but is after. *)
Definition fqdn_groups : groups :=
  mkgroups (mkheap (fun g => match g with
              | 0 => mkgroup [] [] [] [HObj (mkobj [] [] (Some []) [LAny])]
              | _ => mkgroup [] [] [] [] end) 1)
    (mkheap (fun _ => mkgroup [] [] [] []) 0) (mkheap (fun _ => mkgroup [] [] [] []) 0)
    (mkheap (fun _ => mkgroup [] [] [] []) 0) (mkheap (fun _ => mkgroup [] [] [] []) 0).
Definition one_net_group : gtables := mkgtables [0] [] [] [] [].
Definition from_group (_ : iid) : item := IRule (mkrule None (HGrp 0) (HLeaf LAny)).
Definition from_ANY : caf := CClause (mkrule None (HLeaf LCafAny) (HLeaf LAny)).

Example fqdn_groups_depth : groups_depth_below fqdn_groups 1.
Proof.
  assert (Z : forall X (sub : X -> option gid) (h : gheap X), (forall g, objs h g = []) -> depth_below sub h 1).
  { intros X sub h E. exists (fun _ => 0). split; [|intros; lia]. intros g x g' H. rewrite E in H. destruct H. }
  split; [|split; [|split; [|split]]]; [|apply Z; reflexivity..].
  exists (fun _ => 0). split; [|intros; lia]. intros [|g] x g' H S; cbn in H; [|destruct H].
  destruct H as [<-|[]]. discriminate S.
Qed.
Theorem C14_ANY_refuted :
  exists s', config_expand 1 one_net_group fqdn_groups = Ok s' /\
    forall k, 4 <= k ->
      config_filter k (gs_network fqdn_groups) from_group from_ANY [0] [] = Ok [] /\
      config_filter k (gs_network s') from_group from_ANY [0] [] = Ok [0].
Proof.
  eexists. split; [reflexivity|].
  intros [|[|[|[|k]]]] K; try lia. split; reflexivity.
Qed.
Print Assumptions C14_ANY_refuted.

(** A configuration and filter meeting the premises of C14. *)
Definition ex_groups : groups := let e X := mkheap (fun _ => @mkgroup X [] [] [] []) 0 in
  mkgroups ex_heap (e _) (e _) (e _) (e _).
Example C14_hypotheses : groups_depth_below ex_groups 1 /\
  (forall r, In r (clauses (CClause ex_clause)) -> ordinary (gs_network ex_groups) r) /\
  (forall r x, In r (clauses (CClause ex_clause)) -> In x ([0] ++ concat [[1]; []; []]) ->
     comparable_item (gs_network ex_groups) r (ex_get x)).
Proof.
  assert (Z : forall X (sub : X -> option gid) (h : gheap X), (forall g, objs h g = []) -> depth_below sub h 1).
  { intros X sub h E. exists (fun _ => 0). split; [|intros; lia]. intros g x g' H. rewrite E in H. destruct H. }
  split; [|split].
  - split; [|split; [|split; [|split]]]; [|apply Z; reflexivity..].
    exists (fun _ => 0). split; [|intros; lia]. intros g x g' H S; cbn in H.
    destruct H as [<-|[<-|[]]]; discriminate S.
  - intros r [<-|[]]. split; intros l Hl; inversion Hl; reflexivity.
  - intros r x Hr Hx. apply (proj2 C23_hypotheses); auto. destruct Hr as [<-|[]]. now left.
Qed.
