(** C27, C28, C29, C32, C36, C37: what a configuration contains. *)
From Coq Require Import Lia.
From Verif.Model Require Import Base Ip Hosts Groups Rules Iface Config Nat.
From Verif.Spec Require Import AddrSpec ConfigSpec.
From Verif.Proofs Require Import GroupOps DictFacts.
From Verif.Proofs Require IpFacts MaskFacts.
From Verif.Props Require Nat.

Lemma build_snoc store items i : build store (items ++ [i]) = c_step (build store items) i.
Proof. unfold build. now rewrite fold_left_app. Qed.

(** Only the bindings of an interface ever change while the items are read. *)
Definition same_but_groups (a b : interface) : Prop :=
  if_alias a = if_alias b /\ if_addrs a = if_addrs b /\ if_nameif a = if_nameif b /\
  if_descr a = if_descr b /\ if_switch a = if_switch b /\ if_routes a = if_routes b.
Lemma step_store c i j : same_but_groups (c_store (c_step c i) j) (c_store c j).
Proof.
  assert (R : forall x, same_but_groups x x) by (unfold same_but_groups; tauto).
  destruct i; cbn [c_step]; try apply R.
  - destruct nat as [n'|]; cbn -[dset dmem]; match goal with |- context [if ?b then _ else _] => destruct b end; apply R.
  - destruct (find_iface c iface) as [k|]; [|apply R]. cbn. unfold bind_iface.
    destruct (Nat.eqb_spec j k) as [->|]; [|apply R]. unfold same_but_groups. cbn. tauto.
  - destruct (is_after options); apply R.
Qed.
Lemma build_store store items j : same_but_groups (c_store (build store items) j) (store j).
Proof.
  induction items as [|i items IH] using rev_ind; [unfold same_but_groups; tauto|].
  rewrite build_snoc. pose proof (step_store (build store items) i j) as H.
  unfold same_but_groups in *. intuition congruence.
Qed.

Lemma table_step store t c i : t <> TNetObj ->
  (forall j, if_alias (c_store c j) = if_alias (store j)) ->
  table_in t (c_step c i) = fold_left (fun d nv => dset d (fst nv) (snd nv)) (definition_of store t i) (table_in t c).
Proof.
  intros NT Al.
  destruct i; try (destruct t; cbn; try congruence; try reflexivity; fail).
  - destruct nat as [n'|]; cbn [c_step];
      match goal with |- context [if ?b then _ else _] => destruct b end; destruct t; cbn; congruence.
  - cbn [c_step]. destruct (find_iface c iface); destruct t; cbn; congruence.
  - cbn [c_step]. destruct (is_after options); destruct t; cbn; congruence.
Qed.
Lemma netobj_step store c i :
  c_netobj (c_step c i) =
  fold_left (fun d nv => if dmem d (fst nv) then d else dset d (fst nv) (snd nv)) (definition_of store TNetObj i) (c_netobj c).
Proof.
  destruct i; try reflexivity.
  - cbn [c_step]. destruct nat as [n'|]; cbn -[dmem dset];
      destruct (dmem (c_netobj c) n) eqn:E; cbn -[dmem dset]; rewrite ?E; reflexivity.
  - cbn [c_step]. destruct (find_iface c iface); reflexivity.
  - cbn [c_step]. destruct (is_after options); reflexivity.
Qed.
Lemma definitions_snoc store t items i : definitions store t (items ++ [i]) = definitions store t items ++ definition_of store t i.
Proof. unfold definitions. rewrite flat_map_app. cbn. now rewrite app_nil_r. Qed.
Lemma definition_one store t i : definition_of store t i = [] \/ exists n v, definition_of store t i = [(n, v)].
Proof. destruct t, i; cbn; eauto. Qed.

(** ** C27 *)
Theorem C27_tables : forall store items t, t <> TNetObj ->
  table_of_last (definitions store t items) (table_in t (build store items)).
Proof.
  intros store items t NT. induction items as [|i items IH] using rev_ind.
  - destruct t; apply table_last_nil.
  - rewrite build_snoc, definitions_snoc, (table_step store t _ i NT)
      by (intros j; apply (build_store store items j)).
    destruct (definition_one store t i) as [->|(n & v & ->)]; cbn [fold_left fst snd].
    + now rewrite app_nil_r.
    + now apply table_last_snoc.
Qed.
Print Assumptions C27_tables.
Theorem C27_network_objects : forall store items,
  table_of_first (definitions store TNetObj items) (c_netobj (build store items)).
Proof.
  intros store items. induction items as [|i items IH] using rev_ind.
  - apply table_first_nil.
  - rewrite build_snoc, definitions_snoc, (netobj_step store).
    destruct (definition_one store TNetObj i) as [->|(n & v & ->)]; cbn [fold_left fst snd].
    + now rewrite app_nil_r.
    + now apply table_first_snoc.
Qed.
Print Assumptions C27_network_objects.
(** Looking a name up in a table gives that definition, and fails for undefined names. *)
Theorem C27_lookup : forall store items t n,
  match dget (table_in t (build store items)) n with
  | Some v => (t <> TNetObj -> last_def (definitions store t items) n v) /\
              (t = TNetObj -> first_def (definitions store t items) n v)
  | None => ~ In n (map fst (definitions store t items))
  end.
Proof.
  intros store items t n.
  assert (K : map fst (table_in t (build store items)) = first_occurrences (map fst (definitions store t items))).
  { destruct t; first [apply C27_tables; discriminate|apply C27_network_objects]. }
  destruct (dget (table_in t (build store items)) n) as [v|] eqn:E.
  - apply dget_in in E. split; intros H.
    + now apply (C27_tables store items t H).
    + subst t. now apply (C27_network_objects store items).
  - apply dget_none in E. rewrite K, first_occ_in in E. exact E.
Qed.
Print Assumptions C27_lookup.
Example C27_instance : exists store,
  table_in TNetGrp (build store [KNetGrp (u "a") 1; KNetGrp (u "b") 2; KNetGrp (u "a") 3]) = [(u "a", 3); (u "b", 2)] /\
  c_netobj (build store [KNetObj (u "a") 1 None; KNetObj (u "a") 2 (Some 9)]) = [(u "a", 1)].
Proof. exists (fun _ => mkiface [] [] [] None None None []). split; reflexivity. Qed.

(** ** C28 *)
Definition rules_in (i : citem) : list nat := match i with KRule r => [r] | _ => [] end.
Definition ios_rules_in (i : citem) : list nat := match i with KRule r => [r] | KRules l => l | _ => [] end.
Theorem C28_rule_order : forall store items, c_rules (build store items) = flat_map rules_in items.
Proof.
  intros store items. induction items as [|i items IH] using rev_ind; [reflexivity|].
  rewrite build_snoc, flat_map_app. cbn [flat_map]. rewrite app_nil_r, <- IH.
  destruct i; cbn [c_step rules_in]; rewrite ?app_nil_r; try reflexivity.
  - destruct nat as [n'|]; match goal with |- context [if ?b then _ else _] => destruct b end; reflexivity.
  - destruct (find_iface _ _); reflexivity.
  - destruct (is_after options); reflexivity.
Qed.
Print Assumptions C28_rule_order.
Theorem C28_ios_rule_order : forall gw store items,
  c_rules (fst (ios_build gw store items)) = flat_map ios_rules_in items.
Proof.
  intros gw store items. cbn. unfold ios_rules. induction items as [|i items IH] using rev_ind; [reflexivity|].
  rewrite fold_left_app, flat_map_app. cbn [fold_left flat_map]. rewrite app_nil_r, IH.
  destruct i; cbn; rewrite ?app_nil_r; reflexivity.
Qed.
Print Assumptions C28_ios_rule_order.
(** Names are listed in order too; host and domain name are the last ones given. *)
Definition names_in (i : citem) : list nat := match i with KName x => [x] | _ => [] end.
Definition hostname_in (i : citem) : list pystr := match i with KHostname s => [s] | _ => [] end.
Definition domain_in (i : citem) : list pystr := match i with KDomain s => [s] | _ => [] end.
Theorem C28_names : forall store items,
  c_names (build store items) = flat_map names_in items /\
  c_hostname (build store items) = last (flat_map hostname_in items) [] /\
  c_domain (build store items) = last (flat_map domain_in items) [].
Proof.
  intros store items. induction items as [|i items (IH1 & IH2 & IH3)] using rev_ind; [auto|].
  rewrite build_snoc, !flat_map_app. cbn [flat_map]. rewrite !app_nil_r, <- IH1.
  assert (L : forall (l : list pystr) x, last (l ++ [x]) [] = x).
  { intros l x. apply last_last. }
  destruct i; cbn [c_step names_in hostname_in domain_in]; rewrite ?app_nil_r, ?L; auto.
  - destruct nat as [n'|]; match goal with |- context [if ?b then _ else _] => destruct b end; auto.
  - destruct (find_iface _ _); auto.
  - destruct (is_after options); auto.
Qed.
Print Assumptions C28_names.

(** ** C29 *)
Definition manual_after (o : list pystr) : Prop := In (u "after-auto") o \/ In (u "after-object") o.
Lemma is_after_iff o : is_after o = true <-> manual_after o.
Proof.
  unfold is_after, manual_after. rewrite existsb_exists. split.
  - intros (k & I & E). apply orb_true_iff in E as [E|E];
      match type of E with str_eqb k ?s = true => destruct (str_eqb_spec k s); [subst; auto|discriminate] end.
  - intros [I|I]; (eexists; split; [exact I|]); rewrite str_eqb_refl; reflexivity.
Qed.
(** Which section an item's NAT belongs to. *)
Inductive in_section : citem -> nat -> nat -> Prop :=
| IS_before x o : ~ manual_after o -> in_section (KNat x o) 1 x
| IS_object n v x : in_section (KNetObj n v (Some x)) 2 x
| IS_after x o : manual_after o -> in_section (KNat x o) 3 x.
Definition section (c : config) (k : nat) : list nat :=
  match k with 1 => c_nat1 c | 2 => c_nat2 c | 3 => c_nat3 c | _ => [] end.
(** [l] lists the NATs of section [k] in the order of the items. *)
Inductive section_of (k : nat) : list citem -> list nat -> Prop :=
| SO_nil : section_of k [] []
| SO_take i x items l : in_section i k x -> section_of k items l -> section_of k (i :: items) (x :: l)
| SO_skip i items l : (forall x, ~ in_section i k x) -> section_of k items l -> section_of k (i :: items) l.
Lemma section_of_app k a l b m : section_of k a l -> section_of k b m -> section_of k (a ++ b) (l ++ m).
Proof.
  induction 1; intros; cbn; auto.
  - apply SO_take; auto.
  - apply SO_skip; auto.
Qed.
Theorem C29_sections : forall store items k, section_of k items (section (build store items) k).
Proof.
  intros store items k. induction items as [|i items IH] using rev_ind.
  - destruct k as [|[|[|[|k]]]]; constructor.
  - rewrite build_snoc.
    assert (A : exists l, section (c_step (build store items) i) k = section (build store items) k ++ l /\ section_of k [i] l).
    { assert (Skip : (forall x, ~ in_section i k x) -> section (c_step (build store items) i) k = section (build store items) k ->
         exists l, section (c_step (build store items) i) k = section (build store items) k ++ l /\ section_of k [i] l).
      { intros H E. exists []. rewrite app_nil_r. split; auto. apply SO_skip; auto. apply SO_nil. }
      assert (Take : forall x, in_section i k x -> section (c_step (build store items) i) k = section (build store items) k ++ [x] ->
         exists l, section (c_step (build store items) i) k = section (build store items) k ++ l /\ section_of k [i] l).
      { intros x H E. exists [x]. split; auto. apply SO_take; auto. apply SO_nil. }
      destruct i;
        try (apply Skip; [intros z Hz; inversion Hz|destruct k as [|[|[|[|k]]]]; reflexivity]).
      - cbn [c_step] in *. destruct nat as [n'|].
        + destruct (Nat.eq_dec k 2) as [->|Nk].
          * apply (Take n'); [apply IS_object|].
            match goal with |- context [if ?b then _ else _] => destruct b end; reflexivity.
          * apply Skip; [intros z Hz; inversion Hz; congruence|].
            match goal with |- context [if ?b then _ else _] => destruct b end;
              destruct k as [|[|[|[|k]]]]; try reflexivity; congruence.
        + apply Skip; [intros z Hz; inversion Hz|].
          match goal with |- context [if ?b then _ else _] => destruct b end;
              destruct k as [|[|[|[|k]]]]; reflexivity.
      - apply Skip; [intros z Hz; inversion Hz|]. cbn [c_step].
        destruct (find_iface _ _); destruct k as [|[|[|[|k]]]]; reflexivity.
      - cbn [c_step] in *. destruct (is_after options) eqn:Z.
        + apply is_after_iff in Z. destruct (Nat.eq_dec k 3) as [->|Nk].
          * apply (Take x); [now apply IS_after|reflexivity].
          * apply Skip; [intros z Hz; inversion Hz; subst; tauto|].
            destruct k as [|[|[|[|k]]]]; try reflexivity; congruence.
        + assert (Z' : ~ manual_after options) by (rewrite <- is_after_iff; congruence).
          destruct (Nat.eq_dec k 1) as [->|Nk].
          * apply (Take x); [now apply IS_before|reflexivity].
          * apply Skip; [intros z Hz; inversion Hz; subst; tauto|].
            destruct k as [|[|[|[|k]]]]; try reflexivity; congruence. }
    destruct A as (l & -> & S1). now apply section_of_app.
Qed.
Print Assumptions C29_sections.
(** Exactly one section for every NAT. *)
Theorem C29_one_section : forall i x k k', in_section i k x -> in_section i k' x -> k = k'.
Proof. intros i x k k' A B. destruct A; inversion B; subst; tauto. Qed.
Print Assumptions C29_one_section.
(** For a manual NAT line: after the object NATs exactly if a position was written (the
    grammar's option words, fwsm.bnf:209-217, do not include it). *)
Theorem C29_written_position : forall a n, nat_action a = Ok (Some n) ->
  (forall f, In (OFlag f) (na_options a) -> f <> u "after-auto" /\ f <> u "after-object") ->
  (manual_after (nat_opts n) <-> na_pos a = true).
Proof.
  intros a n H G. unfold manual_after. rewrite !(Props.Nat.C47_options a n H). split.
  - intros [[F|[F _]]|[F|[F E]]]; auto; apply G in F; tauto.
  - auto.
Qed.
Print Assumptions C29_written_position.
Example C29_instance : exists store,
  let c := build store [KNat 1 []; KNetObj (u "x") 0 (Some 2); KNat 3 [u "dns"; u "after-auto"]; KNat 4 [u "dns"]] in
  (c_nat1 c, c_nat2 c, c_nat3 c) = ([1; 4], [2], [3]).
Proof. exists (fun _ => mkiface [] [] [] None None None []). reflexivity. Qed.
