(** What is reached from selected entries in the objects of a configuration. *)
From Coq Require Import String.
From Verif.Model Require Import Base Ip Hosts Groups Rules Iface Resolve Auto.
From Verif.Spec Require Import AddrSpec FilterSpec ResolveSpec AutoSpec AutoResolveSpec.
Local Open Scope list_scope.

Section Shown.
  Context (c : aclconfig) (st : store) (entry : nat -> nat) (netgrp : gid -> nat) (other : elem -> Prop).
  Context (S : shown c st entry netgrp other).
  Context (l : list nat) (En : forall x, In x l -> exists i, config_entry c x i).
  Context (Fn : forall x i j, config_entry c x i -> config_entry c x j -> i = j) (Rs : forall x i, config_entry c x i -> resolved i).
  Notation host_shown := (host_shown st netgrp other).
  Notation start := (map (fun x => EObj (entry x)) l).

  Lemma in_start e : In e start <-> exists x, In x l /\ e = EObj (entry x).
  Proof. rewrite in_map_iff. split; intros (x & A & B); exists x; auto. Qed.
  Lemma entry_kind x i : config_entry c x i ->
    match i with
    | IRule r => exists s, st_kind st (entry x) = KRule s /\ rule_shown st netgrp other r s
    | INat n => exists a b s t, nat_real n = Some a /\ nat_mapped n = Some b /\ st_kind st (entry x) = KNat (Some s) (Some t) /\ side_shown st netgrp other a s /\ side_shown st netgrp other b t
    end.
  Proof.
    intros E. destruct i as [r|n]; [exact (sh_rule _ _ _ _ _ S _ _ E)|]. destruct (Rs _ _ E) as ((a & Ra & _) & (b & Rb & _)).
    destruct (sh_nat _ _ _ _ _ S _ _ _ _ E Ra Rb) as (s & t & H). exists a, b, s, t. auto.
  Qed.
  Lemma start_formed : well_formed st start.
  Proof.
    intros i I. apply in_start in I as (x & Ix & [= ->]). destruct (En x Ix) as (j & E). pose proof (entry_kind _ _ E) as K. destruct j as [r|n].
    - destruct K as (s & K & _ & _ & _ & (q & n & P & N) & _). split; [|intros a b K'; congruence]. intros r' K'. rewrite K in K'. injection K' as <-. eauto.
    - destruct K as (a & b & s & t & _ & _ & K & _). split; [intros r' K'; congruence|]. intros a' b' K'. rewrite K in K'. injection K' as <- <-. split; discriminate.
  Qed.

  (** What can be reached *)
  Definition inv (e : elem) : Prop :=
    match e with
    | EObj i => (exists x, In x l /\ i = entry x) \/ (exists g, i = netgrp g /\ entries_refer c l g) \/ other (EObj i)
    | EStr s => other (EStr s) \/ an_id c l s \/ (s = u "NetworkGroup" /\ exists g, entries_refer c l g) \/ s = u "NAT"
    | ENone => True
    end.
  Lemma inv_other e : other e -> inv e.
  Proof. destruct e; cbn; auto. Qed.
  Lemma inv_host y e : host_shown y e -> (forall g, refers (config_groups c) y g -> entries_refer c l g) -> inv e.
  Proof. intros H R. destruct H; cbn; auto. right. left. exists g. split; [reflexivity|]. apply R. constructor. Qed.
  Lemma inv_node n e d : node_shown st netgrp other n (Some e) -> (forall x, n = Some (NHost x) -> In x d) ->
    (forall x g, In x d -> refers (config_groups c) x g -> entries_refer c l g) -> inv e.
  Proof. intros H D R. inversion H as [| |x y X]; subst; [exact Logic.I|]. apply (inv_host _ _ X). intros g. apply R. now apply D. Qed.
  Lemma ends_refer x i : In x l -> config_entry c x i -> forall y g, In y (item_srcs i ++ item_dsts i) -> refers (config_groups c) y g -> entries_refer c l g.
  Proof. intros Ix E y g Iy R. exists x, i, y. auto. Qed.
  Lemma inv_side a s : side_shown st netgrp other a s -> (forall y g, In y (side_srcs (Some a) ++ side_dsts (Some a)) -> refers (config_groups c) y g -> entries_refer c l g) ->
    forall e, side_attr s e -> inv e.
  Proof.
    intros (N1 & N2 & O1 & O2) R e A. destruct A as [e A|e A| |]; [| |now apply inv_other|now apply inv_other].
    - rewrite A in N1. eapply (inv_node _ _ (side_srcs (Some a) ++ side_dsts (Some a)) N1); [|exact R]. intros x X. apply in_app_iff. left. unfold side_srcs. rewrite X. cbn. auto.
    - rewrite A in N2. eapply (inv_node _ _ (side_srcs (Some a) ++ side_dsts (Some a)) N2); [|exact R]. intros x X. apply in_app_iff. right. unfold side_dsts. rewrite X. cbn. auto.
  Qed.
  Lemma reach_inv e : reachable st start e -> inv e.
  Proof.
    induction 1 as [e I|i r e I K A|i a b e I K A|i a b e I K A|i e H IH Ed].
    - apply in_start in I as (x & Ix & ->). left. eauto.
    - apply in_start in I as (x & Ix & [= ->]). destruct (En x Ix) as (j & E). pose proof (entry_kind _ _ E) as Kj. pose proof (ends_refer _ _ Ix E) as R. destruct j as [q|n]; [|destruct Kj as (? & ? & ? & ? & _ & _ & Kj & _); congruence].
      destruct Kj as (s & Ks & Id & Hs & Hd & _ & O1 & O2 & O3 & O4 & O5). rewrite K in Ks. injection Ks as <-.
      destruct A as [| | | | |s Hs'|Hs'|i n A1 A2 A3 A4|t T]; try (now apply inv_other).
      + apply (inv_host _ _ Hs). intros g. apply R. cbn. auto.
      + apply (inv_host _ _ Hd). intros g. apply R. cbn. auto.
      + right. left. exists x, q. split; [exact Ix|]. split; [exact E|]. congruence.
      + exact Logic.I.
      + apply inv_other, O5, T.
    - apply in_start in I as (x & Ix & [= ->]). destruct (En x Ix) as (j & E). pose proof (entry_kind _ _ E) as Kj. pose proof (ends_refer _ _ Ix E) as R. destruct j as [q|n]; [destruct Kj as (? & Kj & _); congruence|].
      destruct Kj as (a' & b' & s & t & Ra & Rb & Kj & Sa & Sb). rewrite K in Kj. injection Kj as <- _. apply (inv_side _ _ Sa); [|exact A].
      intros y g Iy. apply R. cbn [item_srcs item_dsts]. rewrite Ra. rewrite !in_app_iff in *. tauto.
    - apply in_start in I as (x & Ix & [= ->]). destruct (En x Ix) as (j & E). pose proof (entry_kind _ _ E) as Kj. pose proof (ends_refer _ _ Ix E) as R. destruct j as [q|n]; [destruct Kj as (? & Kj & _); congruence|].
      destruct Kj as (a' & b' & s & t & Ra & Rb & Kj & Sa & Sb). rewrite K in Kj. injection Kj as _ <-. apply (inv_side _ _ Sb); [|exact A].
      intros y g Iy. apply R. cbn [item_srcs item_dsts]. rewrite Rb. rewrite !in_app_iff in *. tauto.
    - destruct IH as [(x & Ix & ->)|[(g & -> & Rg)|O]].
      + destruct (En x Ix) as (j & E). pose proof (entry_kind _ _ E) as Kj. destruct j as [q|n].
        * destruct Kj as (s & Kj & _). destruct Ed; congruence.
        * destruct Kj as (? & ? & s & t & _ & _ & Kj & _). destruct Ed; try congruence. cbn. auto.
      + destruct (sh_group _ _ _ _ _ S g) as (ms & K & F).
        assert (M : forall e, In e ms -> inv e).
        { intros e0 I0. assert (X : exists y, In y (objs (config_groups c) g) /\ host_shown y e0).
          { clear - F I0. induction F as [|y e1 ys es H F IH]; [destruct I0|]. destruct I0 as [<-|I0]; [exists y; split; [now left|exact H]|]. destruct (IH I0) as (z & Iz & Hz). exists z. split; [now right|exact Hz]. }
          destruct X as (y & Iy & Hy). apply (inv_host _ _ Hy). intros g' R'. destruct Rg as (x & i & z & Ix & E & Iz & R). exists x, i, z. split; [exact Ix|]. split; [exact E|]. split; [exact Iz|].
          clear - R R' Iy. induction R as [g|g0 x k I R IH]; [exact (RF_in _ _ _ _ Iy R')|exact (RF_in _ _ _ _ I (IH Iy))]. }
        destruct Ed as [c0 m e0 K0 I0|c0 m K0|t K0|t K0|c0 K0|f K0|f K0|a b K0]; try congruence.
        * apply M. rewrite K in K0. injection K0 as _ <-. exact I0.
        * rewrite K in K0. injection K0 as <- _. cbn. eauto 8.
      + apply inv_other. exact (sh_other _ _ _ _ _ S _ O _ Ed).
  Qed.
  Lemma refers_reach y e : host_shown y e -> reachable st start e -> forall g, refers (config_groups c) y g -> reachable st start (EObj (netgrp g)).
  Proof.
    intros H R g F. revert e H R. induction F as [g|g x k I F IH]; intros e H R.
    - inversion H; subst. exact R.
    - inversion H; subst. destruct (sh_group _ _ _ _ _ S g) as (ms & K & Fm).
      assert (X : exists e, In e ms /\ host_shown x e).
      { clear - Fm I. induction Fm as [|y e ys es H F IH]; [destruct I|]. destruct I as [<-|I]; [exists e; split; [now left|exact H]|]. destruct (IH I) as (z & Iz & Hz). exists z. split; [now right|exact Hz]. }
      destruct X as (e & Ie & He). apply (IH e He). eapply re_edge; [exact R|]. eapply ed_member; eauto.
  Qed.
  Lemma end_reach x i y : In x l -> config_entry c x i -> In y (item_srcs i ++ item_dsts i) -> exists e, host_shown y e /\ reachable st start e.
  Proof.
    intros Ix E Iy. pose proof (entry_kind _ _ E) as K. assert (Is : In (EObj (entry x)) start) by (apply in_start; eauto). destruct i as [r|n].
    - destruct K as (s & K & _ & Hs & Hd & _). cbn in Iy. destruct Iy as [<-|[<-|[]]].
      + exists (rr_shost s). split; [exact Hs|]. eapply re_rule; [exact Is|exact K|constructor].
      + exists (rr_dhost s). split; [exact Hd|]. eapply re_rule; [exact Is|exact K|constructor].
    - destruct K as (a & b & s & t & Ra & Rb & K & Sa & Sb). cbn [item_srcs item_dsts] in Iy. rewrite Ra, Rb in Iy.
      assert (G : forall d v, side_shown st netgrp other d v -> (forall e, side_attr v e -> reachable st start e) -> In y (side_srcs (Some d) ++ side_dsts (Some d)) -> exists e, host_shown y e /\ reachable st start e).
      { clear - S. intros d v (N1 & N2 & _) R I. apply in_app_iff in I as [I|I]; [unfold side_srcs in I; destruct (ns_src d) as [[| |z]|] eqn:En|unfold side_dsts in I; destruct (ns_dst d) as [[| |z]|] eqn:En]; cbn in I; try (destruct I; fail); destruct I as [<-|[]].
        - inversion N1 as [| |z' e' Z Z1 Z2]; subst. exists e'. split; [exact Z|]. apply R. apply sa_src. congruence.
        - inversion N2 as [| |z' e' Z Z1 Z2]; subst. exists e'. split; [exact Z|]. apply R. apply sa_dst. congruence. }
      rewrite !in_app_iff in Iy. destruct Iy as [[I|I]|[I|I]].
      + apply (G a s Sa); [|apply in_app_iff; auto]. intros e A. eapply re_real; [exact Is|exact K|exact A].
      + apply (G b t Sb); [|apply in_app_iff; auto]. intros e A. eapply re_mapped; [exact Is|exact K|exact A].
      + apply (G a s Sa); [|apply in_app_iff; auto]. intros e A. eapply re_real; [exact Is|exact K|exact A].
      + apply (G b t Sb); [|apply in_app_iff; auto]. intros e A. eapply re_mapped; [exact Is|exact K|exact A].
  Qed.
  (** The groups, the entries and the texts that are reached *)
  Lemma reach_groups g : reachable st start (EObj (netgrp g)) <-> entries_refer c l g.
  Proof.
    split.
    - intros R. apply reach_inv in R as [(x & Ix & X)|[(g' & E & Rg)|O]].
      + destruct (En x Ix) as (i & E). destruct (sh_apart_entry _ _ _ _ _ S x i E) as (_ & N). now destruct (N g).
      + apply (sh_one_group _ _ _ _ _ S) in E. now subst.
      + now destruct (sh_apart_group _ _ _ _ _ S g).
    - intros (x & i & y & Ix & E & Iy & R). destruct (end_reach _ _ _ Ix E Iy) as (e & He & Re). exact (refers_reach _ _ He Re _ R).
  Qed.
  Lemma reach_entries x i : config_entry c x i -> reachable st start (EObj (entry x)) <-> In x l.
  Proof.
    intros E. destruct (sh_apart_entry _ _ _ _ _ S x i E) as (N1 & N2). split.
    - intros R. apply reach_inv in R as [(y & Iy & X)|[(g & X & _)|O]]; [|now destruct (N2 g)|tauto]. apply (sh_one_entry _ _ _ _ _ S) in X. now subst.
    - intros Ix. apply re_start, in_start. eauto.
  Qed.
  Lemma reach_id s : an_id c l s -> reachable st start (EStr s).
  Proof.
    intros (x & r & Ix & E & Id). pose proof (entry_kind _ _ E) as (q & K & Iq & _). eapply re_rule; [apply in_start; eauto|exact K|]. apply ra_id. congruence.
  Qed.
  Lemma reach_texts s : ~ kind_name s -> reachable st start (EStr s) <-> an_id c l s.
  Proof.
    intros N. split; [|apply reach_id]. intros R. apply reach_inv in R as [O|[I|[(-> & _)| ->]]].
    - apply (sh_names _ _ _ _ _ S) in O. tauto.
    - exact I.
    - exfalso. apply N. cbn. auto.
    - exfalso. apply N. cbn. auto 20.
  Qed.
  Lemma reach_section : reachable st start (EStr (u "NetworkGroup")) <-> an_id c l (u "NetworkGroup") \/ exists g, entries_refer c l g.
  Proof.
    split.
    - intros R. apply reach_inv in R as [O|[I|[(_ & G)|E]]]; auto; [|discriminate E]. apply (sh_names _ _ _ _ _ S) in O. tauto.
    - intros [I|(g & G)]; [now apply reach_id|]. destruct (sh_group _ _ _ _ _ S g) as (ms & K & _). eapply re_edge; [apply reach_groups; exact G|]. eapply ed_group. exact K.
  Qed.
End Shown.
