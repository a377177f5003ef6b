(** Expanded groups can be filtered, and filtering them gives the same. *)
From Coq Require Import Lia.
From Verif.Model Require Import Base Ip Hosts Groups Rules Caf Nat Define FileText IosFile CafText AclText.
From Verif.Spec Require Import AddrSpec GroupSpec FilterSpec CafSpec CafMeanSpec IosFilterSpec PipelineSpec.
From Verif.Proofs Require Import GroupFacts CafMean FileGood FilterFacts.
Local Open Scope list_scope.

Definition heap_ok (h : heap) : Prop := forall g x, In x (objs h g) -> g < h_next h /\ host_good g x.
Definition all_leafs (l : list host) : Prop := forall x, In x l -> exists y, x = HLeaf y /\ leaf_good y.

Lemma flat_good h : heap_ok h ->
  (forall x l, flat host_sub host_leafs h x l -> forall n, host_good n x -> all_leafs l) /\
  (forall xs l, flats host_sub host_leafs h xs l -> forall n, (forall x, In x xs -> host_good n x) -> all_leafs l).
Proof.
  intros K. apply flat_mutind.
  - intros x E n G. destruct x as [y|o|g]; [|clear E|discriminate E]; cbn [host_leafs host_good] in *.
    + intros z [<-|[]]. eauto.
    + rewrite Forall_forall in G. intros z I. apply in_map_iff in I as (y & <- & I). exists y. split; [reflexivity|apply (G _ I)].
  - intros x g l E F IH n G. apply (IH g). intros y I. now apply K.
  - intros n G x [].
  - intros x xs l ls F IH Fs IHs n G z I. apply in_app_iff in I as [I|I]; [apply (IH n (G x (or_introl eq_refl)) z I)|]. apply (IHs n); auto. intros y Iy. apply G. now right.
Qed.
Lemma flats_nil h l : flats host_sub host_leafs h [] l -> l = [].
Proof. now inversion 1. Qed.
Section Same.
  Context (table : list gid) (h h' : heap) (K : heap_ok h) (C : class_flat host_sub host_leafs (fun g => In g table) h h').

  Lemma flat_leafs g : In g table -> all_leafs (objs h' g).
  Proof using K C. intros I. destruct C as (_ & C'). destruct (proj1 (C' g) I) as (F & _). apply (proj2 (flat_good h K) _ _ F g). intros x Ix. now apply K. Qed.
  Lemma flat_bound g x : In x (objs h' g) -> g < h_next h.
  Proof using K C.
    destruct C as (_ & C'). destruct (in_dec Nat.eq_dec g table) as [I|I]; intros Ix.
    - destruct (proj1 (C' g) I) as (F & _). unfold flattening in F. destruct (objs h g) as [|y l] eqn:E; [apply flats_nil in F; rewrite F in Ix; destruct Ix|]. apply (K g y). rewrite E. now left.
    - assert (E : objs h' g = objs h g) by (unfold objs; now rewrite (proj2 (C' g) I)). rewrite E in Ix. now apply (K g x).
  Qed.
  Lemma flat_ok : heap_ok h'.
  Proof using K C.
    intros g x Ix. pose proof (flat_bound g x Ix) as B. destruct C as (Nx & C'). rewrite Nx. split; [exact B|]. destruct (in_dec Nat.eq_dec g table) as [I|I].
    - destruct (flat_leafs g I x Ix) as (y & -> & G). exact G.
    - assert (E : objs h' g = objs h g) by (unfold objs; now rewrite (proj2 (C' g) I)). rewrite E in Ix. now apply K.
  Qed.
  Lemma flats_in xs l x : flats host_sub host_leafs h xs l -> In x xs -> exists lx, flat host_sub host_leafs h x lx /\ incl lx l.
  Proof using. induction 1 as [|x0 xs l0 ls F Fs IH]; [intros []|]. intros [<-|I]; [exists l0; split; [auto|apply incl_appl, incl_refl]|]. destruct (IH I) as (lx & ? & ?). exists lx. split; [auto|now apply incl_appr]. Qed.
  Lemma via_flat x z : via_groups h x z -> forall m lx, z = HLeaf m -> flat host_sub host_leafs h x lx -> In (HLeaf m) lx.
  Proof using.
    induction 1 as [x|g m0 x I V IH]; intros m lx E F.
    - subst. inversion F; subst; [now left|discriminate].
    - inversion F as [? Hs|? g' ? Hs Fs]; subst; [discriminate|]. injection Hs as <-. destruct (flats_in _ _ _ Fs I) as (l0 & F0 & J). apply J. eapply IH; eauto.
  Qed.
  Lemma flat_via : (forall x l, flat host_sub host_leafs h x l -> forall m, In (HLeaf m) l -> via_groups h x (HLeaf m) \/ exists o, via_groups h x (HObj o) /\ In m (o_addrs o)) /\
    (forall xs l, flats host_sub host_leafs h xs l -> forall m, In (HLeaf m) l -> exists x, In x xs /\ (via_groups h x (HLeaf m) \/ exists o, via_groups h x (HObj o) /\ In m (o_addrs o))).
  Proof using.
    apply flat_mutind.
    - intros x E m I. destruct x as [y|o|g]; [| |discriminate E]; cbn [host_leafs] in I.
      + destruct I as [I|[]]. injection I as ->. left. constructor.
      + apply in_map_iff in I as (y & E' & I). injection E' as ->. right. exists o. split; [constructor|auto].
    - intros x g l E F IH m I. destruct x as [|o|g']; try discriminate E. injection E as ->. destruct (IH m I) as (y & Iy & [V|(o & V & Io)]); [left|right; exists o; split; [|auto]]; econstructor; eauto.
    - intros m [].
    - intros x xs l ls F IH Fs IHs m I. apply in_app_iff in I as [I|I]; [exists x; split; [now left|auto]|]. destruct (IHs m I) as (y & Iy & V). exists y. split; [now right|auto].
  Qed.
  Lemma via_member x z : via_groups h x z -> x = z \/ exists g, In z (objs h g).
  Proof using. induction 1 as [|g m x I V IH]; [now left|]. destruct IH as [->|IH]; right; eauto. Qed.

  Lemma reach_flat x m : reaches h x m -> forall lx, flat host_sub host_leafs h x lx -> In (HLeaf m) lx.
  Proof using.
    clear. induction 1 as [l|o l I|g m0 l I R IH]; intros lx F.
    - inversion F; subst; [now left|discriminate].
    - inversion F; subst; [|discriminate]. cbn [host_leafs]. now apply in_map.
    - inversion F as [? Hs|? g' ? Hs Fs]; subst; [discriminate|]. injection Hs as <-. destruct (flats_in _ _ _ Fs I) as (l0 & F0 & J). apply J. now apply IH.
  Qed.
  Lemma via_reaches x z m : via_groups h x z -> reaches h z m -> reaches h x m.
  Proof using. induction 1; auto. intros R. econstructor; eauto. Qed.
  Lemma flat_matches x a : matches h x a <-> matches h' x a.
  Proof using K C.
    apply matches_ext. clear x a. destruct C as (_ & C'). intros x m. split; intros R.
    - induction R as [l|o l I|g m0 l I R IH]; [constructor|now constructor|]. destruct (in_dec Nat.eq_dec g table) as [J|J].
      + destruct (proj1 (C' g) J) as (F & _). destruct (flats_in _ _ _ F I) as (l0 & F0 & Inc). apply R_grp with (HLeaf l); [|constructor]. apply Inc. eapply reach_flat; eauto.
      + apply R_grp with m0; [|auto]. unfold objs. now rewrite (proj2 (C' g) J).
    - induction R as [l|o l I|g m0 l I R IH]; [constructor|now constructor|]. destruct (in_dec Nat.eq_dec g table) as [J|J].
      + destruct (proj1 (C' g) J) as (F & _). destruct (flat_leafs g J _ I) as (y & -> & _). inversion R; subst.
        destruct (proj2 flat_via _ _ F _ I) as (x & Ix & [Vx|(o & Vx & Io)]); apply R_grp with x; auto; eapply via_reaches; try exact Vx; now constructor.
      + apply R_grp with m0; [|auto]. unfold objs in I |- *. now rewrite (proj2 (C' g) J) in I.
  Qed.

  Lemma any_same (L : leaf -> Prop) y : no_any_objects h -> (forall m, L m -> any_leaf m) ->
    (exists m, via_groups h y (HLeaf m) /\ L m) <-> (exists m, via_groups h' y (HLeaf m) /\ L m).
  Proof using K C.
    intros NA LA. destruct C as (_ & C'). split; intros (m & V & Lm).
    - exists m. split; [|exact Lm]. remember (HLeaf m) as z eqn:Z. revert Z. induction V as [x|g m0 x I V IH]; intros ->; [constructor|].
      destruct (in_dec Nat.eq_dec g table) as [J|J].
      + destruct (proj1 (C' g) J) as (F & _). destruct (flats_in _ _ _ F I) as (l0 & F0 & Inc). apply VG_grp with (HLeaf m); [|constructor]. apply Inc. eapply via_flat; eauto.
      + apply VG_grp with m0; [|auto]. unfold objs. now rewrite (proj2 (C' g) J).
    - exists m. split; [|exact Lm]. remember (HLeaf m) as z eqn:Z. revert Z. induction V as [x|g m0 x I V IH]; intros ->; [constructor|].
      destruct (in_dec Nat.eq_dec g table) as [J|J].
      + destruct (proj1 (C' g) J) as (F & _). destruct (flat_leafs g J _ I) as (l & -> & _). inversion V; subst.
        destruct (proj2 flat_via _ _ F _ I) as (x & Ix & [Vx|(o & Vx & Io)]); [econstructor; eauto|]. exfalso.
        assert (M : exists g', In (HObj o) (objs h g')). { destruct (via_member _ _ Vx) as [->|M]; eauto. }
        destruct M as (g' & M). exact (NA _ _ _ M Io (LA _ Lm)).
      + apply VG_grp with m0; [|auto]. unfold objs in I |- *. now rewrite (proj2 (C' g) J) in I.
  Qed.
  Lemma net_flat n y : n <> NtANY /\ n <> NtANY4 /\ n <> NtANY6 \/ no_any_objects h -> net_selects h n y <-> net_selects h' n y.
  Proof using K C.
    intros A. pose proof flat_matches as M. destruct n; cbn [net_selects]; try (setoid_rewrite M || rewrite M || idtac; tauto).
    - destruct A as [(A & _)|A]; [congruence|]. apply any_same; [auto|]. intros m [->|[(url & ->)| ->]]; exact I.
    - destruct A as [(_ & A & _)|A]; [congruence|]. apply any_same; [auto|]. intros m [->| ->]; exact I.
    - destruct A as [(_ & _ & A)|A]; [congruence|]. apply any_same; [auto|]. intros m [->| ->]; exact I.
  Qed.
End Same.

(** The meaning of an expression depends on what its networks select. *)
Section Ext.
  Context (h h' : heap) (i : item) (ends : list host) (En : forall x, In x (item_srcs i ++ item_dsts i) -> In x ends).
  Definition same_on (l : list nettext) : Prop := forall t n y, In t l -> net_reads t n -> In y ends -> (net_selects h n y <-> net_selects h' n y).
  Lemma side_ext d objects y : same_on (flat_map nets_of_obj objects) -> In y ends -> side_selects h d objects y <-> side_selects h' d objects y.
  Proof using.
    intros S Iy. unfold side_selects. split; (intros [N|(l & t & n & A & B & R & D)]; [now left|right; exists l, t, n; repeat split; auto]);
      (apply (S t n y); auto; apply in_flat_map; exists (OIp d l); auto).
  Qed.
  Lemma endpoint_in n x : endpoint n x <-> In x (node_host n).
  Proof using. split; [intros []; now left|]. destruct n as [[| |y]|]; cbn; try tauto. intros [->|[]]. constructor. Qed.
  Lemma natside_ext objects s : same_on (flat_map nets_of_obj objects) -> (forall x, In x (node_host (ns_src s) ++ node_host (ns_dst s)) -> In x ends) ->
    nat_side_selects h objects s <-> nat_side_selects h' objects s.
  Proof using.
    clear En. intros S H. unfold nat_side_selects.
    assert (A : forall x d, endpoint (ns_src s) x \/ endpoint (ns_dst s) x -> side_selects h d objects x <-> side_selects h' d objects x).
    { intros x d E. apply side_ext, H, in_or_app; [exact S|]. rewrite !endpoint_in in E. tauto. }
    split; intros (P & Q & R); (split; [|split; [|exact R]]); intros x E; apply A; auto.
  Qed.
  Lemma clause_ext id objects : same_on (flat_map nets_of_obj objects) -> clause_selects h id objects i <-> clause_selects h' id objects i.
  Proof using En.
    intros S. destruct i as [r|n]; cbn [clause_selects].
    - cbn in En. rewrite !side_ext by auto. tauto.
    - cbn [item_srcs item_dsts] in En.
      assert (A : forall s, Rules.nat_real n = Some s \/ Rules.nat_mapped n = Some s -> nat_side_selects h objects s <-> nat_side_selects h' objects s).
      { intros s E. apply natside_ext; [exact S|]. intros x I. apply En. unfold side_srcs, side_dsts. destruct E as [E|E]; rewrite E; repeat (rewrite in_app_iff in *); tauto. }
      split; (intros [(s & E & Q)|(s & E & Q)]; [left|right]; exists s; split; auto; apply A; auto).
  Qed.
  Lemma expr_ext : forall e, same_on (named_nets e) -> (expr_means h i e <-> expr_means h' i e).
  Proof using En.
    refine (fix IHe e := _ with IHs x : same_on (nets_of_set x) -> (set_means h i x <-> set_means h' i x) := _ for IHe).
    - destruct e as [f l]. cbn [expr_means named_nets]. intros S.
      assert (S1 : same_on (nets_of_set f)) by (intros t n y I; apply S, in_app_iff; auto).
      assert (S2 : same_on (flat_map (fun x => nets_of_set (snd x)) l)) by (intros t n y I; apply S, in_app_iff; auto). clear S.
      apply sequence_ext; [|tauto|exact (IHs f S1)]. clear S1.
      assert (F : Forall (fun ox => set_means h i (snd ox) <-> set_means h' i (snd ox)) l).
      { induction l as [|ox l IHl]; constructor.
        - destruct ox as (o, x). apply (IHs x). intros t n y I. apply S2. cbn [flat_map snd]. apply in_app_iff. auto.
        - apply IHl. intros t n y I. apply S2. cbn [flat_map snd]. apply in_app_iff. auto. }
      rewrite Forall_forall in F. intros o x I. exact (F _ I).
    - destruct x as [id [|[d l|e] [|o objects]]]; cbn [set_means nets_of_set]; try (now apply clause_ext). cbn [flat_map nets_of_obj]. rewrite app_nil_r. apply IHe.
  Qed.
End Ext.
