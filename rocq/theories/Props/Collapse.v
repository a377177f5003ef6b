(** C09, C10: collapsing network groups. *)
From Coq Require Import Lia.
From Verif.Model Require Import Base Ip Hosts Groups.
From Verif.Spec Require Import AddrSpec GroupSpec.
From Verif.Proofs Require Import AndFacts CollapseFacts GroupFacts GroupOps.

(** A member that is neither a network nor a network object: collapse must expand. *)
Definition needs_expansion (h : heap) (g : gid) : Prop :=
  exists x, In x (objs h g) /\ (forall n, x <> HLeaf (LNet n)) /\ (forall o, x <> HObj o).
(** Only networks. *)
Definition only_networks (h : heap) (g : gid) : Prop :=
  forall x, In x (objs h g) -> exists n, x = HLeaf (LNet n).

Lemma needs_expansion_iff h g :
  needs_expansion h g <-> existsb (fun x => negb (is_net_or_obj x)) (objs h g) = true.
Proof.
  rewrite existsb_exists. split.
  - intros (x & I & A & B). exists x. split; auto. destruct x as [[]|o|g']; cbn; auto; exfalso; [eapply A|eapply B]; reflexivity.
  - intros (x & I & A). exists x. split; auto. destruct x as [[]|o|g']; cbn in A; try discriminate; split; intros; discriminate.
Qed.
Lemma not_needs h g : ~ needs_expansion h g ->
  existsb (fun x => negb (is_net_or_obj x)) (objs h g) = false.
Proof. rewrite needs_expansion_iff. destruct (existsb _ _); congruence. Qed.
Lemma only_networks_not_needs h g : only_networks h g -> ~ needs_expansion h g.
Proof. intros O (x & I & A & _). destruct (O x I) as (n & ->). now apply (A n). Qed.

Lemma member_of_spec n a : net_wf n -> forall l, member_of n = HLeaf l ->
  leaf_wf l /\ concrete (n_ver n) l /\ (leaf_matches l a <-> in_net n a).
Proof.
  intros W l E. unfold member_of in E. destruct (N.eqb_spec (n_plen n) (bits (n_ver n))) as [Ep|Np].
  - injection E as <-. cbn. split; [|split; [reflexivity|symmetry; now apply single_host]].
    destruct W as (_ & V & _). exact V.
  - injection E as <-. cbn. tauto.
Qed.

(** Matching of a group whose members stand for blocks. *)
Lemma matches_members h g nets : Forall net_wf nets -> objs h g = map member_of nets ->
  forall a, (matches h (HGrp g) a <-> net_covers nets a) /\ (concrete_matches h (HGrp g) a <-> net_covers nets a).
Proof.
  intros W O a. rewrite Forall_forall in W.
  assert (R : forall l, reaches h (HGrp g) l <-> exists n, In n nets /\ member_of n = HLeaf l).
  { intros l. split.
    - intros R. inversion R as [| |? m ? Hm Rm]; subst. rewrite O in Hm. apply in_map_iff in Hm.
      destruct Hm as (n & <- & I). exists n. split; auto. unfold member_of in *.
      destruct (N.eqb _ _); inversion Rm; subst; reflexivity.
    - intros (n & I & E). econstructor; [rewrite O; apply in_map, I|]. rewrite E. constructor. }
  split.
  - rewrite matches_reaches. split.
    + intros (l & Rl & M). apply R in Rl. destruct Rl as (n & I & E). exists n. split; auto.
      apply (member_of_spec n a (W n I) l E). exact M.
    + intros (n & I & M). destruct (member_of n) as [l|o|g'] eqn:E; [|unfold member_of in E; destruct (N.eqb _ _); discriminate..].
      exists l. split; [apply R; eauto|]. apply (member_of_spec n a (W n I) l E). exact M.
  - split.
    + intros (l & Rl & _ & M). apply R in Rl. destruct Rl as (n & I & E). exists n. split; auto.
      apply (member_of_spec n a (W n I) l E). exact M.
    + intros (n & I & M). destruct (member_of n) as [l|o|g'] eqn:E; [|unfold member_of in E; destruct (N.eqb _ _); discriminate..].
      exists l. split; [apply R; eauto|]. split.
      * intros A. destruct (member_of_spec n a (W n I) l E) as (_ & C & _). destruct l; cbn in *; contradiction.
      * apply (member_of_spec n a (W n I) l E). exact M.
Qed.

(** The expanded copy of a collapsible group. *)
Lemma expanded_copy h rk fuel g : heap_closed h -> g < h_next h -> ranked h rk -> rk g < fuel ->
  exists h1, expand_new net_kind fuel h g = Ok (h1, h_next h) /\
    (forall g', g' <> h_next h -> h_get h1 g' = h_get h g') /\
    g_name (h_get h1 (h_next h)) = g_name (h_get h g) /\
    (forall x, In x (objs h1 (h_next h)) <-> exists l, x = HLeaf l /\ reaches h (HGrp g) l) /\
    h_next h1 = S (h_next h).
Proof.
  intros C Lg R L. apply granked_ranked in R.
  assert (C' : closed net_kind h).
  { intros g1 x g2 L1 I S. destruct x; try discriminate S. cbn in S. injection S as ->. eapply C; eauto. }
  destruct (expand_new_ok net_kind net_kind_good h rk fuel g C' Lg R L) as (h1 & o & l & E & F & -> & G & Nx & O & _).
  exists h1. split; [exact E|]. split; [exact O|]. split; [now rewrite G|]. split; [|exact Nx].
  intros x. unfold objs. rewrite G. cbn [g_objs].
  rewrite (proj2 (flat_reaches h) _ _ F x). split.
  - intros (y & lf & I & -> & Rl). exists lf. split; auto. econstructor; eauto.
  - intros (lf & -> & Rl). inversion Rl as [| |? m ? Hm Rm]; subst. exists m, lf. auto.
Qed.

Lemma concrete_matches_expanded h h1 g o :
  (forall x, In x (objs h1 o) <-> exists l, x = HLeaf l /\ reaches h (HGrp g) l) ->
  forall a, concrete_matches h1 (HGrp o) a <-> concrete_matches h (HGrp g) a.
Proof.
  intros S a. split; intros (l & R & N & M); exists l; (split; [|auto]).
  - inversion R as [| |? m ? Hm Rm]; subst. apply S in Hm. destruct Hm as (l' & -> & R'). inversion Rm; subst. exact R'.
  - econstructor; [apply S; eauto|constructor].
Qed.

(** ** C09 *)

(** What any successful collapse yields, in place or not. *)
Theorem C09_collapse_sound : forall v h rk limit insitu g h' o,
  heap_closed h -> g < h_next h -> ranked h rk -> rk g < limit ->
  collapsible v h (HGrp g) ->
  collapse limit insitu h g = (h', Ok o) ->
  exists nets, canonical nets /\ Forall (fun n => n_ver n = v) nets /\
    objs h' o = map member_of nets /\
    g_name (h_get h' o) = g_name (h_get h g) /\
    forall a, matches h' (HGrp o) a <-> concrete_matches h (HGrp g) a.
Proof.
  intros v h rk limit insitu g h' o C Lg R L Cl E. unfold collapse in E.
  assert (Main : forall h0 o0,
    (forall x, In x (objs h0 o0) -> exists l, x = HLeaf l /\ leaf_wf l /\ (concrete v l \/ any_leaf l)) ->
    (forall a, concrete_matches h0 (HGrp o0) a <-> concrete_matches h (HGrp g) a) ->
    g_name (h_get h0 o0) = g_name (h_get h g) ->
    collapse_ h0 o0 = (h', Ok o) ->
    exists nets, canonical nets /\ Forall (fun n => n_ver n = v) nets /\ objs h' o = map member_of nets /\
      g_name (h_get h' o) = g_name (h_get h g) /\
      forall a, matches h' (HGrp o) a <-> concrete_matches h (HGrp g) a).
  { intros h0 o0 H Hc Hn Ec.
    destruct (collapse__ok v h0 o0 H) as (nets & Cn & Vn & Cov & [(F & h2 & E2 & G2)|(_ & l1 & n & l2 & h2 & _ & _ & _ & E2 & _)]);
      rewrite Ec in E2; [|discriminate E2]. injection E2 as <- ->.
    exists nets. split; [exact Cn|]. split; [exact Vn|].
    assert (O : objs h' o0 = map member_of nets) by (unfold objs; now rewrite G2).
    split; [exact O|]. split; [rewrite G2; exact Hn|].
    intros a. rewrite (proj1 (matches_members h' o0 nets (proj1 Cn) O a)), Cov. apply Hc. }
  destruct (existsb (fun x => negb (is_net_or_obj x)) (objs h g)) eqn:Ne.
  - destruct insitu; [discriminate E|].
    destruct (expanded_copy h rk limit g C Lg R L) as (h1 & E1 & O1 & N1 & S1 & _).
    rewrite E1 in E. eapply Main; [| |exact N1|exact E].
    + intros x Hx. apply S1 in Hx. destruct Hx as (l & -> & Rl). exists l. split; auto.
    + now apply concrete_matches_expanded.
  - destruct (existsb (fun x => match x with HObj _ => true | _ => false end) (objs h g)) eqn:Eo.
    + (* a network object: KeyError *)
      exfalso. unfold collapse_ in E.
      assert (Ak : existsb is_any_kind (objs h g) = false).
      { clear -Ne. induction (objs h g) as [|x l IH]; [reflexivity|]. cbn in *.
        apply Bool.orb_false_iff in Ne. destruct Ne as [N1 N2]. rewrite IH by auto.
        destruct x as [[]|o|g']; cbn in *; congruence. }
      rewrite Ak in E.
      assert (Ek : map_r ip_of (objs h g) = Err KeyError).
      { clear -Ne Eo. induction (objs h g) as [|x l IH]; [discriminate Eo|]. cbn in *.
        apply Bool.orb_false_iff in Ne. destruct Ne as [N1 N2].
        destruct x as [[]|o|g']; cbn in *; try discriminate; try reflexivity.
        rewrite IH by auto. reflexivity. }
      rewrite Ek in E. discriminate E.
    + eapply Main; [| |reflexivity|exact E]; [|reflexivity].
      intros x Hx.
      assert (Hn : exists n, x = HLeaf (LNet n)).
      { assert (A : negb (is_net_or_obj x) = false).
        { destruct (negb (is_net_or_obj x)) eqn:A; auto.
          assert (existsb (fun x => negb (is_net_or_obj x)) (objs h g) = true) by (apply existsb_exists; eauto). congruence. }
        destruct x as [[]|ob|g']; cbn in A; try discriminate A; [eauto|].
        assert (existsb (fun x => match x with HObj _ => true | _ => false end) (objs h g) = true)
          by (apply existsb_exists; eauto). congruence. }
      destruct Hn as (n & ->). exists (LNet n). split; auto. apply Cl. econstructor; [exact Hx|constructor].
Qed.
Print Assumptions C09_collapse_sound.

(** When it succeeds: IPv4 groups that are expanded first, or hold only networks. *)
Theorem C09_collapse_succeeds_ipv4 : forall h rk limit g,
  heap_closed h -> g < h_next h -> ranked h rk -> rk g < limit -> collapsible V4 h (HGrp g) ->
  (needs_expansion h g -> exists h', collapse limit false h g = (h', Ok (h_next h))) /\
  (only_networks h g -> forall insitu, exists h', collapse limit insitu h g = (h', Ok g)).
Proof.
  intros h rk limit g C Lg R L Cl. split.
  - intros Ne. apply needs_expansion_iff in Ne. unfold collapse. rewrite Ne.
    destruct (expanded_copy h rk limit g C Lg R L) as (h1 & E1 & O1 & N1 & S1 & _). rewrite E1.
    destruct (collapse__ok V4 h1 (h_next h)) as (nets & _ & _ & _ & [(F & h2 & E2 & G2)|(X & _)]); [|eauto|discriminate X].
    intros x Hx. apply S1 in Hx. destruct Hx as (l & -> & Rl). exists l. split; auto.
  - intros On insitu. unfold collapse. rewrite (not_needs h g (only_networks_not_needs h g On)).
    destruct (collapse__ok V4 h g) as (nets & _ & _ & _ & [(F & h2 & E2 & G2)|(X & _)]); [|eauto|discriminate X].
    intros x Hx. destruct (On x Hx) as (n & ->). exists (LNet n). split; auto. apply Cl. econstructor; [exact Hx|constructor].
Qed.
Print Assumptions C09_collapse_succeeds_ipv4.

(** Canonical form: two groups (in whatever configurations) that match the same
    addresses collapse to the same list of members, in the same order. *)
Theorem C09_collapse_canonical : forall v h1 rk1 limit1 insitu1 g1 h1' o1 h2 rk2 limit2 insitu2 g2 h2' o2,
  heap_closed h1 -> g1 < h_next h1 -> ranked h1 rk1 -> rk1 g1 < limit1 -> collapsible v h1 (HGrp g1) ->
  heap_closed h2 -> g2 < h_next h2 -> ranked h2 rk2 -> rk2 g2 < limit2 -> collapsible v h2 (HGrp g2) ->
  (forall a, concrete_matches h1 (HGrp g1) a <-> concrete_matches h2 (HGrp g2) a) ->
  collapse limit1 insitu1 h1 g1 = (h1', Ok o1) -> collapse limit2 insitu2 h2 g2 = (h2', Ok o2) ->
  objs h1' o1 = objs h2' o2.
Proof.
  intros v h1 rk1 limit1 insitu1 g1 h1' o1 h2 rk2 limit2 insitu2 g2 h2' o2 A1 A2 A3 A4 A5 B1 B2 B3 B4 B5 S E1 E2.
  destruct (C09_collapse_sound _ _ _ _ _ _ _ _ A1 A2 A3 A4 A5 E1) as (n1 & C1 & _ & O1 & _ & M1).
  destruct (C09_collapse_sound _ _ _ _ _ _ _ _ B1 B2 B3 B4 B5 E2) as (n2 & C2 & _ & O2 & _ & M2).
  rewrite O1, O2. f_equal. apply canonical_unique; auto. intros a.
  rewrite <- (proj1 (matches_members h1' o1 n1 (proj1 C1) O1 a)), <- (proj1 (matches_members h2' o2 n2 (proj1 C2) O2 a)).
  rewrite M1, M2. apply S.
Qed.
Print Assumptions C09_collapse_canonical.

(** ** C10: effects on other groups. *)
Lemma expand_in_frame {X} (K : gkind X) fuel h g h' : expand_in K fuel h g = Ok h' ->
  (forall g', g' <> g -> h_get h' g' = h_get h g') /\ h_next h' = h_next h.
Proof.
  unfold expand_in. destruct (expand_r _ _ _ _) as [l|]; [|discriminate]. cbn [bind].
  intros E. injection E as <-. split; [|reflexivity]. intros g' N. now rewrite !get_set_other.
Qed.
Lemma expand_new_frame {X} (K : gkind X) fuel h g h' o : expand_new K fuel h g = Ok (h', o) ->
  o = h_next h /\ h_next h' = S (h_next h) /\ forall g', g' <> o -> h_get h' g' = h_get h g'.
Proof.
  unfold expand_new, h_alloc. set (h0 := {| h_get := _; h_next := _ |}).
  destruct (expand_r _ _ _ _) as [l|]; [|discriminate]. cbn [bind].
  destruct (expand_in K fuel _ _) as [h1|] eqn:E1; [|discriminate]. cbn [bind].
  intros E. injection E as <- <-. apply expand_in_frame in E1. destruct E1 as (F & Nx).
  split; [reflexivity|]. split; [exact Nx|]. intros g' N.
  rewrite get_set_other, F, get_set_other by auto. unfold h0. cbn.
  destruct (Nat.eqb_spec g' (h_next h)); congruence.
Qed.

(** Whatever happens (success or exception, in place or not, any group graph): no
    group other than the receiver and the returned one changes, and a receiver that
    had to be expanded does not change either. *)
Theorem C10_frame : forall limit insitu h g h' r,
  collapse limit insitu h g = (h', r) ->
  (forall g', g' < h_next h -> g' <> g -> h_get h' g' = h_get h g') /\
  (g < h_next h -> needs_expansion h g -> h_get h' g = h_get h g) /\
  (forall o, r = Ok o -> o = g \/ (o = h_next h /\ needs_expansion h g)).
Proof.
  intros limit insitu h g h' r E. unfold collapse in E.
  destruct (existsb (fun x => negb (is_net_or_obj x)) (objs h g)) eqn:Ne.
  - destruct insitu; [injection E as <- <-; repeat split; auto; discriminate|].
    destruct (expand_new net_kind limit h g) as [[h1 o1]|e] eqn:E1; [|injection E as <- <-; repeat split; auto; discriminate].
    apply expand_new_frame in E1. destruct E1 as (-> & Nx & F).
    pose proof (collapse__frame h1 (h_next h)) as K. rewrite E in K. destruct K as (K1 & _ & _ & K2).
    assert (A : forall g', g' < h_next h -> h_get h' g' = h_get h g').
    { intros g' L. rewrite K1, F by lia. reflexivity. }
    split; [auto|]. split; [auto|]. intros o Eo. right. split; [now apply K2|].
    now apply needs_expansion_iff.
  - pose proof (collapse__frame h g) as K. rewrite E in K. destruct K as (K1 & _ & _ & K2).
    split; [auto|]. split; [|intros o Eo; left; now apply K2].
    intros _ N. apply needs_expansion_iff in N. congruence.
Qed.
Print Assumptions C10_frame.

(** Collapsing the result once more succeeds and gives the same members. *)
Theorem C09_collapse_idempotent : forall h rk limit g h' o,
  heap_closed h -> g < h_next h -> ranked h rk -> rk g < limit -> collapsible V4 h (HGrp g) ->
  collapse limit false h g = (h', Ok o) ->
  exists h'' o', collapse limit false h' o = (h'', Ok o') /\ objs h'' o' = objs h' o.
Proof.
  intros h rk limit g h' o C Lg R L Cl E.
  destruct (C09_collapse_sound _ _ _ _ _ _ _ _ C Lg R L Cl E) as (nets & Cn & Vn & O & _ & M).
  assert (W := proj1 Cn). rewrite Forall_forall in W, Vn.
  assert (Hl : forall x, In x (objs h' o) -> exists l, x = HLeaf l /\ leaf_wf l /\ (concrete V4 l \/ any_leaf l)).
  { intros x Hx. rewrite O in Hx. apply in_map_iff in Hx. destruct Hx as (n & <- & I).
    destruct (member_of n) as [l|?|?] eqn:Em; [|unfold member_of in Em; destruct (N.eqb _ _); discriminate..].
    destruct (member_of_spec n (mkaddr V4 0) (W n I) l Em) as (Wl & Cl' & _).
    exists l. split; auto. split; auto. left. rewrite <- (Vn n I). exact Cl'. }
  (* run the second collapse *)
  assert (Leafs : forall h1 o1, (forall x, In x (objs h1 o1) <-> In x (objs h' o)) ->
    exists h2, collapse_ h1 o1 = (h2, Ok o1) /\ objs h2 o1 = objs h' o).
  { intros h1 o1 S.
    assert (H : forall x, In x (objs h1 o1) -> exists l, x = HLeaf l /\ leaf_wf l /\ (concrete V4 l \/ any_leaf l)).
    { intros x Hx. apply Hl, S, Hx. }
    destruct (collapse__ok V4 h1 o1 H) as (nets2 & C2 & _ & Cov & [(F & h2 & E2 & G2)|(X & _)]); [|discriminate X].
    exists h2. split; [exact E2|]. unfold objs at 1. rewrite G2. cbn [g_objs]. rewrite O. f_equal.
    apply canonical_unique; auto. intros a. rewrite Cov.
    rewrite <- (proj2 (matches_members h' o nets (proj1 Cn) O a)).
    unfold concrete_matches. split; intros (l & Rl & K); exists l; (split; [|exact K]);
      inversion Rl as [| |? m ? Hm Rm]; subst; (econstructor; [apply S; exact Hm|]).
    - destruct (H m Hm) as (lf & -> & _). inversion Rm; subst. constructor.
    - destruct (Hl m Hm) as (lf & -> & _). inversion Rm; subst. constructor. }
  unfold collapse at 1.
  destruct (existsb (fun x => negb (is_net_or_obj x)) (objs h' o)).
  - assert (Inv : (forall g1, g1 < h_next h' -> g1 = o \/ g1 < h_next h) /\ h_next h <= h_next h' /\ o < h_next h' /\
               (forall g', g' <> o -> h_get h' g' = h_get h g')).
    { unfold collapse in E. destruct (existsb (fun x => negb (is_net_or_obj x)) (objs h g)).
      - destruct (expand_new net_kind limit h g) as [[h1 o1]|e] eqn:E1; [|discriminate E].
        apply expand_new_frame in E1. destruct E1 as (-> & Nx & F).
        pose proof (collapse__frame h1 (h_next h)) as K. rewrite E in K. destruct K as (K1 & K3 & _ & K2).
        specialize (K2 o eq_refl). subst o. split; [lia|]. split; [lia|]. split; [lia|].
        intros g' N. now rewrite K1, F.
      - pose proof (collapse__frame h g) as K. rewrite E in K. destruct K as (K1 & K3 & _ & K2).
        specialize (K2 o eq_refl). subst o. split; [lia|]. split; [lia|]. split; [lia|]. exact K1. }
    destruct Inv as (In1 & Lx & Lo & Fr).
    assert (C' : heap_closed h').
    { intros g1 m L1 I. destruct (Nat.eq_dec g1 o) as [->|N].
      - destruct (Hl _ I) as (l & X & _). discriminate X.
      - unfold objs in I. rewrite Fr in I by auto. destruct (In1 g1 L1) as [|L2]; [contradiction|].
        specialize (C g1 m L2 I). lia. }
    assert (R' : ranked h' (fun g' => if Nat.eqb g' o then 0 else S (rk g'))).
    { intros g1 m I. destruct (Nat.eqb_spec g1 o) as [->|N].
      - destruct (Hl _ I) as (l & X & _). discriminate X.
      - unfold objs in I. rewrite Fr in I by auto. specialize (R g1 m I).
        destruct (Nat.eqb m o); lia. }
    destruct (expanded_copy h' _ limit o C' Lo R') as (h1 & E1 & _ & _ & S1 & _).
    { rewrite Nat.eqb_refl. lia. }
    rewrite E1. destruct (Leafs h1 (h_next h')) as (h2 & E2 & O2); [|eauto].
    intros x. rewrite S1. split.
    + intros (l & -> & Rl). inversion Rl as [| |? m ? Hm Rm]; subst.
      destruct (Hl m Hm) as (lf & -> & _). inversion Rm; subst. exact Hm.
    + intros Hx. destruct (Hl x Hx) as (l & -> & _). exists l. split; auto. econstructor; [exact Hx|constructor].
  - destruct (Leafs h' o) as (h2 & E2 & O2); [reflexivity|]. eauto.
Qed.
Print Assumptions C09_collapse_idempotent.

(** IPv6: collapse rebuilds each block from its dotted netmask, which IPv6 networks
    reject.  It therefore succeeds exactly if the canonical form consists of single
    addresses only, and otherwise raises ValueError. *)
Theorem C09_collapse_ipv6 : forall h rk limit g,
  heap_closed h -> g < h_next h -> ranked h rk -> rk g < limit -> collapsible V6 h (HGrp g) ->
  needs_expansion h g ->
  forall nets, canonical nets -> Forall (fun n => n_ver n = V6) nets ->
    (forall a, net_covers nets a <-> concrete_matches h (HGrp g) a) ->
  ((forall n, In n nets -> n_plen n = 128%N) ->
     exists h', collapse limit false h g = (h', Ok (h_next h)) /\ objs h' (h_next h) = map member_of nets) /\
  ((exists n, In n nets /\ n_plen n <> 128%N) ->
     exists h', collapse limit false h g = (h', Err ValueError)).
Proof.
  intros h rk limit g C Lg R L Cl Ne nets Cn Vn Cov. apply needs_expansion_iff in Ne. unfold collapse. rewrite Ne.
  destruct (expanded_copy h rk limit g C Lg R L) as (h1 & E1 & O1 & N1 & S1 & _). rewrite E1.
  destruct (collapse__ok V6 h1 (h_next h)) as (nets' & Cn' & Vn' & Cov' & D).
  { intros x Hx. apply S1 in Hx. destruct Hx as (l & -> & Rl). exists l. split; auto. }
  assert (Eq : nets' = nets).
  { apply canonical_unique; auto. intros a. rewrite Cov', Cov. now apply concrete_matches_expanded. }
  subst nets'. rewrite Forall_forall in Vn. split.
  - intros All. destruct D as [(F & h2 & E2 & G2)|(_ & l1 & n & l2 & h2 & Es & _ & Np & _)].
    + exists h2. split; [exact E2|]. unfold objs. now rewrite G2.
    + exfalso. apply Np. apply All. rewrite Es. apply in_elt.
  - intros (n & I & Np). destruct D as [(F & h2 & E2 & G2)|(_ & l1 & m & l2 & h2 & Es & _ & _ & E2 & _)].
    + exfalso. rewrite Forall_forall in F. destruct (F n I) as (_ & [X|X]); rewrite (Vn n I) in X; [discriminate X|].
      now apply Np.
    + eauto.
Qed.
Print Assumptions C09_collapse_ipv6.

(** ** C10, continued: the documented purity of [insitu] is violated. *)

(** insitu=True on a group that needs expansion: ValueError, nothing changes. *)
Theorem C10_insitu_needs_expansion : forall limit h g,
  needs_expansion h g -> collapse limit true h g = (h, Err ValueError).
Proof. intros limit h g N. apply needs_expansion_iff in N. unfold collapse. now rewrite N. Qed.
Print Assumptions C10_insitu_needs_expansion.

(** A group of networks only: insitu=False still rewrites the receiver itself. *)
Theorem C10_insitu_false_rewrites_receiver : forall limit h g,
  only_networks h g -> collapse limit false h g = collapse limit true h g.
Proof.
  intros limit h g O. unfold collapse. now rewrite (not_needs h g (only_networks_not_needs h g O)).
Qed.
Print Assumptions C10_insitu_false_rewrites_receiver.

(** A group of networks and network objects (no other members), with at least one
    object: KeyError, nothing changes. *)
Theorem C10_objects_without_expansion : forall limit insitu h g o,
  ~ needs_expansion h g -> In (HObj o) (objs h g) ->
  collapse limit insitu h g = (h, Err KeyError).
Proof.
  intros limit insitu h g o Ne I. unfold collapse. rewrite (not_needs h g Ne). apply not_needs in Ne.
  unfold collapse_.
  assert (Ak : existsb is_any_kind (objs h g) = false).
  { clear -Ne. induction (objs h g) as [|x l IH]; [reflexivity|]. cbn in *.
    apply Bool.orb_false_iff in Ne. destruct Ne as [N1 N2]. rewrite IH by auto.
    destruct x as [[]|o|g']; cbn in *; congruence. }
  rewrite Ak.
  assert (Ek : map_r ip_of (objs h g) = Err KeyError).
  { clear -Ne I. induction (objs h g) as [|x l IH]; [destruct I|]. cbn in *.
    apply Bool.orb_false_iff in Ne. destruct Ne as [N1 N2].
    destruct x as [[]|o'|g']; cbn in *; try discriminate; try reflexivity.
    destruct I as [I|I]; [discriminate I|]. rewrite IH by auto. reflexivity. }
  now rewrite Ek.
Qed.
Print Assumptions C10_objects_without_expansion.

(** IPv4 and IPv6 mixed: TypeError; a group holding networks only has lost them all. *)
Theorem C10_mixed_versions : forall h rk limit g a b,
  heap_closed h -> g < h_next h -> ranked h rk -> rk g < limit ->
  (forall l, reaches h (HGrp g) l -> leaf_wf l /\ (concrete V4 l \/ concrete V6 l \/ any_leaf l)) ->
  reaches h (HGrp g) a -> concrete V4 a -> reaches h (HGrp g) b -> concrete V6 b ->
  (needs_expansion h g ->
     exists h', collapse limit false h g = (h', Err TypeError) /\ h_get h' g = h_get h g) /\
  (only_networks h g -> forall insitu,
     exists h', collapse limit insitu h g = (h', Err TypeError) /\ objs h' g = []).
Proof.
  intros h rk limit g a b C Lg R L W Ra Ca Rb Cb.
  assert (IP : forall v l, concrete v l -> exists i, HLeaf l = ip_leaf i /\ item_ver i = v).
  { intros v l K. destruct l; cbn in K; try contradiction; [exists (IAddr a0)|exists (INet n)]; auto. }
  assert (Wi : forall l, reaches h (HGrp g) l ->
             is_any_kind (HLeaf l) = true \/ exists i, HLeaf l = ip_leaf i /\ item_wf i).
  { intros l Rl. destruct (W l Rl) as (Wl & [K|[K|K]]).
    - right. destruct l; cbn in K; try contradiction; [exists (IAddr a0)|exists (INet n)]; auto.
    - right. destruct l; cbn in K; try contradiction; [exists (IAddr a0)|exists (INet n)]; auto.
    - left. now apply any_leaf_kind. }
  destruct (IP V4 a Ca) as (ia & Ea & Va), (IP V6 b Cb) as (ib & Eb & Vb).
  assert (Nv : item_ver ia <> item_ver ib) by (rewrite Va, Vb; discriminate).
  split.
  - intros Ne.
    assert (Fr : forall h' r, collapse limit false h g = (h', r) -> h_get h' g = h_get h g).
    { intros h' r E. exact (proj1 (proj2 (C10_frame _ _ _ _ _ _ E)) Lg Ne). }
    apply needs_expansion_iff in Ne. unfold collapse in *. rewrite Ne in *.
    destruct (expanded_copy h rk limit g C Lg R L) as (h1 & E1 & O1 & N1 & S1 & _). rewrite E1 in *.
    destruct (collapse__mixed h1 (h_next h) ia ib) as (h' & E & _); auto.
    + intros x Hx. apply S1 in Hx. destruct Hx as (l & -> & Rl). now apply Wi.
    + apply S1. exists a. split; auto.
    + apply S1. exists b. split; auto.
    + exists h'. split; [exact E|]. eapply Fr, E.
  - intros On insitu. unfold collapse. rewrite (not_needs h g (only_networks_not_needs h g On)).
    assert (Leaf : forall l, reaches h (HGrp g) l -> In (HLeaf l) (objs h g)).
    { intros l Rl. inversion Rl as [| |? m ? Hm Rm]; subst. destruct (On m Hm) as (n & ->). inversion Rm; subst. exact Hm. }
    destruct (collapse__mixed h g ia ib) as (h' & E & O); auto.
    + intros x Hx. destruct (On x Hx) as (n & ->). apply Wi. econstructor; [exact Hx|constructor].
    + rewrite <- Ea. auto.
    + rewrite <- Eb. auto.
    + eauto.
Qed.
Print Assumptions C10_mixed_versions.

(** any/any4/any6 members are dropped: a group matching every address can collapse to
    one matching a single address. *)
Theorem C10_any_dropped_refuted :
  exists h g h' o, acyclic h /\ heap_closed h /\ g < h_next h /\
    collapse 5 false h g = (h', Ok o) /\
    (forall a, valid a -> matches h (HGrp g) a) /\
    (forall a, matches h' (HGrp o) a -> a = mkaddr V4 1).
Proof.
  exists (mkheap (fun _ => mkgroup [] [] [] [HLeaf LAny; HLeaf (LHost (mkaddr V4 1))]) 1), 0.
  eexists _, _. split; [|split; [|split; [|split; [vm_compute; reflexivity|split]]]].
  - exists (fun _ => 0). intros g m [H|[H|[]]]; discriminate H.
  - intros g m _ [H|[H|[]]]; discriminate H.
  - cbn. lia.
  - intros a V. econstructor; [left; reflexivity|]. constructor. exact V.
  - intros a M. inversion M as [| |? m ? Hm Mm]; subst. cbn in Hm. destruct Hm as [<-|[]].
    inversion Mm; subst. cbn in *. auto.
Qed.
Print Assumptions C10_any_dropped_refuted.

(** ** Concrete cases *)
(** g0 = {10.0.0.0/25, 10.0.0.128/25, g1}, g1 = {10.0.1.0/24, host 10.0.2.1}:
    collapses to 10.0.0.0/23 and 10.0.2.1. *)
Definition ex_collapse : heap :=
  mkheap (fun g => match g with
    | 0 => mkgroup (u "g0") [] [] [HLeaf (LNet (mknet V4 167772160 25)); HLeaf (LNet (mknet V4 167772288 25)); HGrp 1]
    | 1 => mkgroup (u "g1") [] [] [HLeaf (LNet (mknet V4 167772416 24)); HLeaf (LHost (mkaddr V4 167772673))]
    | _ => mkgroup [] [] [] []
    end) 2.
Example ex_collapse_premises :
  heap_closed ex_collapse /\ ranked ex_collapse (fun g => 1 - g) /\ needs_expansion ex_collapse 0 /\
  collapsible V4 ex_collapse (HGrp 0).
Proof.
  split; [|split; [|split]].
  - intros [|[|g]] m _ H; cbn in H; [destruct H as [H|[H|[H|[]]]]|destruct H as [H|[H|[]]]|destruct H]; try discriminate H; injection H as <-; cbn; lia.
  - intros [|[|g]] m H; cbn in H; [destruct H as [H|[H|[H|[]]]]|destruct H as [H|[H|[]]]|destruct H]; try discriminate H; injection H as <-; cbn; lia.
  - exists (HGrp 1). cbn. split; [auto|]. split; intros; discriminate.
  - intros l H. inversion H as [| |? m ? Hm Rm]; subst. cbn in Hm.
    destruct Hm as [<-|[<-|[<-|[]]]].
    + inversion Rm; subst. split; [|left; reflexivity]. cbn. repeat split; try discriminate. now exists 1310720%N.
    + inversion Rm; subst. split; [|left; reflexivity]. cbn. repeat split; try discriminate. now exists 1310721%N.
    + inversion Rm as [| |? m ? Hm Rm']; subst. cbn in Hm. destruct Hm as [<-|[<-|[]]]; inversion Rm'; subst.
      * split; [|left; reflexivity]. cbn. repeat split; try discriminate. now exists 655361%N.
      * split; [|left; reflexivity]. reflexivity.
Qed.
Example ex_collapse_runs :
  exists h', collapse 5 false ex_collapse 0 = (h', Ok 2) /\
    objs h' 2 = [HLeaf (LNet (mknet V4 167772160 23)); HLeaf (LHost (mkaddr V4 167772673))] /\
    objs h' 0 = objs ex_collapse 0.
Proof. eexists. repeat split; vm_compute; reflexivity. Qed.
