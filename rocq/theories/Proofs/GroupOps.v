(** Collapse and sort of groups (C09, C10, C15, C45). *)
From Coq Require Import Lia ZifyBool ZifyNat ZifyN Permutation Sorted.
From Verif.Model Require Import Base Ip Hosts Groups.
From Verif.Spec Require Import AddrSpec GroupSpec.
From Verif.Proofs Require Import IpFacts WildFacts MaskFacts SortFacts SummarizeFacts CollapseFacts GroupFacts.

(** ** Re-adding the collapsed blocks *)
Definition fits (n : net) : Prop := net_wf n /\ (n_ver n = V4 \/ n_plen n = bits (n_ver n)).

Lemma num_addresses_eq n : net_wf n -> num_addresses n = nsize n.
Proof. intros W. unfold num_addresses. rewrite broadcast_eq by auto. pose proof (nsize_pos n). lia. Qed.

Lemma num_addresses_one n : net_wf n -> (1 <? num_addresses n)%N = negb (N.eqb (n_plen n) (bits (n_ver n))).
Proof.
  intros W. rewrite num_addresses_eq by auto. unfold nsize. destruct W as [P _].
  destruct (N.eqb_spec (n_plen n) (bits (n_ver n))) as [->|Ne]; simpl.
  - rewrite N.sub_diag. reflexivity.
  - apply N.ltb_lt. apply N.pow_gt_1; lia.
Qed.

Lemma rebuild_v4 n : net_wf n -> n_ver n = V4 ->
  mk_Network (mkaddr (n_ver n) (n_addr n)) (MaskQuad (netmask n)) = Ok (LNet n).
Proof.
  intros W V. unfold mk_Network, ip_network. cbn [a_ver a_val].
  assert (E : make_netmask (n_ver n) (MaskQuad (netmask n)) = Some (n_plen n)).
  { rewrite V. simpl. unfold netmask. rewrite V. destruct W as (P & _). rewrite V in P.
    assert (prefix_from_ip_int V4 (ip_int_from_prefix V4 (n_plen n)) = Some (n_plen n)) as ->; auto.
    apply prefix_from_ip_int_iff.
    - rewrite netmask_value by auto. pose proof (pow2_pos (bits V4 - n_plen n)). 
      assert (2 ^ (bits V4 - n_plen n) <= 2 ^ bits V4)%N by (apply N.pow_le_mono_r; lia). lia.
    - split; auto. unfold nm. rewrite netmask_value by auto. reflexivity. }
  pose proof (ip_network_aligned false n W) as A. unfold ip_network in A. cbn [a_ver a_val] in A.
  rewrite E. simpl make_netmask in A. destruct W as (P & _). apply N.leb_le in P. rewrite P in A.
  rewrite A. reflexivity.
Qed.

Lemma readd_ok l : forall h g, Forall fits l ->
  exists h', readd h g l = (h', Ok g) /\
    h_get h' g = mkgroup (g_name (h_get h g)) (g_descr (h_get h g)) (g_proto (h_get h g)) (objs h g ++ map member_of l) /\
    (forall g', g' <> g -> h_get h' g' = h_get h g') /\ h_next h' = h_next h.
Proof.
  induction l as [|n l IH]; intros h g F.
  - exists h. split; [reflexivity|]. simpl. rewrite app_nil_r. split; [|auto]. unfold objs. destruct (h_get h g); reflexivity.
  - inversion F as [|? ? [W Hn] F']; subst. cbn [readd].
    assert (E : (if (1 <? num_addresses n)%N then mk_Network (mkaddr (n_ver n) (n_addr n)) (MaskQuad (netmask n))
             else Ok (LHost (mkaddr (n_ver n) (n_addr n)))) =
             Ok (match member_of n with HLeaf x => x | _ => LAny end)).
    { rewrite num_addresses_one by auto. unfold member_of.
      destruct (N.eqb_spec (n_plen n) (bits (n_ver n))) as [Eb|Nb]; [reflexivity|]. simpl.
      apply rebuild_v4; auto. destruct Hn; congruence. }
    rewrite E.
    assert (Em : HLeaf (match member_of n with HLeaf x => x | _ => LAny end) = member_of n).
    { unfold member_of. destruct (n_plen n =? bits (n_ver n))%N; reflexivity. }
    destruct (IH (set_objs h g (objs h g ++ [HLeaf (match member_of n with HLeaf x => x | _ => LAny end)])) g F')
      as (h' & R & G & Fr & Nx).
    exists h'. split; [exact R|]. rewrite G, get_set_same, objs_set_same, Em. simpl.
    rewrite <- app_assoc. split; [reflexivity|]. split; [|exact Nx].
    intros g' N. rewrite Fr by auto. apply get_set_other. auto.
Qed.

Lemma readd_v6 l1 n l2 : forall h g, Forall fits l1 -> net_wf n -> n_ver n = V6 -> n_plen n <> bits (n_ver n) ->
  exists h', readd h g (l1 ++ n :: l2) = (h', Err ValueError) /\
    h_get h' g = mkgroup (g_name (h_get h g)) (g_descr (h_get h g)) (g_proto (h_get h g)) (objs h g ++ map member_of l1) /\
    (forall g', g' <> g -> h_get h' g' = h_get h g') /\ h_next h' = h_next h.
Proof.
  induction l1 as [|m l1 IH]; intros h g F W V Nb.
  - exists h. cbn [readd app]. rewrite num_addresses_one by auto.
    destruct (N.eqb_spec (n_plen n) (bits (n_ver n))); [congruence|]. cbn [negb].
    rewrite V. cbn [mk_Network ip_network]. unfold mk_Network, ip_network. simpl.
    rewrite app_nil_r. split; [reflexivity|]. split; [|auto]. unfold objs. destruct (h_get h g); reflexivity.
  - inversion F as [|? ? Fm F']; subst. cbn [app readd].
    pose proof (readd_ok [m] h g ltac:(constructor; auto)) as (h1 & R1 & G1 & Fr1 & N1).
    cbn [readd] in R1.
    destruct (if (1 <? num_addresses m)%N then mk_Network (mkaddr (n_ver m) (n_addr m)) (MaskQuad (netmask m))
             else Ok (LHost (mkaddr (n_ver m) (n_addr m)))) as [x|e]; [|discriminate].
    injection R1 as R1. set (hs := set_objs h g (objs h g ++ [HLeaf x])) in *.
    destruct (IH hs g F' W V Nb) as (h' & R & G & Fr & Nx).
    exists h'. split; [exact R|]. rewrite R1 in *. unfold objs at 1 in G. rewrite G1 in G. simpl in G.
    rewrite G. simpl. rewrite <- app_assoc. split; [reflexivity|]. split; [|congruence].
    intros g' N. rewrite Fr, Fr1; auto.
Qed.

(** ** _collapse *)
Definition strip (l : list host) : list host := filter (fun x => negb (is_any_kind x)) l.

Lemma any_leaf_kind l : any_leaf l <-> is_any_kind (HLeaf l) = true.
Proof. destruct l; simpl; unfold is_any_kind; simpl; intuition congruence. Qed.

Lemma strip_existsb h g : objs (if existsb is_any_kind (objs h g) then set_objs h g (strip (objs h g)) else h) g = strip (objs h g).
Proof.
  destruct (existsb is_any_kind (objs h g)) eqn:E; [apply objs_set_same|].
  unfold strip. assert (H : forall x, In x (objs h g) -> is_any_kind x = false).
  { intros x Hx. destruct (is_any_kind x) eqn:K; auto. assert (existsb is_any_kind (objs h g) = true); [|congruence].
    apply existsb_exists. eauto. }
  clear E. induction (objs h g) as [|x l IH]; auto. simpl. rewrite (H x (or_introl eq_refl)). simpl.
  f_equal. apply IH. intros; apply H; now right.
Qed.

Definition ip_leaf (i : ipobj) : host := match i with IAddr a => HLeaf (LHost a) | INet n => HLeaf (LNet n) end.

Lemma map_ip_of l : (forall x, In x l -> exists i, x = ip_leaf i) ->
  exists is, map_r ip_of l = Ok is /\ l = map ip_leaf is.
Proof.
  induction l as [|x l IH]; intros H; [exists []; auto|].
  destruct (H x (or_introl eq_refl)) as (i & ->). destruct IH as (is & E & ->); [intros; apply H; now right|].
  exists (i :: is). cbn [map_r]. assert (ip_of (ip_leaf i) = Ok i) as -> by (destruct i; reflexivity).
  cbn [bind]. rewrite E. split; reflexivity.
Qed.

(** What [_collapse] does to the heap, whatever the outcome: only [g] changes. *)
Lemma readd_frame l : forall h g, let '(h', r) := readd h g l in
  (forall g', g' <> g -> h_get h' g' = h_get h g') /\ h_next h' = h_next h /\
  g_name (h_get h' g) = g_name (h_get h g) /\ (forall o, r = Ok o -> o = g).
Proof.
  induction l as [|n l IH]; intros h g; cbn [readd].
  - repeat split; auto. congruence.
  - destruct (if (1 <? num_addresses n)%N then mk_Network (mkaddr (n_ver n) (n_addr n)) (MaskQuad (netmask n))
             else Ok (LHost (mkaddr (n_ver n) (n_addr n)))) as [x|e]; [|repeat split; auto; discriminate].
    specialize (IH (set_objs h g (objs h g ++ [HLeaf x])) g). destruct (readd _ g l) as [h' r].
    destruct IH as (A & B & C & D). repeat split; auto.
    + intros g' N. rewrite A by auto. now apply get_set_other.
    + rewrite C, get_set_same. reflexivity.
Qed.

Lemma collapse__frame h g : let '(h', r) := collapse_ h g in
  (forall g', g' <> g -> h_get h' g' = h_get h g') /\ h_next h' = h_next h /\
  g_name (h_get h' g) = g_name (h_get h g) /\ (forall o, r = Ok o -> o = g).
Proof.
  unfold collapse_. set (h1 := if existsb is_any_kind (objs h g)
    then set_objs h g (filter (fun x => negb (is_any_kind x)) (objs h g)) else h).
  assert (H1 : (forall g', g' <> g -> h_get h1 g' = h_get h g') /\ h_next h1 = h_next h /\
    g_name (h_get h1 g) = g_name (h_get h g)).
  { unfold h1. destruct (existsb is_any_kind (objs h g)); [|auto].
    split; [intros; now apply get_set_other|]. split; [reflexivity|]. rewrite get_set_same. reflexivity. }
  destruct H1 as (A & B & C).
  destruct (map_r ip_of (objs h1 g)) as [is|e]; [|repeat split; auto; discriminate].
  destruct (collapse_addresses is) as [l|e].
  - pose proof (readd_frame l (set_objs h1 g []) g) as R. destruct (readd _ g l) as [h' r].
    destruct R as (A' & B' & C' & D'). repeat split; auto.
    + intros g' N. rewrite A', get_set_other; auto.
    + rewrite B'. exact B.
    + rewrite C', get_set_same. exact C.
  - repeat split; auto; try discriminate.
    + intros g' N. rewrite get_set_other; auto.
    + rewrite get_set_same. exact C.
Qed.

(** Members of one version (besides any terms): the canonical blocks. *)
Lemma collapse__ok v h g :
  (forall x, In x (objs h g) -> exists l, x = HLeaf l /\ leaf_wf l /\ (concrete v l \/ any_leaf l)) ->
  exists nets, canonical nets /\ Forall (fun n => n_ver n = v) nets /\
    (forall a, net_covers nets a <-> concrete_matches h (HGrp g) a) /\
    ((Forall fits nets /\ exists h', collapse_ h g = (h', Ok g) /\
       h_get h' g = mkgroup (g_name (h_get h g)) (g_descr (h_get h g)) (g_proto (h_get h g)) (map member_of nets)) \/
     (v = V6 /\ exists l1 n l2 h', nets = l1 ++ n :: l2 /\ Forall fits l1 /\ n_plen n <> bits V6 /\
       collapse_ h g = (h', Err ValueError) /\
       h_get h' g = mkgroup (g_name (h_get h g)) (g_descr (h_get h g)) (g_proto (h_get h g)) (map member_of l1))).
Proof.
  intros H.
  assert (Hs : forall x, In x (strip (objs h g)) -> exists i, x = ip_leaf i /\ item_wf i /\ item_ver i = v).
  { intros x Hx. unfold strip in Hx. apply filter_In in Hx. destruct Hx as [Hx Na].
    destruct (H x Hx) as (l & -> & W & [C|C]).
    - destruct l as [a|n| | | | | | | | |]; simpl in C; try contradiction;
        [exists (IAddr a)|exists (INet n)]; simpl; auto.
    - apply any_leaf_kind in C. rewrite C in Na. discriminate. }
  destruct (map_ip_of (strip (objs h g))) as (is & E & Els).
  { intros x Hx. destruct (Hs x Hx) as (i & -> & _). eauto. }
  assert (Hi : forall i, In i is -> item_wf i /\ item_ver i = v).
  { intros i Hi. destruct (Hs (ip_leaf i)) as (j & Ej & K).
    - rewrite Els. now apply in_map.
    - replace i with j; auto. destruct i, j; simpl in Ej; congruence. }
  destruct (collapse_ok v is) as (nets & Ec & Cn & Vn & Cov).
  { apply Forall_forall. intros; apply Hi; auto. } { apply Forall_forall. intros; apply Hi; auto. }
  exists nets. split; auto. split; auto. split.
  { intros a. rewrite Cov. split.
    - intros (i & Ii & M). assert (In (ip_leaf i) (strip (objs h g))) as Hx by (rewrite Els; now apply in_map).
      apply filter_In in Hx. destruct Hx as [Hx Na].
      exists (match i with IAddr a => LHost a | INet n => LNet n end).
      split; [econstructor; [exact Hx|]; destruct i; constructor|]. destruct i; simpl; auto.
    - intros (l & R & Na & M). inversion R as [| |? m ? Hm Rm]; subst.
      destruct (H m Hm) as (l' & -> & _). inversion Rm; subst.
      assert (Hx : In (HLeaf l) (strip (objs h g))).
      { apply filter_In. split; auto. destruct (is_any_kind (HLeaf l)) eqn:K; auto. apply any_leaf_kind in K. contradiction. }
      rewrite Els in Hx. apply in_map_iff in Hx. destruct Hx as (i & Ei & Ii).
      exists i. split; auto. destruct i; simpl in *; injection Ei as <-; exact M. }
  unfold collapse_. set (h1 := if existsb is_any_kind (objs h g)
    then set_objs h g (filter (fun x => negb (is_any_kind x)) (objs h g)) else h).
  assert (O1 : objs h1 g = strip (objs h g)) by apply strip_existsb.
  assert (G1 : g_name (h_get h1 g) = g_name (h_get h g) /\ g_descr (h_get h1 g) = g_descr (h_get h g) /\
               g_proto (h_get h1 g) = g_proto (h_get h g)).
  { unfold h1. destruct (existsb is_any_kind (objs h g)); [|auto]. rewrite get_set_same. auto. }
  rewrite O1, E, Ec. set (h2 := set_objs h1 g []).
  assert (O2 : objs h2 g = []) by apply objs_set_same.
  assert (G2 : g_name (h_get h2 g) = g_name (h_get h g) /\ g_descr (h_get h2 g) = g_descr (h_get h g) /\
               g_proto (h_get h2 g) = g_proto (h_get h g)).
  { unfold h2. rewrite get_set_same. exact G1. }
  destruct G2 as (Gn & Gd & Gp).
  destruct Cn as (Wn & Inc & Nm).
  destruct v.
  - left. assert (F : Forall fits nets).
    { rewrite Forall_forall in *. intros n Hn. split; auto. }
    split; auto. destruct (readd_ok nets h2 g F) as (h' & R & G & _). exists h'. split; auto.
    rewrite G, O2, Gn, Gd, Gp. reflexivity.
  - assert (D : Forall fits nets \/ exists l1 n l2, nets = l1 ++ n :: l2 /\ Forall fits l1 /\ n_plen n <> bits V6).
    { clear -Wn Vn. induction nets as [|n nets IH]; [left; constructor|].
      inversion Wn as [|? ? Wa Wb]; subst. inversion Vn as [|? ? Va Vb]; subst.
      destruct (N.eq_dec (n_plen n) (bits V6)) as [Eb|Nb].
      - assert (fits n) by (split; auto; right; rewrite Va; auto).
        destruct (IH Wb Vb) as [F|(l1 & m & l2 & -> & F & Nb)]; [left; constructor; auto|].
        right. exists (n :: l1), m, l2. split; auto.
      - right. exists [], n, nets. auto. }
    destruct D as [F|(l1 & n & l2 & -> & F & Nb)].
    + left. split; auto. destruct (readd_ok nets h2 g F) as (h' & R & G & _). exists h'. split; auto.
      rewrite G, O2, Gn, Gd, Gp. reflexivity.
    + right. split; auto. rewrite Forall_forall in Wn, Vn.
      assert (In n (l1 ++ n :: l2)) as Hn by (apply in_or_app; right; now left).
      destruct (readd_v6 l1 n l2 h2 g F (Wn n Hn) (Vn n Hn)) as (h' & R & G & _); [rewrite (Vn n Hn); auto|].
      exists l1, n, l2, h'. split; [auto|]. split; [auto|]. split; [auto|]. split; [exact R|].
      rewrite G, O2, Gn, Gd, Gp. reflexivity.
Qed.

(** Mixed versions: TypeError, after the group was emptied. *)
Lemma collapse__mixed h g a b :
  (forall x, In x (objs h g) -> is_any_kind x = true \/ exists i, x = ip_leaf i /\ item_wf i) ->
  In (ip_leaf a) (objs h g) -> In (ip_leaf b) (objs h g) -> item_ver a <> item_ver b ->
  exists h', collapse_ h g = (h', Err TypeError) /\ objs h' g = [].
Proof.
  intros H Ia Ib Ne. unfold collapse_.
  assert (Hs : forall x, In x (strip (objs h g)) -> exists i, x = ip_leaf i /\ item_wf i).
  { intros x Hx. apply filter_In in Hx. destruct Hx as [Hx K]. destruct (H x Hx) as [A|A]; auto.
    rewrite A in K. discriminate K. }
  assert (Is : forall i, In (ip_leaf i) (objs h g) -> In (ip_leaf i) (strip (objs h g))).
  { intros i Hi. apply filter_In. split; auto. destruct i; reflexivity. }
  apply Is in Ia. apply Is in Ib.
  set (h1 := if existsb is_any_kind (objs h g)
    then set_objs h g (filter (fun x => negb (is_any_kind x)) (objs h g)) else h).
  assert (O1 : objs h1 g = strip (objs h g)) by apply strip_existsb. rewrite O1.
  destruct (map_ip_of (strip (objs h g))) as (is & E & Els).
  { intros x Hx. destruct (Hs x Hx) as (i & -> & _). eauto. }
  rewrite E.
  assert (inj : forall i j, ip_leaf i = ip_leaf j -> i = j) by (intros [] []; simpl; congruence).
  assert (Hi : forall i, In i is -> item_wf i).
  { intros i Hi. destruct (Hs (ip_leaf i)) as (j & Ej & K); [rewrite Els; now apply in_map|].
    apply inj in Ej. congruence. }
  rewrite (collapse_mixed is a b); auto.
  - eexists. split; [reflexivity|]. apply objs_set_same.
  - apply Forall_forall. auto.
  - rewrite Els in Ia. apply in_map_iff in Ia. destruct Ia as (i & Ei & Ii). apply inj in Ei. congruence.
  - rewrite Els in Ib. apply in_map_iff in Ib. destruct Ib as (i & Ei & Ii). apply inj in Ei. congruence.
Qed.

(** ** Sorting *)
Lemma map_r_ok {A B} (f : A -> result B) l ys : map_r f l = Ok ys -> Forall2 (fun x y => f x = Ok y) l ys.
Proof.
  revert ys. induction l as [|x l IH]; intros ys; cbn [map_r].
  - intros H. injection H as <-. constructor.
  - destruct (f x) as [y|e] eqn:E; [|discriminate]. cbn [bind].
    destruct (map_r f l) as [ys'|e]; [|discriminate]. cbn [bind]. intros H. injection H as <-. constructor; auto.
Qed.

Lemma map_r_all {A B} (f : A -> result B) l : (forall x, In x l -> exists y, f x = Ok y) -> exists ys, map_r f l = Ok ys.
Proof.
  induction l as [|x l IH]; intros H; [exists []; auto|].
  destruct (H x (or_introl eq_refl)) as (y & E). destruct IH as (ys & Es); [intros; apply H; now right|].
  exists (y :: ys). cbn [map_r]. rewrite E. cbn [bind]. rewrite Es. reflexivity.
Qed.

Lemma map_r_err {A B} (f : A -> result B) l e : map_r f l = Err e -> exists x, In x l /\ f x = Err e.
Proof.
  induction l as [|x l IH]; cbn [map_r]; [discriminate|].
  destruct (f x) as [y|e'] eqn:E; cbn [bind].
  - destruct (map_r f l) as [ys|e'] eqn:Em; cbn [bind]; [discriminate|]. intros H. injection H as ->.
    destruct (IH eq_refl) as (z & Hz & Ez). exists z. simpl; auto.
  - intros H. injection H as ->. exists x. simpl; auto.
Qed.

Lemma StronglySorted_map {A B} (f : A -> B) (R : B -> B -> Prop) l :
  StronglySorted (fun x y => R (f x) (f y)) l -> StronglySorted R (map f l).
Proof.
  induction 1 as [|x l S IH F]; simpl; constructor; auto. rewrite Forall_map. exact F.
Qed.

Lemma StronglySorted_impl {A} (R R' : A -> A -> Prop) l : (forall x y, In x l -> In y l -> R x y -> R' x y) ->
  StronglySorted R l -> StronglySorted R' l.
Proof.
  induction l as [|x l IH]; intros H S; [constructor|]. inversion S as [|? ? S' F]; subst. constructor.
  - apply IH; auto. intros; apply H; simpl; auto.
  - rewrite Forall_forall in *. intros y Hy. apply H; simpl; auto.
Qed.

Lemma filter_map_snd {A B} (p : B -> bool) (l : list (A * B)) :
  filter p (map snd l) = map snd (filter (fun q => p (snd q)) l).
Proof. induction l as [|[a b] l IH]; auto. simpl. destruct (p b); simpl; rewrite IH; reflexivity. Qed.

Lemma filter_ext_in' {A} (p q : A -> bool) l : (forall x, In x l -> p x = q x) -> filter p l = filter q l.
Proof. apply filter_ext_in. Qed.

Section SortBy.
  Context {X K : Type} (ltb : K -> K -> bool) (key : X -> result K).
  Hypothesis tot : forall a b, ltb a b = false \/ ltb b a = false.
  Hypothesis trans : forall a b c, ltb b a = false -> ltb c b = false -> ltb c a = false.

  Lemma sort_by_ok l l' : sort_by ltb key l = Ok l' -> stable_sort_of ltb key l l'.
  Proof.
    unfold sort_by. destruct (map_r key l) as [ks|e] eqn:E; [|discriminate]. cbn [bind]. intros H.
    injection H as <-. apply map_r_ok in E.
    set (lt2 := fun a b : K * X => ltb (fst a) (fst b)).
    assert (T2 : forall x y, le lt2 x y \/ le lt2 y x) by (intros x y; unfold le, lt2; apply tot).
    assert (Tr2 : forall x y z, le lt2 x y -> le lt2 y z -> le lt2 x z).
    { intros x y z. unfold le, lt2. intros A B. eapply trans; eauto. }
    assert (Hp : map snd (combine ks l) = l).
    { clear -E. induction E; simpl; auto. now rewrite IHE. }
    assert (Hk : forall q, In q (combine ks l) -> key (snd q) = Ok (fst q)).
    { clear -E. induction E as [|x k l ks Hx E IH]; simpl; [intros q []|]. intros q [<-|Hq]; auto. }
    assert (Pm : Permutation (combine ks l) (sorted lt2 (combine ks l))) by apply sorted_perm.
    assert (Hk' : forall q, In q (sorted lt2 (combine ks l)) -> key (snd q) = Ok (fst q)).
    { intros q Hq. apply Hk. eapply Permutation_in; [apply Permutation_sym; exact Pm|exact Hq]. }
    split; [|split].
    - rewrite <- Hp at 1. now apply Permutation_map.
    - apply StronglySorted_map. eapply StronglySorted_impl; [|apply (sorted_sorted lt2 T2 Tr2)].
      intros x y Hx Hy L a b Ha Hb. rewrite Hk' in Ha, Hb by auto. injection Ha as <-. injection Hb as <-. exact L.
    - intros k. rewrite <- Hp at 2. rewrite !filter_map_snd. f_equal.
      destruct (combine ks l) as [|[k0 x0] r] eqn:Ec; [reflexivity|]. rewrite <- Ec in *.
      assert (F : forall q, In q (combine ks l) -> has_key ltb key k (snd q) = same_key lt2 (k, x0) q).
      { intros q Hq. unfold has_key. rewrite Hk by auto. unfold same_key, lt2. simpl. apply andb_comm. }
      rewrite (filter_ext_in (fun q => has_key ltb key k (snd q)) (same_key lt2 (k, x0)) (sorted lt2 (combine ks l))).
      2:{ intros q Hq. apply F. eapply Permutation_in; [apply Permutation_sym; exact Pm|exact Hq]. }
      rewrite (filter_ext_in (fun q => has_key ltb key k (snd q)) (same_key lt2 (k, x0)) (combine ks l)) by exact F.
      apply (sorted_stable lt2 Tr2).
  Qed.

  Lemma sort_by_total l : (forall x, In x l -> exists k, key x = Ok k) -> exists l', sort_by ltb key l = Ok l'.
  Proof. intros H. destruct (map_r_all key l H) as (ks & E). unfold sort_by. rewrite E. cbn [bind]. eauto. Qed.

  Lemma sort_by_err l e : sort_by ltb key l = Err e -> exists x, In x l /\ key x = Err e.
  Proof.
    unfold sort_by. destruct (map_r key l) as [ks|e'] eqn:E; cbn [bind]; [discriminate|].
    intros H. injection H as ->. eapply map_r_err; eauto.
  Qed.
End SortBy.

Lemma Zltb_tot a b : Z.ltb a b = false \/ Z.ltb b a = false.
Proof. lia. Qed.
Lemma Zltb_trans a b c : Z.ltb b a = false -> Z.ltb c b = false -> Z.ltb c a = false.
Proof. lia. Qed.

Lemma str_eqb_spec a b : reflect (a = b) (str_eqb a b).
Proof.
  revert b. induction a as [|x a IH]; intros [|y b]; simpl; try (constructor; congruence).
  destruct (N.eqb_spec x y) as [->|N]; simpl; [|constructor; congruence].
  destruct (IH b) as [->|N]; constructor; congruence.
Qed.

Lemma str_ltb_irrefl a : str_ltb a a = false.
Proof. induction a as [|x a IH]; auto. simpl. rewrite N.ltb_irrefl. exact IH. Qed.

Lemma str_tricho a b : str_ltb a b = true /\ str_ltb b a = false /\ a <> b \/
  a = b \/ str_ltb a b = false /\ str_ltb b a = true /\ a <> b.
Proof.
  revert b. induction a as [|x a IH]; intros [|y b]; simpl; auto.
  - left. repeat split; congruence.
  - right. right. repeat split; congruence.
  - destruct (N.ltb_spec x y), (N.ltb_spec y x); try lia.
    + left. repeat split; auto. intros E. injection E as -> _. lia.
    + right. right. repeat split; auto. intros E. injection E as -> _. lia.
    + assert (x = y) as -> by lia. destruct (IH b) as [(A & B & C)|[->|(A & B & C)]]; auto.
      * left. repeat split; auto. congruence.
      * right. right. repeat split; auto. congruence.
Qed.

Lemma str_ltb_trans a b c : str_ltb a b = true -> str_ltb b c = true -> str_ltb a c = true.
Proof.
  revert b c. induction a as [|x a IH]; intros [|y b] [|z c]; simpl; try congruence.
  destruct (N.ltb_spec x y), (N.ltb_spec y x), (N.ltb_spec y z), (N.ltb_spec z y), (N.ltb_spec x z), (N.ltb_spec z x);
    try lia; try congruence. apply IH.
Qed.

Lemma str_le_trans a b c : str_ltb b a = false -> str_ltb c b = false -> str_ltb c a = false.
Proof.
  intros H1 H2. destruct (str_tricho a c) as [(A & B & C)|[->|(A & B & C)]]; auto.
  - apply str_ltb_irrefl.
  - destruct (str_tricho a b) as [(D & E & F)|[->|(D & E & F)]]; try congruence.
    pose proof (str_ltb_trans c a b B D). congruence.
Qed.

Lemma skey_trans x y z : skey_ltb x y = true -> skey_ltb y z = true -> skey_ltb x z = true.
Proof.
  destruct x as [[[[n a] b] c] d], y as [[[[n' a'] b'] c'] d'], z as [[[[m e] f] g] i]. cbn [skey_ltb].
  destruct (str_eqb_spec n n') as [->|N1], (str_eqb_spec n' m) as [->|N2]; cbn [negb]; intros H1 H2.
  - destruct (str_eqb_spec m m) as [_|N3]; [|congruence]. cbn [negb].
    destruct (Z.eqb_spec a a'), (Z.eqb_spec a' e), (Z.eqb_spec a e); cbn [negb] in *; try lia.
    destruct (Z.eqb_spec b b'), (Z.eqb_spec b' f), (Z.eqb_spec b f); cbn [negb] in *; try lia.
    destruct (str_eqb_spec c c') as [->|N4], (str_eqb_spec c' g) as [->|N5]; cbn [negb] in *.
    + destruct (str_eqb_spec g g) as [_|]; [|congruence]. cbn [negb]. eapply str_ltb_trans; eauto.
    + destruct (str_eqb_spec c' g) as [->|]; [congruence|]. auto.
    + destruct (str_eqb_spec c g) as [->|]; [congruence|]. auto.
    + destruct (str_eqb_spec c g) as [->|N6]; cbn [negb].
      * pose proof (str_ltb_trans _ _ _ H1 H2) as T. rewrite str_ltb_irrefl in T. discriminate.
      * eapply str_ltb_trans; eauto.
  - destruct (str_eqb_spec n' m) as [->|]; [congruence|]. auto.
  - destruct (str_eqb_spec n m) as [->|]; [congruence|]. auto.
  - destruct (str_eqb_spec n m) as [->|N3]; cbn [negb].
    + pose proof (str_ltb_trans _ _ _ H1 H2) as T. rewrite str_ltb_irrefl in T. discriminate.
    + eapply str_ltb_trans; eauto.
Qed.

Lemma skey_tricho x y : skey_ltb x y = true \/ x = y \/ skey_ltb y x = true.
Proof.
  destruct x as [[[[n a] b] c] d], y as [[[[n' a'] b'] c'] d']. cbn [skey_ltb].
  destruct (str_eqb_spec n n') as [->|N1]; cbn [negb].
  2:{ destruct (str_eqb_spec n' n) as [->|_]; [congruence|]. cbn [negb].
      destruct (str_tricho n n') as [(A & _)|[A|(_ & A & _)]]; auto; congruence. }
  destruct (str_eqb_spec n' n') as [_|]; [|congruence]. cbn [negb].
  destruct (Z.eqb_spec a a') as [Ea|Na]; cbn [negb].
  2:{ destruct (Z.eqb_spec a' a); cbn [negb]; lia. }
  subst a'. rewrite Z.eqb_refl. cbn [negb].
  destruct (Z.eqb_spec b b') as [Eb|Nb]; cbn [negb].
  2:{ destruct (Z.eqb_spec b' b); cbn [negb]; lia. }
  subst b'. rewrite Z.eqb_refl. cbn [negb].
  destruct (str_eqb_spec c c') as [->|N2]; cbn [negb].
  2:{ destruct (str_eqb_spec c' c) as [->|_]; [congruence|]. cbn [negb].
      destruct (str_tricho c c') as [(A & _)|[A|(_ & A & _)]]; auto; congruence. }
  destruct (str_eqb_spec c' c') as [_|]; [|congruence]. cbn [negb].
  destruct (str_tricho d d') as [(A & _)|[->|(_ & A & _)]]; auto.
Qed.

Lemma skey_irrefl x : skey_ltb x x = false.
Proof.
  destruct x as [[[[n a] b] c] d]. cbn [skey_ltb].
  destruct (str_eqb_spec n n); [|congruence]. rewrite !Z.eqb_refl. destruct (str_eqb_spec c c); [|congruence].
  cbn [negb]. apply str_ltb_irrefl.
Qed.

Lemma skey_tot a b : skey_ltb a b = false \/ skey_ltb b a = false.
Proof.
  destruct (skey_ltb a b) eqn:E; auto. right. destruct (skey_ltb b a) eqn:F; auto.
  pose proof (skey_trans _ _ _ E F) as T. rewrite skey_irrefl in T. discriminate.
Qed.

Lemma skey_le_trans a b c : skey_ltb b a = false -> skey_ltb c b = false -> skey_ltb c a = false.
Proof.
  intros H1 H2. destruct (skey_ltb c a) eqn:E; auto.
  destruct (skey_tricho a b) as [L|[->|L]]; try congruence.
  pose proof (skey_trans _ _ _ E L). congruence.
Qed.

(** ** nstrsum (C45) *)
Lemma nstrsum_from_neg s : forall idx, (forall c, In c s -> (c < 255)%N) ->
  (s <> [] -> nstrsum_from idx s < 0)%Z /\ (nstrsum_from idx s <= 0)%Z.
Proof.
  induction s as [|c s IH]; intros idx H; [split; [congruence|simpl; lia]|].
  cbn [nstrsum_from]. destruct (IH (idx + 1)%N) as [_ L]; [intros; apply H; now right|].
  pose proof (H c (or_introl eq_refl)) as Hc.
  assert (0 < 2 ^ Z.of_N idx)%Z by (apply Z.pow_pos_nonneg; lia).
  assert ((Z.of_N c - 255) * 2 ^ Z.of_N idx < 0)%Z by (apply Z.mul_neg_pos; lia).
  split; intros; lia.
Qed.
