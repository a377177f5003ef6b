(** C15, C45: sorting groups. *)
From Coq Require Import Lia Permutation Sorted.
From Verif.Model Require Import Base Ip Hosts Groups.
From Verif.Spec Require Import AddrSpec GroupSpec SortSpec.
From Verif.Proofs Require Import AndFacts SortFacts GroupFacts GroupOps.
From Verif.Props Require Import Collapse.

(** ** The model's keys are the specified ones. *)
Lemma nstrsum_from_weight s : forall i, nstrsum_from i s = (2 ^ Z.of_N i * name_weight s)%Z.
Proof.
  induction s as [|c s IH]; intros i; cbn [nstrsum_from name_weight]; [lia|].
  rewrite IH. replace (Z.of_N (i + 1)) with (Z.of_N i + 1)%Z by lia.
  rewrite Z.pow_add_r by lia. lia.
Qed.
Lemma nstrsum_weight s : nstrsum s = name_weight s.
Proof. unfold nstrsum. rewrite nstrsum_from_weight. change (2 ^ Z.of_N 0)%Z with 1%Z. lia. Qed.

Definition agrees {X K} (key : X -> result K) (skey : X -> option K) : Prop :=
  forall x, match skey x with Some k => key x = Ok k | None => exists e, key x = Err e end.

Lemma net_key_agrees h : agrees (net_key h) (net_sort_key h).
Proof. intros [[]|o|g]; cbn; rewrite <- ?nstrsum_weight; eauto. Qed.
Lemma proto_key_agrees py h : agrees (proto_key py h) (proto_sort_key py h).
Proof.
  intros [n|g]; cbn; rewrite <- ?nstrsum_weight; auto. destruct (py n); [reflexivity|].
  now rewrite nstrsum_weight.
Qed.
Lemma num_key_agrees py sv s : num_key py sv (Some s) = Ok (portnum_sort_key py sv s).
Proof.
  unfold num_key, portnum_sort_key. destruct (py s); [reflexivity|]. destruct (sv s); [reflexivity|].
  now rewrite nstrsum_weight.
Qed.
Lemma port_key_agrees py sv h : agrees (port_key py sv h) (port_sort_key py sv h).
Proof.
  intros [op [s|]|[s|] stop|g]; cbn [port_sort_key port_key]; rewrite <- ?nstrsum_weight;
    try apply num_key_agrees; cbn; eauto.
Qed.

(** The service key as a nested pair. *)
Definition nest (k : skey) : pystr * (Z * (Z * (pystr * pystr))) :=
  let '(n, a, b, c, d) := k in (n, (a, (b, (c, d)))).
Definition service_key' py sv hp h x : result (pystr * (Z * (Z * (pystr * pystr)))) :=
  match service_key py sv hp h x with Ok k => Ok (nest k) | Err e => Err e end.

Lemma opt_port_agrees py sv hp p :
  match opt_port_key py sv hp p with
  | Some k => match p with Some p => port_key py sv hp p | None => Ok 0%Z end = Ok k
  | None => exists e, match p with Some p => port_key py sv hp p | None => Ok 0%Z end = Err e
  end.
Proof. destruct p as [p|]; cbn [opt_port_key]; [apply (port_key_agrees py sv hp p)|reflexivity]. Qed.

Lemma service_key_agrees py sv hp h : agrees (service_key' py sv hp h) (service_sort_key py sv hp h).
Proof.
  unfold service_key'. intros [s|n d s|g]; cbn [service_sort_key service_key]; [| |reflexivity];
    pose proof (opt_port_agrees py sv hp (sv_src s)) as A; pose proof (opt_port_agrees py sv hp (sv_dst s)) as B;
    (destruct (opt_port_key py sv hp (sv_src s)) as [a|];
      [rewrite A; cbn [bind]|destruct A as (ea & A); rewrite A; cbn [bind]; eauto]);
    (destruct (opt_port_key py sv hp (sv_dst s)) as [b|];
      [rewrite B; cbn [bind nest]|destruct B as (eb & B); rewrite B; cbn [bind]; eauto]);
    unfold opt_str; destruct (sv_icmp_code s), (sv_icmp_type s); reflexivity.
Qed.

(** ** Comparisons *)
Lemma str_compare_ltb a b : str_ltb a b = match str_compare a b with Lt => true | _ => false end.
Proof.
  revert b. induction a as [|x a IH]; intros [|y b]; cbn; auto.
  destruct (N.compare_spec x y) as [->|L|L].
  - rewrite N.ltb_irrefl. apply IH.
  - apply N.ltb_lt in L. now rewrite L.
  - assert ((x <? y)%N = false) as -> by lia. apply N.ltb_lt in L. now rewrite L.
Qed.
Lemma str_compare_eq a b : str_compare a b = Eq <-> a = b.
Proof.
  revert b. induction a as [|x a IH]; intros [|y b]; cbn; split; intros H; try discriminate; auto.
  - destruct (N.compare_spec x y) as [->|L|L]; try discriminate. f_equal. now apply IH.
  - injection H as -> ->. rewrite N.compare_refl. now apply IH.
Qed.
Lemma str_eqb_compare a b : str_eqb a b = match str_compare a b with Eq => true | _ => false end.
Proof.
  destruct (str_eqb_spec a b) as [->|N].
  - now rewrite (proj2 (str_compare_eq b b) eq_refl).
  - destruct (str_compare a b) eqn:E; auto. apply str_compare_eq in E. contradiction.
Qed.
Lemma Zltb_compare a b : Z.ltb a b = match Z.compare a b with Lt => true | _ => false end.
Proof. reflexivity. Qed.
Lemma Zeqb_compare a b : Z.eqb a b = match Z.compare a b with Eq => true | _ => false end.
Proof. destruct (Z.compare_spec a b); lia. Qed.
Lemma skey_ltb_compare x y :
  skey_ltb x y = match service_compare (nest x) (nest y) with Lt => true | _ => false end.
Proof.
  destruct x as [[[[n a] b] c] d], y as [[[[n' a'] b'] c'] d'].
  unfold service_compare, lex. cbn [nest fst snd skey_ltb].
  rewrite str_eqb_compare, str_compare_ltb. destruct (str_compare n n'); cbn [negb]; auto.
  rewrite Zeqb_compare, Zltb_compare. destruct (Z.compare a a'); cbn [negb]; auto.
  rewrite Zeqb_compare, Zltb_compare. destruct (Z.compare b b'); cbn [negb]; auto.
  rewrite str_eqb_compare, str_compare_ltb. destruct (str_compare c c'); cbn [negb]; auto.
  rewrite str_compare_ltb. reflexivity.
Qed.
Lemma str_compare_antisym a b : str_compare b a = CompOpp (str_compare a b).
Proof.
  revert b. induction a as [|x a IH]; intros [|y b]; cbn; auto.
  rewrite (N.compare_antisym x y). destruct (N.compare x y); cbn; auto.
Qed.
Lemma lex_antisym {A B} (ca : A -> A -> comparison) (cb : B -> B -> comparison) :
  (forall a b, ca b a = CompOpp (ca a b)) -> (forall a b, cb b a = CompOpp (cb a b)) ->
  forall x y, lex ca cb y x = CompOpp (lex ca cb x y).
Proof. intros Ha Hb x y. unfold lex. rewrite Ha. destruct (ca (fst x) (fst y)); cbn; auto. Qed.
Lemma service_compare_antisym x y : service_compare y x = CompOpp (service_compare x y).
Proof.
  unfold service_compare. repeat apply lex_antisym; auto using str_compare_antisym, Z.compare_antisym.
Qed.

(** From the model's sort to the specification. *)
Lemma stable_to_spec {X K K'} (ltb : K -> K -> bool) (cmp : K' -> K' -> comparison) (f : K -> K')
    (key : X -> result K) (skey : X -> option K') l l' :
  (forall x y, ltb x y = match cmp (f x) (f y) with Lt => true | _ => false end) ->
  (forall x y, cmp y x = CompOpp (cmp x y)) ->
  (forall k', exists k, f k = k') ->
  (forall x, match skey x with Some k' => exists k, key x = Ok k /\ f k = k' | None => exists e, key x = Err e end) ->
  stable_sort_of ltb key l l' -> stably_sorted cmp skey l l'.
Proof.
  intros Hl Ha Hs Hk (P & S & F). split; [exact P|]. split.
  - eapply StronglySorted_impl; [|exact S]. intros x y _ _ H a b Ea Eb.
    pose proof (Hk x) as Kx. rewrite Ea in Kx. destruct Kx as (ka & Kx & <-).
    pose proof (Hk y) as Ky. rewrite Eb in Ky. destruct Ky as (kb & Ky & <-).
    specialize (H ka kb Kx Ky). rewrite Hl in H. rewrite (Ha (f kb) (f ka)).
    destruct (cmp (f kb) (f ka)); cbn; try discriminate.
  - intros k'. cbn zeta. destruct (Hs k') as (k & <-).
    assert (E : forall x, match skey x with Some a => match cmp a (f k) with Eq => true | _ => false end | None => false end
                = has_key ltb key k x).
    { intros x. unfold has_key. specialize (Hk x). destruct (skey x) as [a|].
      - destruct Hk as (ka & -> & <-). rewrite !Hl. rewrite (Ha (f ka) (f k)).
        destruct (cmp (f ka) (f k)); reflexivity.
      - destruct Hk as (e & ->). reflexivity. }
    rewrite !(filter_ext _ _ E). apply F.
Qed.

Lemma Z_sorted {X} (key : X -> result Z) skey l l' : agrees key skey ->
  sort_by Z.ltb key l = Ok l' -> stably_sorted Z.compare skey l l'.
Proof.
  intros A E. apply (stable_to_spec Z.ltb Z.compare (fun z => z) key skey).
  - reflexivity.
  - apply Z.compare_antisym.
  - eauto.
  - intros x. specialize (A x). destruct (skey x); eauto.
  - apply sort_by_ok; [exact Zltb_tot|intros; eapply Zltb_trans; eauto|exact E].
Qed.

(** ** C15 *)

(** What sorting in place means: exactly the members are rearranged, and on failure
    nothing changes. *)
Definition sorts_in_place {X K} (cmp : K -> K -> comparison) (key : gheap X -> X -> option K)
    (op : gheap X -> gid -> gheap X * result gid) : Prop :=
  forall h g,
    ((forall x, In x (objs h g) -> key h x <> None) ->
     exists h', op h g = (h', Ok g) /\
       stably_sorted cmp (key h) (objs h g) (objs h' g) /\
       same_header (h_get h g) (h_get h' g) /\
       (forall g', g' <> g -> h_get h' g' = h_get h g') /\ h_next h' = h_next h) /\
    ((exists x, In x (objs h g) /\ key h x = None) -> exists e, op h g = (h, Err e)).

Lemma sort_in_place_lemma {X K K'} (ltb : K -> K -> bool) (cmp : K' -> K' -> comparison) (f : K -> K')
    (key : gheap X -> X -> result K) (skey : gheap X -> X -> option K') :
  (forall a b, ltb a b = false \/ ltb b a = false) ->
  (forall a b c, ltb b a = false -> ltb c b = false -> ltb c a = false) ->
  (forall x y, ltb x y = match cmp (f x) (f y) with Lt => true | _ => false end) ->
  (forall x y, cmp y x = CompOpp (cmp x y)) ->
  (forall k', exists k, f k = k') ->
  (forall h x, match skey h x with Some k' => exists k, key h x = Ok k /\ f k = k' | None => exists e, key h x = Err e end) ->
  sorts_in_place cmp skey (sort_in ltb key).
Proof.
  intros T Tr Hl Ha Hs Hk h g. unfold sort_in. split.
  - intros All.
    destruct (sort_by_total ltb (key h) (objs h g)) as (l' & E).
    { intros x Hx. specialize (Hk h x). destruct (skey h x) as [k'|] eqn:Ek; [destruct Hk as (k & -> & _); eauto|].
      exfalso. now apply (All x Hx). }
    rewrite E. eexists. split; [reflexivity|]. rewrite objs_set_same, get_set_same.
    split; [|split; [repeat split|split; [intros; now apply get_set_other|reflexivity]]].
    apply (stable_to_spec ltb cmp f (key h) (skey h)); [exact Hl|exact Ha|exact Hs|exact (Hk h)|].
    apply sort_by_ok; auto.
  - intros (x & Hx & Ex). destruct (sort_by ltb (key h) (objs h g)) as [l|e] eqn:E; [|eauto].
    exfalso. unfold sort_by in E. destruct (map_r (key h) (objs h g)) as [ks|] eqn:Ek; [|discriminate].
    apply map_r_ok in Ek. specialize (Hk h x). rewrite Ex in Hk. destruct Hk as (e & Hk).
    clear -Ek Hx Hk. induction Ek as [|y k l ks Hy _ IH]; [destruct Hx|].
    destruct Hx as [->|Hx]; [congruence|auto].
Qed.

Lemma Z_in_place {X} (key : gheap X -> X -> result Z) skey : (forall h, agrees (key h) (skey h)) ->
  sorts_in_place Z.compare skey (sort_in Z.ltb key).
Proof.
  intros A. apply (sort_in_place_lemma Z.ltb Z.compare (fun z => z)).
  - apply Zltb_tot.
  - intros; eapply Zltb_trans; eauto.
  - reflexivity.
  - apply Z.compare_antisym.
  - eauto.
  - intros h x. specialize (A h x). destruct (skey h x); eauto.
Qed.

Theorem C15_sort_network : forall limit, sorts_in_place Z.compare net_sort_key (net_sort limit true).
Proof. intros limit. exact (Z_in_place net_key net_sort_key net_key_agrees). Qed.
Print Assumptions C15_sort_network.

Theorem C15_sort_protocol : forall py_int,
  sorts_in_place Z.compare (proto_sort_key py_int) (proto_sort py_int true).
Proof. intros py. exact (Z_in_place (proto_key py) _ (proto_key_agrees py)). Qed.
Print Assumptions C15_sort_protocol.

Theorem C15_sort_port : forall py_int servbyname limit,
  sorts_in_place Z.compare (port_sort_key py_int servbyname) (port_sort py_int servbyname limit true).
Proof. intros py sv limit. exact (Z_in_place (port_key py sv) _ (port_key_agrees py sv)). Qed.
Print Assumptions C15_sort_port.

Theorem C15_sort_service : forall py_int servbyname hp,
  sorts_in_place service_compare (service_sort_key py_int servbyname hp)
                 (service_sort py_int servbyname hp true).
Proof.
  intros py sv hp. apply (sort_in_place_lemma skey_ltb service_compare nest).
  - apply skey_tot.
  - intros; eapply skey_le_trans; eauto.
  - apply skey_ltb_compare.
  - apply service_compare_antisym.
  - intros (n & a & b & c & d). now exists (n, a, b, c, d).
  - intros h x. pose proof (service_key_agrees py sv hp h x) as A. unfold service_key' in A.
    destruct (service_sort_key py sv hp h x) as [k|]; destruct (service_key py sv hp h x) as [k'|e]; eauto.
    + injection A as <-. eauto.
    + discriminate.
    + destruct A as (e & A). discriminate.
Qed.
Print Assumptions C15_sort_service.

(** Sorting a network group keeps the addresses every term matches. *)
Theorem C15_sort_preserves_addresses : forall limit h g h' o,
  net_sort limit true h g = (h', Ok o) -> forall x a, matches h x a <-> matches h' x a.
Proof.
  intros limit h g h' o E. unfold net_sort in E.
  destruct (sort_by Z.ltb (net_key h) (objs h g)) as [l|] eqn:Es; [|discriminate].
  injection E as <- <-. apply (Z_sorted _ _ _ _ (net_key_agrees h)) in Es. destruct Es as (P & _).
  assert (D : forall h1 h2 : heap, (forall g' x, In x (objs h1 g') -> In x (objs h2 g')) ->
            forall x a, matches h1 x a -> matches h2 x a).
  { intros h1 h2 I x a M. induction M; econstructor; eauto. }
  intros x a. split; apply D; intros g' y; rewrite objs_set; destruct (Nat.eqb_spec g' g) as [->|]; auto;
    apply Permutation_in; [exact P|now apply Permutation_sym].
Qed.
Print Assumptions C15_sort_preserves_addresses.

(** insitu=False.  Protocol and service groups: AttributeError.  ICMP groups: never sortable. *)
Theorem C15_sort_new_missing : forall py_int servbyname hp,
  (forall h g, proto_sort py_int false h g = (h, Err AttributeError)) /\
  (forall h g, service_sort py_int servbyname hp false h g = (h, Err AttributeError)) /\
  (forall insitu h g, icmp_sort insitu h g = (h, Err NotImplementedError)).
Proof. repeat split. Qed.
Print Assumptions C15_sort_new_missing.

(** Port groups: a new group holding the sorted flattening; nothing else changes. *)
Theorem C15_sort_new_port : forall py_int servbyname h rk limit g,
  closed_heap port_sub h -> g < h_next h -> granked port_sub h rk -> rk g < limit ->
  exists l, flattening port_sub itself h g l /\
    ((forall x, In x l -> port_sort_key py_int servbyname h x <> None) ->
     exists h', port_sort py_int servbyname limit false h g = (h', Ok (h_next h)) /\
       stably_sorted Z.compare (port_sort_key py_int servbyname h) l (objs h' (h_next h)) /\
       forall g', g' < h_next h -> h_get h' g' = h_get h g').
Proof.
  intros py sv h rk limit g C Lg R L. unfold port_sort.
  destruct (port_expand_new_ok port_kind h rk limit g (fun _ => eq_refl) C Lg R L)
    as (h1 & o & l & E & F & -> & G & Nx & O & Sb).
  exists l. split; [exact F|]. intros K. rewrite E.
  assert (Ol : objs h1 (h_next h) = l) by (unfold objs; now rewrite G).
  assert (Same : forall x, In x l -> port_sort_key py sv h1 x = port_sort_key py sv h x).
  { intros x Hx. specialize (Sb x Hx). destruct x as [op [s|]|[s|] stop|g']; cbn in *; auto; discriminate. }
  destruct (proj1 (Z_in_place (port_key py sv) _ (port_key_agrees py sv) h1 (h_next h)))
    as (h2 & E2 & S & _ & Fr & _).
  { rewrite Ol. intros x Hx. rewrite Same; auto. }
  rewrite E2. exists h2. split; [reflexivity|]. split.
  - rewrite Ol in S. destruct S as (P & St & Fl). split; [exact P|].
    assert (Same' : forall x, In x (objs h2 (h_next h)) -> port_sort_key py sv h1 x = port_sort_key py sv h x).
    { intros x Hx. apply Same. eapply Permutation_in; [apply Permutation_sym, P|exact Hx]. }
    split.
    + eapply StronglySorted_impl; [|exact St]. intros x y Hx Hy H a b. rewrite <- !Same' by auto. apply H.
    + intros k. cbn zeta. specialize (Fl k). cbn zeta in Fl.
      etransitivity; [|etransitivity; [exact Fl|]]; apply filter_ext_in; intros x Hx;
        [rewrite Same' by auto|rewrite Same by auto]; reflexivity.
  - intros g' Lg'. rewrite Fr, O by lia. reflexivity.
Qed.
Print Assumptions C15_sort_new_port.

(** Network groups: the group returned for insitu=False holds the receiver's own
    members in order - nested groups included, nothing collapsed or expanded. *)
Theorem C15_sort_new_network : forall h rk limit g,
  heap_closed h -> g < h_next h -> ranked h rk -> rk g < limit -> collapsible V4 h (HGrp g) ->
  needs_expansion h g -> (forall x, In x (objs h g) -> net_sort_key h x <> None) ->
  exists h', net_sort limit false h g = (h', Ok (h_next h)) /\
    stably_sorted Z.compare (net_sort_key h) (objs h g) (objs h' (h_next h)) /\
    forall g', g' < h_next h -> h_get h' g' = h_get h g'.
Proof.
  intros h rk limit g C Lg R L Cl Ne K.
  destruct (proj1 (C09_collapse_succeeds_ipv4 h rk limit g C Lg R L Cl) Ne) as (h1 & E1).
  pose proof (C10_frame _ _ _ _ _ _ E1) as (F1 & F2 & _).
  assert (Fr : forall g', g' < h_next h -> h_get h1 g' = h_get h g').
  { intros g' Lg'. destruct (Nat.eq_dec g' g) as [->|N]; auto. }
  unfold net_sort. rewrite E1.
  assert (Og : objs h1 g = objs h g) by (unfold objs; now rewrite Fr).
  assert (Sk : forall x, In x (objs h g) -> net_sort_key h1 x = net_sort_key h x).
  { intros x Hx. destruct x as [l|o|g']; cbn; auto. rewrite Fr; auto. eapply C; eauto. }
  assert (Kx : forall x, In x (objs h g) -> exists k, net_key h1 x = Ok k).
  { intros x Hx. pose proof (net_key_agrees h1 x) as A. rewrite Sk in A by auto.
    destruct (net_sort_key h x) eqn:E; eauto. exfalso. now apply (K x Hx). }
  rewrite Og. destruct (sort_by_total Z.ltb (net_key h1) (objs h g) Kx) as (l & El). rewrite El.
  eexists. split; [reflexivity|]. rewrite objs_set_same.
  split.
  - pose proof (Z_sorted _ _ _ _ (net_key_agrees h1) El) as (P & St & Fl). split; [exact P|].
    assert (Sk' : forall x, In x l -> net_sort_key h1 x = net_sort_key h x).
    { intros x Hx. apply Sk. eapply Permutation_in; [apply Permutation_sym, P|exact Hx]. }
    split.
    + eapply StronglySorted_impl; [|exact St]. intros x y Hx Hy H a b. rewrite <- !Sk' by auto. apply H.
    + intros k. cbn zeta. specialize (Fl k). cbn zeta in Fl.
      etransitivity; [|etransitivity; [exact Fl|]]; apply filter_ext_in; intros x Hx;
        [rewrite Sk' by auto|rewrite Sk by auto]; reflexivity.
  - intros g' Lg'. rewrite get_set_other by lia. auto.
Qed.
Print Assumptions C15_sort_new_network.

(** ** C45: names sort before numbers. *)
Theorem C45_names_before_numbers : forall s,
  s <> [] -> (forall c, In c s -> (c < 255)%N) -> (name_weight s < 0)%Z.
Proof.
  intros s N B. rewrite <- nstrsum_weight. now apply (proj1 (nstrsum_from_neg s 0%N B)).
Qed.
Print Assumptions C45_names_before_numbers.

(** Hence, after sorting a network group, every object and nested group with such a
    name comes before every host and network. *)
Theorem C45_named_members_first : forall limit h g h' o l1 x l2 y l3,
  net_sort limit true h g = (h', Ok o) ->
  objs h' g = l1 ++ x :: l2 ++ y :: l3 ->
  (exists a, x = HLeaf (LHost a)) \/ (exists n, x = HLeaf (LNet n)) ->
  ~ exists s, s <> [] /\ (forall c, In c s -> (c < 255)%N) /\
      ((exists ob, y = HObj ob /\ o_name ob = s) \/ (exists g', y = HGrp g' /\ g_name (h_get h g') = s)).
Proof.
  intros limit h g h' o l1 x l2 y l3 E O Hx (s & Ns & Bs & Hy).
  unfold net_sort in E. destruct (sort_by Z.ltb (net_key h) (objs h g)) as [l|] eqn:Es; [|discriminate].
  injection E as <- <-. rewrite objs_set_same in O. subst l.
  apply (Z_sorted _ _ _ _ (net_key_agrees h)) in Es. destruct Es as (_ & St & _).
  pose proof (C45_names_before_numbers s Ns Bs) as W.
  assert (Q : forall a b, net_sort_key h x = Some a -> net_sort_key h y = Some b -> (a ?= b)%Z <> Gt).
  { clear -St. induction l1 as [|z l1 IH]; cbn in St; inversion St as [|? ? S1 F1]; subst; auto.
    rewrite Forall_forall in F1. apply F1. apply in_or_app. right. now left. }
  destruct Hy as [(ob & -> & En)|(g' & -> & En)]; cbn in Q; rewrite En in Q;
    destruct Hx as [(a & ->)|(n & ->)]; cbn in Q; specialize (Q _ _ eq_refl eq_refl); apply Q, Z.compare_gt_iff; lia.
Qed.
Print Assumptions C45_named_members_first.

(** ** Concrete case: {10.0.0.2, object "b", 10.0.0.1/32, host 10.0.0.1}, stable. *)
Definition ex_sort : heap :=
  mkheap (fun _ => mkgroup (u "g") [] []
    [HLeaf (LHost (mkaddr V4 167772162)); HObj (mkobj (u "b") [] None []);
     HLeaf (LNet (mknet V4 167772161 32)); HLeaf (LHost (mkaddr V4 167772161))]) 1.
Example ex_sort_runs : exists h', net_sort 5 true ex_sort 0 = (h', Ok 0) /\
  objs h' 0 = [HObj (mkobj (u "b") [] None []); HLeaf (LNet (mknet V4 167772161 32));
               HLeaf (LHost (mkaddr V4 167772161)); HLeaf (LHost (mkaddr V4 167772162))].
Proof. eexists. split; vm_compute; reflexivity. Qed.
Example ex_sort_keys : forall x, In x (objs ex_sort 0) -> net_sort_key ex_sort x <> None.
Proof. intros x [<-|[<-|[<-|[<-|[]]]]]; discriminate. Qed.
