(** The overlap operator: termination and characterisation by leaves. *)
From Coq Require Import Lia ZifyBool ZifyNat ZifyN.
From Verif.Model Require Import Base Ip Hosts.
From Verif.Spec Require Import AddrSpec.
From Verif.Proofs Require Import IpFacts WildFacts.
Local Open Scope nat_scope.

(** ** Short-circuit loops *)
Lemma any_r_char {A} (f : A -> result bool) l :
  (forall x, In x l -> exists b, f x = Ok b) ->
  exists b, any_r f l = Ok b /\ (b = true <-> exists x, In x l /\ f x = Ok true).
Proof.
  induction l as [|x l IH]; intros H; cbn [any_r].
  - exists false. split; auto. split; [discriminate|]. intros (x & [] & _).
  - destruct (H x (or_introl eq_refl)) as [b Hb]. rewrite Hb. destruct b.
    + exists true. split; auto. split; auto. intros _. exists x. simpl; auto.
    + destruct IH as (b & Hb' & Hc). { intros y Hy. apply H. simpl; auto. }
      exists b. split; auto. rewrite Hc. split.
      * intros (y & Hy & E). exists y. simpl; auto.
      * intros (y & [->|Hy] & E); [congruence|]. exists y; auto.
Qed.

(** ** Leaf against leaf: the answer needs fuel 2 and no heap *)
Definition heap0 : heap := mkheap (fun _ => mkgroup [] [] [] []) 0.
Definition leafand (l m : leaf) : bool :=
  match and_ 2 heap0 (HLeaf l) (HLeaf m) with Ok b => b | Err _ => false end.

Definition both_wild (l m : leaf) : bool := is_wild l && is_wild m.

Lemma and_leaf_leaf k h l m : both_wild l m = false -> 2 <= k ->
  and_ k h (HLeaf l) (HLeaf m) = Ok (leafand l m).
Proof.
  intros W K. destruct k as [|[|k]]; [lia|lia|].
  destruct l; destruct m; try reflexivity; try discriminate W.
Qed.

(** wildcard & wildcard runs into every recursion limit *)
Lemma wild_wild_diverges k h a w a' w' :
  and_ k h (HLeaf (LWild a w)) (HLeaf (LWild a' w')) = Err RecursionError.
Proof.
  revert a w a' w'. induction k as [|k IH]; intros; [reflexivity|]. cbn [and_]. apply IH.
Qed.

Definition anylike (l : leaf) : bool :=
  match l with LAny | LWebtype _ | LIface _ => true | _ => false end.

Lemma leafand_sym l m : is_caf l = false -> is_caf m = false -> both_wild l m = false ->
  leafand l m = leafand m l.
Proof.
  destruct l, m; intros Hl Hm W; try discriminate Hl; try discriminate Hm; try discriminate W;
    try reflexivity.
  - unfold leafand; cbn. unfold addr_eqb. now rewrite N.eqb_sym, ver_eqb_sym.
  - unfold leafand; cbn. apply orb_comm.
Qed.

Lemma leafand_anylike l m : anylike l = true -> leafand l m = true.
Proof. destruct l; intros H; try discriminate H; reflexivity. Qed.

(** ** Termination *)
Definition no_both_wild (h : heap) (x y : host) : Prop :=
  forall l m, reaches h x l -> reaches h y m -> both_wild l m = false.

Section Rank.
  Variables (h : heap) (rk : gid -> nat).
  Hypothesis R : ranked h rk.

  Lemma rank_member g m : In m (objs h g) -> rank rk m < rank rk (HGrp g).
  Proof. destruct m; simpl; intros H; try lia. apply R in H. lia. Qed.

  (** any term against a leaf *)
  Lemma and_to_leaf : forall k x l,
    (forall i, reaches h x i -> both_wild i l = false) -> rank rk x + 2 <= k ->
    exists b, and_ k h x (HLeaf l) = Ok b /\
              (b = true <-> exists i, reaches h x i /\ leafand i l = true).
  Proof.
    induction k as [|k IH]; intros x l W K; [lia|].
    destruct x as [i|o|g].
    - exists (leafand i l). split; [apply and_leaf_leaf; [apply W; constructor|simpl in K; lia]|].
      split; [intros E; exists i; split; [constructor|auto]|].
      intros (i' & Hi & E). inversion Hi; subst; auto.
    - cbn [and_]. simpl in K.
      destruct (any_r_char (fun i => and_ k h (HLeaf i) (HLeaf l)) (o_addrs o)) as (b & Hb & Hc).
      { intros i Hi. eexists. apply and_leaf_leaf; [apply W; now constructor|lia]. }
      exists b. split; auto. rewrite Hc. split.
      + intros (i & Hi & E). exists i. split; [now constructor|].
        rewrite and_leaf_leaf in E; [congruence|apply W; now constructor|lia].
      + intros (i & Hi & E). inversion Hi as [|o' i' Hin|]; subst. exists i. split; auto.
        rewrite and_leaf_leaf; [congruence|apply W; now constructor|lia].
    - cbn [and_].
      assert (forall m, In m (objs h g) -> exists b, and_ k h m (HLeaf l) = Ok b /\
              (b = true <-> exists i, reaches h m i /\ leafand i l = true)) as IH'.
      { intros m Hm. apply IH.
        - intros i Hi. apply W. econstructor; eauto.
        - pose proof (rank_member g m Hm). lia. }
      destruct (any_r_char (fun m => and_ k h m (HLeaf l)) (objs h g)) as (b & Hb & Hc).
      { intros m Hm. destruct (IH' m Hm) as (b & Hb & _). eauto. }
      exists b. split; auto. rewrite Hc. split.
      + intros (m & Hm & E). destruct (IH' m Hm) as (b' & Hb' & Hc'). rewrite E in Hb'.
        inversion Hb'; subst. destruct Hc' as [Hc' _]. destruct (Hc' eq_refl) as (i & Hi & Ei).
        exists i. split; auto. econstructor; eauto.
      + intros (i & Hi & E). inversion Hi as [| |g' m i' Hm Hr]; subst. exists m. split; auto.
        destruct (IH' m Hm) as (b' & Hb' & Hc'). rewrite Hb'. f_equal. apply Hc'. eauto.
  Qed.

  (** the ANY terms: only literal any terms, through groups only *)
  Definition caf_hit (l : leaf) (x : host) : bool :=
    match l with
    | LCafAny => is_any x | LCafAny4 => is_any4 x | LCafAny6 => is_any6 x | _ => false
    end.

  Lemma caf_hit_leaf l x : caf_hit l x = true -> exists m, x = HLeaf m.
  Proof. destruct l, x as [m|o|g]; simpl; intros H; try discriminate H; eauto. Qed.

  Lemma and_caf : forall k l y, is_caf l = true -> rank rk y + 1 <= k ->
    exists b, and_ k h (HLeaf l) y = Ok b /\
              (b = true <-> exists z, via_groups h y z /\ caf_hit l z = true).
  Proof.
    induction k as [|k IH]; intros l y C K; [lia|].
    assert (Hd : and_ (S k) h (HLeaf l) y =
      if caf_hit l y then Ok true else
      match y with HGrp g => any_r (fun i => and_ k h (HLeaf l) i) (objs h g) | _ => Ok false end).
    { destruct l; try discriminate C; reflexivity. }
    rewrite Hd. clear Hd. destruct (caf_hit l y) eqn:Hit.
    { exists true. split; auto. split; auto. intros _. exists y. split; [constructor|auto]. }
    destruct y as [m|o|g].
    - exists false. split; auto. split; [discriminate|]. intros (z & Hz & E).
      inversion Hz; subst; congruence.
    - exists false. split; auto. split; [discriminate|]. intros (z & Hz & E).
      inversion Hz; subst; congruence.
    - assert (forall m, In m (objs h g) -> exists b, and_ k h (HLeaf l) m = Ok b /\
              (b = true <-> exists z, via_groups h m z /\ caf_hit l z = true)) as IH'.
      { intros m Hm. apply IH; auto. pose proof (rank_member g m Hm). lia. }
      destruct (any_r_char (fun m => and_ k h (HLeaf l) m) (objs h g)) as (b & Hb & Hc).
      { intros m Hm. destruct (IH' m Hm) as (b & Hb & _). eauto. }
      exists b. split; auto. rewrite Hc. split.
      + intros (m & Hm & E). destruct (IH' m Hm) as (b' & Hb' & Hc'). rewrite E in Hb'.
        inversion Hb'; subst. destruct Hc' as [Hc' _]. destruct (Hc' eq_refl) as (z & Hz & Ez).
        exists z. split; auto. econstructor; eauto.
      + intros (z & Hz & E). inversion Hz as [|g' m z' Hm Hr]; subst; [congruence|].
        exists m. split; auto. destruct (IH' m Hm) as (b' & Hb' & Hc'). rewrite Hb'. f_equal.
        apply Hc'. eauto.
  Qed.

  (** a leaf that is neither any-like nor ANY: the other side is asked *)
  Definition turns (l : leaf) : bool := negb (anylike l) && negb (is_caf l).

  Lemma and_turn k l y : turns l = true -> (forall m, y <> HLeaf m) ->
    and_ (S k) h (HLeaf l) y = and_ k h y (HLeaf l).
  Proof.
    intros T H. destruct y as [m|o|g]; [exfalso; eapply H; eauto| |];
    destruct l; try discriminate T; reflexivity.
  Qed.

  (** leaf against any term: what is hit *)
  Definition leaf_hits (l : leaf) (y : host) : Prop :=
    if anylike l then True
    else if is_caf l then exists z, via_groups h y z /\ caf_hit l z = true
    else match y with
         | HLeaf m => leafand l m = true
         | _ => exists j, reaches h y j /\ leafand j l = true
         end.

  Lemma and_from_leaf k l y : (forall m, reaches h y m -> both_wild l m = false) ->
    rank rk y + 3 <= k ->
    exists b, and_ k h (HLeaf l) y = Ok b /\ (b = true <-> leaf_hits l y).
  Proof.
    intros W K. unfold leaf_hits. destruct (anylike l) eqn:A.
    { exists true. split; [|tauto]. destruct k; [lia|]. destruct l; try discriminate A; reflexivity. }
    destruct (is_caf l) eqn:C. { apply and_caf; auto. lia. }
    assert (T : turns l = true) by (unfold turns; now rewrite A, C).
    destruct k as [|k]; [lia|].
    destruct y as [m|o|g].
    - exists (leafand l m). split; [|tauto]. apply and_leaf_leaf; [apply W; constructor|lia].
    - rewrite and_turn by (auto; discriminate). apply and_to_leaf; [|lia].
      intros i Hi. unfold both_wild. rewrite andb_comm. now apply W.
    - rewrite and_turn by (auto; discriminate). apply and_to_leaf; [|lia].
      intros i Hi. unfold both_wild. rewrite andb_comm. now apply W.
  Qed.

  (** the general case *)
  Theorem and_char : forall k x y, no_both_wild h x y -> rank rk x + rank rk y + 3 <= k ->
    exists b, and_ k h x y = Ok b /\
              (b = true <-> exists i, reaches h x i /\ leaf_hits i y).
  Proof.
    induction k as [|k IH]; intros x y W K; [lia|].
    destruct x as [l|o|g].
    - destruct (and_from_leaf (S k) l y) as (b & Hb & Hc).
      + intros m Hm. apply W; auto. constructor.
      + simpl in K. lia.
      + exists b. split; auto. rewrite Hc. split.
        * intros H. exists l. split; auto. constructor.
        * intros (i & Hi & H). inversion Hi; subst; auto.
    - cbn [and_].
      assert (forall i, In i (o_addrs o) -> exists b, and_ k h (HLeaf i) y = Ok b /\
              (b = true <-> leaf_hits i y)) as IH'.
      { intros i Hi. apply and_from_leaf.
        - intros m Hm. apply W; auto. now constructor.
        - simpl in K. lia. }
      destruct (any_r_char (fun m => and_ k h (HLeaf m) y) (o_addrs o)) as (b & Hb & Hc).
      { intros m Hm. destruct (IH' m Hm) as (b & Hb & _). eauto. }
      exists b. split; auto. rewrite Hc. split.
      + intros (m & Hm & E). destruct (IH' m Hm) as (b' & Hb' & Hc'). rewrite E in Hb'.
        inversion Hb'; subst. exists m. split; [now constructor|]. now apply Hc'.
      + intros (i & Hi & E). inversion Hi as [|o' i' Hin|]; subst. exists i. split; auto.
        destruct (IH' i Hin) as (b' & Hb' & Hc'). rewrite Hb'. f_equal. now apply Hc'.
    - cbn [and_].
      assert (forall m, In m (objs h g) -> exists b, and_ k h m y = Ok b /\
              (b = true <-> exists i, reaches h m i /\ leaf_hits i y)) as IH'.
      { intros m Hm. apply IH.
        - intros l l' Hl Hl'. apply W; auto. econstructor; eauto.
        - pose proof (rank_member g m Hm). lia. }
      destruct (any_r_char (fun m => and_ k h m y) (objs h g)) as (b & Hb & Hc).
      { intros m Hm. destruct (IH' m Hm) as (b & Hb & _). eauto. }
      exists b. split; auto. rewrite Hc. split.
      + intros (m & Hm & E). destruct (IH' m Hm) as (b' & Hb' & Hc'). rewrite E in Hb'.
        inversion Hb'; subst. destruct Hc' as [Hc' _]. destruct (Hc' eq_refl) as (i & Hi & Ei).
        exists i. split; auto. econstructor; eauto.
      + intros (i & Hi & E). inversion Hi as [| |g' m i' Hm Hr]; subst. exists m. split; auto.
        destruct (IH' m Hm) as (b' & Hb' & Hc'). rewrite Hb'. f_equal. apply Hc'. eauto.
  Qed.

  (** ... in purely leaf-wise form for terms without ANY *)
  Lemma leaf_hits_plain l y : is_caf l = false -> plain h y ->
    (forall m, reaches h y m -> both_wild l m = false) ->
    leaf_hits l y <-> anylike l = true \/ exists j, reaches h y j /\ leafand l j = true.
  Proof.
    intros C P W. unfold leaf_hits. rewrite C. destruct (anylike l) eqn:A.
    { split; auto. }
    assert (forall j, reaches h y j -> leafand j l = leafand l j) as S.
    { intros j Hj. apply leafand_sym; auto. unfold both_wild. rewrite andb_comm. now apply W. }
    destruct y as [m|o|g].
    - split.
      + intros H. right. exists m. split; [constructor|auto].
      + intros [H|(j & Hj & E)]; [discriminate|]. inversion Hj; subst; auto.
    - split.
      + intros (j & Hj & E). right. exists j. split; auto. now rewrite <- S.
      + intros [H|(j & Hj & E)]; [discriminate|]. exists j. split; auto. now rewrite S.
    - split.
      + intros (j & Hj & E). right. exists j. split; auto. now rewrite <- S.
      + intros [H|(j & Hj & E)]; [discriminate|]. exists j. split; auto. now rewrite S.
  Qed.

  Theorem and_plain : forall k x y, plain h x -> plain h y -> no_both_wild h x y ->
    rank rk x + rank rk y + 3 <= k ->
    exists b, and_ k h x y = Ok b /\
      (b = true <-> exists i, reaches h x i /\
          (anylike i = true \/ exists j, reaches h y j /\ leafand i j = true)).
  Proof.
    intros k x y Px Py W K. destruct (and_char k x y W K) as (b & Hb & Hc).
    exists b. split; auto. rewrite Hc.
    split; intros (i & Hi & H); exists i; split; auto;
      destruct (leaf_hits_plain i y (Px i Hi) Py) as [P Q]; auto.
  Qed.
End Rank.

(** ** Fuel monotonicity: a result, once obtained, does not depend on the limit *)
Lemma any_r_mono {A} (f g : A -> result bool) l b :
  (forall x b, In x l -> f x = Ok b -> g x = Ok b) -> any_r f l = Ok b -> any_r g l = Ok b.
Proof.
  revert b. induction l as [|x l IH]; intros b H; cbn [any_r]; auto.
  destruct (f x) as [[]|] eqn:E; try discriminate.
  - rewrite (H x true); simpl; auto.
  - rewrite (H x false); simpl; auto. intros Hr. apply IH; auto. intros y b' Hy. apply H. simpl; auto.
Qed.

Lemma and_mono : forall k k' h x y b, k <= k' -> and_ k h x y = Ok b -> and_ k' h x y = Ok b.
Proof.
  induction k as [|k IH]; intros k' h x y b L H; [discriminate|].
  destruct k' as [|k']; [lia|].
  assert (IH' : forall x y b, and_ k h x y = Ok b -> and_ k' h x y = Ok b)
    by (intros; eapply IH; eauto; lia).
  destruct x as [l|o|g]; cbn [and_] in *.
  - destruct l; auto;
      try (destruct y as [[]|?|?]; simpl in *; auto; fail);
      [destruct (is_any y)|destruct (is_any4 y)|destruct (is_any6 y)]; auto;
      destruct y; auto; (eapply any_r_mono; [|exact H]; intros; cbv beta in *; now apply IH').
  - eapply any_r_mono; [|exact H]; intros; cbv beta in *; now apply IH'.
  - eapply any_r_mono; [|exact H]; intros; cbv beta in *; now apply IH'.
Qed.

(** ** Leaf overlap is a common address *)
Definition leaf_pair_ok (l m : leaf) : Prop :=
  both_wild l m = false /\
  (is_wild l = true -> v6_leaf m = false) /\ (is_wild m = true -> v6_leaf l = false).

Lemma leaf_inhabited l : leaf_wf l -> exists x, leaf_matches l x.
Proof.
  destruct l; simpl; intros W;
    try (exists (mkaddr V4 0); unfold valid; simpl; (split; [reflexivity|]) || idtac; reflexivity).
  - eauto.
  - eexists. now apply in_net_first.
  - eexists. eapply wild_inhabited. simpl; eauto.
  - exists (mkaddr V6 0); split; reflexivity.
  - exists (mkaddr V6 0); split; reflexivity.
Qed.

Lemma leaf_matches_valid l x : leaf_wf l -> leaf_matches l x -> valid x.
Proof.
  destruct l; simpl; intros W H; subst; auto; try tauto.
  - eapply in_net_valid; eauto.
  - destruct H as (_ & V & _). exact V.
Qed.

Lemma v6_false_net n : v6_leaf (LNet n) = false -> n_ver n = V4.
Proof. simpl. destruct (n_ver n); auto; discriminate. Qed.
Lemma v6_false_host a : v6_leaf (LHost a) = false -> a_ver a = V4.
Proof. simpl. destruct (a_ver a); auto; discriminate. Qed.

Definition lcommon (l m : leaf) : Prop := exists x, leaf_matches l x /\ leaf_matches m x.

Lemma lcommon_sym l m : lcommon l m <-> lcommon m l.
Proof. split; intros (x & A & B); exists x; auto. Qed.

Lemma lcommon_anylike l m : anylike l = true -> leaf_wf m -> lcommon l m.
Proof.
  intros A W. destruct (leaf_inhabited m W) as [x Hx]. exists x. split; auto.
  pose proof (leaf_matches_valid m x W Hx). destruct l; try discriminate A; auto.
Qed.

Lemma leafand_spec l m : leaf_wf l -> leaf_wf m -> is_caf l = false -> is_caf m = false ->
  leaf_pair_ok l m -> leafand l m = true <-> lcommon l m.
Proof.
  intros Wl Wm Cl Cm (B & V1 & V2).
  (* any-like on either side *)
  destruct (anylike l) eqn:Al.
  { rewrite leafand_anylike by auto. split; auto. intros _. now apply lcommon_anylike. }
  destruct (anylike m) eqn:Am.
  { rewrite leafand_sym by auto. rewrite leafand_anylike by auto. split; auto. intros _.
    apply lcommon_sym. now apply lcommon_anylike. }
  (* reduce the number of cases by symmetry *)
  assert (Hnn : forall n m, net_wf n -> net_wf m ->
     leafand (LNet n) (LNet m) = true <-> lcommon (LNet n) (LNet m)).
  { intros n n' Wn Wn'. unfold leafand; cbn.
    destruct (overlaps_spec n n' Wn Wn') as [H|H]; simpl.
    - split; auto.
    - destruct (overlaps_spec n' n Wn' Wn) as [H'|H'].
      + destruct H' as (x & A & C). exfalso. apply H. exists x. auto.
      + split; [discriminate|]. intros (x & A & C). exfalso. apply H. exists x; auto. }
  assert (Hnh : forall n a, net_wf n -> valid a ->
     leafand (LNet n) (LHost a) = true <-> lcommon (LNet n) (LHost a)).
  { intros n a Wn Va. unfold leafand; cbn. rewrite <- net_contains_iff by auto. unfold lcommon; simpl.
    split; [intros H; exists a; auto|]. intros (x & H & ->); auto. }
  assert (Hwh : forall a w b, leaf_wf (LWild a w) -> valid b -> a_ver b = V4 ->
     leafand (LWild a w) (LHost b) = true <-> lcommon (LWild a w) (LHost b)).
  { intros a w b Ww Vb Eb. unfold leafand; cbn. rewrite wild_host_iff by auto. unfold lcommon; simpl.
    split; [intros H; exists b; auto|]. intros (x & H & ->); auto. }
  assert (Hwn : forall a w n, leaf_wf (LWild a w) -> net_wf n -> n_ver n = V4 ->
     leafand (LWild a w) (LNet n) = true <-> lcommon (LWild a w) (LNet n)).
  { intros a w n (Ea & Va & _) Wn En. unfold leafand; cbn. rewrite wild_net_iff by auto.
    unfold lcommon; simpl. split; intros (x & P & Q); exists x; auto. }
  assert (Hvh : forall v l a, valid a -> (l = LAny4 /\ v = V4 \/ l = LAny6 /\ v = V6) ->
     ver_eqb v (a_ver a) = true <-> lcommon l (LHost a)).
  { intros v l' a Va Hl. unfold lcommon. destruct (ver_eqb_spec v (a_ver a)) as [E|E].
    - split; auto. intros _. exists a. split; [|reflexivity]. destruct Hl as [[-> ->]|[-> ->]]; simpl; auto.
    - split; [discriminate|]. intros (x & P & Q). simpl in Q. subst x.
      destruct Hl as [[-> ->]|[-> ->]]; simpl in P; destruct P; congruence. }
  assert (Hvn : forall v l n, net_wf n -> (l = LAny4 /\ v = V4 \/ l = LAny6 /\ v = V6) ->
     ver_eqb v (n_ver n) = true <-> lcommon l (LNet n)).
  { intros v l' n Wn Hl. unfold lcommon. pose proof (in_net_first n Wn) as F.
    destruct (ver_eqb_spec v (n_ver n)) as [E|E].
    - split; auto. intros _. exists (mkaddr (n_ver n) (n_addr n)). split; auto.
      pose proof (net_addr_valid n Wn). destruct Hl as [[-> ->]|[-> ->]]; simpl; auto.
    - split; [discriminate|]. intros (x & P & [Q _]). simpl in Q.
      destruct Hl as [[-> ->]|[-> ->]]; simpl in P; destruct P; congruence. }
  destruct l as [a|n|a w| | | | |?| | |]; try discriminate Al; try discriminate Cl;
  destruct m as [b|n'|b w'| | | | |?| | |]; try discriminate Am; try discriminate Cm;
    simpl in Wl, Wm.
  - (* host host *) unfold leafand; cbn. destruct (addr_eqb_spec a b) as [->|N].
    + split; auto. intros _. exists b. split; reflexivity.
    + split; [discriminate|]. intros (x & P & Q). simpl in P, Q. congruence.
  - rewrite leafand_sym, lcommon_sym by auto. now apply Hnh.
  - rewrite leafand_sym, lcommon_sym by auto. apply Hwh; auto. apply v6_false_host. now apply V2.
  - rewrite lcommon_sym, <- (Hvh V4 LAny4); auto. reflexivity.
  - rewrite lcommon_sym, <- (Hvh V6 LAny6); auto. reflexivity.
  - now apply Hnh.
  - now apply Hnn.
  - rewrite leafand_sym, lcommon_sym by auto. apply Hwn; auto. apply v6_false_net. now apply V2.
  - rewrite lcommon_sym, <- (Hvn V4 LAny4); auto. reflexivity.
  - rewrite lcommon_sym, <- (Hvn V6 LAny6); auto. reflexivity.
  - apply Hwh; auto. apply v6_false_host. now apply V1.
  - apply Hwn; auto. apply v6_false_net. now apply V1.
  - discriminate B.
  - unfold leafand; cbn. split; auto. intros _. exists a. destruct Wl as (E & V & E2 & V').
    simpl; split; auto. repeat split; auto.
  - unfold leafand; cbn. split; [discriminate|]. intros (x & (E & _) & (E' & _)). congruence.
  - rewrite <- (Hvh V4 LAny4); auto. reflexivity.
  - rewrite <- (Hvn V4 LAny4); auto. reflexivity.
  - unfold leafand; cbn. split; auto. intros _. exists b. destruct Wm as (E & V & E2 & V').
    simpl; split; auto. repeat split; auto.
  - unfold leafand; cbn. split; auto. intros _. exists (mkaddr V4 0). repeat split; reflexivity.
  - unfold leafand; cbn. split; [discriminate|]. intros (x & (E & _) & (E' & _)). congruence.
  - rewrite <- (Hvh V6 LAny6); auto. reflexivity.
  - rewrite <- (Hvn V6 LAny6); auto. reflexivity.
  - unfold leafand; cbn. split; [discriminate|]. intros (x & (E & _) & (E' & _)). congruence.
  - unfold leafand; cbn. split; [discriminate|]. intros (x & (E & _) & (E' & _)). congruence.
  - unfold leafand; cbn. split; auto. intros _. exists (mkaddr V6 0). repeat split; reflexivity.
Qed.

(** ** Leaves and matched addresses *)
Lemma matches_reaches h x a : matches h x a <-> exists l, reaches h x l /\ leaf_matches l a.
Proof.
  split.
  - induction 1 as [l a H|o l a Hin H|g m a Hin H IH].
    + exists l. split; auto. constructor.
    + exists l. split; auto. now constructor.
    + destruct IH as (l & Hl & Ha). exists l. split; auto. econstructor; eauto.
  - intros (l & Hl & Ha). induction Hl as [l|o l Hin|g m l Hin Hr IH].
    + now constructor.
    + econstructor; eauto.
    + eapply M_grp; eauto.
Qed.

Lemma wild_ok_no_both h x y : wild_ok h x y -> no_both_wild h x y.
Proof.
  intros [[W|[W _]] _] l m Hl Hm; unfold both_wild.
  - now rewrite (W l Hl).
  - rewrite (W m Hm). apply andb_false_r.
Qed.

Lemma wild_ok_pair h x y l m : wild_ok h x y -> reaches h x l -> reaches h y m -> leaf_pair_ok l m.
Proof.
  intros W Hl Hm. split; [eapply wild_ok_no_both; eauto|]. destruct W as [W1 W2]. split; intros E.
  - destruct W1 as [W1|[_ W1]]; [rewrite (W1 l Hl) in E; discriminate|]. now apply W1.
  - destruct W2 as [W2|[_ W2]]; [rewrite (W2 m Hm) in E; discriminate|]. now apply W2.
Qed.

Definition has_anylike (h : heap) (x : host) : Prop := exists l, reaches h x l /\ anylike l = true.

(** Exact result of [x & y] for every plain, well-formed pair. *)
Theorem and_exact h rk x y k : ranked h rk -> term_wf h x -> term_wf h y -> plain h x -> plain h y ->
  wild_ok h x y -> rank rk x + rank rk y + 3 <= k ->
  exists b, and_ k h x y = Ok b /\ (b = true <-> common h x y \/ has_anylike h x).
Proof.
  intros R Wx Wy Px Py WO K.
  destruct (and_plain h rk R k x y Px Py (wild_ok_no_both _ _ _ WO) K) as (b & Hb & Hc).
  exists b. split; auto. rewrite Hc. split.
  - intros (i & Hi & [A|(j & Hj & E)]).
    + right. exists i. auto.
    + left. apply leafand_spec in E; auto.
      * destruct E as (a & Ha & Hb'). exists a. split; apply matches_reaches; eauto.
      * eapply wild_ok_pair; eauto.
  - intros [(a & Hx & Hy)|(i & Hi & A)].
    + apply matches_reaches in Hx. apply matches_reaches in Hy.
      destruct Hx as (i & Hi & Ai), Hy as (j & Hj & Aj). exists i. split; auto. right.
      exists j. split; auto. apply leafand_spec; auto.
      * eapply wild_ok_pair; eauto.
      * exists a; auto.
    + exists i. auto.
Qed.

Lemma has_anylike_common h x y : term_wf h y -> has_anylike h x -> inhabited h y -> common h x y.
Proof.
  intros Wy (l & Hl & A) (a & Ha). exists a. split; auto. apply matches_reaches. exists l. split; auto.
  apply matches_reaches in Ha. destruct Ha as (m & Hm & Ha).
  pose proof (leaf_matches_valid m a (Wy m Hm) Ha). destruct l; try discriminate A; auto.
Qed.

Lemma caf_hit_literal l z : is_caf l = true ->
  caf_hit l z = true <-> exists m, z = HLeaf m /\ literal_any l m.
Proof.
  intros C. split.
  - intros H. destruct (caf_hit_leaf l z H) as [m ->]. exists m. split; auto.
    destruct l; try discriminate C; destruct m; try discriminate H; simpl; eauto.
  - intros (m & -> & L). destruct l; try discriminate C; simpl in L.
    + destruct L as [->|[[url ->]| ->]]; reflexivity.
    + destruct L as [->| ->]; reflexivity.
    + destruct L as [->| ->]; reflexivity.
Qed.

(** ** Closed forms of the properties *)
Lemma overlap_exact h x y : acyclic h -> term_wf h x -> term_wf h y -> plain h x -> plain h y ->
  wild_ok h x y -> inhabited h y ->
  exists limit, forall k, limit <= k -> exists b, and_ k h x y = Ok b /\ (b = true <-> common h x y).
Proof.
  intros [rk R] Wx Wy Px Py WO I. exists (rank rk x + rank rk y + 3). intros k K.
  destruct (and_exact h rk x y k R Wx Wy Px Py WO K) as (b & Hb & Hc).
  exists b. split; auto. rewrite Hc. split; auto. intros [H|H]; auto.
  now apply has_anylike_common.
Qed.

Lemma wild_ok_sym h x y : wild_ok h x y -> wild_ok h y x.
Proof. intros [A B]. split; auto. Qed.

Lemma overlap_sym h x y (k : nat) : acyclic h -> term_wf h x -> term_wf h y -> plain h x -> plain h y ->
  wild_ok h x y -> inhabited h x -> inhabited h y ->
  (exists limit, forall k, limit <= k -> and_ k h x y = and_ k h y x) /\
  (forall b b', and_ k h x y = Ok b -> and_ k h y x = Ok b' -> b = b').
Proof.
  intros A Wx Wy Px Py WO Ix Iy.
  destruct (overlap_exact h x y A Wx Wy Px Py WO Iy) as [L1 H1].
  destruct (overlap_exact h y x A Wy Wx Py Px (wild_ok_sym _ _ _ WO) Ix) as [L2 H2].
  assert (S : common h x y <-> common h y x) by (split; intros (a & P & Q); exists a; auto).
  split.
  - exists (L1 + L2). intros k' K. destruct (H1 k') as (b & Hb & Hc); [lia|].
    destruct (H2 k') as (b' & Hb' & Hc'); [lia|]. rewrite Hb, Hb'. f_equal.
    destruct b, b'; auto; [symmetry|]; tauto.
  - intros b b' E E'. destruct (H1 (L1 + L2 + k)) as (c & Hb & Hc); [lia|].
    destruct (H2 (L1 + L2 + k)) as (c' & Hb' & Hc'); [lia|].
    apply (and_mono _ (L1 + L2 + k)) in E; [|lia]. apply (and_mono _ (L1 + L2 + k)) in E'; [|lia].
    assert (b = c) by congruence. assert (b' = c') by congruence. subst.
    destruct c, c'; auto; [symmetry|]; tauto.
Qed.

Lemma overlap_total h rk x y k : ranked h rk -> wildfree h x \/ wildfree h y ->
  rank rk x + rank rk y + 3 <= k -> exists b, and_ k h x y = Ok b.
Proof.
  intros R W K. destruct (and_char h rk R k x y) as (b & Hb & _); eauto.
  intros l m Hl Hm. unfold both_wild. destruct W as [W|W]; rewrite (W _ ltac:(eassumption));
    auto using andb_false_r.
Qed.

(** The asymmetry of empty groups, in general *)
Lemma overlap_asym h rk x y k : ranked h rk -> term_wf h x -> term_wf h y -> plain h x -> plain h y ->
  wild_ok h x y -> rank rk x + rank rk y + 3 <= k ->
  and_ k h x y <> and_ k h y x <->
  (has_anylike h x /\ ~ inhabited h y \/ has_anylike h y /\ ~ inhabited h x).
Proof.
  intros R Wx Wy Px Py WO K.
  destruct (and_exact h rk x y k R Wx Wy Px Py WO K) as (b & Hb & Hc).
  destruct (and_exact h rk y x k R Wy Wx Py Px (wild_ok_sym _ _ _ WO) ltac:(lia)) as (b' & Hb' & Hc').
  rewrite Hb, Hb'.
  assert (S : common h x y <-> common h y x) by (split; intros (a & P & Q); exists a; auto).
  assert (Cx : common h x y -> inhabited h x) by (intros (a & P & Q); exists a; auto).
  assert (Cy : common h x y -> inhabited h y) by (intros (a & P & Q); exists a; auto).
  assert (Ax : has_anylike h x -> inhabited h x).
  { intros (l & Hl & Al). destruct (leaf_inhabited l (Wx l Hl)) as [a Ha]. exists a.
    apply matches_reaches. eauto. }
  assert (Ay : has_anylike h y -> inhabited h y).
  { intros (l & Hl & Al). destruct (leaf_inhabited l (Wy l Hl)) as [a Ha]. exists a.
    apply matches_reaches. eauto. }
  pose proof (has_anylike_common h x y Wy) as Hx. pose proof (has_anylike_common h y x Wx) as Hy.
  split.
  - intros N. destruct b, b'; try (exfalso; congruence).
    + left. destruct Hc as [Hc _]. specialize (Hc eq_refl).
      assert (~ common h y x) by (intros C; assert (false = true) by tauto; discriminate).
      destruct Hc as [C|A]; [tauto|]. split; auto. intros I. apply (Hx A) in I. tauto.
    + right. destruct Hc' as [Hc' _]. specialize (Hc' eq_refl).
      assert (~ common h x y) by (intros C; assert (false = true) by tauto; discriminate).
      destruct Hc' as [C|A]; [tauto|]. split; auto. intros I. apply (Hy A) in I. tauto.
  - intros [[A N]|[A N]] E; injection E as E; subst b'.
    + assert (b = true) by tauto. subst b.
      destruct Hc' as [Hc' _]. destruct (Hc' eq_refl); tauto.
    + assert (b = true) by tauto. subst b.
      destruct Hc as [Hc _]. destruct (Hc eq_refl); tauto.
Qed.

Lemma caf_exact h rk l y k : ranked h rk -> is_caf l = true -> rank rk y + 1 <= k ->
  exists b, and_ k h (HLeaf l) y = Ok b /\
    (b = true <-> exists m, via_groups h y (HLeaf m) /\ literal_any l m).
Proof.
  intros R C K. destruct (and_caf h rk R k l y C K) as (b & Hb & Hc). exists b. split; auto.
  rewrite Hc. split.
  - intros (z & Hz & E). apply caf_hit_literal in E; auto. destruct E as (m & -> & L). eauto.
  - intros (m & Hm & L). exists (HLeaf m). split; auto. apply caf_hit_literal; eauto.
Qed.
