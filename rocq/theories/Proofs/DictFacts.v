(** Facts about dictionaries and definition tables. *)
From Coq Require Import Lia.
From Verif.Model Require Import Base Iface.
From Verif.Spec Require Import ConfigSpec.
From Verif.Proofs Require Import GroupOps.

Lemma str_eqb_refl s : str_eqb s s = true.
Proof. destruct (str_eqb_spec s s); congruence. Qed.
Lemma str_dec (a b : pystr) : {a = b} + {a <> b}.
Proof. destruct (str_eqb_spec a b); auto. Qed.

Section D.
  Context {V : Type}.
  Implicit Types (d : dict V) (k : pystr) (v : V).

  Lemma dget_in d k v : dget d k = Some v -> In (k, v) d.
  Proof.
    induction d as [|[k' w] d IH]; cbn; [discriminate|].
    destruct (str_eqb_spec k' k) as [->|N]; intros H; [injection H as ->; auto|auto].
  Qed.
  Lemma dget_none d k : dget d k = None <-> ~ In k (map fst d).
  Proof.
    induction d as [|[k' w] d IH]; cbn; [tauto|].
    destruct (str_eqb_spec k' k) as [->|N]; [intuition discriminate|]. rewrite IH. tauto.
  Qed.
  Lemma dget_iff d k v : NoDup (map fst d) -> (dget d k = Some v <-> In (k, v) d).
  Proof.
    intros N. split; [apply dget_in|].
    induction d as [|[k' w] d IH]; cbn in *; [tauto|]. inversion N as [|? ? N1 N2]; subst.
    intros [E|I].
    - injection E as -> ->. now rewrite str_eqb_refl.
    - destruct (str_eqb_spec k' k) as [->|]; [|auto].
      destruct N1. apply in_map_iff. exists (k, v). auto.
  Qed.
  Lemma dmem_true d k : dmem d k = true <-> In k (map fst d).
  Proof.
    unfold dmem. destruct (dget d k) as [v|] eqn:E.
    - apply dget_in in E. split; auto. intros _. apply in_map_iff. exists (k, v). auto.
    - apply dget_none in E. split; [discriminate|tauto].
  Qed.
  Lemma dget_dset d k v k' : dget (dset d k v) k' = if str_eqb k k' then Some v else dget d k'.
  Proof.
    induction d as [|[q w] d IH]; cbn; [reflexivity|].
    destruct (str_eqb_spec q k) as [->|N]; cbn.
    - destruct (str_eqb_spec k k'); reflexivity.
    - rewrite IH. destruct (str_eqb_spec q k') as [->|]; [|reflexivity].
      destruct (str_eqb_spec k k') as [->|]; congruence.
  Qed.
  Lemma dset_keys d k v :
    map fst (dset d k v) = if dmem d k then map fst d else map fst d ++ [k].
  Proof.
    unfold dmem. induction d as [|[q w] d IH]; cbn; [reflexivity|].
    destruct (str_eqb_spec q k) as [->|N]; cbn; [reflexivity|].
    rewrite IH. destruct (dget d k); reflexivity.
  Qed.
  Lemma NoDup_snoc {A} (l : list A) x : NoDup l -> ~ In x l -> NoDup (l ++ [x]).
  Proof. intros. rewrite <- (rev_involutive (l ++ [x])), rev_app_distr. apply NoDup_rev. cbn.
    constructor; [rewrite <- in_rev; auto|apply NoDup_rev; auto]. Qed.
  Lemma dset_nodup d k v : NoDup (map fst d) -> NoDup (map fst (dset d k v)).
  Proof.
    intros N. rewrite dset_keys. destruct (dmem d k) eqn:E; auto.
    apply NoDup_snoc; auto. rewrite <- dmem_true. congruence.
  Qed.
  Lemma in_dset d k v k' w : NoDup (map fst d) ->
    (In (k', w) (dset d k v) <-> (k' = k /\ w = v) \/ (k' <> k /\ In (k', w) d)).
  Proof.
    intros N. rewrite <- dget_iff by now apply dset_nodup. rewrite dget_dset, <- (dget_iff d k' w N).
    destruct (str_eqb_spec k k') as [->|]; intuition congruence.
  Qed.

  (** *** Tables *)
  Lemma first_occ_in l x : In x (first_occurrences l) <-> In x l.
  Proof.
    induction l as [|y l IH]; cbn; [tauto|]. rewrite filter_In, IH.
    destruct (str_eqb_spec y x) as [->|]; cbn; intuition congruence.
  Qed.
  Lemma first_occ_nodup l : NoDup (first_occurrences l).
  Proof.
    induction l as [|y l IH]; cbn; constructor.
    - rewrite filter_In, str_eqb_refl. cbn. intuition discriminate.
    - now apply NoDup_filter.
  Qed.
  Lemma first_occ_snoc l x : first_occurrences (l ++ [x]) =
    if existsb (str_eqb x) l then first_occurrences l else first_occurrences l ++ [x].
  Proof.
    induction l as [|y l IH]; cbn; [reflexivity|]. rewrite IH.
    destruct (str_eqb_spec x y) as [->|N]; cbn.
    - destruct (existsb (str_eqb y) l); [reflexivity|].
      rewrite filter_app. cbn. now rewrite str_eqb_refl, app_nil_r.
    - destruct (existsb (str_eqb x) l); [reflexivity|].
      rewrite filter_app. cbn. destruct (str_eqb_spec y x); [congruence|]. reflexivity.
  Qed.
  Lemma existsb_mem (l : list pystr) x : existsb (str_eqb x) l = true <-> In x l.
  Proof.
    rewrite existsb_exists. split.
    - intros (y & I & E). destruct (str_eqb_spec x y); congruence.
    - intros I. exists x. split; auto. apply str_eqb_refl.
  Qed.

  Lemma last_def_snoc (defs : list (pystr * V)) n v m w :
    last_def (defs ++ [(n, v)]) m w <-> (m = n /\ w = v) \/ (m <> n /\ last_def defs m w).
  Proof.
    split.
    - intros (pre & post & E & N). destruct (exists_last (l := (m, w) :: post)) as (l' & [a b] & El); [discriminate|].
      rewrite El, app_assoc in E. apply app_inj_tail in E as [E1 E2]. injection E2 as <- <-.
      destruct l' as [|z l'].
      + cbn in El. injection El as -> -> ->. auto.
      + cbn in El. injection El as <- ->. right. rewrite map_app, in_app_iff in N. cbn in N.
        split; [intuition congruence|]. exists pre, l'. split; [auto|tauto].
    - intros [[-> ->]|[N (pre & post & -> & H)]].
      + exists defs, []. auto.
      + exists pre, (post ++ [(n, v)]). rewrite <- app_assoc. cbn. split; auto.
        rewrite map_app, in_app_iff. cbn. intuition.
  Qed.
  Lemma first_def_snoc (defs : list (pystr * V)) n v m w :
    first_def (defs ++ [(n, v)]) m w <-> first_def defs m w \/ (m = n /\ w = v /\ ~ In n (map fst defs)).
  Proof.
    split.
    - intros (pre & post & E & N). destruct (exists_last (l := (m, w) :: post)) as (l' & [a b] & El); [discriminate|].
      rewrite El, app_assoc in E. apply app_inj_tail in E as [E1 E2]. injection E2 as <- <-.
      destruct l' as [|z l'].
      + cbn in El. injection El as -> -> ->. right. rewrite E1, app_nil_r. auto.
      + cbn in El. injection El as <- ->. left. exists pre, l'. auto.
    - intros [(pre & post & -> & H)|(-> & -> & H)].
      + exists pre, (post ++ [(n, v)]). now rewrite <- app_assoc.
      + exists defs, []. auto.
  Qed.

  Lemma table_last_nodup (defs : list (pystr * V)) d : table_of_last defs d -> NoDup (map fst d).
  Proof. intros [E _]. rewrite E. apply first_occ_nodup. Qed.
  Lemma table_first_nodup (defs : list (pystr * V)) d : table_of_first defs d -> NoDup (map fst d).
  Proof. intros [E _]. rewrite E. apply first_occ_nodup. Qed.

  Lemma table_last_nil : table_of_last (V:=V) [] [].
  Proof. split; [reflexivity|]. intros n v. split; [intros []|]. intros (pre & post & E & _). destruct pre; discriminate. Qed.
  Lemma table_first_nil : table_of_first (V:=V) [] [].
  Proof. split; [reflexivity|]. intros n v. split; [intros []|]. intros (pre & post & E & _). destruct pre; discriminate. Qed.

  Lemma mem_agree (defs : list (pystr * V)) (d : dict V) n : map fst d = first_occurrences (map fst defs) ->
    dmem d n = existsb (str_eqb n) (map fst defs).
  Proof.
    intros E. apply eq_true_iff_eq. rewrite dmem_true, existsb_mem, E. apply first_occ_in.
  Qed.

  Lemma table_last_snoc (defs : list (pystr * V)) d n v : table_of_last defs d ->
    table_of_last (defs ++ [(n, v)]) (dset d n v).
  Proof.
    intros T. pose proof (table_last_nodup _ _ T) as N. destruct T as [E H]. split.
    - rewrite dset_keys, (mem_agree _ _ _ E), map_app. cbn. rewrite first_occ_snoc, E. reflexivity.
    - intros m w. rewrite in_dset, last_def_snoc, H by auto. reflexivity.
  Qed.
  Lemma table_first_snoc (defs : list (pystr * V)) d n v : table_of_first defs d ->
    table_of_first (defs ++ [(n, v)]) (if dmem d n then d else dset d n v).
  Proof.
    intros T. pose proof (table_first_nodup _ _ T) as N. destruct T as [E H].
    assert (M : dmem d n = existsb (str_eqb n) (map fst defs)) by now apply mem_agree.
    split.
    - rewrite map_app. cbn. rewrite first_occ_snoc, <- M, <- E.
      destruct (dmem d n) eqn:Z; [reflexivity|]. now rewrite dset_keys, Z.
    - intros m w. rewrite first_def_snoc, <- H. destruct (dmem d n) eqn:Z.
      + symmetry in M. apply existsb_mem in M. tauto.
      + rewrite in_dset by auto. rewrite <- (existsb_mem (map fst defs)), <- M.
        assert (m = n -> ~ In (m, w) d).
        { intros -> I. assert (In n (map fst d)) by (apply in_map_iff; exists (n, w); auto).
          rewrite <- dmem_true in H0. congruence. }
        destruct (str_dec m n); intuition congruence.
  Qed.

  (** A table is determined by its definitions. *)
  Lemma last_def_fun (defs : list (pystr * V)) n v w : last_def defs n v -> last_def defs n w -> v = w.
  Proof.
    revert v w. induction defs as [|[m z] defs IH] using rev_ind; intros v w A B.
    - destruct A as (p & q & E & _). destruct p; discriminate.
    - rewrite last_def_snoc in A, B. destruct A as [[? ->]|[? A]], B as [[? ->]|[? B]]; try congruence. eauto.
  Qed.
  Lemma table_unique (defs : list (pystr * V)) (d d' : list (pystr * V)) :
    map fst d = map fst d' -> NoDup (map fst d) -> (forall n v, In (n, v) d <-> In (n, v) d') -> d = d'.
  Proof.
    revert d'. induction d as [|[k v] d IH]; intros [|[k' v'] d'] E N H; cbn in E; try discriminate; auto.
    injection E as <- E. cbn in N. inversion N as [|? ? N1 N2]; subst.
    assert (v = v').
    { destruct (proj1 (H k v) (or_introl eq_refl)) as [X|X]; [congruence|].
      destruct N1. rewrite E. apply in_map_iff. exists (k, v). auto. }
    subst v'. f_equal. apply IH; auto. intros n w. specialize (H n w). cbn in H.
    assert (n = k -> ~ In (n, w) d). { intros -> I. apply N1. apply in_map_iff. exists (k, w). auto. }
    assert (n = k -> ~ In (n, w) d'). { intros -> I. apply N1. rewrite E. apply in_map_iff. exists (k, w). auto. }
    split; intros I.
    - destruct (proj1 H (or_intror I)) as [X|X]; auto. injection X as -> ->. destruct (H0 eq_refl I).
    - destruct (proj2 H (or_intror I)) as [X|X]; auto. injection X as -> ->. destruct (H1 eq_refl I).
  Qed.
  Lemma table_of_last_unique (defs : list (pystr * V)) d d' : table_of_last defs d -> table_of_last defs d' -> d = d'.
  Proof.
    intros T T'. apply (table_unique defs).
    - destruct T, T'. congruence.
    - eapply table_last_nodup; eauto.
    - intros n v. destruct T as [_ T], T' as [_ T']. rewrite T, T'. reflexivity.
  Qed.
End D.
