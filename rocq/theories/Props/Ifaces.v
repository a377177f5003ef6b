(** C32, C36, C37: interfaces, their bindings, trunks and routes. *)
From Coq Require Import Lia.
From Verif.Model Require Import Base Ip Hosts Iface Config.
From Verif.Spec Require Import AddrSpec ConfigSpec.
From Verif.Proofs Require Import GroupOps DictFacts.
From Verif.Proofs Require IpFacts MaskFacts.
From Verif.Props Require Import Config.
From Verif.Props Require Addresses.

Lemma find_split {A} (f : A -> bool) l x : find f l = Some x <->
  exists before after, l = before ++ x :: after /\ f x = true /\ forall b, In b before -> f b = false.
Proof.
  induction l as [|y l IH]; cbn.
  - split; [discriminate|]. intros (b & a & E & _). destruct b; discriminate.
  - destruct (f y) eqn:F.
    + split.
      * intros H. injection H as <-. exists [], l. cbn. intuition.
      * intros (b & a & E & Fx & H). destruct b as [|z b]; cbn in E; injection E as <- ->; [congruence|].
        rewrite H in F by (cbn; auto). discriminate.
    + rewrite IH. split.
      * intros (b & a & -> & Fx & H). exists (y :: b), a. split; [reflexivity|]. split; auto.
        intros z [<-|I]; auto.
      * intros (b & a & E & Fx & H). destruct b as [|z b]; cbn in E; injection E as <- ->; [congruence|].
        exists b, a. split; auto. split; auto. intros z I. apply H. cbn. auto.
Qed.

Lemma find_iface_iff store pre s j : find_iface (build store pre) s = Some j <-> concerns store pre s j.
Proof.
  unfold find_iface, concerns.
  assert (P : forall kv : pystr * nat, (match if_nameif (c_store (build store pre) (snd kv)) with Some m => str_eqb m s | None => false end) = true
               <-> named store (snd kv) s).
  { intros kv. unfold named. destruct (build_store store pre (snd kv)) as (_ & _ & -> & _).
    destruct (if_nameif (store (snd kv))) as [m|]; [|intuition discriminate].
    destruct (str_eqb_spec m s) as [->|]; intuition congruence. }
  assert (P' : forall kv : pystr * nat, (match if_nameif (c_store (build store pre) (snd kv)) with Some m => str_eqb m s | None => false end) = false
               <-> ~ named store (snd kv) s).
  { intros kv. rewrite <- (P kv). destruct (if_nameif (c_store (build store pre) (snd kv))) as [m|];
      [destruct (str_eqb m s)|]; intuition congruence. }
  split.
  - destruct (find _ _) as [[a k]|] eqn:F; [|discriminate]. cbn. intros E. injection E as ->.
    apply find_split in F as (b & c & E & Fx & H). exists (c_ifaces (build store pre)), b, a, c.
    split; [apply (C27_tables store pre TIface); discriminate|]. split; auto.
    split; [now apply (P (a, j))|]. intros x I. apply P'. now apply H.
  - intros (t & b & a & c & T & E & Nm & H).
    assert (Et : t = c_ifaces (build store pre)).
    { eapply table_of_last_unique; [exact T|]. apply (C27_tables store pre TIface). discriminate. }
    destruct (find _ _) as [x|] eqn:F.
    + apply find_split in F as (b' & c' & E' & Fx & H').
      assert (X : find (fun kv => match if_nameif (c_store (build store pre) (snd kv)) with Some m => str_eqb m s | None => false end)
         (c_ifaces (build store pre)) = Some (a, j)).
      { apply find_split. exists b, c. subst t. split; [auto|]. split; [now apply (P (a, j))|].
        intros y I. apply P'. now apply H. }
      assert (Y : find (fun kv => match if_nameif (c_store (build store pre) (snd kv)) with Some m => str_eqb m s | None => false end)
         (c_ifaces (build store pre)) = Some x).
      { apply find_split. exists b', c'. auto. }
      rewrite X in Y. injection Y as <-. reflexivity.
    + exfalso. pose proof (find_none _ _ F (a, j)) as X. cbn in X. rewrite <- Et, E in X.
      specialize (X (in_elt _ _ _)). apply (proj1 (P' (a, j))) in X. auto.
Qed.

(** ** C32 *)
Lemma binds_snoc store items i pre j d name :
  binds store (items ++ [i]) pre j d name <->
  binds store items pre j d name \/ (pre = items /\ exists s, i = KAccessGroup s name d /\ concerns store items s j).
Proof.
  split.
  - intros (s & post & E & C). destruct (exists_last (l := KAccessGroup s name d :: post)) as (l' & z & El); [discriminate|].
    rewrite El, app_assoc in E. apply app_inj_tail in E as [E1 E2]. subst z.
    destruct l' as [|y l'].
    + rewrite app_nil_r in E1. subst pre. cbn in El. injection El as <- ->. right. eauto.
    + cbn in El. injection El as <- ->. left. exists s, l'. auto.
  - intros [(s & post & -> & C)|(-> & s & -> & C)].
    + exists s, (post ++ [i]). split; [now rewrite <- app_assoc|auto].
    + exists s, []. auto.
Qed.
Lemma binds_short store items pre j d name : binds store items pre j d name -> length pre < length items.
Proof. intros (s & post & -> & _). rewrite app_length. cbn. lia. Qed.
Lemma binds_dir store items pre j d name : binds store items pre j d name ->
  exists s post, items = pre ++ KAccessGroup s name d :: post.
Proof. intros (s & post & E & _). eauto. Qed.

Definition step_binds store items i j d name : Prop := exists s, i = KAccessGroup s name d /\ concerns store items s j.

Lemma finally_snoc store items i j d name :
  finally_bound store (items ++ [i]) j d name <->
  step_binds store items i j d name \/
  ((forall n, ~ step_binds store items i j d n) /\ finally_bound store items j d name).
Proof.
  split.
  - intros (pre & B & L). apply binds_snoc in B as [B|[-> B]]; [right|left; exact B]. split.
    + intros n (s & -> & C). apply (L items n).
      * now apply binds_short in B.
      * apply binds_snoc. right. split; auto. exists s. auto.
    + exists pre. split; auto. intros pre' n' Hl B'. apply (L pre' n' Hl). apply binds_snoc. auto.
  - intros [B|[NB (pre & B & L)]].
    + exists items. split; [apply binds_snoc; right; auto|]. intros pre' n' Hl B'.
      apply binds_short in B'. rewrite app_length in B'. cbn in B'. lia.
    + exists pre. split; [apply binds_snoc; auto|]. intros pre' n' Hl B'.
      apply binds_snoc in B' as [B'|[_ B']]; [exact (L _ _ Hl B')|]. exact (NB n' B').
Qed.
Lemma never_snoc store items i j d :
  never_bound store (items ++ [i]) j d <-> never_bound store items j d /\ forall n, ~ step_binds store items i j d n.
Proof.
  unfold never_bound. split.
  - intros H. split.
    + intros pre n B. apply (H pre n). apply binds_snoc. auto.
    + intros n B. apply (H items n). apply binds_snoc. right. auto.
  - intros [H1 H2] pre n B. apply binds_snoc in B as [B|[_ B]]; [eapply H1; eauto|eapply H2; eauto].
Qed.
Lemma concerns_fun store items s j j' : concerns store items s j -> concerns store items s j' -> j = j'.
Proof. rewrite <- !find_iface_iff. congruence. Qed.

Lemma iface_detail_groups self i d i' : iface_detail self i d = Ok i' ->
  if_groups i' = fold_left (fun g nv => dset g (fst nv) (snd nv)) (detail_group self d) (if_groups i).
Proof.
  destruct d; cbn [iface_detail detail_group fold_left]; intros H; try (injection H as <-; reflexivity).
  - destruct (sw_trunk _); [injection H as <-; reflexivity|discriminate].
  - destruct (interface_address a (MaskQuad m)); [injection H as <-; reflexivity|discriminate].
  - destruct (interface_address a (MaskLen _)); [injection H as <-; reflexivity|discriminate].
  - destruct (_ || _); [discriminate|injection H as <-; reflexivity].
Qed.
Lemma fold_r_snoc {A S} (f : S -> A -> result S) l x s :
  fold_r f (l ++ [x]) s = bind (fold_r f l s) (fun s' => f s' x).
Proof.
  revert s. induction l as [|y l IH]; intros s; cbn.
  - destruct (f s x); reflexivity.
  - destruct (f s y); cbn; [apply IH|reflexivity].
Qed.

(** The bindings written inside the interface: per family and direction the last one. *)
Theorem C32_interface_bindings : forall j alias details i, iface_init j alias details = Ok i ->
  table_of_last (flat_map (detail_group j) details) (if_groups i) /\ if_alias i = alias /\ if_routes i = [].
Proof.
  intros j alias details. induction details as [|d details IH] using rev_ind; intros i H.
  - injection H as <-. split; [apply table_last_nil|auto].
  - unfold iface_init in *. rewrite fold_r_snoc in H.
    destruct (fold_r _ details _) as [i0|] eqn:E; cbn [bind] in H; [|discriminate].
    destruct (IH i0 eq_refl) as (T & Al & Rt). split.
    + rewrite (iface_detail_groups _ _ _ _ H), flat_map_app. cbn [flat_map]. rewrite app_nil_r.
      destruct d; cbn [detail_group fold_left]; rewrite ?app_nil_r; auto; now apply table_last_snoc.
    + destruct d; cbn [iface_detail] in H; try (injection H as <-; auto; fail).
      * destruct (sw_trunk _); [injection H as <-; auto|discriminate].
      * destruct (interface_address a (MaskQuad m)); [injection H as <-; auto|discriminate].
      * destruct (interface_address a (MaskLen _)); [injection H as <-; auto|discriminate].
      * destruct (_ || _); [discriminate|injection H as <-; auto].
Qed.
Print Assumptions C32_interface_bindings.

(** The bindings of an interface after all items. *)
Theorem C32_bindings : forall store items j d v,
  dget (if_groups (c_store (build store items) j)) d = Some v <->
  (exists name, finally_bound store items j d name /\ v = mkag (IfObj j) name d) \/
  (never_bound store items j d /\ dget (if_groups (store j)) d = Some v).
Proof.
  intros store items j d v. revert v. induction items as [|i items IH] using rev_ind; intros v.
  - cbn. split.
    + intros H. right. split; auto. intros pre n (s & post & E & _). destruct pre; discriminate.
    + intros [(n & (pre & (s & post & E & _) & _) & _)|[_ H]]; auto. destruct pre; discriminate.
  - rewrite build_snoc, never_snoc.
    assert (F : (exists name, finally_bound store (items ++ [i]) j d name /\ v = mkag (IfObj j) name d) <->
       (exists name, step_binds store items i j d name /\ v = mkag (IfObj j) name d) \/
       ((forall n, ~ step_binds store items i j d n) /\ exists name, finally_bound store items j d name /\ v = mkag (IfObj j) name d)).
    { split.
      - intros (n & H & ->). apply finally_snoc in H as [H|[H1 H2]]; [left|right]; eauto.
      - intros [(n & H & ->)|[H (n & H2 & ->)]]; exists n; rewrite finally_snoc; auto. }
    rewrite F.
    assert (Skip : (forall n, ~ step_binds store items i j d n) ->
       dget (if_groups (c_store (c_step (build store items) i) j)) d = dget (if_groups (c_store (build store items) j)) d ->
       dget (if_groups (c_store (c_step (build store items) i) j)) d = Some v <->
       ((exists name, step_binds store items i j d name /\ v = mkag (IfObj j) name d) \/
        (forall n, ~ step_binds store items i j d n) /\ (exists name, finally_bound store items j d name /\ v = mkag (IfObj j) name d)) \/
        (never_bound store items j d /\ (forall n, ~ step_binds store items i j d n)) /\ dget (if_groups (store j)) d = Some v).
    { intros H E. rewrite E, IH. split.
      - intros [X|[X Y]]; auto.
      - intros [[(n & B & _)|[_ X]]|[[X _] Y]]; auto. destruct (H n B). }
    destruct i; try (apply Skip; [intros n0 (s0 & E0 & _); discriminate|reflexivity]).
    + apply Skip; [intros n0 (s0 & E0 & _); discriminate|]. cbn [c_step].
      destruct nat as [n'|]; match goal with |- context [if ?b then _ else _] => destruct b end; reflexivity.
    + cbn [c_step] in *. destruct (find_iface (build store items) iface) as [k|] eqn:Fi.
      * apply find_iface_iff in Fi. cbn [c_store set_store] in *. unfold bind_iface in *.
        destruct (Nat.eqb_spec j k) as [->|Nk].
        -- cbn [if_groups] in *. rewrite dget_dset in *. cbn [ag_dir] in *.
           destruct (str_eqb_spec dir d) as [->|Nd].
           ++ split.
              ** intros E. injection E as <-. left. left. exists name. split; auto. exists iface. auto.
              ** intros [[(n & (s & E & _) & ->)|[H _]]|[[_ H] _]].
                 --- injection E as -> ->. reflexivity.
                 --- destruct (H name). exists iface. auto.
                 --- destruct (H name). exists iface. auto.
           ++ apply Skip; [|reflexivity]. intros n (s & E & _). congruence.
        -- apply Skip; [|reflexivity]. intros n (s & E & C). injection E as -> -> ->.
           apply Nk. eapply concerns_fun; eauto.
      * apply Skip; [|reflexivity]. intros n (s & E & C). injection E as -> -> ->.
        apply find_iface_iff in C. congruence.
    + apply Skip; [intros n0 (s0 & E0 & _); discriminate|]. cbn [c_step].
      destruct (is_after options); reflexivity.
Qed.
Print Assumptions C32_bindings.

(** The index by ACL name: the bindings written inside the interfaces, in order. *)
Definition iface_ids (items : list citem) : list nat :=
  flat_map (fun i => match i with KIface j => [j] | _ => [] end) items.
Definition inner_bindings (store : nat -> interface) (items : list citem) : list agroup :=
  flat_map (fun j => map snd (if_groups (store j))) (iface_ids items).
Definition entry {V} (d : dict (list V)) (n : pystr) : list V := match dget d n with Some l => l | None => [] end.

Lemma ag_append_entry d v n : entry (ag_append d v) n = entry d n ++ (if str_eqb (ag_name v) n then [v] else []).
Proof.
  unfold ag_append, entry. rewrite dget_dset. destruct (str_eqb_spec (ag_name v) n) as [->|]; [reflexivity|].
  now rewrite app_nil_r.
Qed.
Lemma ag_fold_entry l d n : entry (fold_left ag_append l d) n = entry d n ++ filter (fun v => str_eqb (ag_name v) n) l.
Proof.
  revert d. induction l as [|v l IH]; intros d; cbn; [now rewrite app_nil_r|].
  rewrite IH, ag_append_entry, <- app_assoc. destruct (str_eqb (ag_name v) n); reflexivity.
Qed.

(** Interfaces not yet read are unchanged. *)
Lemma unread store items j : ~ In j (iface_ids items) -> if_groups (c_store (build store items) j) = if_groups (store j).
Proof.
  intros N.
  assert (Q : forall a, ~ In (a, j) (c_ifaces (build store items))).
  { intros a I. apply (C27_tables store items TIface) in I; [|discriminate].
    destruct I as (pre & post & E & _). apply N. unfold iface_ids.
    assert (I : In (a, j) (definitions store TIface items)) by (rewrite E; apply in_elt).
    apply in_flat_map in I as (i & Ii & Hi). apply in_flat_map. exists i. split; auto.
    destruct i; cbn in Hi; try tauto. destruct Hi as [Hi|[]]. injection Hi as _ ->. cbn. auto. }
  revert N Q. induction items as [|i items IH] using rev_ind; intros N Q; [reflexivity|].
  assert (N' : ~ In j (iface_ids items)).
  { intros I. apply N. unfold iface_ids. rewrite flat_map_app. apply in_or_app. auto. }
  assert (Q' : forall a, ~ In (a, j) (c_ifaces (build store items))).
  { intros a I. apply (C27_tables store items TIface) in I; [|discriminate].
    destruct I as (pre & post & E & _). apply N'. unfold iface_ids.
    assert (I : In (a, j) (definitions store TIface items)) by (rewrite E; apply in_elt).
    apply in_flat_map in I as (i' & Ii & Hi). apply in_flat_map. exists i'. split; auto.
    destruct i'; cbn in Hi; try tauto. destruct Hi as [Hi|[]]. injection Hi as _ ->. cbn. auto. }
  rewrite <- (IH N' Q'), build_snoc.
  destruct i; try reflexivity.
  - cbn [c_step]. destruct nat as [n'|]; match goal with |- context [if ?b then _ else _] => destruct b end; reflexivity.
  - cbn [c_step]. destruct (find_iface (build store items) iface) as [k|] eqn:Fi; [|reflexivity].
    cbn. unfold bind_iface. destruct (Nat.eqb_spec j k) as [->|]; [|reflexivity].
    unfold find_iface in Fi. destruct (find _ _) as [[a k']|] eqn:F; [|discriminate]. cbn in Fi. injection Fi as ->.
    apply find_some in F as [F _]. destruct (Q' a F).
  - cbn [c_step]. destruct (is_after options); reflexivity.
Qed.

Theorem C32_index : forall store items, NoDup (iface_ids items) -> forall acl,
  entry (c_agroups (build store items)) acl =
  filter (fun v => str_eqb (ag_name v) acl) (inner_bindings store items) /\
  (dmem (c_agroups (build store items)) acl = true <-> exists v, In v (inner_bindings store items) /\ ag_name v = acl).
Proof.
  intros store items ND acl.
  assert (A : entry (c_agroups (build store items)) acl = filter (fun v => str_eqb (ag_name v) acl) (inner_bindings store items)
    /\ (forall l, dget (c_agroups (build store items)) acl = Some l -> l <> [])).
  { revert ND. induction items as [|i items IH] using rev_ind; intros ND; [split; [reflexivity|discriminate]|].
    unfold iface_ids in ND. rewrite flat_map_app in ND. cbn in ND. rewrite app_nil_r in ND.
    rewrite build_snoc. unfold inner_bindings, iface_ids. rewrite !flat_map_app. cbn [flat_map]. rewrite app_nil_r.
    assert (ND' : NoDup (iface_ids items)).
    { destruct i; rewrite ?app_nil_r in ND; auto.
      apply NoDup_remove_1 in ND. now rewrite app_nil_r in ND. }
    specialize (IH ND'). destruct IH as [IH1 IH2].
    destruct i; cbn [flat_map]; try (rewrite app_nil_r; split; assumption).
    - cbn [c_step c_agroups set_agroups set_ifaces c_store]. cbn [flat_map]. rewrite app_nil_r, filter_app.
      assert (Gi : if_groups (c_store (build store items) i) = if_groups (store i)).
      { apply unread. intros I. apply NoDup_remove_2 in ND. rewrite app_nil_r in ND. auto. }
      rewrite Gi. split.
      + rewrite ag_fold_entry, IH1. reflexivity.
      + generalize (map snd (if_groups (store i))) as l. revert IH2. generalize (c_agroups (build store items)) as dd.
        intros dd IH2 l. revert dd IH2. induction l as [|v l IHl]; intros dd IH2; cbn; auto.
        apply IHl. intros l'. unfold ag_append. rewrite dget_dset. destruct (str_eqb_spec (ag_name v) acl); [|apply IH2].
        intros E. injection E as <-. intros E'. apply app_eq_nil in E' as [_ E']. discriminate.
    - rewrite app_nil_r. cbn [c_step].
      destruct nat as [n'|]; match goal with |- context [if ?b then _ else _] => destruct b end; split; assumption.
    - rewrite app_nil_r. cbn [c_step]. destruct (find_iface _ _); split; assumption.
    - rewrite app_nil_r. cbn [c_step]. destruct (is_after options); split; assumption. }
  destruct A as [A1 A2]. split; [exact A1|].
  rewrite dmem_true. unfold entry in A1. split.
  - intros I. destruct (dget (c_agroups (build store items)) acl) as [l|] eqn:E.
    + destruct l as [|v l]; [destruct (A2 [] eq_refl eq_refl)|]. exists v.
      assert (I' : In v (filter (fun v => str_eqb (ag_name v) acl) (inner_bindings store items))) by (rewrite <- A1; cbn; auto).
      apply filter_In in I' as [I1 I2]. split; auto. destruct (str_eqb_spec (ag_name v) acl); congruence.
    + apply dget_none in E. tauto.
  - intros (v & I & <-). destruct (dget (c_agroups (build store items)) (ag_name v)) as [l|] eqn:E.
    + apply dget_in in E. apply in_map_iff. exists (ag_name v, l). auto.
    + exfalso. assert (X : In v (filter (fun w => str_eqb (ag_name w) (ag_name v)) (inner_bindings store items))).
      { apply filter_In. split; auto. apply str_eqb_refl. }
      rewrite <- A1 in X. destruct X.
Qed.
Print Assumptions C32_index.

(** Two interfaces, one ASA access-group line bound twice, one unknown interface. *)
Definition ex_if (n : pystr) (self : nat) (l : list ifdetail) : interface :=
  match iface_init self n l with Ok i => i | Err _ => mkiface n [] [] None None None [] end.
Definition ex_store (j : nat) : interface :=
  if Nat.eqb j 0 then ex_if (u "e0") 0 [DNameif (u "inside"); DGroup4 (u "X") (u "in"); DGroup4 (u "Y") (u "in")] else
  if Nat.eqb j 1 then ex_if (u "e1") 1 [DNameif (u "inside")] else ex_if (u "e2") j [].
Definition ex_items := [KIface 0; KIface 1; KAccessGroup (u "inside") (u "A") (u "in");
                        KAccessGroup (u "dmz") (u "B") (u "in"); KAccessGroup (u "inside") (u "C") (u "in")].
Example C32_instance : constructed ex_store /\
  map (fun kv => (fst kv, ag_name (snd kv))) (if_groups (c_store (build ex_store ex_items) 0)) = [(u "ip-in", u "Y"); (u "in", u "C")] /\
  if_groups (c_store (build ex_store ex_items) 1) = [] /\ NoDup (iface_ids ex_items) /\
  map fst (c_agroups (build ex_store ex_items)) = [u "Y"].
Proof.
  split.
  - intros [|[|j]]; do 2 eexists; [| |exact (eq_refl : iface_init (S (S j)) (u "e2") [] = _)];
      unfold ex_store, ex_if; cbn [Nat.eqb].
    + match goal with |- _ = Ok (match ?x with _ => _ end) => exact (eq_refl : x = _) end.
    + match goal with |- _ = Ok (match ?x with _ => _ end) => exact (eq_refl : x = _) end.
  - repeat split; try reflexivity. cbn. repeat constructor; cbn; intuition discriminate.
Qed.

(** ** C36 *)
Lemma trunk_none_step details : (forall d, In d details -> ~ is_set d /\ ~ is_add d) -> forall i i' self,
  fold_r (iface_detail self) details i = Ok i' -> trunk_of i' = trunk_of i.
Proof.
  induction details as [|d details IH]; intros H i i' self E; cbn in E; [injection E as <-; reflexivity|].
  destruct (iface_detail self i d) as [i1|] eqn:E1; cbn in E; [|discriminate].
  rewrite (IH (fun d' I => H d' (or_intror I)) _ _ _ E). destruct (H d (or_introl eq_refl)) as [H1 H2].
  destruct d; cbn [iface_detail] in E1; try (injection E1 as <-; try reflexivity).
  - unfold trunk_of. cbn. destruct (if_switch i); reflexivity.
  - destruct H1. eexists; reflexivity.
  - destruct H2. eexists; reflexivity.
  - destruct (interface_address a (MaskQuad m)); [injection E1 as <-; reflexivity|discriminate].
  - destruct (interface_address a (MaskLen _)); [injection E1 as <-; reflexivity|discriminate].
  - destruct (_ || _); [discriminate|injection E1 as <-; reflexivity].
Qed.

Lemma trunk_step self i d i' : iface_detail self i d = Ok i' ->
  trunk_of i' = match d with
                | DTrunkSet l => Some l
                | DTrunkAdd l => option_map (fun t => t ++ l) (trunk_of i)
                | _ => trunk_of i
                end /\ (is_add d -> trunk_of i <> None).
Proof.
  intros E. assert (T : trunk_of i = sw_trunk (sw_of (if_switch i))) by (unfold trunk_of; destruct (if_switch i); reflexivity).
  split.
  - destruct d; cbn [iface_detail] in E; try (injection E as <-; try reflexivity).
    + rewrite T. reflexivity.
    + rewrite T. destruct (sw_trunk (sw_of (if_switch i))); [injection E as <-; reflexivity|discriminate].
    + destruct (interface_address a (MaskQuad m)); [injection E as <-; reflexivity|discriminate].
    + destruct (interface_address a (MaskLen _)); [injection E as <-; reflexivity|discriminate].
    + destruct (_ || _); [discriminate|injection E as <-; reflexivity].
  - intros (l & ->). cbn [iface_detail] in E. rewrite T. destruct (sw_trunk (sw_of (if_switch i))); [discriminate|discriminate].
Qed.

Theorem C36_trunk : forall j alias details i, iface_init j alias details = Ok i ->
  trunk_is details (trunk_of i).
Proof.
  intros j alias details. unfold iface_init. induction details as [|d details IH] using rev_ind; intros i H.
  - injection H as <-. apply TI_none. intros d [].
  - rewrite fold_r_snoc in H. destruct (fold_r _ details _) as [i0|] eqn:E; cbn [bind] in H; [|discriminate].
    specialize (IH i0 eq_refl). destruct (trunk_step _ _ _ _ H) as [T A]. rewrite T.
    assert (D : (exists l, d = DTrunkSet l) \/ (exists l, d = DTrunkAdd l) \/ (~ is_set d /\ ~ is_add d)).
    { destruct d; try (right; right; split; intros (l' & X); discriminate).
      - left. eauto.
      - right. left. eauto. }
    destruct D as [(l & ->)|[(l & ->)|[D1 D2]]].
    + assert (G : trunk_is (details ++ [DTrunkSet l]) (Some (l ++ flat_map added []))).
      { apply TI_some with (pre := details) (post := []); auto. }
      cbn in G. now rewrite app_nil_r in G.
    + inversion IH as [N E0|pre l0 post E0 Np E1].
      * rewrite <- E0 in A. destruct A; auto. exists l. reflexivity.
      * cbn [option_map].
        assert (G : trunk_is (details ++ [DTrunkAdd l]) (Some (l0 ++ flat_map added (post ++ [DTrunkAdd l])))).
        { apply TI_some with (pre := pre).
          - rewrite E0, <- app_assoc. reflexivity.
          - intros d I. apply in_app_or in I as [I|[<-|[]]]; auto. intros (l' & X). discriminate. }
        rewrite flat_map_app in G. cbn in G. now rewrite app_nil_r, app_assoc in G.
    + assert (X : match d with DTrunkSet l => Some l | DTrunkAdd l => option_map (fun t => t ++ l) (trunk_of i0) | _ => trunk_of i0 end
                  = trunk_of i0).
      { destruct d; try reflexivity; [destruct D1|destruct D2]; eexists; reflexivity. }
      rewrite X. inversion IH as [N E0|pre l0 post E0 Np E1].
      * apply TI_none. intros d' I. apply in_app_or in I as [I|[<-|[]]]; auto.
      * assert (G : trunk_is (details ++ [d]) (Some (l0 ++ flat_map added (post ++ [d])))).
        { apply TI_some with (pre := pre).
          - rewrite E0, <- app_assoc. reflexivity.
          - intros d' I. apply in_app_or in I as [I|[<-|[]]]; auto. }
        rewrite flat_map_app in G. cbn in G.
        assert (Y : added d = []) by (destruct d; try reflexivity; destruct D2; eexists; reflexivity).
        now rewrite Y, !app_nil_r in G.
Qed.
Print Assumptions C36_trunk.
(** An addition to a trunk that has not been set fails. *)
Theorem C36_add_first : forall j alias pre l post i0, iface_init j alias pre = Ok i0 ->
  (forall d, In d pre -> ~ is_set d) -> iface_init j alias (pre ++ DTrunkAdd l :: post) = Err AttributeError.
Proof.
  intros j alias pre l post i0 E N.
  assert (T : trunk_of i0 = None).
  { pose proof (C36_trunk _ _ _ _ E) as X. inversion X as [H E1|p l0 q E1 H E2]; [auto|].
    exfalso. apply (N (DTrunkSet l0)); [rewrite E1; apply in_elt|]. exists l0. reflexivity. }
  unfold iface_init in *.
  assert (F : forall s, fold_r (iface_detail j) (pre ++ DTrunkAdd l :: post) s =
             bind (fold_r (iface_detail j) pre s) (fun s' => fold_r (iface_detail j) (DTrunkAdd l :: post) s')).
  { clear. induction pre as [|d pre IH]; intros s; cbn [app]; [reflexivity|]. cbn [fold_r].
    destruct (iface_detail j s d); cbn [bind]; [apply IH|reflexivity]. }
  rewrite F, E. cbn [bind fold_r iface_detail].
  assert (T' : sw_trunk (sw_of (if_switch i0)) = None) by (revert T; unfold trunk_of; destruct (if_switch i0); cbn; auto).
  now rewrite T'.
Qed.
Print Assumptions C36_add_first.
(** Nothing but a bad address, such an addition, or a short type fails. *)
Theorem C36_succeeds : forall j alias details,
  (forall pre l post, details = pre ++ DTrunkAdd l :: post -> exists d, In d pre /\ is_set d) ->
  (forall a m, In (DAddr4 a m) details -> exists n, ip_network false a (MaskQuad m) = Ok n) ->
  (forall a p, In (DAddr6 a p) details -> exists n, ip_network false a (MaskLen (match p with Some p => p | None => 128%N end)) = Ok n) ->
  (forall f w a m, ~ In (DShort f w a m) details) ->
  exists i, iface_init j alias details = Ok i.
Proof.
  intros j alias details. induction details as [|d details IH] using rev_ind; intros A A4 A6 As.
  - eexists. reflexivity.
  - unfold iface_init in *. rewrite fold_r_snoc.
    destruct IH as (i0 & E0).
    { intros pre l post E. apply (A pre l (post ++ [d])). rewrite E, <- app_assoc. reflexivity. }
    { intros a m I. apply A4. apply in_or_app. auto. }
    { intros a m I. apply A6. apply in_or_app. auto. }
    { intros f w a m I. apply (As f w a m). apply in_or_app. auto. }
    rewrite E0. cbn [bind]. destruct d; cbn [iface_detail]; eauto.
    + assert (T : trunk_of i0 <> None).
      { destruct (A details l [] eq_refl) as (d & I & (l' & ->)).
        pose proof (C36_trunk _ _ _ _ E0) as X. inversion X as [H E1|]; [|discriminate].
        destruct (H _ I) as [Z _]. destruct Z. exists l'. reflexivity. }
      unfold trunk_of in T. destruct (if_switch i0) as [sw|]; [|congruence]. cbn. destruct (sw_trunk sw); [eauto|congruence].
    + destruct (A4 a m) as (n & E); [apply in_or_app; cbn; auto|]. unfold interface_address. rewrite E. cbn. eauto.
    + destruct (A6 a p) as (n & E); [apply in_or_app; cbn; auto|]. unfold interface_address. rewrite E. cbn. eauto.
    + destruct (As family word a m). apply in_or_app. cbn. auto.
Qed.
Print Assumptions C36_succeeds.
Example C36_instance : exists i, iface_init 0 (u "e0") [DSwMode (u "trunk"); DTrunkSet [Vlan (u "1")]; DTrunkAdd [Vlan (u "2")];
   DTrunkSet [Vlan (u "3")]; DTrunkAdd [VlanRange (u "4") (u "6")]; DTrunkAdd [Vlan (u "9")]] = Ok i /\
   trunk_of i = Some [Vlan (u "3"); VlanRange (u "4") (u "6"); Vlan (u "9")].
Proof. eexists. split; reflexivity. Qed.

(** ** C37 *)
Lemma iface_addrs j alias details i : iface_init j alias details = Ok i ->
  (forall d a m, In d details -> address_line d a m -> valid a /\ mask_in_range m) ->
  Forall net_wf (if_addrs i) /\
  forall g, (exists n, In n (if_addrs i) /\ in_net n g) <-> on_link details g.
Proof.
  revert i. unfold iface_init. induction details as [|d details IH] using rev_ind; intros i H V.
  - injection H as <-. cbn. split; [constructor|]. intros g. split.
    + intros (n & [] & _).
    + intros (d & a & m & p & [] & _).
  - rewrite fold_r_snoc in H. destruct (fold_r _ details _) as [i0|] eqn:E; cbn [bind] in H; [|discriminate].
    destruct (IH i0 eq_refl) as [W G].
    { intros d' a m I. apply V. apply in_or_app. auto. }
    assert (S : (if_addrs i = if_addrs i0 /\ forall a m, ~ address_line d a m) \/
                exists a m n, address_line d a m /\ ip_network false a m = Ok n /\ if_addrs i = if_addrs i0 ++ [n]).
    { destruct d; cbn [iface_detail] in H;
        try (left; split; [injection H as <-; reflexivity|intros a' m' X; inversion X]; fail).
      - left. split; [|intros a' m' X; inversion X]. destruct (sw_trunk _); [injection H as <-; reflexivity|discriminate].
      - right. unfold interface_address in H. destruct (ip_network false a (MaskQuad m)) as [n|] eqn:N; cbn in H; [|discriminate].
        injection H as <-. exists a, (MaskQuad m), n. split; [constructor|auto].
      - right. unfold interface_address in H. destruct (ip_network false a _) as [n|] eqn:N; cbn in H; [|discriminate].
        injection H as <-. do 3 eexists. split; [|split; [exact N|reflexivity]]. destruct p; constructor.
      - left. split; [|intros a' m' X; inversion X]. destruct (_ || _); [discriminate|injection H as <-; reflexivity]. }
    destruct S as [[-> N]|(a & m & n & AL & N & ->)].
    + split; auto. intros g. rewrite G. unfold on_link. split; intros (d' & a & m & p & I & R).
      * exists d', a, m, p. split; [apply in_or_app; auto|auto].
      * exists d', a, m, p. apply in_app_or in I as [I|[<-|[]]]; [auto|]. destruct R as [R _]. destruct (N _ _ R).
    + destruct (V d a m) as [Va Vm]; [apply in_or_app; cbn; auto|auto|].
      destruct (MaskFacts.mk_Network_char a m Va Vm) as [C1 C2].
      assert (P : exists p, mask_denotes (a_ver a) m p).
      { destruct (MaskFacts.ip_network_wf false a m n Va Vm N) as (_ & _ & Em & _).
        exists (n_plen n). now apply MaskFacts.make_netmask_denotes. }
      destruct P as (p & P). destruct (C1 p P) as (n' & E' & W' & Ep & M).
      unfold mk_Network in E'. rewrite N in E'. cbn in E'. injection E' as <-. cbn [leaf_matches] in M.
      split; [apply Forall_app; auto|]. intros g. split.
      * intros (k & I & K). apply in_app_or in I as [I|[<-|[]]].
        -- assert (X : on_link details g) by (apply G; eauto).
           destruct X as (d' & a' & m' & p' & I' & R). exists d', a', m', p'. split; [apply in_or_app; auto|auto].
        -- exists d, a, m, p. split; [apply in_or_app; cbn; auto|]. split; auto. split; auto. now apply M.
      * intros (d' & a' & m' & p' & I & AL' & D' & A'). apply in_app_or in I as [I|[<-|[]]].
        -- assert (X : exists k, In k (if_addrs i0) /\ in_net k g) by (apply G; exists d', a', m', p'; auto).
           destruct X as (k & I' & K). exists k. split; [apply in_or_app; auto|auto].
        -- assert (a' = a /\ m' = m) as [-> ->] by (inversion AL; subst; inversion AL'; auto).
           exists n. split; [apply in_or_app; cbn; auto|]. apply M.
           assert (p' = p) as -> by (eapply Addresses.C06_mask_unambiguous; eauto). exact A'.
Qed.

Definition has_route (st : nat -> interface) (j r : nat) : Prop := In r (if_routes (st j)).
Lemma add_route_iff st k r j r' : has_route (add_route st k r) j r' <-> has_route st j r' \/ (j = k /\ r' = r).
Proof.
  unfold has_route, add_route. destruct (Nat.eqb_spec j k) as [->|N]; [|intuition congruence]. cbn.
  destruct (existsb (Nat.eqb r) (if_routes (st k))) eqn:X.
  - apply existsb_exists in X as (z & Iz & Ez). apply Nat.eqb_eq in Ez. subst z. intuition congruence.
  - rewrite in_app_iff. cbn. intuition congruence.
Qed.
Lemma add_route_addrs st k r j : if_addrs (add_route st k r j) = if_addrs (st j).
Proof. unfold add_route. destruct (Nat.eqb_spec j k) as [->|]; reflexivity. Qed.

Lemma attach_addrs l k a r st : forall j,
  if_addrs (fold_left (fun st n => if net_contains n a then add_route st k r else st) l st j) = if_addrs (st j).
Proof.
  revert st. induction l as [|n l IH]; intros st j; cbn; [reflexivity|]. rewrite IH.
  destruct (net_contains n a); [apply add_route_addrs|reflexivity].
Qed.
Lemma attach_inner l k a r st j r' :
  has_route (fold_left (fun st n => if net_contains n a then add_route st k r else st) l st) j r' <->
  has_route st j r' \/ (j = k /\ r' = r /\ exists n, In n l /\ net_contains n a = true).
Proof.
  revert st. induction l as [|n l IH]; intros st; cbn.
  - split; auto. intros [H|(_ & _ & z & [] & _)]. auto.
  - rewrite IH. destruct (net_contains n a) eqn:C.
    + rewrite add_route_iff. split.
      * intros [[H|[-> ->]]|(-> & -> & z & I & Z)]; eauto 8.
      * intros [H|(-> & -> & z & [<-|I] & Z)]; eauto 8.
    + split.
      * intros [H|(-> & -> & z & I & Z)]; eauto 8.
      * intros [H|(-> & -> & z & [<-|I] & Z)]; [eauto|congruence|eauto 8].
Qed.
Lemma attach_outer ifs a r st j r' :
  has_route (fold_left (fun st (kv : pystr * nat) => fold_left (fun st n => if net_contains n a then add_route st (snd kv) r else st)
                  (if_addrs (st (snd kv))) st) ifs st) j r' <->
  has_route st j r' \/ (In j (map snd ifs) /\ r' = r /\ exists n, In n (if_addrs (st j)) /\ net_contains n a = true).
Proof.
  revert st. induction ifs as [|[al k] ifs IH]; intros st; cbn [fold_left map snd].
  - split; auto. intros [H|([] & _)]. auto.
  - rewrite IH, attach_addrs, attach_inner. split.
    + intros [[H|(-> & -> & Z)]|(I & -> & Z)]; cbn; auto.
    + intros [H|([<-|I] & -> & Z)]; auto.
Qed.
Lemma attach_outer_addrs ifs a r st j :
  if_addrs (fold_left (fun st (kv : pystr * nat) => fold_left (fun st n => if net_contains n a then add_route st (snd kv) r else st)
                  (if_addrs (st (snd kv))) st) ifs st j) = if_addrs (st j).
Proof. revert st. induction ifs as [|[al k] ifs IH]; intros st; cbn; [reflexivity|]. rewrite IH. apply attach_addrs. Qed.

Lemma attach_all gw ifs rs st j r' :
  has_route (fold_left (attach gw ifs) rs st) j r' <->
  has_route st j r' \/ (In r' rs /\ (gw r' = GwIface j \/ exists a, gw r' = GwAddr a /\
      In j (map snd ifs) /\ exists n, In n (if_addrs (st j)) /\ net_contains n a = true)).
Proof.
  revert st. induction rs as [|r rs IH]; intros st; cbn [fold_left].
  - split; auto. intros [H|([] & _)]. auto.
  - rewrite IH. unfold attach. destruct (gw r) as [a|k] eqn:G.
    + rewrite attach_outer, attach_outer_addrs. split.
      * intros [[H|(I & -> & Z)]|(I & Z)]; cbn; eauto 8.
      * intros [H|([<-|I] & Z)]; auto. destruct Z as [Z|(a' & Z & I & Y)]; [congruence|].
        rewrite G in Z. injection Z as <-. auto.
    + rewrite add_route_iff, add_route_addrs. split.
      * intros [[H|(-> & ->)]|(I & Z)]; cbn; auto.
      * intros [H|([<-|I] & Z)]; auto. destruct Z as [Z|(a' & Z & I & Y)]; [|congruence].
        rewrite G in Z. injection Z as ->. auto.
Qed.

Lemma ios_routes_in items r : In r (ios_routes items) <-> In (KRoute r) items.
Proof.
  unfold ios_routes. induction items as [|i items IH] using rev_ind; [reflexivity|].
  rewrite fold_left_app, in_app_iff. cbn [fold_left In]. rewrite <- IH.
  destruct i; rewrite ?in_app_iff; cbn; intuition congruence.
Qed.

Theorem C37_routes : forall al det gw store items, built_from al det store ->
  (forall r a, gw r = GwAddr a -> valid a) ->
  forall j r,
  In r (if_routes (c_store (fst (ios_build gw store items)) j)) <->
  In (KRoute r) items /\
  (gw r = GwIface j \/
   exists g alias, gw r = GwAddr g /\ last_def (definitions store TIface items) alias j /\ on_link (det j) g).
Proof.
  intros al det gw store items B Vg j r. cbn [ios_build fst c_store set_store c_ifaces set_rules].
  destruct (B j) as [Bj Bv].
  destruct (build_store store items j) as (_ & Ea & _ & _ & _ & Er).
  destruct (C32_interface_bindings _ _ _ _ Bj) as (_ & _ & R0).
  destruct (iface_addrs _ _ _ _ Bj) as [W G].
  { intros d a m I AL. destruct (Bv d a m I AL). auto. }
  pose proof (attach_all gw (c_ifaces (build store items)) (ios_routes items) (c_store (build store items)) j r) as A.
  unfold has_route in A. rewrite A, Er, R0, Ea, ios_routes_in. clear A. cbn [In].
  assert (L : In j (map snd (c_ifaces (build store items))) <-> exists alias, last_def (definitions store TIface items) alias j).
  { rewrite in_map_iff. split.
    - intros ([alias k] & <- & I). exists alias. now apply (C27_tables store items TIface).
    - intros (alias & H). exists (alias, j). split; [reflexivity|]. apply (C27_tables store items TIface); [discriminate|exact H]. }
  split.
  - intros [[]|[I [H|(g & H & J & n & In_ & C)]]]; split; auto. right.
    apply L in J as (alias & J). exists g, alias. split; [auto|split; [auto|]]. apply G. exists n. split; auto.
    rewrite Forall_forall in W. apply (IpFacts.net_contains_iff n g); eauto.
  - intros [I [H|(g & alias & H & J & On)]]; right; split; auto. right. exists g. split; auto.
    split; [apply L; eauto|]. apply G in On as (n & In_ & C). exists n. split; auto.
    rewrite Forall_forall in W. apply (IpFacts.net_contains_iff n g); eauto.
Qed.
Print Assumptions C37_routes.
(** The routes listed are those of the items, in order. *)
Theorem C37_route_list : forall gw store items,
  snd (ios_build gw store items) = flat_map (fun i => match i with KRoute r => [r] | _ => [] end) items.
Proof.
  intros gw store items. cbn. unfold ios_routes. induction items as [|i items IH] using rev_ind; [reflexivity|].
  rewrite fold_left_app, flat_map_app, <- IH. cbn [fold_left flat_map]. rewrite app_nil_r. destruct i; rewrite ?app_nil_r; reflexivity.
Qed.
Print Assumptions C37_route_list.
(** 10.0.0.1/24 on interface 0, 10.0.1.1/24 on interface 1; gateways 10.0.1.9 and interface 0. *)
Definition ex37_det (j : nat) : list ifdetail :=
  match j with
  | 0 => [DAddr4 (mkaddr V4 167772161) 4294967040]
  | 1 => [DAddr4 (mkaddr V4 167772417) 4294967040]
  | _ => []
  end.
Definition ex37_al (j : nat) : pystr := match j with 0 => u "e0" | 1 => u "e1" | _ => u "x" end.
Definition ex37_store (j : nat) : interface := ex_if (ex37_al j) j (ex37_det j).
Definition ex37_gw (r : nat) : gateway := match r with 0 => GwAddr (mkaddr V4 167772425) | _ => GwIface 0 end.
Example C37_instance : built_from ex37_al ex37_det ex37_store /\
  let c := fst (ios_build ex37_gw ex37_store [KIface 0; KIface 1; KRoute 0; KRoute 1]) in
  if_routes (c_store c 0) = [1] /\ if_routes (c_store c 1) = [0].
Proof.
  split; [|split; reflexivity].
  intros [|[|j]]; (split; [vm_compute; reflexivity|]); cbn; intros d a m I AL.
  - destruct I as [<-|[]]. inversion AL; subst. split; [unfold valid; cbn|]; reflexivity.
  - destruct I as [<-|[]]. inversion AL; subst. split; [unfold valid; cbn|]; reflexivity.
  - destruct I.
Qed.
