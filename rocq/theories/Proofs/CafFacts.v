(** Operator precedence and clause construction of the filter language. *)
From Coq Require Import Lia.
From Verif.Model Require Import Base Ip Hosts Groups Fnmatch Rules Caf.
From Verif.Spec Require Import AddrSpec GlobSpec FilterSpec CafSpec.
From Verif.Proofs Require Import MaskFacts AndFacts FilterFacts.

(** ** Precedence *)
Fixpoint caf_prod (p : prod) : cval :=
  match p with
  | PVal v => v
  | PAnd p v => VCaf (COp Intersect (block (caf_prod p)) (block v))
  end.
Fixpoint caf_sum (s : sum) : cval :=
  match s with
  | SProd p => caf_prod p
  | SAdd s o p => VCaf (COp (op_of o) (block (caf_sum s)) (block (caf_prod p)))
  end.
Fixpoint ands (p : prod) : nat := match p with PVal _ => 0 | PAnd p _ => S (ands p) end.
Fixpoint sands (s : sum) : nat := match s with SProd p => ands p | SAdd s _ p => ands p + sands s end.
Fixpoint adds (s : sum) : nat := match s with SProd _ => 0 | SAdd s _ _ => S (adds s) end.
Fixpoint flat (s : sum) : list celem :=
  match s with
  | SProd p => [EVal (caf_prod p)]
  | SAdd s o p => flat s ++ EWord (op_of o) :: [EVal (caf_prod p)]
  end.

(** Lists of (operand, unwanted operator) pairs. *)
Inductive closed (want : cafop -> bool) : list celem -> Prop :=
| Cl_nil : closed want []
| Cl_cons v o l : want o = false -> closed want l -> closed want (EVal v :: EWord o :: l).
Lemma closed_app w a b : closed w a -> closed w b -> closed w (a ++ b).
Proof. induction 1; cbn; auto. intros Hb. constructor; auto. Qed.

Lemma reduce1_hit w pre x o y l : closed w pre -> w o = true ->
  reduce1 w (pre ++ EVal x :: EWord o :: EVal y :: l) =
  Ok (Some (pre ++ EVal (VCaf (COp o (block x) (block y))) :: l)).
Proof.
  intros C W. induction C as [|v o' l' Hw C IH]; cbn [app reduce1].
  - now rewrite W.
  - rewrite Hw, IH. reflexivity.
Qed.
Lemma reduce1_none w pre x : closed w pre -> reduce1 w (pre ++ [EVal x]) = Ok None.
Proof.
  intros C. induction C as [|v o' l' Hw C IH]; cbn [app reduce1]; [reflexivity|]. rewrite Hw, IH. reflexivity.
Qed.
Lemma reduce_all_step w n l l' : reduce1 w l = Ok (Some l') -> reduce_all (S n) w l = reduce_all n w l'.
Proof. intros E. cbn [reduce_all]. now rewrite E. Qed.
Lemma reduce_all_none w n l : reduce1 w l = Ok None -> reduce_all n w l = Ok l.
Proof. intros E. destruct n; cbn [reduce_all]; [reflexivity|]. now rewrite E. Qed.

Lemma prod_reduce p : forall n pre rest, closed is_intersect pre ->
  reduce_all (ands p + n) is_intersect (pre ++ prod_words p ++ rest) =
  reduce_all n is_intersect (pre ++ EVal (caf_prod p) :: rest).
Proof.
  induction p as [v|p IH v]; intros n pre rest C; cbn [ands prod_words caf_prod]; [reflexivity|].
  rewrite <- app_assoc. cbn [app].
  replace (S (ands p) + n) with (ands p + S n) by lia. rewrite IH by auto.
  apply reduce_all_step. now apply reduce1_hit.
Qed.

Lemma flat_closed s o : closed is_intersect (flat s ++ [EWord (op_of o)]).
Proof.
  revert o. induction s as [p|s IH o' p]; intros o; cbn [flat].
  - constructor; [destruct o; reflexivity|constructor].
  - replace ((flat s ++ [EWord (op_of o'); EVal (caf_prod p)]) ++ [EWord (op_of o)])
      with ((flat s ++ [EWord (op_of o')]) ++ [EVal (caf_prod p); EWord (op_of o)])
      by (rewrite <- !app_assoc; reflexivity).
    apply closed_app; auto. constructor; [destruct o; reflexivity|constructor].
Qed.
Lemma flat_last s : exists pre, flat s = pre ++ [EVal (match s with SProd p => caf_prod p | SAdd _ _ p => caf_prod p end)]
  /\ closed is_intersect pre.
Proof.
  destruct s as [p|s o p]; cbn [flat].
  - exists []. split; [reflexivity|constructor].
  - exists (flat s ++ [EWord (op_of o)]). split; [now rewrite <- app_assoc|apply flat_closed].
Qed.

Lemma sum_reduce s : forall n rest,
  reduce_all (sands s + n) is_intersect (sum_words s ++ rest) = reduce_all n is_intersect (flat s ++ rest).
Proof.
  induction s as [p|s IH o p]; intros n rest; cbn [sands sum_words flat].
  - apply (prod_reduce p n [] rest). constructor.
  - rewrite <- app_assoc. cbn [app]. replace (ands p + sands s + n) with (sands s + (ands p + n)) by lia.
    rewrite IH.
    replace (flat s ++ EWord (op_of o) :: prod_words p ++ rest)
      with ((flat s ++ [EWord (op_of o)]) ++ prod_words p ++ rest) by (now rewrite <- app_assoc).
    rewrite prod_reduce by apply flat_closed. f_equal. rewrite <- !app_assoc. reflexivity.
Qed.

Lemma flat_reduce s : forall n rest,
  reduce_all (adds s + n) is_union_except (flat s ++ rest) = reduce_all n is_union_except (EVal (caf_sum s) :: rest).
Proof.
  induction s as [p|s IH o p]; intros n rest; cbn [adds flat caf_sum]; [reflexivity|].
  rewrite <- app_assoc. cbn [app]. replace (S (adds s) + n) with (adds s + S n) by lia. rewrite IH.
  apply reduce_all_step. apply (reduce1_hit is_union_except []); [constructor|destruct o; reflexivity].
Qed.

Lemma prod_words_length p : length (prod_words p) = 1 + 2 * ands p.
Proof. induction p; cbn [prod_words ands]; [reflexivity|]. rewrite app_length, IHp. cbn. lia. Qed.
Lemma sum_words_length s : length (sum_words s) = 1 + 2 * (sands s + adds s).
Proof.
  induction s as [p|s IH o p]; cbn [sum_words sands adds].
  - rewrite prod_words_length. lia.
  - rewrite app_length, IH. cbn [length]. rewrite prod_words_length. lia.
Qed.
Lemma flat_length s : length (flat s) = 1 + 2 * adds s.
Proof. induction s; cbn [flat adds]; [reflexivity|]. rewrite app_length, IHs. cbn. lia. Qed.

Theorem expr_action_sum s : expr_action (sum_words s) = Ok (caf_sum s).
Proof.
  unfold expr_action.
  replace (length (sum_words s)) with (sands s + (1 + sands s + 2 * adds s)) by (rewrite sum_words_length; lia).
  rewrite <- (app_nil_r (sum_words s)), sum_reduce, app_nil_r.
  destruct (flat_last s) as (pre & E & C).
  rewrite reduce_all_none by (rewrite E; now apply reduce1_none). cbn [bind].
  replace (length (flat s)) with (adds s + (1 + adds s)) by (rewrite flat_length; lia).
  rewrite <- (app_nil_r (flat s)), flat_reduce.
  rewrite reduce_all_none by reflexivity. reflexivity.
Qed.

Lemma prod_meaning {A} (sel : rule -> A -> Prop) p x :
  denotes sel (block (caf_prod p)) x <-> prod_means (val_denotes sel) p x.
Proof.
  induction p as [v|p IH v]; cbn [caf_prod prod_means].
  - destruct v; reflexivity.
  - cbn [block denotes]. rewrite IH. destruct v; reflexivity.
Qed.
Lemma sum_meaning {A} (sel : rule -> A -> Prop) s x :
  denotes sel (block (caf_sum s)) x <-> sum_means (val_denotes sel) s x.
Proof.
  induction s as [p|s IH o p]; cbn [caf_sum sum_means].
  - apply prod_meaning.
  - destruct o; cbn [block op_of denotes]; rewrite IH, prod_meaning; reflexivity.
Qed.

(** Every alternating sequence is the text of a tree. *)
Definition grow (s : sum) (o : cafop) (v : cval) : sum :=
  match o with
  | Intersect => match s with SProd p => SProd (PAnd p v) | SAdd s o p => SAdd s o (PAnd p v) end
  | Union => SAdd s Plus (PVal v)
  | Except => SAdd s Minus (PVal v)
  end.
Lemma grow_words s o v : sum_words (grow s o v) = sum_words s ++ [EWord o; EVal v].
Proof.
  destruct o; cbn [grow]; try reflexivity. destruct s; cbn [sum_words prod_words]; [reflexivity|].
  now rewrite <- app_assoc.
Qed.
Theorem alternating_sum l : alternating l -> exists s, sum_words s = l.
Proof.
  assert (G : forall l, alternating l -> forall s o, exists s', sum_words s' = sum_words s ++ EWord o :: l).
  { intros l1 A1. induction A1 as [v|v o' l1 A IH]; intros s o.
    - exists (grow s o v). apply grow_words.
    - destruct (IH (grow s o v) o') as [s' E]. exists s'. rewrite E, grow_words, <- app_assoc. reflexivity. }
  intros A0; destruct A0 as [v|v o l A].
  - now exists (SProd (PVal v)).
  - destruct (G l A (SProd (PVal v)) o) as [s' E]. now exists s'.
Qed.

(** ** Clauses *)
Lemma network_action_ok n : net_valid n -> exists l, network_action n = Ok l.
Proof.
  destruct n; cbn; eauto. intros [V L].
  destruct (mk_Network_char a (MaskLen plen) V I) as [H _].
  destruct (H plen) as (n & E & _); [now split|eauto].
Qed.
Lemma network_action_selects h n l y : net_valid n -> network_action n = Ok l ->
  leaf_wf l /\ is_wild l = false /\
  (net_selects h n y <->
   match l with
   | LCafAny | LCafAny4 | LCafAny6 => exists m, via_groups h y (HLeaf m) /\ literal_any l m
   | _ => everything l \/ common h (HLeaf l) y
   end).
Proof.
  assert (CL : forall l0 (P : addr -> Prop), (forall a, leaf_matches l0 a <-> P a) ->
            (common h (HLeaf l0) y <-> exists a, P a /\ matches h y a)).
  { intros l1 P HP. split.
    - intros (a & A & B). inversion A; subst. exists a. split; auto. now apply HP.
    - intros (a & A & B). exists a. split; auto. constructor. now apply HP. }
  intros V. destruct n; cbn in *; intros E; try (injection E as <-); cbn.
  - intuition.
  - repeat split; try tauto.
    + intros (a & A & B & C). right. apply (CL _ (fun a => a_ver a = V4 /\ valid a)); [reflexivity|]. eauto.
    + intros [[]|H]. apply (CL _ (fun a => a_ver a = V4 /\ valid a)) in H as (a & (A & B) & C); [|reflexivity]. eauto.
  - repeat split; try tauto.
    + intros (a & A & B & C). right. apply (CL _ (fun a => a_ver a = V6 /\ valid a)); [reflexivity|]. eauto.
    + intros [[]|H]. apply (CL _ (fun a => a_ver a = V6 /\ valid a)) in H as (a & (A & B) & C); [|reflexivity]. eauto.
  - repeat split; tauto.
  - repeat split; tauto.
  - repeat split; tauto.
  - repeat split; auto.
    + intros H. right. apply (CL _ (fun b => b = a)); [reflexivity|]. eauto.
    + intros [[]|H]. apply (CL _ (fun b => b = a)) in H as (b & -> & H); [auto|reflexivity].
  - destruct V as [V L]. destruct (mk_Network_char a (MaskLen plen) V I) as [H _].
    destruct (H plen) as (n & E' & W & _ & M); [now split|]. rewrite E' in E. injection E as <-.
    repeat split; auto; try apply W.
    + intros (b & A & B). right. apply (CL _ (agrees_leading a plen)); eauto.
    + intros [[]|C]. apply (CL _ (agrees_leading a plen)) in C as (b & A & B); eauto.
Qed.

Lemma map_r_ok ns : Forall net_valid ns -> exists ls, map_r network_action ns = Ok ls /\ Forall2 (fun n l => network_action n = Ok l) ns ls.
Proof.
  induction 1 as [|n ns V F IH]; cbn [map_r].
  - exists []. split; [reflexivity|constructor].
  - destruct (network_action_ok n V) as [l E]. destruct IH as (ls & E' & F'). rewrite E, E'. cbn.
    exists (l :: ls). split; [reflexivity|now constructor].
Qed.

(** A term standing for a list of leaves, by itself or as a group in the heap. *)
Definition stands (h : heap) (lo : nat) (x : host) (ls : list leaf) : Prop :=
  (exists l, x = HLeaf l /\ ls = [l]) \/
  (exists g, x = HGrp g /\ lo <= g < h_next h /\ objs h g = map HLeaf ls).
(** New groups hold leaves only. *)
Definition leafy (h : heap) (lo : nat) : Prop :=
  forall g m, lo <= g < h_next h -> ~ In (HGrp m) (objs h g).

Lemma extends_refl h : extends h h.
Proof. split; auto. Qed.
Lemma extends_trans a b c : extends a b -> extends b c -> extends a c.
Proof. intros [A1 A2] [B1 B2]. split; [lia|]. intros g H. rewrite B2 by lia. auto. Qed.
Lemma stands_extends h h' lo x ls : extends h h' -> stands h lo x ls -> stands h' lo x ls.
Proof.
  intros [E1 E2] [H|(g & -> & L & O)]; [now left|]. right. exists g. split; auto. split; [lia|].
  unfold objs. rewrite E2 by lia. exact O.
Qed.
Lemma new_group_spec h name l h' x : new_group h name l = (h', x) ->
  extends h h' /\ x = HGrp (h_next h) /\ h_next h' = S (h_next h) /\ objs h' (h_next h) = l /\
  (forall g, g <> h_next h -> objs h' g = objs h g).
Proof.
  unfold new_group, h_alloc. intros E; injection E as <- <-. unfold objs. cbn.
  split; [split; cbn; [lia|]|split; [auto|split; [auto|split]]].
  - intros g H. destruct (Nat.eqb_spec g (h_next h)); [lia|reflexivity].
  - now rewrite Nat.eqb_refl.
  - intros g H. destruct (Nat.eqb_spec g (h_next h)); [congruence|reflexivity].
Qed.

Lemma net_action_spec h lo ns : lo <= h_next h -> leafy h lo -> Forall net_valid ns ->
  exists h' x ls, net_action h ns = Ok (h', x) /\ extends h h' /\ leafy h' lo /\
    (forall g, h_next h' <= g -> objs h' g = objs h g) /\
    Forall2 (fun n l => network_action n = Ok l) ns ls /\ stands h' lo x ls.
Proof.
  intros Lo Lf V. destruct (map_r_ok ns V) as (ls & E & F). unfold net_action. rewrite E. cbn [bind].
  assert (G : exists h' x, new_group h [] (map HLeaf ls) = (h', x) /\ extends h h' /\ leafy h' lo /\
    (forall g, h_next h' <= g -> objs h' g = objs h g) /\ stands h' lo x ls).
  { destruct (new_group h [] (map HLeaf ls)) as [h' x] eqn:N. apply new_group_spec in N as (X & -> & Nx & O & Oo).
    exists h', (HGrp (h_next h)). split; auto. split; auto. split; [|split].
    - intros g m L H. destruct (Nat.eq_dec g (h_next h)) as [->|n].
      + rewrite O in H. apply in_map_iff in H as (l & H & _). discriminate H.
      + rewrite Oo in H by auto. eapply (Lf g m); eauto. lia.
    - intros g L. apply Oo. lia.
    - right. exists (h_next h). split; auto. split; [lia|exact O]. }
  destruct G as (h' & x & G & X & Lf' & U & S).
  destruct ls as [|l [|l2 ls]].
  - exists h', x, []. rewrite G. auto 10.
  - exists h, (HLeaf l), [l]. split; auto. split; [apply extends_refl|]. split; auto. split; auto.
    split; auto. left. eauto.
  - exists h', x, (l :: l2 :: ls). rewrite G. auto 10.
Qed.

Definition obj_val (h : heap) (lo : nat) (o : setobj) (v : setval) : Prop :=
  match o, v with
  | SIp d ns, VIp d' x => d = d' /\ exists ls, Forall2 (fun n l => network_action n = Ok l) ns ls /\ stands h lo x ls
  | _, _ => False
  end.

Lemma set_objects_spec lo objects : forall h, lo <= h_next h -> leafy h lo ->
  Forall obj_valid objects -> existsb is_expr objects = false ->
  exists h' vs, set_objects h objects = Ok (h', vs) /\ extends h h' /\ leafy h' lo /\
    (forall g, h_next h' <= g -> objs h' g = objs h g) /\
    Forall2 (obj_val h' lo) (filter is_ip objects) vs.
Proof.
  induction objects as [|o objects IH]; intros h Lo Lf V N; cbn [set_objects filter].
  - exists h, []. split; auto. split; [apply extends_refl|]. auto.
  - inversion V as [|? ? Vo V']; subst. cbn [existsb] in N. apply orb_false_iff in N as [No N].
    destruct o as [|d ns|v]; [| |discriminate No]; cbn [is_ip].
    + apply IH; auto.
    + destruct (net_action_spec h lo ns Lo Lf Vo) as (h1 & x & ls & E & X & Lf1 & U1 & F & S).
      rewrite E. cbn [bind]. destruct (IH h1) as (h2 & vs & E2 & X2 & Lf2 & U2 & F2); auto.
      { destruct X; lia. }
      rewrite E2. cbn [bind]. exists h2, (VIp d x :: vs). split; auto.
      split; [eapply extends_trans; eauto|]. split; auto. split.
      { intros g Hg. rewrite U2 by auto. apply U1. destruct X2; lia. }
      constructor; auto. cbn. split; auto. exists ls. split; auto. eapply stands_extends; eauto.
Qed.

Lemma ip_terms_spec h lo os vs : Forall2 (obj_val h lo) os vs ->
  exists ip, ip_terms vs = Ok ip /\
    forall d, Forall2 (fun o x => exists ns ls, o = SIp d ns /\ Forall2 (fun n l => network_action n = Ok l) ns ls /\ stands h lo x ls)
      (filter (fun o => match o with SIp d' _ => dir_eqb d d' | _ => false end) os) (of_dir d ip).
Proof.
  induction 1 as [|o v os vs Hov F IH]; cbn [ip_terms].
  - exists []. split; auto. intros d. constructor.
  - destruct o as [|d ns|c]; [destruct Hov| |destruct Hov]. destruct v as [d' x|c]; [|destruct Hov].
    destruct Hov as [<- (ls & F1 & S)]. destruct IH as (ip & E & G). rewrite E. cbn [bind].
    exists ((d, x) :: ip). split; auto. intros d2. cbn [filter of_dir fst]. specialize (G d2).
    unfold of_dir in *. destruct (dir_eqb d2 d) eqn:Ed; cbn [map fst filter]; rewrite ?Ed; cbn [map snd]; auto.
    constructor; auto. exists ns, ls. split; auto. destruct d2, d; try discriminate Ed; reflexivity.
Qed.

(** The leaves written for a direction. *)
Definition written (d : dir) (objects : list setobj) (l : leaf) : Prop :=
  ((forall ns, ~ In (SIp d ns) objects) /\ l = LAny) \/
  exists ns n, In (SIp d ns) objects /\ In n ns /\ network_action n = Ok l.

Lemma stands_reaches h lo x ls : stands h lo x ls -> forall l, reaches h x l <-> In l ls.
Proof.
  intros [(l0 & -> & ->)|(g & -> & _ & O)] l.
  - split; [intros H; inversion H; now left|]. intros [->|[]]. constructor.
  - split.
    + intros H. inversion H as [| |g' m l' Hm Hr]; subst. rewrite O in Hm. apply in_map_iff in Hm as (l1 & <- & Hl).
      inversion Hr; subst. exact Hl.
    + intros H. apply (R_grp h g (HLeaf l)); [rewrite O; now apply in_map|constructor].
Qed.

Lemma side_node_spec h l h' x : side_node h l = (h', x) ->
  extends h h' /\ (forall g, h_next h' <= g -> objs h' g = objs h g) /\
  ((h' = h /\ l = [] /\ x = HLeaf LAny) \/ (h' = h /\ l = [x]) \/
   (x = HGrp (h_next h) /\ h_next h' = S (h_next h) /\ objs h' (h_next h) = l /\ length l >= 2)).
Proof.
  destruct l as [|a [|b l]]; cbn [side_node].
  - intros E; injection E as <- <-. split; [apply extends_refl|]. auto 10.
  - intros E; injection E as <- <-. split; [apply extends_refl|]. auto 10.
  - intros E. apply new_group_spec in E as (X & -> & N & O & Oo). split; auto.
    split; [intros g Hg; apply Oo; lia|]. right. right. split; auto. split; auto.
    split; auto. cbn. lia.
Qed.

Lemma dir_filter_In d objects o :
  In o (filter (fun o => match o with SIp d' _ => dir_eqb d d' | _ => false end) (filter is_ip objects)) <->
  exists ns, o = SIp d ns /\ In (SIp d ns) objects.
Proof.
  rewrite !filter_In. split.
  - intros [[H1 H2] H3]. destruct o as [|d' ns|c]; try discriminate. exists ns.
    assert (d' = d) by (destruct d, d'; try discriminate H3; auto). subst. auto.
  - intros (ns & -> & H). cbn. destruct d; auto.
Qed.

Lemma Forall2_In_l {A B} (P : A -> B -> Prop) la lb a : Forall2 P la lb -> In a la -> exists b, In b lb /\ P a b.
Proof. induction 1; cbn; intros H1; [contradiction|]. destruct H1 as [->|H1]; [eauto|]. destruct (IHForall2 H1) as (b & ? & ?). eauto. Qed.
Lemma Forall2_In_r {A B} (P : A -> B -> Prop) la lb b : Forall2 P la lb -> In b lb -> exists a, In a la /\ P a b.
Proof. induction 1; cbn; intros H1; [contradiction|]. destruct H1 as [->|H1]; [eauto|]. destruct (IHForall2 H1) as (a & ? & ?). eauto. Qed.

Lemma reaches_extends h h' lo x : extends h h' -> h_next h' > 0 -> forall ls, stands h lo x ls ->
  forall l, reaches h' x l <-> In l ls.
Proof. intros X _ ls S. apply (stands_reaches h' lo). eapply stands_extends; eauto. Qed.

Lemma Forall2_weaken {A B} (P Q : A -> B -> Prop) la lb : (forall a b, P a b -> Q a b) -> Forall2 P la lb -> Forall2 Q la lb.
Proof. intros H. induction 1; constructor; auto. Qed.

(** Leaves of a side node, in any later heap. *)
Lemma side_reaches h lo d objects l h' x : 
  Forall2 (fun o x => exists ns ls, o = SIp d ns /\ Forall2 (fun n l => network_action n = Ok l) ns ls /\ stands h lo x ls)
    (filter (fun o => match o with SIp d' _ => dir_eqb d d' | _ => false end) (filter is_ip objects)) l ->
  side_node h l = (h', x) -> forall h2, extends h' h2 -> forall lf, reaches h2 x lf <-> written d objects lf.
Proof.
  intros F E h2 X2 lf. destruct (side_node_spec h l h' x E) as (X & _ & C).
  assert (XX : extends h h2) by (eapply extends_trans; eauto).
  assert (ALL : (exists y, In y l /\ reaches h2 y lf) <-> exists ns n, In (SIp d ns) objects /\ In n ns /\ network_action n = Ok lf).
  { split.
    - intros (y & Hy & Hr). destruct (Forall2_In_r _ _ _ _ F Hy) as (o & Ho & ns & ls & -> & F1 & S).
      apply dir_filter_In in Ho as (ns' & E' & Ho). injection E' as <-.
      apply (stands_extends _ _ _ _ _ XX) in S. apply (stands_reaches _ _ _ _ S) in Hr.
      destruct (Forall2_In_r _ _ _ _ F1 Hr) as (n & Hn & En). eauto.
    - intros (ns & n & Ho & Hn & En).
      assert (Ho' : In (SIp d ns) (filter (fun o => match o with SIp d' _ => dir_eqb d d' | _ => false end) (filter is_ip objects)))
        by (apply dir_filter_In; eauto).
      destruct (Forall2_In_l _ _ _ _ F Ho') as (y & Hy & ns' & ls & E' & F1 & S). injection E' as <-.
      exists y. split; auto. apply (stands_extends _ _ _ _ _ XX) in S. apply (stands_reaches _ _ _ _ S).
      destruct (Forall2_In_l _ _ _ _ F1 Hn) as (l' & Hl & E2). congruence. }
  assert (NONE : l = [] <-> forall ns, ~ In (SIp d ns) objects).
  { split.
    - intros -> ns H. inversion F as [E0|]. assert (Hi : In (SIp d ns) []); [|destruct Hi].
      rewrite E0. apply dir_filter_In. eauto.
    - intros H. destruct l as [|y l]; auto. exfalso.
      destruct (Forall2_In_r _ _ _ _ F (or_introl eq_refl)) as (o & Ho & _). apply dir_filter_In in Ho as (ns & _ & Ho).
      eapply H; eauto. }
  unfold written. rewrite <- ALL, <- NONE.
  destruct C as [(-> & -> & ->)|[(-> & ->)|(-> & N & O & L)]].
  - split.
    + intros H. inversion H; subst. left. auto.
    + intros [[_ ->]|(y & [] & _)]. constructor.
  - split.
    + intros H. right. exists x. split; [now left|auto].
    + intros [[H _]|(y & [->|[]] & H)]; [discriminate|auto].
  - assert (O2 : objs h2 (h_next h) = l).
    { destruct X2 as [_ X2]. unfold objs. rewrite X2 by lia. exact O. }
    split.
    + intros H. inversion H as [| |g' m l' Hm Hr]; subst. right. exists m. split; auto. rewrite <- O2. exact Hm.
    + intros [[-> _]|(y & Hy & H)]; [cbn in L; lia|]. apply (R_grp h2 (h_next h) y); auto. now rewrite O2.
Qed.

(** Ranks of the heap with the new groups. *)
Lemma clause_ranked h h' lo n1 rk : h_next h = lo -> ranked h rk -> lo <= n1 -> n1 <= h_next h' ->
  (forall g, g < lo \/ h_next h' <= g -> objs h' g = objs h g) ->
  (forall g m, lo <= g < n1 -> ~ In (HGrp m) (objs h' g)) ->
  (forall g m, n1 <= g < h_next h' -> In (HGrp m) (objs h' g) -> lo <= m < n1) ->
  ranked h' (fun g => if (lo <=? g) && (g <? n1) then 0 else if (n1 <=? g) && (g <? h_next h') then 1 else rk g + 2).
Proof.
  intros E R L1 L2 O A B g m H. cbn beta.
  destruct (Nat.leb_spec lo g) as [C1|C1]; cbn [andb].
  - destruct (Nat.ltb_spec g n1) as [C2|C2].
    + exfalso. eapply A; eauto.
    + destruct (Nat.leb_spec n1 g); [|lia]. cbn [andb]. destruct (Nat.ltb_spec g (h_next h')) as [C3|C3].
      * destruct (B g m) as [B1 B2]; auto. destruct (Nat.leb_spec lo m), (Nat.ltb_spec m n1); cbn; lia.
      * rewrite O in H by lia. apply R in H.
        repeat match goal with |- context [?a <=? ?b] => destruct (Nat.leb_spec a b)
                | |- context [?a <? ?b] => destruct (Nat.ltb_spec a b) end; cbn; lia.
  - destruct (Nat.leb_spec n1 g); [lia|]. cbn [andb]. rewrite O in H by lia. apply R in H.
    repeat match goal with |- context [?a <=? ?b] => destruct (Nat.leb_spec a b)
            | |- context [?a <? ?b] => destruct (Nat.ltb_spec a b) end; cbn; lia.
Qed.

Theorem set_action_clause h id objects : acyclic h ->
  Forall obj_valid objects -> existsb is_expr objects = false ->
  exists h' r, set_action h id objects = Ok (h', VRule r) /\ r_id r = id /\
    extends h h' /\ acyclic h' /\
    (forall h2 l, extends h' h2 -> reaches h2 (r_src r) l <-> written Src objects l) /\
    (forall h2 l, extends h' h2 -> reaches h2 (r_dst r) l <-> written Dst objects l).
Proof.
  intros (rk & R) V N. set (lo := h_next h).
  destruct (set_objects_spec lo objects h) as (h1 & vs & E & X & Lf & U & F); auto.
  { intros g m L. unfold lo in L. lia. }
  destruct (ip_terms_spec _ _ _ _ F) as (ip & Eip & G).
  unfold set_action. rewrite E. cbn [bind].
  assert (NE : forall c, vs <> [VExpr c]).
  { intros c ->. inversion F as [|o v os vs Hov F' E1 E2]; subst. destruct o; exact Hov. }
  destruct (side_node h1 (of_dir Src ip)) as [h2 src] eqn:E2.
  destruct (side_node h2 (of_dir Dst ip)) as [h3 dst] eqn:E3.
  assert (M : match vs with
       | [VExpr c] => Ok (h1, VCaf c)
       | _ => do ip <- ip_terms vs;
              let '(h, src) := side_node h1 (of_dir Src ip) in
              let '(h, dst) := side_node h (of_dir Dst ip) in Ok (h, VRule (mkrule id src dst))
       end = Ok (h3, VRule (mkrule id src dst))).
  { assert (D : (do ip <- ip_terms vs;
              let '(h, src) := side_node h1 (of_dir Src ip) in
              let '(h, dst) := side_node h (of_dir Dst ip) in Ok (h, VRule (mkrule id src dst)))
              = Ok (h3, VRule (mkrule id src dst))).
    { rewrite Eip. cbn [bind]. rewrite E2, E3. reflexivity. }
    destruct vs as [|[d x|c] [|v vs]]; auto. exfalso. eapply NE. reflexivity. }
  rewrite M. exists h3, (mkrule id src dst). split; auto. split; auto.
  destruct (side_node_spec h1 _ _ _ E2) as (X2 & U2 & C2).
  destruct (side_node_spec h2 _ _ _ E3) as (X3 & U3 & C3).
  assert (X13 : extends h1 h3) by (eapply extends_trans; eauto).
  split; [eapply extends_trans; eauto|]. split; [|split].
  - eexists. apply (clause_ranked h h3 lo (h_next h1) rk); auto.
    + destruct X; auto.
    + destruct X13; auto.
    + intros g [Hg|Hg].
      * assert (X03 : extends h h3) by (eapply extends_trans; eauto). destruct X03 as [_ X03].
        unfold objs. now rewrite X03.
      * rewrite U3 by auto. destruct X3 as [X3 _], X2 as [X2 _]. rewrite U2 by lia. apply U. lia.
    + intros g m Hg. destruct X13 as [_ X13]. unfold objs. rewrite X13 by lia. apply Lf. auto.
    + assert (ST : forall d y m, In y (of_dir d ip) -> y = HGrp m -> lo <= m < h_next h1).
      { intros d y m Hy ->. destruct (Forall2_In_r _ _ _ _ (G d) Hy) as (o & _ & ns & ls & _ & _ & S).
        destruct S as [(l & S & _)|(g & S & Lg & _)]; [discriminate|]. injection S as ->. exact Lg. }
      intros g m Hg Hi.
      destruct C3 as [(-> & _ & _)|[(-> & _)|(_ & N3 & O3 & _)]].
      1,2: destruct C2 as [(-> & _ & _)|[(-> & _)|(_ & N2 & O2 & _)]]; try lia;
           assert (g = h_next h1) by lia; subst g; rewrite O2 in Hi; eapply ST; eauto.
      destruct (Nat.eq_dec g (h_next h2)) as [->|n].
      * rewrite O3 in Hi. eapply ST; eauto.
      * destruct C2 as [(-> & _ & _)|[(-> & _)|(_ & N2 & O2 & _)]]; try lia.
        assert (g = h_next h1) by lia. subst g. destruct X3 as [_ X3]. unfold objs in Hi. rewrite X3 in Hi by lia.
        fold (objs h2 (h_next h1)) in Hi. rewrite O2 in Hi. eapply ST; eauto.
  - cbn [r_src]. intros h4 l X4. apply (side_reaches h1 lo Src objects (of_dir Src ip) h2 src (G Src) E2 h4 (extends_trans _ _ _ X3 X4)).
  - cbn [r_dst]. intros h4 l X4.
    assert (G' : Forall2 (fun o x => exists ns ls, o = SIp Dst ns /\ Forall2 (fun n l => network_action n = Ok l) ns ls /\ stands h2 lo x ls)
      (filter (fun o => match o with SIp d' _ => dir_eqb Dst d' | _ => false end) (filter is_ip objects)) (of_dir Dst ip)).
    { eapply Forall2_weaken; [|exact (G Dst)]. intros o x (ns & ls & ? & ? & S). exists ns, ls. split; auto. split; auto.
      eapply stands_extends; eauto. }
    apply (side_reaches h2 lo Dst objects (of_dir Dst ip) h3 dst G' E3 h4 X4).
Qed.

Lemma written_selection h d objects x : Forall obj_valid objects ->
  (forall l, reaches h x l <-> written d objects l) ->
  (term_wf h x /\ wildfree h x) /\ forall y, term_selects h x y <-> written_selects h d objects y.
Proof.
  intros V H.
  assert (NV : forall ns n, In (SIp d ns) objects -> In n ns -> net_valid n).
  { intros ns n Ho Hn. rewrite Forall_forall in V. specialize (V _ Ho). cbn in V.
    rewrite Forall_forall in V. auto. }
  assert (W : forall l, written d objects l -> leaf_wf l /\ is_wild l = false).
  { intros l [[_ ->]|(ns & n & Ho & Hn & E)]; [split; [exact I|reflexivity]|].
    destruct (network_action_selects h n l x (NV _ _ Ho Hn) E) as (A & B & _). auto. }
  split; [split; intros l Hl; apply H in Hl; now apply W|].
  intros y. unfold term_selects, written_selects. split.
  - intros (l & Hl & S). apply H in Hl. destruct Hl as [[Hn ->]|(ns & n & Ho & Hn & E)].
    + now left.
    + right. exists ns, n. split; auto. split; auto. now apply (network_action_selects h n l y (NV _ _ Ho Hn) E).
  - intros [Hn|(ns & n & Ho & Hn & S)].
    + exists LAny. split; [apply H; left; auto|]. left. exact I.
    + destruct (network_action_ok n (NV _ _ Ho Hn)) as [l E]. exists l. split.
      * apply H. right. eauto.
      * now apply (network_action_selects h n l y (NV _ _ Ho Hn) E).
Qed.

(** ** Readings are unique *)
Lemma prod_words_inj p : forall p', prod_words p = prod_words p' -> p = p'.
Proof.
  induction p as [v|p IH v]; intros [v'|p' v']; cbn [prod_words]; intros E.
  - congruence.
  - destruct (prod_words p') as [|? [|? ?]] eqn:W; cbn in E; try discriminate E;
      pose proof (prod_words_length p') as L; rewrite W in L; cbn in L; lia.
  - destruct (prod_words p) as [|? [|? ?]] eqn:W; cbn in E; try discriminate E;
      pose proof (prod_words_length p) as L; rewrite W in L; cbn in L; lia.
  - change [EWord Intersect; EVal v] with ([EWord Intersect] ++ [EVal v]) in E.
    change [EWord Intersect; EVal v'] with ([EWord Intersect] ++ [EVal v']) in E.
    rewrite !app_assoc in E. apply app_inj_tail in E as [E Ev]. apply app_inj_tail in E as [E _].
    injection Ev as <-. f_equal. auto.
Qed.
Lemma prod_no_add p o : In (EWord o) (prod_words p) -> o = Intersect.
Proof.
  induction p as [v|p IH v]; cbn [prod_words]; [intros [H|[]]; discriminate H|].
  rewrite in_app_iff. intros [H|[H|[H|[]]]]; auto; congruence.
Qed.
Lemma split_last_add (a b a' b' : list celem) o o' : o <> Intersect -> o' <> Intersect ->
  (forall x, In (EWord x) b -> x = Intersect) -> (forall x, In (EWord x) b' -> x = Intersect) ->
  a ++ EWord o :: b = a' ++ EWord o' :: b' -> a = a' /\ o = o' /\ b = b'.
Proof.
  intros No No' B B'. revert a'. induction a as [|x a IH]; intros [|x' a']; cbn; intros E.
  - injection E as -> ->. auto.
  - injection E as <- ->. exfalso. apply No'. apply B. apply in_or_app. right. now left.
  - injection E as -> <-. exfalso. apply No. apply B'. apply in_or_app. right. now left.
  - injection E as -> E. apply IH in E as (-> & -> & ->). auto.
Qed.
Theorem sum_words_inj s : forall s', sum_words s = sum_words s' -> s = s'.
Proof.
  induction s as [p|s IH o p]; intros [p'|s' o' p']; cbn [sum_words]; intros E.
  - f_equal. now apply prod_words_inj.
  - exfalso. assert (H : In (EWord (op_of o')) (prod_words p)) by (rewrite E; apply in_or_app; right; now left).
    apply prod_no_add in H. destruct o'; discriminate H.
  - exfalso. assert (H : In (EWord (op_of o)) (prod_words p')) by (rewrite <- E; apply in_or_app; right; now left).
    apply prod_no_add in H. destruct o; discriminate H.
  - apply split_last_add in E as (Es & Eo & Ep); try (now (intros x; apply prod_no_add)); try (destruct o; discriminate); try (destruct o'; discriminate).
    rewrite (IH _ Es), (prod_words_inj _ _ Ep). destruct o, o'; try discriminate Eo; reflexivity.
Qed.

(** ** Mixed clauses *)
Lemma set_objects_any h objects : Forall obj_valid objects ->
  exists h' vs, set_objects h objects = Ok (h', vs) /\
    length vs = length (filter (fun o => is_ip o || is_expr o) objects) /\
    (existsb is_expr objects = true -> ip_terms vs = Err TypeError).
Proof.
  intros V. revert h. induction V as [|o objects Vo V IH]; intros h; cbn [set_objects filter existsb].
  - exists h, []. split; auto. split; auto. discriminate.
  - destruct o as [|d ns|c]; cbn [is_ip is_expr orb].
    + apply IH.
    + assert (E : exists r, net_action h ns = Ok r).
      { destruct (map_r_ok ns Vo) as (ls & E & _). unfold net_action. rewrite E. cbn [bind].
        destruct ls as [|? [|? ?]]; eauto. }
      destruct E as ([h1 x] & E). rewrite E. cbn [bind]. destruct (IH h1) as (h' & vs & E' & L & T).
      rewrite E'. cbn [bind]. exists h', (VIp d x :: vs). split; auto. cbn [length]. split; [lia|].
      intros H. cbn [ip_terms]. now rewrite (T H).
    + destruct (IH h) as (h' & vs & E' & L & _). rewrite E'. cbn [bind].
      exists h', (VExpr (wrap c) :: vs). split; auto. cbn [length]. split; [lia|]. reflexivity.
Qed.
Theorem set_action_mixed h id objects : Forall obj_valid objects -> existsb is_expr objects = true ->
  length (filter (fun o => is_ip o || is_expr o) objects) >= 2 ->
  set_action h id objects = Err TypeError.
Proof.
  intros V X L. destruct (set_objects_any h objects V) as (h' & vs & E & Lv & T). specialize (T X).
  unfold set_action. rewrite E. cbn [bind]. rewrite <- Lv in L.
  destruct vs as [|[d x|c] [|v vs]]; cbn [length] in L; try lia; rewrite T; reflexivity.
Qed.
