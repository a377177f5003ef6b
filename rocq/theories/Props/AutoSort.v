(** C74: sorting the groups of a configuration of any format. *)
From Coq Require Import Lia Permutation Sorted String.
From Verif.Model Require Import Base Ip Hosts Groups Rules Caf Nat Iface Peg Ids AddrText Ports AclText Define GroupText ObjText LineText NatText FileText FileFilter IosText IosFile IosFilter Pfsense PfFile CafText Detect Auto AutoSort.
From Verif.Model Require Config.
From Verif.Spec Require Import AddrSpec AddrTextSpec GroupSpec SortSpec RefSpec CafSpec CafMeanSpec CafTextSpec AclTextSpec GroupTextSpec ObjTextSpec FilterSpec LineTextSpec FileTextSpec FileConfigSpec ConfigSpec FileFilterSpec IosFileSpec IosConfigSpec IosFilterSpec PfSpec PfFileSpec PfFilterSpec AutoSpec PipelineSpec AutoSortSpec.
From Verif.Proofs Require Import GroupFacts GroupOps DictFacts PfFacts CafFacts CafTextFacts CafExpr CafMean FileGood PfIface ExpandGood.
From Verif.Props Require Config Define Expand FileConfig IosConfig.
From Verif.Props Require Import Sorting Filter CafText AclText Detect FileText FileFilter IosFileText IosFilter PfAliases PfFile PfFilter Auto Pipeline.
Local Open Scope list_scope.

(** ** Sorting a list of groups, one after the other *)
Lemma same_header_refl {X} (a : group X) : same_header a a.
Proof. repeat split. Qed.
Lemma same_header_trans {X} (a b c : group X) : same_header a b -> same_header b c -> same_header a c.
Proof. intros (A1 & A2 & A3) (B1 & B2 & B3). repeat split; congruence. Qed.
Section Stable.
  Context {X K : Type} (cmp : K -> K -> comparison).
  Lemma stably_key (key key' : X -> option K) l l' : (forall x, key x = key' x) -> stably_sorted cmp key l l' -> stably_sorted cmp key' l l'.
  Proof using.
    intros E (P & S & F). split; [exact P|]. split.
    - clear -E S. induction S as [|x l S IH A]; constructor; [exact IH|]. clear -E A. induction A; constructor; auto. now setoid_rewrite <- E.
    - intros k. cbn zeta in *. specialize (F k). cbn zeta in F.
      erewrite (filter_ext _ _ (fun x => f_equal (fun o => match o with Some a => match cmp a k with Eq => true | _ => false end | None => false end) (eq_sym (E x)))).
      rewrite F. apply filter_ext. intros x. now rewrite (E x).
  Qed.
  Lemma stably_trans (key : X -> option K) l l' l'' : stably_sorted cmp key l l' -> stably_sorted cmp key l' l'' -> stably_sorted cmp key l l''.
  Proof using. intros (P & _ & F) (P' & S' & F'). split; [now apply Permutation_trans with l'|]. split; [exact S'|]. intros k. cbn zeta. rewrite (F' k). apply F. Qed.
End Stable.
Section Each.
  Context {X K : Type} (cmp : K -> K -> comparison) (key : gheap X -> X -> option K) (op : gheap X -> gid -> gheap X * result gid) (bad : exn -> Prop).
  Context (SP : sorts_in_place cmp key op) (Bad : forall h g h' e, op h g = (h', Err e) -> bad e).
  (** keys depend on the names of groups only *)
  Context (KH : forall h h' : gheap X, (forall g, g_name (h_get h g) = g_name (h_get h' g)) -> forall x, key h x = key h' x).
  Lemma keyed_dec h l : (forall x, In x l -> key h x <> None) \/ exists x, In x l /\ key h x = None.
  Proof using.
    clear. induction l as [|x l [IH|(y & I & E)]]; [left; intros ? []| |right; exists y; cbn; auto].
    destruct (key h x) eqn:E; [left|right; exists x; cbn; auto]. intros y [<-|I]; [congruence|auto].
  Qed.
  Lemma sorted_names had h h' : class_sorted cmp (key h) had h h' -> (forall g, had g \/ ~ had g) -> forall g, same_header (h_get h g) (h_get h' g).
  Proof using. intros (_ & C) D g. destruct (C g) as (C1 & C2). destruct (D g) as [H|H]; [apply C1, H|rewrite (C2 H); apply same_header_refl]. Qed.
  Lemma sort_more dn h0 h g : class_sorted cmp (key h0) (fun g => In g dn) h0 h -> forall h',
    stably_sorted cmp (key h) (objs h g) (objs h' g) -> same_header (h_get h g) (h_get h' g) -> (forall g', g' <> g -> h_get h' g' = h_get h g') -> h_next h' = h_next h ->
    class_sorted cmp (key h0) (fun k => In k (g :: dn)) h0 h'.
  Proof using KH.
    intros C h' S Hd O N. assert (Nm : forall g, same_header (h_get h0 g) (h_get h g)) by (apply (sorted_names _ _ _ C); intros k; destruct (in_dec Nat.eq_dec k dn); auto).
    destruct C as (Nx & C). split; [congruence|]. intros k. split.
    - intros I. destruct (Nat.eq_dec k g) as [->|Ne].
      + split; [|now apply same_header_trans with (h_get h g)]. apply (stably_key _ (key h) (key h0)) in S; [|intros x; symmetry; apply KH; intros j; apply Nm].
        destruct (in_dec Nat.eq_dec g dn) as [J|J]; [eapply stably_trans; [apply (C g), J|exact S]|]. unfold objs in *. now rewrite <- (proj2 (C g) J).
      + destruct I as [->|I]; [congruence|]. unfold objs. rewrite (O k Ne). apply (C k), I.
    - intros NI. rewrite (O k); [|intros ->; apply NI; now left]. apply (C k). intros I. apply NI. now right.
  Qed.
  Lemma each_from l : forall dn h0 h, class_sorted cmp (key h0) (fun g => In g dn) h0 h ->
    (exists h', sort_each op l h = (h', None) /\ class_sorted cmp (key h0) (fun g => In g dn \/ In g l) h0 h' /\ forall g x, In g l -> In x (objs h0 g) -> key h0 x <> None) \/
    (exists h' e l1, sort_each op l h = (h', Some e) /\ bad e /\ incl l1 (dn ++ l) /\ class_sorted cmp (key h0) (fun g => In g l1) h0 h' /\ exists g x, In g l /\ In x (objs h0 g) /\ key h0 x = None).
  Proof using SP Bad KH.
    assert (Sm : forall (P Q : gid -> Prop) (k : X -> option K) h h', (forall g, P g <-> Q g) -> class_sorted cmp k P h h' -> class_sorted cmp k Q h h').
    { intros P Q k h h' E (N & C). split; [exact N|]. intros g. rewrite <- E. apply C. }
    induction l as [|g l IH]; intros dn h0 h C; cbn [sort_each].
    { left. exists h. split; [reflexivity|]. split; [|intros ? ? []]. eapply Sm; [|exact C]. cbn. tauto. }
    assert (Nm : forall g, same_header (h_get h0 g) (h_get h g)) by (apply (sorted_names _ _ _ C); intros k; destruct (in_dec Nat.eq_dec k dn); auto).
    assert (Ke : forall x, key h x = key h0 x) by (intros x; symmetry; apply KH; intros j; apply Nm).
    assert (Mem : forall x, In x (objs h g) <-> In x (objs h0 g)).
    { intros x. destruct C as (_ & C). destruct (in_dec Nat.eq_dec g dn) as [J|J].
      - destruct (proj1 (C g) J) as ((P & _) & _). split; apply Permutation_in; [now apply Permutation_sym|exact P].
      - unfold objs. now rewrite (proj2 (C g) J). }
    destruct (SP h g) as (Good & Lack). destruct (keyed_dec h (objs h g)) as [All|(x & I & E)].
    - destruct (Good All) as (h' & -> & S & Hd & O & N). pose proof (sort_more dn h0 h g C h' S Hd O N) as C'.
      destruct (IH (g :: dn) h0 h' C') as [(h2 & E & C2 & A2)|(h2 & e & l1 & E & B & Inc & C2 & L)].
      + left. exists h2. split; [exact E|]. split; [eapply Sm; [|exact C2]; cbn; intros k; tauto|]. intros k x [<-|Ik] Ix; [|eauto]. rewrite <- Ke. apply All, Mem, Ix.
      + right. exists h2, e, l1. split; [exact E|]. split; [exact B|]. split; [intros k Ik; apply Inc in Ik; cbn in Ik; rewrite in_app_iff in *; cbn; tauto|]. split; [exact C2|].
        destruct L as (k & x & Ik & L). exists k, x. split; [now right|exact L].
    - destruct (Lack (ex_intro _ x (conj I E))) as (e & Eo). rewrite Eo. right. exists h, e, dn. split; [reflexivity|]. split; [eapply Bad; eauto|]. split; [intros k Ik; apply in_app_iff; auto|]. split; [exact C|].
      exists g, x. split; [now left|]. split; [now apply Mem|]. now rewrite <- Ke.
  Qed.
  Lemma each_sorted l h :
    (exists h', sort_each op l h = (h', None) /\ class_sorted cmp (key h) (fun g => In g l) h h' /\ forall g x, In g l -> In x (objs h g) -> key h x <> None) \/
    (exists h' e l1, sort_each op l h = (h', Some e) /\ bad e /\ incl l1 l /\ class_sorted cmp (key h) (fun g => In g l1) h h' /\ exists g x, In g l /\ In x (objs h g) /\ key h x = None).
  Proof using SP Bad KH.
    destruct (each_from l [] h h) as [(h' & E & C & A)|(h' & e & l1 & E & B & I & C & L)].
    - split; [reflexivity|]. intros g. split; [intros []|reflexivity].
    - left. exists h'. split; [exact E|]. split; [|exact A]. destruct C as (N & C). split; [exact N|]. intros g. destruct (C g) as (C1 & C2). split; [intros I; apply C1; auto|intros I; apply C2; intros [[]|J]; auto].
    - right. exists h', e, l1. auto.
  Qed.
End Each.

(** ** The members of the groups that were read have keys *)
Definition plain_member (x : host) : Prop := match x with HLeaf (LWild _ _) | HLeaf (LIface _) => False | _ => True end.
Definition plain_groups (h : heap) : Prop := forall g x, In x (objs h g) -> plain_member x.
Lemma plain_key h x : plain_member x -> net_sort_key h x <> None.
Proof. destruct x as [l|o|g]; [destruct l| |]; cbn; try discriminate; intros []. Qed.
Lemma obj_plain l : obj_good l -> plain_member (HLeaf l).
Proof. intros ((_ & _ & W) & N). destruct l; cbn in *; auto. discriminate W. Qed.
Lemma flat_plain h : heap_ok h -> plain_groups h ->
  (forall x l, GroupSpec.flat host_sub host_leafs h x l -> forall n, host_good n x -> plain_member x -> forall y, In y l -> plain_member y) /\
  (forall xs l, GroupSpec.flats host_sub host_leafs h xs l -> forall n, (forall x, In x xs -> host_good n x /\ plain_member x) -> forall y, In y l -> plain_member y).
Proof.
  intros K Pl. apply GroupFacts.flat_mutind.
  - intros x E n G P y I. destruct x as [l|o|g]; [|clear E|discriminate E]; cbn [host_leafs host_good] in *.
    + destruct I as [<-|[]]. exact P.
    + rewrite Forall_forall in G. apply in_map_iff in I as (l & <- & I). apply obj_plain, G, I.
  - intros x g l E F IH n G _. apply (IH g). intros y I. split; [now apply K|eapply Pl; eauto].
  - intros n G y [].
  - intros x xs l ls F IH Fs IHs n G y I. apply in_app_iff in I as [I|I].
    + destruct (G x (or_introl eq_refl)) as (G1 & G2). eapply IH; eauto.
    + eapply IHs; [|exact I]. intros z Iz. apply G. now right.
Qed.
Lemma plain_flat P h h' : (forall g, P g \/ ~ P g) -> heap_ok h -> plain_groups h -> class_flat host_sub host_leafs P h h' -> plain_groups h'.
Proof.
  intros D K Pl (_ & C) g x I. destruct (C g) as (C1 & C2). destruct (D g) as [Pg|Pg].
  - destruct (C1 Pg) as (F & _). eapply (proj2 (flat_plain h K Pl)); [exact F| |exact I]. intros y Iy. split; [exact (proj2 (K _ _ Iy))|eapply Pl; eauto].
  - unfold objs in I. rewrite (C2 Pg) in I. eapply Pl, I.
Qed.
Lemma defs_plain l : forall w w', plain_groups (snd (w_net w)) -> define_all w l = Ok w' -> plain_groups (snd (w_net w')).
Proof.
  induction l as [|d l IH]; intros w w' P H; [now injection H as <-|]. unfold define_all in H. cbn [fold_r] in H. destruct (define_any w d) as [w1|] eqn:E; [|discriminate]. cbn [bind] in H.
  refine (IH _ _ _ H). clear IH H. destruct d as [d|d|d|d|d]; cbn [define_any] in E; destruct (define _ _ _ _) as [w2|] eqn:Df in E; try discriminate E; cbn [bind] in E; injection E as <-; try exact P.
  cbn [w_net]. destruct (w_net w) as [t h], w2 as [t' h']. destruct (Define.define_ok _ _ _ _ _ _ _ Df) as (g & _ & _ & _ & _ & A & _ & _ & _ & Fr). cbn [snd] in *.
  intros k x I. destruct (Nat.eq_dec k g) as [->|N].
  - specialize (A x I). destruct x as [y|o|i]; [destruct y| |]; cbn in *; auto; discriminate A.
  - unfold objs in I. rewrite (Fr k N) in I. eapply P, I.
Qed.
Lemma sorted_perm {X K} cmp (key : X -> option K) P h h' : (forall g, P g \/ ~ P g) -> class_sorted cmp key P h h' -> forall g x, In x (objs h' g) <-> In x (objs h g).
Proof.
  intros D (_ & C) g x. destruct (C g) as (C1 & C2). destruct (D g) as [Pg|Pg].
  - destruct (C1 Pg) as ((Pm & _) & _). split; apply Permutation_in; [now apply Permutation_sym|exact Pm].
  - unfold objs. now rewrite (C2 Pg).
Qed.
(** ** Groups with the same members *)
Section Members.
  Context (h h' : heap) (S : forall g x, In x (objs h' g) <-> In x (objs h g)).
  Lemma members_match x a : matches h x a <-> matches h' x a.
  Proof using S.
    assert (D : forall h1 h2 : heap, (forall g x, In x (objs h1 g) -> In x (objs h2 g)) -> forall x a, matches h1 x a -> matches h2 x a).
    { intros h1 h2 I y b M. induction M; econstructor; eauto. }
    split; apply D; intros g y; apply S.
  Qed.
  Lemma members_via x y : via_groups h x y <-> via_groups h' x y.
  Proof using S.
    split; (induction 1 as [z|g m z I V IH]; [constructor|]); (econstructor; [apply S, I|exact IH]).
  Qed.
  Lemma members_net n y : net_selects h n y <-> net_selects h' n y.
  Proof using S.
    pose proof members_match as M. pose proof members_via as V. destruct n; cbn [net_selects]; try tauto; try (setoid_rewrite M; tauto); setoid_rewrite V; tauto.
  Qed.
End Members.
(** ** The four classes *)
Lemma sorted_same {X K} (cmp : K -> K -> comparison) (key : X -> option K) (P Q : gid -> Prop) h h' : (forall g, P g <-> Q g) -> class_sorted cmp key P h h' -> class_sorted cmp key Q h h'.
Proof. intros E (N & C). split; [exact N|]. intros g. rewrite <- E. apply C. Qed.
Section Keys.
  Context (py_int servbyname : pystr -> option Z).
  Lemma net_names (h h' : heap) : (forall g, g_name (h_get h g) = g_name (h_get h' g)) -> forall x, net_sort_key h x = net_sort_key h' x.
  Proof using. clear. intros E x. destruct x as [l|o|g]; [destruct l| |]; cbn; rewrite ?E; reflexivity. Qed.
  Lemma port_names (h h' : gheap pmember) : (forall g, g_name (h_get h g) = g_name (h_get h' g)) -> forall x, port_sort_key py_int servbyname h x = port_sort_key py_int servbyname h' x.
  Proof using. intros E x. destruct x as [o [n|]|[a|] b|g]; cbn; rewrite ?E; reflexivity. Qed.
  Lemma service_names hp (h h' : gheap smember) : (forall g, g_name (h_get h g) = g_name (h_get h' g)) -> forall x, service_sort_key py_int servbyname hp h x = service_sort_key py_int servbyname hp h' x.
  Proof using. intros E x. destruct x as [s|n d s|g]; cbn; rewrite ?E; reflexivity. Qed.
  Lemma proto_names (h h' : gheap prmember) : (forall g, g_name (h_get h g) = g_name (h_get h' g)) -> forall x, proto_sort_key py_int h x = proto_sort_key py_int h' x.
  Proof using. intros E x. destruct x as [n|g]; cbn; rewrite ?E; reflexivity. Qed.
  Lemma port_lacks hp p : port_sort_key py_int servbyname hp p = None <-> no_number p.
  Proof using. destruct p as [o [n|]|[a|] b|g]; cbn; split; try discriminate; try tauto; intros []. Qed.
  Lemma opt_lacks hp o : opt_port_key py_int servbyname hp o = None <-> has_no_number o.
  Proof using. destruct o as [p|]; cbn [opt_port_key has_no_number]; [apply port_lacks|]. split; [discriminate|intros []]. Qed.
  Lemma service_lacks hp h x : service_sort_key py_int servbyname hp h x = None <-> service_no_number x.
  Proof using.
    destruct x as [s|n d s|g]; cbn [service_sort_key service_no_number]; [| |split; [discriminate|intros []]];
      rewrite <- (opt_lacks hp (sv_src s)), <- (opt_lacks hp (sv_dst s)); destruct (opt_port_key _ _ hp (sv_src s)), (opt_port_key _ _ hp (sv_dst s)); split; try discriminate; try tauto; intros [E|E]; discriminate E.
  Qed.
  Lemma proto_keyed h x : proto_sort_key py_int h x <> None.
  Proof using. destruct x as [n|g]; cbn; [destruct (py_int n)|]; discriminate. Qed.
  Lemma sort_in_err {X Q} (ltb : Q -> Q -> bool) (key : gheap X -> X -> result Q) (bad : exn -> Prop) : (forall h x e, key h x = Err e -> bad e) ->
    forall h g h' e, sort_in ltb key h g = (h', Err e) -> bad e.
  Proof using.
    clear. intros B h g h' e E. unfold sort_in in E. destruct (sort_by ltb (key h) (objs h g)) as [l|e'] eqn:S; [discriminate|]. injection E as _ ->.
    unfold sort_by in S. destruct (map_r (key h) (objs h g)) as [ks|e'] eqn:M; [discriminate|]. cbn [bind] in S. injection S as ->. apply map_r_err in M as (x & _ & Ex). eapply B, Ex.
  Qed.
  Lemma port_key_err h x e : port_key py_int servbyname h x = Err e -> e = TypeError.
  Proof using. destruct x as [o [n|]|[a|] b|g]; cbn; try discriminate; intros [= <-]; reflexivity. Qed.
  Lemma service_key_err hp h x e : service_key py_int servbyname hp h x = Err e -> e = TypeError.
  Proof using.
    assert (O : forall o e, match o with Some p => port_key py_int servbyname hp p | None => Ok 0%Z end = Err e -> e = TypeError) by (intros [p|] e' E; [eapply port_key_err, E|discriminate]).
    assert (R : forall s e, service_key py_int servbyname hp h (SService s) = Err e -> e = TypeError).
    { clear x e. intros s e. cbn [service_key]. destruct (match sv_src s with Some p => _ | None => _ end) as [a|ea] eqn:A; cbn [bind]; [|intros [= <-]; eapply O, A].
      destruct (match sv_dst s with Some p => _ | None => _ end) as [b|eb] eqn:Bb; cbn [bind]; [discriminate|intros [= <-]; eapply O, Bb]. }
    destruct x as [s|n d s|g]; [apply R|exact (R s e)|discriminate].
  Qed.

  Lemma nets_each t h : plain_groups h -> exists h', sort_each (net_sort 0 true) t h = (h', None) /\ class_sorted Z.compare (net_sort_key h) (fun g => In g t) h h'.
  Proof using.
    clear. intros Pl. destruct (each_sorted Z.compare net_sort_key (net_sort 0 true) (fun _ => True) (C15_sort_network 0) (fun _ _ _ _ _ => Logic.I) net_names t h) as [(h' & E & C & _)|(h' & e & l & _ & _ & _ & _ & g & x & _ & I & N)]; [eauto|].
    exfalso. exact (plain_key h x (Pl g x I) N).
  Qed.
  Lemma protos_each t h : exists h', sort_each (proto_sort py_int true) t h = (h', None) /\ class_sorted Z.compare (proto_sort_key py_int h) (fun g => In g t) h h'.
  Proof using.
    destruct (each_sorted Z.compare (proto_sort_key py_int) (proto_sort py_int true) (fun _ => True) (C15_sort_protocol py_int) (fun _ _ _ _ _ => Logic.I) proto_names t h) as [(h' & E & C & _)|(h' & e & l & _ & _ & _ & _ & g & x & _ & I & N)]; [eauto|].
    exfalso. exact (proto_keyed h x N).
  Qed.
  Lemma ports_each t h :
    (exists h', sort_each (port_sort py_int servbyname 0 true) t h = (h', None) /\ class_sorted Z.compare (port_sort_key py_int servbyname h) (fun g => In g t) h h' /\ forall g x, In g t -> In x (objs h g) -> ~ no_number x) \/
    (exists h' l, sort_each (port_sort py_int servbyname 0 true) t h = (h', Some TypeError) /\ incl l t /\ class_sorted Z.compare (port_sort_key py_int servbyname h) (fun g => In g l) h h' /\ exists g x, In g t /\ In x (objs h g) /\ no_number x).
  Proof using.
    destruct (each_sorted Z.compare (port_sort_key py_int servbyname) (port_sort py_int servbyname 0 true) (fun e => e = TypeError) (C15_sort_port py_int servbyname 0)
      (sort_in_err Z.ltb (port_key py_int servbyname) _ port_key_err) port_names t h) as [(h' & E & C & A)|(h' & e & l & E & -> & Inc & C & g & x & Ig & I & N)]; [left|right].
    - exists h'. split; [exact E|]. split; [exact C|]. intros g x Ig I. rewrite <- (port_lacks h). eauto.
    - exists h', l. repeat (split; [assumption|]). exists g, x. rewrite <- (port_lacks h). auto.
  Qed.
  Lemma services_each hp t h :
    (exists h', sort_each (service_sort py_int servbyname hp true) t h = (h', None) /\ class_sorted service_compare (service_sort_key py_int servbyname hp h) (fun g => In g t) h h' /\ forall g x, In g t -> In x (objs h g) -> ~ service_no_number x) \/
    (exists h' l, sort_each (service_sort py_int servbyname hp true) t h = (h', Some TypeError) /\ incl l t /\ class_sorted service_compare (service_sort_key py_int servbyname hp h) (fun g => In g l) h h' /\ exists g x, In g t /\ In x (objs h g) /\ service_no_number x).
  Proof using.
    destruct (each_sorted service_compare (service_sort_key py_int servbyname hp) (service_sort py_int servbyname hp true) (fun e => e = TypeError) (C15_sort_service py_int servbyname hp)
      (sort_in_err skey_ltb (service_key py_int servbyname hp) _ (service_key_err hp)) (service_names hp) t h) as [(h' & E & C & A)|(h' & e & l & E & -> & Inc & C & g & x & Ig & I & N)]; [left|right].
    - exists h'. split; [exact E|]. split; [exact C|]. intros g x Ig I. rewrite <- (service_lacks hp h). eauto.
    - exists h', l. repeat (split; [assumption|]). exists g, x. rewrite <- (service_lacks hp h). auto.
  Qed.
End Keys.

(** ** The configurations *)
Lemma same_classes c c' : same_but_groups c c' -> group_tables c' = group_tables c /\
  (forall g, network_group c' g <-> network_group c g) /\ (forall g, port_group c' g <-> port_group c g) /\ (forall g, service_group c' g <-> service_group c g) /\ (forall g, protocol_group c' g <-> protocol_group c g).
Proof.
  intros S. destruct c, c'; cbn [same_but_groups] in S; try contradiction.
  - destruct S as (-> & -> & _). cbn. repeat split; auto.
  - destruct S as (-> & -> & _). cbn. repeat split; auto.
  - destruct S as (-> & _). cbn. repeat split; auto.
Qed.
Lemma same_frame c c' : same_but_groups c c' -> c_get c' = c_get c /\ c_rules c' = c_rules c /\ c_nats c' = c_nats c.
Proof.
  intros S. destruct c, c'; cbn [same_but_groups] in S; try contradiction; cbn.
  - destruct S as (-> & -> & _). auto.
  - destruct S as (-> & -> & _). auto.
  - destruct S as (-> & _). auto.
Qed.
Lemma groups_config c : config_groups c = gs_network (all_groups c).
Proof. destruct c; reflexivity. Qed.
Section Whole.
  Context (isalpha isalnum isspace : N -> bool) (OK : classes_ok isalpha isalnum isspace).
  Context (py_int : pystr -> option Z)
          (PI1 : forall n, n <> [] -> forallb AddrText.is_digit n = true -> py_int n <> None)
          (PI2 : forall n, In n port_code -> py_int n = None).
  Context (xml_read : pystr -> result xml) (unescape : pystr -> pystr)
          (ip_addr : pystr -> option addr) (ip_net : pystr -> pystr -> result net) (AV : addresses_valid ip_addr ip_net)
          (to_time : option pystr -> result Z) (strip : pystr -> pystr)
          (ip_net_strict : pystr -> bool) (download : option pystr -> option (list pystr)).
  Context (servbyname : pystr -> option Z).
  Notation parse_file := (parse_file isalpha isalnum isspace py_int).
  Notation ios_parse := (ios_parse isalpha isalnum isspace py_int).
  Notation auto_parse := (auto_parse isalpha isalnum isspace py_int xml_read unescape ip_addr ip_net to_time strip ip_net_strict download).
  Notation acl_filter := (acl_filter isalpha isalnum isspace).
  Notation named_well := (named_well isalnum).
  Notation written_as := (written_as isalnum isspace).
  Notation acl_sort := (acl_sort py_int servbyname).
  Notation all_sorted := (all_sorted py_int servbyname).
  Notation partly_sorted := (partly_sorted py_int servbyname).

  Lemma nothing_plain : plain_groups (snd (w_net world_init)).
  Proof using. clear. intros g x []. Qed.
  Lemma parsed_plain data f o c : o <> BadOptions -> auto_parse data f o = Ok c -> plain_groups (config_groups c).
  Proof using AV.
    intros B H. apply auto_cases in H as [(cs & ms & T & -> & P)|[(cs & ms & T & -> & P)|(cfg & s & root & -> & P)]]; [| | |exact B]; cbn [config_groups].
    - pose proof (FileConfig.C58_known _ _ _ _ _ _ _ _ P) as K. exact (defs_plain _ _ _ nothing_plain (kn_groups _ _ _ K)).
    - pose proof (IosConfig.C66_known _ _ _ _ _ _ _ _ P) as K. exact (defs_plain _ _ _ nothing_plain (ik_groups _ _ K)).
    - destruct (document_good _ _ _ _ AV _ _ _ _ _ _ _ _ P) as (G & _). intros g x I. destruct (G g x I) as (_ & l & -> & Gl). now apply obj_plain.
  Qed.
  (** What C74 needs of the configuration, expanded or not *)
  Lemma ready data f o c c' : o <> BadOptions -> auto_parse data f o = Ok c -> named_well c -> c' = c \/ expanded c c' ->
    heap_ok (config_groups c') /\ plain_groups (config_groups c') /\ h_next (config_groups c') = h_next (config_groups c) /\ same_but_groups c c' /\ groups_listed c (group_tables c).
  Proof using OK PI1 PI2 AV.
    intros B H W X. destruct (parsed_good _ _ _ OK _ PI1 PI2 _ _ _ _ AV _ _ _ _ _ _ _ _ B H W) as (G & _). pose proof (parsed_plain _ _ _ _ B H) as Pl.
    pose proof (tables_listed _ _ _ _ _ _ _ _ _ _ _ _ _ _ _ _ B H) as It.
    destruct X as [->|X].
    - split; [exact G|]. split; [exact Pl|]. split; [reflexivity|]. split; [|exact It]. destruct c; repeat split.
    - destruct (expanded_frame _ _ X) as (_ & _ & _ & E4 & E5). destruct X as (S & F & _). rewrite <- E4, <- E5 in F. destruct It as (I1 & It).
      apply (class_same _ _ _ (fun g => In g (gt_network (group_tables c)))) in F; [|intros g; symmetry; apply I1].
      split; [exact (flat_ok _ _ _ G F)|]. split; [|split; [exact (proj1 F)|split; [exact S|exact (conj I1 It)]]].
      eapply plain_flat; [|exact G|exact Pl|exact F]. intros g. destruct (in_dec Nat.eq_dec g (gt_network (group_tables c))); auto.
  Qed.
  (** C74: the network groups of every configuration that was read, expanded or not, can be
      sorted; a service or port group cannot if a port in it has no number.  Nothing else
      changes. *)
  Theorem C74_sort : forall data f o c c' c'' x, o <> BadOptions -> auto_parse data f o = Ok c -> named_well c -> c' = c \/ expanded c c' -> acl_sort c' = (c'', x) ->
    same_but_groups c' c'' /\ gs_icmp (all_groups c'') = gs_icmp (all_groups c') /\
    match x with
    | None => ~ services_lack c' /\ ~ ports_lack c' /\ all_sorted c' c''
    | Some e => e = TypeError /\ partly_sorted c' c''
    end /\ forall y a, matches (config_groups c') y a <-> matches (config_groups c'') y a.
  Proof using OK PI1 PI2 AV.
    intros data f o c c' c'' x B H W X E. destruct (ready _ _ _ _ _ B H W X) as (_ & Pl & _ & S & It). destruct (same_classes _ _ S) as (Et & E1 & E2 & E3 & E4).
    destruct It as (I1 & I2 & I3 & I4 & _). unfold AutoSort.acl_sort in E. rewrite Et in E. set (t := group_tables c) in *. rewrite groups_config in Pl.
    assert (D : forall l g, In g l \/ ~ In g l) by (intros l g; destruct (in_dec Nat.eq_dec g l); auto).
    destruct (nets_each (gt_network t) _ Pl) as (hn & En & Cn).
    assert (Cn' : class_sorted Z.compare (net_sort_key (gs_network (all_groups c'))) (network_group c') (gs_network (all_groups c')) hn) by (eapply sorted_same; [|exact Cn]; intros g; rewrite E1; apply I1).
    assert (Mt : forall s, gs_network s = hn -> forall y a, matches (config_groups c') y a <-> matches (config_groups (with_groups c' s)) y a).
    { intros s Es y a. apply members_match. intros g z. replace (config_groups (with_groups c' s)) with hn by (rewrite <- Es; destruct c'; reflexivity). rewrite groups_config. eapply sorted_perm; [|exact Cn]. apply D. }
    assert (Sb : forall s, same_but_groups c' (with_groups c' s)) by (intros s; destruct c'; repeat split).
    assert (Pf : match c' with CPf _ _ => gt_service t = [] /\ gt_protocol t = [] | _ => True end) by (unfold t; destruct c, c'; cbn [same_but_groups] in S; try contradiction; cbn; auto).
    unfold sort_tables in E. rewrite En in E.
    destruct (services_each py_int servbyname (gs_port (all_groups c')) (gt_service t) (gs_service (all_groups c'))) as [(hs & Es & Cs & As)|(hs & l & Es & Inc & Cs & L)]; rewrite Es in E.
    - assert (NS : ~ services_lack c') by (intros (g & z & G & I & N); apply (As g z); auto; apply I3, E3, G).
      assert (Cs' : class_sorted service_compare (service_sort_key py_int servbyname (gs_port (all_groups c')) (gs_service (all_groups c'))) (service_group c') (gs_service (all_groups c')) hs) by (eapply sorted_same; [|exact Cs]; intros g; rewrite E3; apply I3).
      destruct (ports_each py_int servbyname (gt_port t) (gs_port (all_groups c'))) as [(hp & Ep & Cp & Ap)|(hp & l & Ep & Inc & Cp & L)]; rewrite Ep in E.
      + assert (NP : ~ ports_lack c') by (intros (g & z & G & I & N); apply (Ap g z); auto; apply I2, E2, G).
        assert (Cp' : class_sorted Z.compare (port_sort_key py_int servbyname (gs_port (all_groups c'))) (port_group c') (gs_port (all_groups c')) hp) by (eapply sorted_same; [|exact Cp]; intros g; rewrite E2; apply I2).
        destruct (protos_each py_int (gt_protocol t) (gs_protocol (all_groups c'))) as (hr & Er & Cr).
        assert (Cr' : class_sorted Z.compare (proto_sort_key py_int (gs_protocol (all_groups c'))) (protocol_group c') (gs_protocol (all_groups c')) hr) by (eapply sorted_same; [|exact Cr]; intros g; rewrite E4; apply I4).
        rewrite Er in E. injection E as <- <-. split; [apply Sb|]. split; [destruct c'; reflexivity|]. split; [|apply Mt; reflexivity].
        split; [exact NS|]. split; [exact NP|]. unfold AutoSortSpec.all_sorted, networks_sorted, services_sorted, ports_sorted, protocols_sorted. rewrite !groups_config.
        destruct c' as [cs ms T|cs ms T|cfg s0]; [exact (conj Cn' (conj Cs' (conj Cp' Cr')))|exact (conj Cn' (conj Cs' (conj Cp' Cr')))|].
        destruct Pf as (P1 & P2). rewrite P1 in Es. rewrite P2 in Er. injection Es as <-. injection Er as <-. exact (conj Cn' (conj Cs' (conj Cp' Cr'))).
      + injection E as <- <-. split; [apply Sb|]. split; [destruct c'; reflexivity|]. split; [|apply Mt; reflexivity].
        split; [reflexivity|]. unfold AutoSortSpec.partly_sorted, networks_sorted, services_sorted, ports_sorted. rewrite !groups_config.
        assert (PL : ports_lack c') by (destruct L as (g & z & G & I & N); exists g, z; split; [apply E2, I2, G|auto]).
        assert (Some' : exists some : gid -> Prop, (forall g, some g -> port_group c' g) /\ class_sorted Z.compare (port_sort_key py_int servbyname (gs_port (all_groups c'))) some (gs_port (all_groups c')) hp).
        { exists (fun g => In g l). split; [intros g G; apply E2, I2, Inc, G|exact Cp]. }
        destruct c' as [cs ms T|cs ms T|cfg s0]; [| |destruct Pf as (P1 & _); rewrite P1 in Es; injection Es as <-];
          (split; [exact Cn'|]; split; [reflexivity|]; right; split; [exact NS|]; split; [exact Cs'|]; split; [exact PL|exact Some']).
    - injection E as <- <-. split; [apply Sb|]. split; [destruct c'; reflexivity|]. split; [|apply Mt; reflexivity].
      split; [reflexivity|]. unfold AutoSortSpec.partly_sorted, networks_sorted, services_sorted, ports_sorted. rewrite !groups_config.
      assert (SL : services_lack c') by (destruct L as (g & z & G & I & N); exists g, z; split; [apply E3, I3, G|auto]).
      assert (Some' : exists some : gid -> Prop, (forall g, some g -> service_group c' g) /\ class_sorted service_compare (service_sort_key py_int servbyname (gs_port (all_groups c')) (gs_service (all_groups c'))) some (gs_service (all_groups c')) hs).
      { exists (fun g => In g l). split; [intros g G; apply E3, I3, Inc, G|exact Cs]. }
      destruct c' as [cs ms T|cs ms T|cfg s0]; [| |destruct Pf as (P1 & _); rewrite P1 in Es; injection Es as <-];
        (split; [exact Cn'|]; split; [reflexivity|]; left; split; [exact SL|]; split; [exact Some'|reflexivity]).
  Qed.
  (** C74: filtering keeps the same entries before and after. *)
  Theorem C74_filter : forall data f o c c' c'' x query e, o <> BadOptions -> auto_parse data f o = Ok c -> named_well c -> c' = c \/ expanded c c' -> acl_sort c' = (c'', x) ->
    written_as e query -> readable e -> (forall id, In id (expr_ids e) -> id_regular id) -> comparable c e ->
    exists limit, forall k, limit <= k -> exists l l', acl_filter k c' query = Ok l /\ acl_filter k c'' query = Ok l' /\ forall y, In y l <-> In y l'.
  Proof using OK PI1 PI2 AV.
    intros data f o c c' c'' x query e B H W X E Q R I K. destruct (ready _ _ _ _ _ B H W X) as (G & _ & N & S & _).
    destruct (C74_sort _ _ _ _ _ _ _ B H W X E) as (S2 & _ & Srt & _).
    assert (Ns : networks_sorted c' c'') by (destruct x as [er|]; [apply Srt|apply Srt]).
    destruct (parsed_good _ _ _ OK _ PI1 PI2 _ _ _ _ AV _ _ _ _ _ _ _ _ B H W) as (_ & En & Ge & Cm). destruct (Cm e K) as (Gi & V). clear Cm.
    assert (D : forall g, network_group c' g \/ ~ network_group c' g).
    { intros g. destruct (same_classes _ _ S) as (_ & E1 & _). destruct (tables_listed _ _ _ _ _ _ _ _ _ _ _ _ _ _ _ _ B H) as (I1 & _).
      destruct (in_dec Nat.eq_dec g (gt_network (group_tables c))) as [J|J]; [left; apply E1, I1, J|right; intros J'; apply J, I1, E1, J']. }
    assert (Mem : forall g y, In y (objs (config_groups c'') g) <-> In y (objs (config_groups c') g)) by (eapply sorted_perm; [exact D|exact Ns]).
    assert (G2 : heap_ok (config_groups c'')).
    { intros g y Iy. apply Mem in Iy. destruct (G g y Iy) as (L & Gy). destruct Ns as (Nx & _). rewrite Nx. auto. }
    assert (Any : forall d, c_get d = c_get c -> c_rules d = c_rules c -> c_nats d = c_nats c -> h_next (config_groups d) = h_next (config_groups c) -> heap_ok (config_groups d) ->
      exists limit, forall k, limit <= k -> exists l, acl_filter k d query = Ok l /\ forall y, In y l <-> In y (c_rules c ++ concat (c_nats c)) /\ expr_means (config_groups d) (c_get c y) e).
    { intros d F1 F2 F3 F4 F5. destruct (any_filter _ _ _ OK (config_groups d) (c_get c) (c_rules c) (c_nats c) query e F5 Q R I) as (limit & L).
      - intros y Iy. apply En in Iy as (i & Ei). rewrite (Ge _ _ Ei), F4. eauto.
      - destruct V as [V|V]; [now left|right]. intros y z Iy. apply En in Iy as (i & Ei). rewrite (Ge _ _ Ei). eauto.
      - exists limit. intros k Lk. destruct (L k Lk) as (l & El & _ & Sl). exists l. split; [rewrite filter_eq, F1, F2, F3; exact El|exact Sl]. }
    destruct (same_frame _ _ S) as (F1 & F2 & F3). destruct (same_frame _ _ S2) as (F1' & F2' & F3').
    destruct (Any c' F1 F2 F3 N G) as (k1 & L1). destruct (Any c'' ltac:(congruence) ltac:(congruence) ltac:(congruence) ltac:(destruct Ns as (Nx & _); congruence) G2) as (k2 & L2).
    exists (k1 + k2). intros k L. destruct (L1 k ltac:(lia)) as (l & E1 & S1), (L2 k ltac:(lia)) as (l' & E2 & S1'). exists l, l'. split; [exact E1|]. split; [exact E2|].
    intros y. rewrite S1, S1'. rewrite (expr_ext (config_groups c') (config_groups c'') (c_get c y) _ (fun _ J => J) e); [reflexivity|].
    intros t n z _ _ _. apply members_net. exact Mem.
  Qed.
End Whole.

(** ** Examples *)
Definition C74_groups : pystr :=
  line "object network web" ++ line " host 10.0.0.80" ++
  line "object-group network servers" ++ line " network-object host 10.0.0.81" ++ line " network-object object web" ++ line " network-object host 10.0.0.7" ++
  line "object-group service web tcp" ++ line " port-object range 8000 8010" ++ line " port-object range 80 81" ++
  line "object-group protocol tunnels" ++ line " protocol-object 50" ++ line " protocol-object 47".
Definition C74_text : pystr := C74_groups ++ u "access-list ACL extended permit tcp any object-group servers".
(** The same with a port that loses its number. *)
Definition C74_lack : pystr := C74_groups ++ line "object-group service more tcp" ++ line " port-object eq 443" ++ u "access-list ACL extended permit tcp any object-group servers".
Definition C74_serv (s : pystr) : option Z := None.
Definition C74_sorted := acl_sort C52_int C74_serv.
Definition C74_r1 := Eval vm_compute in match C70_read C74_text with Ok x => Some x | Err _ => None end.
Definition C74_r2 := Eval vm_compute in match C70_read C74_lack with Ok x => Some x | Err _ => None end.
Definition all_members (c : aclconfig) :=
  let s := all_groups c in
  (map (objs (gs_network s)) (seq 0 (h_next (gs_network s))), map (objs (gs_port s)) (seq 0 (h_next (gs_port s))), map (objs (gs_protocol s)) (seq 0 (h_next (gs_protocol s)))).
Definition C74_web : netobj := mkobj (u "web") [] (Some (u "host")) [LHost (mkaddr V4 167772240)].
Example C74_ex1 : exists c c', C70_read C74_text = Ok c /\ C74_sorted c = (c', None) /\
  all_members c' = ([[HObj C74_web; HLeaf (LHost (mkaddr V4 167772167)); HLeaf (LHost (mkaddr V4 167772241))]], [[PRange (Some (u "80")) (Some (u "81")); PRange (Some (u "8000")) (Some (u "8010"))]], [[PrProto (u "47"); PrProto (u "50")]])%N /\
  C72_flt c (u "ip dst 10.0.0.7") = Ok [4] /\ C72_flt c' (u "ip dst 10.0.0.7") = Ok [4].
Proof.
  destruct C74_r1 as [c|] eqn:E; [|discriminate E]. exists c. unfold C74_r1 in E. injection E as <-. eexists. split; [vm_compute; reflexivity|]. split; [vm_compute; reflexivity|].
  split; [vm_compute; reflexivity|]. split; lazy; reflexivity.
Qed.
(** A port without its number: everything before it is sorted, the protocol groups are not. *)
Example C74_ex2 : exists c c', C70_read C74_lack = Ok c /\ C74_sorted c = (c', Some TypeError) /\ ports_lack c /\ ~ services_lack c /\
  all_members c' = ([[HObj C74_web; HLeaf (LHost (mkaddr V4 167772167)); HLeaf (LHost (mkaddr V4 167772241))]],
    [[PRange (Some (u "80")) (Some (u "81")); PRange (Some (u "8000")) (Some (u "8010"))]; [PPort (Some (u "eq")) None]], [[PrProto (u "50"); PrProto (u "47")]])%N.
Proof.
  destruct C74_r2 as [c|] eqn:E; [|discriminate E]. exists c. unfold C74_r2 in E. injection E as <-. eexists. split; [vm_compute; reflexivity|]. split; [vm_compute; reflexivity|].
  split; [|split; [|vm_compute; reflexivity]].
  - exists 1, (PPort (Some (u "eq")) None). split; [exists (u "more"); vm_compute; reflexivity|]. split; [vm_compute; auto|exact Logic.I].
  - intros (g & y & (n & G) & _). vm_compute in G. discriminate G.
Qed.
(** The hypotheses of the theorems are met. *)
Example C74_ex3 : exists c, C70_read C74_text = Ok c /\ named_well ascii_alnum c.
Proof.
  destruct C74_r1 as [c|] eqn:E; [|discriminate E]. exists c. unfold C74_r1 in E. injection E as <-. split; [vm_compute; reflexivity|]. cbn [AutoSpec.named_well].
  assert (G : forall A (l : list A) x (P : A -> Prop), In x l -> Forall P l -> P x) by (intros A l x P0 I F; rewrite Forall_forall in F; exact (F x I)).
  split.
  + intros x I. refine (G _ _ _ (fun c => forall x, c = CSimple (SName x) -> hostname_ok (nm_host x)) I _ x eq_refl).
    repeat apply Forall_cons; try apply Forall_nil; intros y Ey; discriminate Ey.
  + intros n c I. refine (G _ _ _ (fun c => object_named n c -> n <> []) I _).
    repeat apply Forall_cons; try apply Forall_nil; intros B; inversion B; subst; discriminate.
  + intros k n c I. refine (G _ _ _ (fun c => group_named k n c -> n <> []) I _).
    repeat apply Forall_cons; try apply Forall_nil; intros B; inversion B; subst; discriminate.
  + intros a b n c c' I I' A B X.
    cbn [In] in I, I'. destruct I as [<-|[<-|[<-|[<-|[<-|[]]]]]]; inversion A; subst;
      destruct I' as [<-|[<-|[<-|[<-|[<-|[]]]]]]; inversion B; subst; try (match goal with H : gd_name _ = _ |- _ => discriminate H end); repeat (destruct X as [X|X]; [discriminate X|]); destruct X.
  + intros n c I. refine (G _ _ _ (fun c => interface_named n c -> freeof (in_class [44; 41]%N) n /\ clear_of_any ascii_alnum n) I _).
    repeat apply Forall_cons; try apply Forall_nil; intros B; inversion B; subst.
Qed.
Print Assumptions C74_sort.
Print Assumptions C74_filter.
