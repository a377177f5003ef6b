(** C72: expanding a configuration of any format, and filtering it afterwards. *)
From Coq Require Import Lia String.
From Verif.Model Require Import Base Ip Hosts Groups Rules Caf Nat Iface Peg Ids AddrText Ports AclText Define GroupText ObjText LineText NatText FileText FileFilter IosText IosFile IosFilter Pfsense PfFile CafText Detect Auto.
From Verif.Model Require Config.
From Verif.Spec Require Import AddrSpec AddrTextSpec GroupSpec RefSpec CafSpec CafMeanSpec CafTextSpec AclTextSpec GroupTextSpec ObjTextSpec FilterSpec LineTextSpec FileTextSpec FileConfigSpec ConfigSpec FileFilterSpec IosFileSpec IosConfigSpec IosFilterSpec PfSpec PfFileSpec PfFilterSpec AutoSpec PipelineSpec.
From Verif.Proofs Require Import GroupFacts DictFacts PfFacts CafFacts CafTextFacts CafExpr CafMean FileGood PfIface ExpandGood.
From Verif.Props Require Config Define Expand FileConfig IosConfig.
From Verif.Props Require Import Filter CafText AclText Detect FileText FileFilter IosFileText IosFilter PfAliases PfFile PfFilter Auto.
Local Open Scope list_scope.

(** ** Filtering over groups *)
Definition entry_good (n : nat) (i : item) : Prop :=
  resolved i /\ (forall x, In x (item_srcs i ++ item_dsts i) -> end_good n x) /\ match i with Rules.IRule r => id_regular (r_id r) | INat _ => True end.
Lemma ok_tables h : heap_ok h -> tables_good (only_groups h).
Proof. intros G. split; cbn [tb_names tb_netobj tb_world only_groups w_net fst snd dget]; try discriminate. exact G. Qed.
Definition just (h : heap) : itables := mkitables (tb_world (only_groups h)) [] 0.
Lemma same_later h h1 n y : heap_ok h -> extends h h1 -> end_good (h_next h) y -> net_selects h1 n y <-> net_selects h n y.
Proof.
  intros K X [G|(a & w & -> & _)]; [exact (FileFilter.net_same (only_groups h) h1 (ok_tables h K) X n y G)|].
  exact (leaf_net (just h) h1 n (LWild a w)).
Qed.
Lemma no_slash_regular id : ~ In slash id -> id_regular (Some id).
Proof. intros N s p E (-> & _). exfalso. injection E as E. apply N. rewrite E. now left. Qed.

Section Read.
  Context (isalpha isalnum isspace : N -> bool) (OK : classes_ok isalpha isalnum isspace).
  Notation caf_read := (caf_read isalpha isalnum isspace).
  Notation written_as := (written_as isalnum isspace).
  (** A readable expression over good groups is read as a filter that can be compared with
      every good entry, and means what it says. *)
  Lemma any_ready h (get : iid -> item) (items : list iid) query e : heap_ok h -> written_as e query -> readable e -> (forall id, In id (expr_ids e) -> id_regular id) ->
    (forall x, In x items -> entry_good (h_next h) (get x)) ->
    no_ipv6 e \/ (forall x y, In x items -> In y (item_srcs (get x) ++ item_dsts (get x)) -> ~ wild_end y) ->
    exists h1 c, caf_read h query = Ok (h1, c) /\ acyclic h1 /\
      (forall r, In r (clauses c) -> term_wf h1 (r_src r) /\ term_wf h1 (r_dst r)) /\
      (forall r x, In r (clauses c) -> In x items -> comparable_item h1 r (get x)) /\
      forall x, In x items -> (denotes (fun r y => selects h1 r (get y)) c x <-> expr_means h (get x) e).
  Proof using OK.
    intros K Q R Id Gi V. pose proof (ok_tables h K) as GT. pose proof (good_acyclic _ GT) as A. cbn [only_groups tb_world w_net snd] in A.
    destruct (proj2 (C41_accepted _ _ _ OK _ query A) (ex_intro _ e (conj Q R))) as ((h1 & c) & E).
    destruct (C41_meaning _ _ _ OK _ _ _ _ _ A Q E) as (X & A' & Wf & M).
    assert (Ev : exists v, eval_expr h e = Ok (h1, v) /\ clauses c = clauses (block v)).
    { pose proof E as E1. unfold CafText.caf_read in E1. pose proof (proj2 (p_grammar_spec _ _ _ OK _ _) Q) as Q1. rewrite Q1 in E1. cbn [bind] in E1. destruct (eval_expr h e) as [(h2 & v)|] eqn:Ev; [|discriminate]. cbn [bind] in E1. injection E1 as <- <-. exists v. split; [reflexivity|destruct v; reflexivity]. }
    destruct Ev as (v & Ev & Ec). exists h1, c. split; [exact E|]. split; [exact A'|]. split; [|split].
    { intros r Ir. destruct (Wf r Ir) as (W1 & _ & W2 & _). auto. }
    { intros r x Ir Ix. destruct (Gi x Ix) as (Rs & En & Ri). destruct (Wf r Ir) as (W1 & F1 & W2 & F2).
      assert (Vr : (v6free h1 (r_src r) /\ v6free h1 (r_dst r)) \/ (forall y, In y (item_srcs (get x) ++ item_dsts (get x)) -> ~ wild_end y)).
      { destruct V as [V|V]; [left|right; intros y; apply V; exact Ix]. rewrite Ec in Ir. exact (eval_v4 _ R V _ A _ _ Ev h1 (extends_refl h1) r Ir). }
      split; [exact Rs|]. split; [|split; [|split; [|exact Ri]]].
      - intros y Iy. assert (Iy' : In y (item_srcs (get x) ++ item_dsts (get x))) by (apply in_app_iff; auto). apply (iend_comparable (just h) h1 GT X); auto. destruct Vr as [(Vr & _)|Vr]; auto.
      - intros y Iy. assert (Iy' : In y (item_srcs (get x) ++ item_dsts (get x))) by (apply in_app_iff; auto). apply (iend_comparable (just h) h1 GT X); auto. destruct Vr as [(_ & Vr)|Vr]; auto.
      - apply Id. eapply eval_ids; [exact R|exact Ev|]. rewrite <- Ec. exact Ir. }
    intros x I. assert (Gx : entry_good (h_next h) (get x)) by now apply Gi. split; intros D.
    - rewrite denotes_get, M in D. apply (expr_ext h1 h _ (item_srcs (get x) ++ item_dsts (get x)) (fun _ J => J) e); [|exact D]. intros t n y _ _ J. apply same_later; auto. now apply Gx.
    - rewrite denotes_get, M. apply (expr_ext h1 h _ (item_srcs (get x) ++ item_dsts (get x)) (fun _ J => J) e); [|exact D]. intros t n y _ _ J. apply same_later; auto. now apply Gx.
  Qed.
  Lemma any_filter h get rules nats query e : heap_ok h -> written_as e query -> readable e -> (forall id, In id (expr_ids e) -> id_regular id) ->
    (forall x, In x (rules ++ concat nats) -> entry_good (h_next h) (get x)) ->
    no_ipv6 e \/ (forall x y, In x (rules ++ concat nats) -> In y (item_srcs (get x) ++ item_dsts (get x)) -> ~ wild_end y) ->
    exists limit, forall k, limit <= k -> exists l, (do (h1, c) <- caf_read h query; config_filter k h1 get c rules nats) = Ok l /\ NoDup l /\
      forall x, In x l <-> In x (rules ++ concat nats) /\ expr_means h (get x) e.
  Proof using OK.
    intros K Q R Id Gi V. destruct (any_ready h get (rules ++ concat nats) query e K Q R Id Gi V) as (h1 & c & E & A' & _ & Cm & M).
    destruct (C23_config_filter h1 get c rules nats A' Cm) as (limit & L).
    exists limit. intros k Lk. destruct (L k Lk) as (l & El & N & S). exists l. split; [|split; [exact N|]].
    - rewrite E. cbn [bind]. exact El.
    - intros x. rewrite S. rewrite in_app_iff, in_concat. split; intros (I & D); (split; [exact I|]); apply M; auto; apply in_app_iff; rewrite in_concat; exact I.
  Qed.
End Read.

(** ** Expanding *)
Lemma f2_impl {A B} (P Q : A -> B -> Prop) l l' : (forall a b, P a b -> Q a b) -> Forall2 P l l' -> Forall2 Q l l'.
Proof. intros H. induction 1; constructor; auto. Qed.
Lemma kind_flat {X} (K : gkind X) h limit gs : good_kind K -> Expand.depth_below (k_sub K) h limit ->
  exists h', expand_all K limit h gs = Ok h' /\ class_flat (k_sub K) (k_post K) (fun g => In g gs) h h'.
Proof.
  intros GK (rk & R & L). destruct (expand_all_ok K GK h rk limit gs R (fun g _ => L g)) as (h' & E & _ & Nx & I & O & U).
  exists h'. split; [exact E|]. split; [exact Nx|]. intros g. split; [|apply O]. intros Hg. destruct (I g Hg) as (l & F & G). unfold flattening, objs. rewrite G. split; [exact F|repeat split].
Qed.
(** The tables gone through hold the groups the configuration has *)
Lemma class_same {X} (sub : X -> option gid) leafs (P Q : gid -> Prop) h h' : (forall g, P g <-> Q g) -> class_flat sub leafs P h h' -> class_flat sub leafs Q h h'.
Proof. intros E (N & C). split; [exact N|]. intros g. rewrite <- E. apply C. Qed.
Lemma listed_values {V} (d : Iface.dict V) v : NoDup (map fst d) -> In v (map snd d) <-> listed d v.
Proof.
  intros N. rewrite in_map_iff. split.
  - intros ((n & w) & <- & I). exists n. now apply dget_iff.
  - intros (n & E). exists (n, v). split; [reflexivity|]. now apply dget_iff.
Qed.
Lemma aset_in {V} (d : list (option pystr * V)) k v k' w : In (k', w) (aset opt_eqb d k v) -> (k', w) = (k, v) \/ In (k', w) d.
Proof.
  induction d as [|(k0 & w0) d IH]; cbn [aset].
  - intros [E|[]]. now left.
  - destruct (opt_eqb_spec k0 k) as [->|X]; (intros [E|I]; [|]).
    + left. congruence.
    + right. now right.
    + right. now left.
    + destruct (IH I) as [J|J]; [now left|right; now right].
Qed.
Lemma aset_nodup {V} (d : list (option pystr * V)) k v : NoDup (map fst d) -> NoDup (map fst (aset opt_eqb d k v)).
Proof.
  induction d as [|(k0 & w0) d IH]; cbn [aset map fst]; [intros _; repeat constructor; intros []|]. intros N. destruct (opt_eqb_spec k0 k) as [->|X]; [exact N|]. inversion N as [|? ? N1 N2]; subst. cbn [map fst]. constructor; [|auto].
  intros I. apply in_map_iff in I as ((k1 & w1) & <- & I). apply aset_in in I as [[= -> _]|I]; [now apply X|]. apply N1. apply in_map_iff. now exists (k1, w1).
Qed.
Lemma aget_in {V} (d : list (option pystr * V)) k v : NoDup (map fst d) -> aget opt_eqb d k = Some v <-> In (k, v) d.
Proof.
  induction d as [|(k0 & w0) d IH]; cbn [aget map fst In]; [intros _; split; [discriminate|intros []]|]. intros N. inversion N as [|? ? N1 N2]; subst. destruct (opt_eqb_spec k0 k) as [->|X].
  - split; [intros [= ->]; auto|]. intros [[= ->]|I]; [reflexivity|]. contradict N1. apply in_map_iff. now exists (k, v).
  - rewrite IH by exact N2. split; [auto|]. intros [[= -> ->]|I]; [now contradict X|exact I].
Qed.
Lemma listed_opt_values {V} (d : list (option pystr * V)) v : NoDup (map fst d) -> In v (map snd d) <-> listed_opt d v.
Proof.
  intros N. rewrite in_map_iff. split.
  - intros ((n & w) & <- & I). exists n. now apply aget_in.
  - intros (n & E). exists (n, v). split; [reflexivity|]. now apply aget_in.
Qed.
Lemma learned_names al s : NoDup (map fst (ps_net s)) -> NoDup (map fst (ps_port s)) ->
  NoDup (map fst (ps_net (fold_left learn_alias al s))) /\ NoDup (map fst (ps_port (fold_left learn_alias al s))).
Proof.
  revert s. induction al as [|((n & d) & [m|m]) al IH]; intros s A B; cbn [fold_left learn_alias]; [auto| |]; apply IH; unfold learn_net, learn_port, h_alloc; cbn [ps_net ps_port]; auto; now apply aset_nodup.
Qed.
Lemma config_names store items t : t <> TNetObj -> NoDup (map fst (table_in t (Config.build store items))).
Proof. intros N. eapply table_last_nodup. now apply Config.C27_tables. Qed.
Lemma expand_flat_table t s limit : Expand.groups_depth_below s limit ->
  exists s', config_expand limit t s = Ok s' /\
    (class_flat host_sub host_leafs (fun g => In g (gt_network t)) (gs_network s) (gs_network s') /\
     class_flat port_sub itself (fun g => In g (gt_port t)) (gs_port s) (gs_port s') /\
     class_flat service_sub service_leafs (fun g => In g (gt_service t)) (gs_service s) (gs_service s') /\
     class_flat proto_sub itself (fun g => In g (gt_protocol t)) (gs_protocol s) (gs_protocol s') /\
     class_flat icmp_sub itself (fun g => In g (gt_icmp t)) (gs_icmp s) (gs_icmp s')) /\ forall x a, matches (gs_network s) x a <-> matches (gs_network s') x a.
Proof.
  intros D. destruct (Expand.C13_config_expand t s limit D) as (s' & E & _ & M). exists s'. split; [exact E|]. split; [|exact M].
  destruct D as (R1 & R2 & R3 & R4 & R5). unfold config_expand in E.
  destruct (kind_flat net_kind _ limit (gt_network t) net_kind_good R1) as (n & E1 & H1).
  destruct (kind_flat port_kind _ limit (gt_port t) port_kind_good R2) as (p & E2 & H2).
  destruct (kind_flat service_kind _ limit (gt_service t) service_kind_good R3) as (sv & E3 & H3).
  destruct (kind_flat proto_kind _ limit (gt_protocol t) proto_kind_good R4) as (pr & E4 & H4).
  destruct (kind_flat icmp_kind _ limit (gt_icmp t) icmp_kind_good R5) as (ic & E5 & H5).
  rewrite E1 in E. cbn [bind] in E. rewrite E2 in E. cbn [bind] in E. rewrite E3 in E. cbn [bind] in E. rewrite E4 in E. cbn [bind] in E. rewrite E5 in E. cbn [bind] in E. injection E as <-.
  exact (conj H1 (conj H2 (conj H3 (conj H4 H5)))).
Qed.
Lemma depth_later s limit k : limit <= k -> Expand.groups_depth_below s limit -> Expand.groups_depth_below s k.
Proof.
  assert (D : forall X (sub : X -> option gid) h, limit <= k -> Expand.depth_below sub h limit -> Expand.depth_below sub h k) by (intros X sub h L (rk & R & B); exists rk; split; [exact R|intros g; specialize (B g); lia]).
  intros L (A & B & C & E & F). repeat split; apply D; auto.
Qed.

Section Whole.
  Context (isalpha isalnum isspace : N -> bool) (OK : classes_ok isalpha isalnum isspace).
  Context (py_int : pystr -> option Z)
          (PI1 : forall n, n <> [] -> forallb AddrText.is_digit n = true -> py_int n <> None)
          (PI2 : forall n, In n port_code -> py_int n = None).
  Context (xml_read : pystr -> result xml) (unescape : pystr -> pystr)
          (ip_addr : pystr -> option addr) (ip_net : pystr -> pystr -> result net) (AV : addresses_valid ip_addr ip_net)
          (to_time : option pystr -> result Z) (strip : pystr -> pystr)
          (ip_net_strict : pystr -> bool) (download : option pystr -> option (list pystr)).
  Notation parse_file := (parse_file isalpha isalnum isspace py_int).
  Notation ios_parse := (ios_parse isalpha isalnum isspace py_int).
  Notation auto_parse := (auto_parse isalpha isalnum isspace py_int xml_read unescape ip_addr ip_net to_time strip ip_net_strict download).
  Notation pf_parse o := (pf_parse unescape py_int ip_addr ip_net to_time strip ip_net_strict download (fetch_of o)).
  Notation acl_filter := (acl_filter isalpha isalnum isspace).
  Notation caf_read := (caf_read isalpha isalnum isspace).
  Notation named_well := (named_well isalnum).
  Notation written_as := (written_as isalnum isspace).

  Lemma auto_cases data f o c : o <> BadOptions -> auto_parse data f o = Ok c ->
    (exists cs ms T, c = CAsa cs ms T /\ parse_file data = Ok (cs, ms, T)) \/
    (exists cs ms T, c = CIos cs ms T /\ ios_parse data = Ok (cs, ms, T)) \/
    (exists cfg s root, c = CPf cfg s /\ pf_parse o root = Ok (cfg, s)).
  Proof using.
    clear. intros B H. rewrite auto_eq in H by auto. destruct (parse_file data) as [((cs & ms) & T)|]; [injection H as <-; left; eauto 8|].
    destruct (ios_parse data) as [((cs & ms) & T)|]; [injection H as <-; right; left; eauto 8|]. right; right.
    destruct (xml_read (data ++ lf)) as [root|]; [|discriminate H]. cbn [bind] in H. destruct (pf_parse o root) as [(cfg & s)|] eqn:R; [|discriminate H]. injection H as <-. eauto 8.
  Qed.
  (** What the filter goes through *)
  Definition c_get (c : aclconfig) : iid -> item :=
    match c with CAsa _ ms _ => item_at ms | CIos _ ms _ => irule_at ms | CPf cfg _ => prule_at (pcf_rules cfg) end.
  Definition c_rules (c : aclconfig) : list iid :=
    match c with CAsa _ ms _ => Config.c_rules (config_of ms) | CIos _ ms _ => Config.c_rules (fst (iconfig_of ms)) | CPf cfg _ => seq 0 (length (pcf_rules cfg)) end.
  Definition c_nats (c : aclconfig) : list (list iid) :=
    match c with
    | CAsa _ ms _ => let cfg := config_of ms in [Config.c_nat1 cfg; Config.c_nat2 cfg; Config.c_nat3 cfg]
    | CIos _ ms _ => let cfg := fst (iconfig_of ms) in [Config.c_nat1 cfg; Config.c_nat2 cfg; Config.c_nat3 cfg]
    | CPf cfg _ => [[]; []; []] end.
  Lemma filter_eq k c query : acl_filter k c query = (do (h, x) <- caf_read (config_groups c) query; config_filter k h (c_get c) x (c_rules c) (c_nats c)).
  Proof using. destruct c; reflexivity. Qed.
  Lemma good_not_wild n x : host_good n x -> ~ wild_end x.
  Proof using. clear. intros G (a & w & -> & _). destruct G as (_ & _ & G). discriminate G. Qed.
  Lemma parsed_good data f o c : o <> BadOptions -> auto_parse data f o = Ok c -> named_well c ->
    heap_ok (config_groups c) /\ (forall x, In x (c_rules c ++ concat (c_nats c)) <-> exists i, config_entry c x i) /\ (forall x i, config_entry c x i -> c_get c x = i) /\
    forall e, comparable c e -> (forall x i, config_entry c x i -> entry_good (h_next (config_groups c)) i) /\
      (no_ipv6 e \/ forall x i y, config_entry c x i -> In y (item_srcs i ++ item_dsts i) -> ~ wild_end y).
  Proof using OK PI1 PI2 AV.
    intros B H W. apply auto_cases in H as [(cs & ms & T & -> & P)|[(cs & ms & T & -> & P)|(cfg & s & root & -> & P)]]; [| | |exact B]; cbn [config_groups c_rules c_nats config_entry c_get comparable named_well] in *.
    - destruct (file_is_good _ _ _ OK _ PI1 PI2 _ _ _ _ P W) as (G & I). split; [exact (tg_heap T G)|]. split; [|split].
      + intros x. rewrite in_app_iff, in_concat. apply (filtered_entries _ _ _ _ _ _ _ _ P).
      + apply (entry_item _ _ _ _ _ _ _ _ P).
      + intros e _. assert (Q : forall x i, entry cs ms x i -> item_good (h_next (snd (w_net (tb_world T)))) i).
        { intros x i E. apply (entry_made _ _ _ _ _ _ _ _ P) in E as (m & Em & Ei). eauto. }
        split; [|right].
        * intros x i E. destruct (Q x i E) as (R & En & D). split; [exact R|]. split; [intros y Iy; left; auto|]. destruct i as [r|]; [|exact Logic.I]. destruct D as (id & -> & N). now apply no_slash_regular.
        * intros x i y E Iy. destruct (Q x i E) as (_ & En & _). eapply good_not_wild; eauto.
    - destruct (ifile_is_good _ _ _ OK _ PI1 PI2 _ _ _ _ P W) as (G & Rs & I). split; [exact (tg_heap _ G)|].
      destruct (ios_nats ms) as (N1 & N2 & N3 & Rn). rewrite Rs in Rn. cbn zeta. rewrite N1, N2, N3, Rn. cbn [concat]. rewrite !app_nil_r. split; [|split].
      + intros x. rewrite in_seq. cbn [plus]. split.
        * intros (_ & L). apply nth_error_Some in L. destruct (nth_error _ x) as [y|] eqn:E; [|congruence]. eexists. econstructor. exact E.
        * intros (i & E). destruct E as [k y E]. split; [lia|]. apply nth_error_Some. congruence.
      + intros x i E. destruct E as [k y E]. unfold irule_at. now rewrite Rs, E.
      + intros e V. split; [|destruct V as [V|V]; [now left|right]].
        * intros x i E. destruct E as [k y E]. destruct (I y ltac:(eapply nth_error_In; eauto)) as (H1 & H2 & S). split; [exact Logic.I|]. split; [|now apply no_slash_regular].
          cbn [item_srcs item_dsts r_src r_dst]. intros z [<-|[<-|[]]]; auto.
        * intros x i z E. destruct E as [k y E]. cbn [item_srcs item_dsts r_src r_dst]. intros [<-|[<-|[]]] (a & w & Ew & _); destruct (V y a w ltac:(eapply nth_error_In; eauto)) as (V1 & V2); auto.
    - destruct (document_good _ _ _ _ AV _ _ _ _ _ _ _ _ P) as (G & Rg). split; [|split; [|split]].
      + intros g x I. destruct (G g x I) as (L & l & -> & Gl). split; [exact L|exact (proj1 Gl)].
      + intros x. cbn [concat]. rewrite !app_nil_r, in_seq. cbn [plus]. split.
        * intros (_ & L). apply nth_error_Some in L. destruct (nth_error _ x) as [y|] eqn:E; [|congruence]. eexists. econstructor. exact E.
        * intros (i & E). destruct E as [k y E]. split; [lia|]. apply nth_error_Some. congruence.
      + intros x i E. destruct E as [k y E]. unfold prule_at. now rewrite E.
      + intros e V.
        assert (Q : forall x i y, prule_entry (pcf_rules cfg) x i -> In y (item_srcs i ++ item_dsts i) -> host_good (h_next (ps_nh s)) y).
        { intros x i z E. destruct E as [k y E]. destruct (Rg y ltac:(eapply nth_error_In; eauto)) as (G1 & G2). cbn [item_srcs item_dsts prule_of r_src r_dst]. intros [<-|[<-|[]]]; auto. }
        split; [|right; intros x i y E Iy; eapply good_not_wild; eauto].
        intros x i E. pose proof (Q x i) as Q'. destruct E as [k y E]. split; [exact Logic.I|]. split; [intros z Iz; left; apply Q'; [now constructor|exact Iz]|]. cbn [prule_of r_id]. apply V. eapply nth_error_In; eauto.
  Qed.

  (** No group of services of a pfSense configuration is in another one *)
  Lemma ports_flat al l : Forall2 (fun i (x : alias) => let '(n, d, c) := x in alias_means unescape py_int ip_addr ip_net strip ip_net_strict download true (x_kids i) n d c \/
      alias_means unescape py_int ip_addr ip_net strip ip_net_strict download false (x_kids i) n d c) l al ->
    forall g x, In x (objs (ps_ph (fold_left learn_alias al ps_empty)) g) -> port_sub x = None.
  Proof using.
    clear. revert l. induction al as [|x al IH] using rev_ind; intros l F; [intros g x []|].
    apply Forall2_app_inv_r in F as (l1 & l2 & F1 & F2 & ->). specialize (IH _ F1). rewrite fold_left_app. cbn [fold_left]. set (s := fold_left learn_alias al ps_empty) in *.
    inversion F2 as [|i ? ? ? M F3]; subst. destruct x as [[n d] [m|m]]; cbn [learn_alias learned]; [exact IH|].
    unfold learn_port, h_alloc. cbn [ps_ph]. intros g x I. unfold objs in I. cbn [h_get h_next] in *. destruct (Nat.eqb_spec g (h_next (ps_ph s))) as [->|N]; [|exact (IH g x I)].
    cbn [g_objs] in I. assert (E : exists e, port_entry py_int e x).
    { destruct M as [(_ & _ & t & _ & M)|(_ & _ & t & _ & M)]; inversion M as [| |a es l' _ _ F| | |]; subst; destruct (Forall2_In_r _ _ _ _ F I) as (e & _ & E); eauto. }
    destruct E as (e & [(a & b & _ & E)|(_ & ->)]); [|reflexivity]. unfold port_range in E. repeat match type of E with
      | (do _ <- ?x; _) = _ => destruct x; cbn [bind] in E; [|discriminate E] | match ?x with _ => _ end = _ => destruct x; try discriminate E end; injection E as <-; reflexivity.
  Qed.
  Lemma flat_depth {X} (sub : X -> option gid) h : (forall g x, In x (objs h g) -> sub x = None) -> Expand.depth_below sub h 1.
  Proof using. clear. intros H. exists (fun _ => 0). split; [|intros; lia]. intros g x g' I E. rewrite (H g x I) in E. discriminate E. Qed.
  Lemma parsed_depth data f o c : o <> BadOptions -> auto_parse data f o = Ok c -> named_well c -> exists limit, Expand.groups_depth_below (all_groups c) limit.
  Proof using OK PI1 PI2 AV.
    intros B H W. apply auto_cases in H as [(cs & ms & T & -> & P)|[(cs & ms & T & -> & P)|(cfg & s & root & -> & P)]]; [| | |exact B]; cbn [all_groups named_well] in *.
    - pose proof (FileConfig.C58_known _ _ _ _ _ _ _ _ P) as K. eexists. apply (Define.C42_acyclic (flat_map groups_in cs)); [|exact (kn_groups _ _ _ K)].
      apply (C57_reads _ _ _ OK _ PI1 PI2) in P; [|exact W]. exact (written_plain _ _ _ _ _ _ _ _ P).
    - pose proof (IosConfig.C66_known _ _ _ _ _ _ _ _ P) as K. eexists. apply (Define.C42_acyclic (flat_map igroups_in cs)); [|exact (ik_groups _ _ K)].
      apply (C65_reads _ _ _ OK _ PI1 PI2) in P as (P & _); [|exact W]. exact (iwritten_plain _ _ _ _ _ _ _ _ _ P).
    - exists 1. pose proof (document_good _ _ _ _ AV _ _ _ _ _ _ _ _ P) as (G & _).
      apply parse_shape in P as (al & objs & rss & (_ & _ & _ & A & _ & -> & _) & _). destruct (put_frame objs (fold_left learn_alias al ps_empty)) as (_ & _ & E1 & E2). rewrite E1 in *. rewrite E2.
      split; [|split; [|split; [|split]]]; apply flat_depth; cbn [gs_network gs_port gs_service gs_protocol gs_icmp]; try (intros g x []).
      + intros g x I. now destruct (G g x I) as (_ & l & -> & _).
      + eapply ports_flat. eapply f2_impl; [|exact A]. intros i ((n & d) & k) M. destruct (fetch_of o); auto.
  Qed.

  Definition groups_listed (c : aclconfig) (t : gtables) : Prop :=
    (forall g, In g (gt_network t) <-> network_group c g) /\ (forall g, In g (gt_port t) <-> port_group c g) /\
    (forall g, In g (gt_service t) <-> service_group c g) /\ (forall g, In g (gt_protocol t) <-> protocol_group c g) /\ (forall g, In g (gt_icmp t) <-> icmp_group c g).
  Lemma tables_listed data f o c : o <> BadOptions -> auto_parse data f o = Ok c -> groups_listed c (group_tables c).
  Proof using.
    clear. intros B H. apply auto_cases in H as [(cs & ms & T & -> & P)|[(cs & ms & T & -> & P)|(cfg & s & root & -> & P)]]; [| | |exact B]; cbn [group_tables].
    - unfold groups_listed, tables_of_config, config_of. cbn [gt_network gt_port gt_service gt_protocol gt_icmp network_group port_group service_group protocol_group icmp_group]. unfold config_of.
      repeat split; intros I; apply listed_values; try exact I.
      all: match goal with |- NoDup (map fst (?p (Config.build ?st ?it))) => idtac end.
      all: first [exact (config_names _ _ TNetGrp ltac:(discriminate))|exact (config_names _ _ TPortGrp ltac:(discriminate))|exact (config_names _ _ TSvcGrp ltac:(discriminate))|exact (config_names _ _ TProtoGrp ltac:(discriminate))|exact (config_names _ _ TIcmpGrp ltac:(discriminate))].
    - unfold groups_listed, tables_of_config. cbn [gt_network gt_port gt_service gt_protocol gt_icmp network_group port_group service_group protocol_group icmp_group].
      destruct (IosConfig.iconfig_build ms) as (st & -> & _). cbn [Config.c_netgrp Config.c_portgrp Config.c_svcgrp Config.c_protogrp Config.c_icmpgrp Config.set_store Config.set_rules].
      repeat split; intros I; apply listed_values; try exact I.
      all: first [exact (config_names _ _ TNetGrp ltac:(discriminate))|exact (config_names _ _ TPortGrp ltac:(discriminate))|exact (config_names _ _ TSvcGrp ltac:(discriminate))|exact (config_names _ _ TProtoGrp ltac:(discriminate))|exact (config_names _ _ TIcmpGrp ltac:(discriminate))].
    - apply (C68_reads _ _ _ _ _ _ _ _ _ _ _ _) in P as Q. destruct Q as (_ & _ & E1 & E2 & _). apply parse_shape in P as (al & objs & rss & (_ & _ & _ & _ & _ & -> & _) & _).
      destruct (put_frame objs (fold_left learn_alias al ps_empty)) as (F1 & F2 & _). rewrite F1 in E1. rewrite F2 in E2.
      destruct (learned_names al ps_empty) as (N1 & N2); [constructor|constructor|]. rewrite <- E1 in N1. rewrite <- E2 in N2.
      split; [|split]; [intros g; now apply listed_opt_values|intros g; now apply listed_opt_values|]. repeat split; intros [].
  Qed.
  (** C72: expanding a configuration that was read, of whatever format, ends; afterwards the
      groups hold their members and everything else is as before; no address term matches
      other addresses than before. *)
  Theorem C72_expand : forall data f o c, o <> BadOptions -> auto_parse data f o = Ok c -> named_well c ->
    exists limit, forall k, limit <= k -> exists c', acl_expand k c = Ok c' /\ expanded c c' /\
      forall x a, matches (config_groups c) x a <-> matches (config_groups c') x a.
  Proof using OK PI1 PI2 AV.
    intros data f o c B H W. destruct (parsed_depth _ _ _ _ B H W) as (limit & D). exists limit. intros k L.
    destruct (expand_flat_table (group_tables c) (all_groups c) k (depth_later _ _ _ L D)) as (s' & E & F & M).
    assert (F' : groups_flat c (all_groups c) s').
    { destruct (tables_listed _ _ _ _ B H) as (I1 & I2 & I3 & I4 & I5). destruct F as (F1 & F2 & F3 & F4 & F5). exact (conj (class_same _ _ _ _ _ _ I1 F1) (conj (class_same _ _ _ _ _ _ I2 F2) (conj (class_same _ _ _ _ _ _ I3 F3) (conj (class_same _ _ _ _ _ _ I4 F4) (class_same _ _ _ _ _ _ I5 F5))))). }
    clear F. rename F' into F.
    exists (with_groups c s'). unfold acl_expand. rewrite E. split; [reflexivity|]. destruct s' as [h1 h2 h3 h4 h5]. destruct c as [cs ms T|cs ms T|cfg s]; cbn [all_groups config_groups] in *.
    - split; [|exact M]. split; [|exact F]. cbn. repeat split.
    - split; [|exact M]. split; [|exact F]. cbn. repeat split.
    - split; [|exact M]. split; [cbn; repeat split|]. cbn [with_groups all_groups ps_nh ps_ph gs_network gs_port]. destruct F as (F1 & F2 & F3 & F4 & F5). split; [exact F1|]. split; [exact F2|].
      split; [|split]; (split; [reflexivity|intros g; split; [intros []|reflexivity]]).
  Qed.
  Lemma expanded_frame c c' : expanded c c' -> c_get c' = c_get c /\ c_rules c' = c_rules c /\ c_nats c' = c_nats c /\ config_groups c' = gs_network (all_groups c') /\ config_groups c = gs_network (all_groups c).
  Proof using.
    clear. intros (S & _). destruct c, c'; cbn [same_but_groups] in S; try contradiction; cbn.
    - destruct S as (-> & -> & _). auto.
    - destruct S as (-> & -> & _). auto.
    - destruct S as (-> & _). auto.
  Qed.
  (** C72: filtering the expanded configuration keeps exactly the entries the expression
      means over the expanded groups. *)
  Theorem C72_filter : forall data f o c c' query e, o <> BadOptions -> auto_parse data f o = Ok c -> named_well c -> expanded c c' ->
    written_as e query -> readable e -> (forall id, In id (expr_ids e) -> id_regular id) -> comparable c e ->
    exists limit, forall k, limit <= k -> exists l, acl_filter k c' query = Ok l /\ NoDup l /\
      forall x, In x l <-> exists i, config_entry c x i /\ expr_means (config_groups c') i e.
  Proof using OK PI1 PI2 AV.
    intros data f o c c' query e B H W X Q R I K. destruct (parsed_good _ _ _ _ B H W) as (G & En & Ge & Cm). destruct (Cm e K) as (Gi & V).
    destruct (expanded_frame _ _ X) as (E1 & E2 & E3 & E4 & E5). destruct X as (_ & F & _). rewrite <- E4, <- E5 in F.
    destruct (tables_listed _ _ _ _ B H) as (It & _). apply (class_same _ _ _ (fun g => In g (gt_network (group_tables c)))) in F; [|intros g; symmetry; apply It].
    pose proof (flat_ok _ _ _ G F) as G'. destruct F as (Nx & _).
    destruct (any_filter _ _ _ OK (config_groups c') (c_get c) (c_rules c) (c_nats c) query e G' Q R I) as (limit & L).
    { intros x Ix. apply En in Ix as (i & Ei). rewrite (Ge _ _ Ei), Nx. eauto. }
    { destruct V as [V|V]; [now left|right]. intros x y Ix. apply En in Ix as (i & Ei). rewrite (Ge _ _ Ei). eauto. }
    exists limit. intros k Lk. destruct (L k Lk) as (l & El & N & S). exists l. split; [rewrite filter_eq, E1, E2, E3; exact El|]. split; [exact N|].
    intros x. rewrite S, En. split.
    - intros ((i & Ei) & M). rewrite (Ge _ _ Ei) in M. eauto.
    - intros (i & Ei & M). rewrite (Ge _ _ Ei). eauto.
  Qed.
  (** C72: it keeps the same entries as filtering before, if the expression does not use the
      terms ANY, ANY4, ANY6 or no object in a group is "any". *)
  Theorem C72_same : forall data f o c c' query e, o <> BadOptions -> auto_parse data f o = Ok c -> named_well c -> expanded c c' ->
    written_as e query -> readable e -> (forall id, In id (expr_ids e) -> id_regular id) -> comparable c e ->
    without_ANY e \/ no_any_objects (config_groups c) ->
    exists limit, forall k, limit <= k -> exists l l', acl_filter k c query = Ok l /\ acl_filter k c' query = Ok l' /\ forall x, In x l <-> In x l'.
  Proof using OK PI1 PI2 AV.
    intros data f o c c' query e B H W X Q R I K A. destruct (parsed_good _ _ _ _ B H W) as (G & _).
    destruct (C70_filter _ _ _ OK _ PI1 PI2 _ _ _ _ AV _ _ _ _ _ _ _ _ _ _ B H W Q R I K) as (k1 & L1).
    destruct (C72_filter _ _ _ _ _ _ _ B H W X Q R I K) as (k2 & L2).
    exists (k1 + k2). intros k L. destruct (L1 k ltac:(lia)) as (l & E & _ & S), (L2 k ltac:(lia)) as (l' & E' & _ & S'). exists l, l'. split; [exact E|]. split; [exact E'|].
    destruct (expanded_frame _ _ X) as (_ & _ & _ & E4 & E5). destruct X as (_ & F & _). rewrite <- E4, <- E5 in F.
    destruct (tables_listed _ _ _ _ B H) as (It & _). apply (class_same _ _ _ (fun g => In g (gt_network (group_tables c)))) in F; [|intros g; symmetry; apply It].
    assert (D : forall i, expr_means (config_groups c) i e <-> expr_means (config_groups c') i e).
    { intros i. apply (expr_ext _ _ i (item_srcs i ++ item_dsts i) (fun _ J => J)). intros t n y Int Rt _. apply (net_flat _ _ _ G F). destruct A as [A|A]; [left|now right].
      inversion Rt; subst; try (repeat split; discriminate); destruct (A _ Int) as (A1 & A2 & A3); congruence. }
    intros x. rewrite S, S'. setoid_rewrite D. reflexivity.
  Qed.
End Whole.

(** ** Examples *)
Definition C72_nested : pystr :=
  line "object network web" ++ line " host 10.0.0.80" ++ line "object-group network servers" ++ line " network-object host 10.0.0.81" ++ line " network-object object web" ++
  line "object-group network all" ++ line " network-object host 10.0.0.1" ++ line " group-object servers" ++
  u "access-list ACL extended permit ip any object-group all".
(** An object for a host name in a group: ANY does not select the rule before the expansion,
    and does after it. *)
Definition C72_fqdn : pystr :=
  line "object network site" ++ line " fqdn www.example.org" ++ line "object-group network servers" ++ line " network-object object site" ++
  u "access-list ACL extended permit ip object-group servers host 10.0.0.1".
Definition C72_flt := acl_filter ascii_alpha ascii_alnum ascii_space 20.
Definition C72_r1 := Eval vm_compute in match C70_read C72_nested with Ok x => Some x | Err _ => None end.
Definition C72_r2 := Eval vm_compute in match C70_read C72_fqdn with Ok x => Some x | Err _ => None end.
Definition members_of (r : result aclconfig) : list (list host) :=
  match r with Ok c => map (objs (config_groups c)) (seq 0 (h_next (config_groups c))) | Err _ => [] end.
Example C72_ex1 : exists c c', C70_read C72_nested = Ok c /\ acl_expand 5 c = Ok c' /\
  members_of (Ok c') = [map HLeaf [LHost (mkaddr V4 167772241); LHost (mkaddr V4 167772240)]; map HLeaf [LHost (mkaddr V4 167772161); LHost (mkaddr V4 167772241); LHost (mkaddr V4 167772240)]]%N /\
  C72_flt c (u "ip dst 10.0.0.80") = Ok [3] /\ C72_flt c' (u "ip dst 10.0.0.80") = Ok [3].
Proof.
  destruct C72_r1 as [c|] eqn:E; [|discriminate E]. exists c. unfold C72_r1 in E. injection E as <-. eexists. split; [vm_compute; reflexivity|]. split; [vm_compute; reflexivity|].
  split; [vm_compute; reflexivity|]. split; lazy; reflexivity.
Qed.
Example C72_ex2 : exists c c', C70_read C72_fqdn = Ok c /\ acl_expand 5 c = Ok c' /\
  C72_flt c (u "ip src ANY") = Ok [] /\ C72_flt c' (u "ip src ANY") = Ok [2] /\ C72_flt c (u "ip src any") = Ok [2] /\ C72_flt c' (u "ip src any") = Ok [2].
Proof.
  destruct C72_r2 as [c|] eqn:E; [|discriminate E]. exists c. unfold C72_r2 in E. injection E as <-. eexists. split; [vm_compute; reflexivity|]. split; [vm_compute; reflexivity|].
  repeat split; lazy; reflexivity.
Qed.
(** The hypotheses of C72_same are met. *)
Example C72_ex3 : exists c c' e, C70_read C72_nested = Ok c /\ named_well ascii_alnum c /\ acl_expand 5 c = Ok c' /\
  written_as ascii_alnum ascii_space e (u "ip dst 10.0.0.80") /\ readable e /\ (forall id, In id (expr_ids e) -> id_regular id) /\ comparable c e /\ without_ANY e /\ no_any_objects (config_groups c).
Proof.
  destruct C72_r1 as [c|] eqn:E; [|discriminate E]. exists c. unfold C72_r1 in E. injection E as <-.
  assert (P : exists e, p_grammar ascii_alpha ascii_alnum ascii_space (u "ip dst 10.0.0.80") = Ok e) by (eexists; lazy; reflexivity).
  destruct P as (e & P). eexists _, e. split; [vm_compute; reflexivity|]. split; [|split; [vm_compute; reflexivity|]].
  - cbn [AutoSpec.named_well].
    assert (G : forall A (l : list A) x (P : A -> Prop), In x l -> Forall P l -> P x) by (intros A l x P0 I F; rewrite Forall_forall in F; exact (F x I)).
    split.
    + intros x I. refine (G _ _ _ (fun c => forall x, c = CSimple (SName x) -> hostname_ok (nm_host x)) I _ x eq_refl).
      repeat apply Forall_cons; try apply Forall_nil; intros y Ey; discriminate Ey.
    + intros n c I. refine (G _ _ _ (fun c => object_named n c -> n <> []) I _).
      repeat apply Forall_cons; try apply Forall_nil; intros B; inversion B; subst; discriminate.
    + intros k n c I. refine (G _ _ _ (fun c => group_named k n c -> n <> []) I _).
      repeat apply Forall_cons; try apply Forall_nil; intros B; inversion B; subst; discriminate.
    + intros a b n c c' I I' A B X.
      match type of I with In _ ?l => assert (K : forall c, In c l -> forall k n, group_named k n c -> k = NetGroup) end; [|apply K in A; [|exact I]; apply K in B; [|exact I']; subst; repeat (destruct X as [X|X]; [discriminate X|]); destruct X].
      intros c0 I0. refine (G _ _ _ (fun c => forall k n, group_named k n c -> k = NetGroup) I0 _).
      repeat apply Forall_cons; try apply Forall_nil; intros k0 n0 Y; inversion Y; subst; reflexivity.
    + intros n c I. refine (G _ _ _ (fun c => interface_named n c -> freeof (in_class [44; 41]%N) n /\ clear_of_any ascii_alnum n) I _).
      repeat apply Forall_cons; try apply Forall_nil; intros B; inversion B; subst.
  - pose proof (proj1 (p_grammar_spec _ _ _ C41_classes _ _) P) as Q. split; [exact Q|].
    assert (A : exists r, caf_read ascii_alpha ascii_alnum ascii_space (mkheap (fun _ => mkgroup [] [] [] []) 0) (u "ip dst 10.0.0.80") = Ok r) by (eexists; lazy; reflexivity).
    split.
    { apply (C41_accepted _ _ _ C41_classes) in A as (e' & Q' & R); [|exists (fun _ => 0); intros g x []]. apply (p_grammar_spec _ _ _ C41_classes) in Q'. rewrite P in Q'. injection Q' as ->. exact R. }
    clear A Q. assert (Ee : p_grammar ascii_alpha ascii_alnum ascii_space (u "ip dst 10.0.0.80") = Ok (CE (CS None [OIp Dst [TAddr (u "10.0.0.80") None]]) [])) by (lazy; reflexivity).
    rewrite P in Ee. injection Ee as ->. split; [intros id [<-|[]] s p; discriminate|]. split; [exact Logic.I|]. split; [intros w [I|[]]; discriminate I|].
    intros g o m I. unfold objs in I. cbn [config_groups w_net tb_world snd h_get] in I. destruct g as [|[|[|g]]]; cbn in I; repeat (destruct I as [I|I]; [try discriminate I; injection I as <-; cbn; intros [<-|Im]; cbn; tauto|]); destruct I.
Qed.
Print Assumptions C72_expand.
Print Assumptions C72_filter.
Print Assumptions C72_same.
