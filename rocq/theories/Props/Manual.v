(** C77: filtering the rules of a configuration by rules made by hand. *)
From Coq Require Import Lia String Sorted.
From Verif.Model Require Import Base Ip Hosts Groups Rules Caf Nat Iface Peg Ids AddrText Ports AclText Define GroupText ObjText LineText NatText FileText FileFilter IosText IosFile IosFilter Pfsense PfFile CafText Detect Auto.
From Verif.Model Require Config.
From Verif.Spec Require Import AddrSpec AddrTextSpec AddrStrSpec GroupSpec RefSpec CafSpec CafMeanSpec CafTextSpec AclTextSpec GroupTextSpec ObjTextSpec FilterSpec LineTextSpec FileTextSpec FileConfigSpec ConfigSpec FileFilterSpec IosFileSpec IosConfigSpec IosFilterSpec PfSpec PfFileSpec PfFilterSpec AutoSpec PipelineSpec.
From Verif.Proofs Require Import FilterFacts GroupFacts DictFacts PfFacts CafFacts CafTextFacts CafExpr CafMean FileGood PfIface ExpandGood AddrStrFacts.
From Verif.Props Require Config Define Expand FileConfig IosConfig.
From Verif.Props Require Import Filter CafText AclText Detect FileText FileFilter IosFileText IosFilter PfAliases PfFile PfFilter Auto AddrStr.
From Verif.Model Require Import AddrStr CafPrint Manual.
From Verif.Spec Require Import ManualSpec.
From Verif.Props Require Import CafPrint Pipeline AutoSort.
Local Open Scope list_scope.

(** ** ACLRules.filter with any number of rules *)
Lemma some_hit {A} (f : A -> result bool) (P : A -> Prop) l : (forall x, In x l -> exists b, f x = Ok b /\ (b = true <-> P x)) ->
  exists b, any_r f l = Ok b /\ (b = true <-> exists x, In x l /\ P x).
Proof.
  induction l as [|x l IH]; intros H; cbn [any_r].
  - exists false. split; [reflexivity|]. split; [discriminate|intros (x & [] & _)].
  - destruct (H x (or_introl eq_refl)) as (b & -> & E). destruct IH as (b' & Eb & E'); [intros y I; apply H; now right|].
    destruct b.
    + exists true. split; [reflexivity|]. split; [|reflexivity]. intros _. exists x. split; [now left|now apply E].
    + exists b'. split; [exact Eb|]. rewrite E'. split; intros (y & I & Py); [exists y; split; [now right|exact Py]|]. destruct I as [<-|I]; [apply E in Py; discriminate|eauto].
Qed.
Lemma filter_many k h get (sel : rule -> iid -> Prop) target rules :
  (forall r x, In r target -> In x rules -> exists b, rule_and k h r (get x) = Ok b /\ (b = true <-> sel r x)) ->
  exists s, rules_filter k h get rules target = Ok s /\ NoDup s /\ forall x, In x s <-> In x rules /\ exists r, In r target /\ sel r x.
Proof.
  intros H. unfold rules_filter.
  assert (G : forall l s0, incl l rules -> NoDup s0 -> exists s,
    fold_r (fun s acl => do hit <- any_r (fun i => rule_and k h i (get acl)) target; Ok (if hit then set_add acl s else s)) l s0 = Ok s /\
    NoDup s /\ forall x, In x s <-> In x s0 \/ (In x l /\ exists r, In r target /\ sel r x)).
  { induction l as [|x l IH]; intros s0 I N; cbn [fold_r].
    - exists s0. split; [reflexivity|]. split; [exact N|]. intros x. cbn. tauto.
    - destruct (some_hit (fun i => rule_and k h i (get x)) (fun r => sel r x) target) as (b & -> & Eb); [intros r Ir; apply H; [exact Ir|apply I; now left]|]. cbn [bind].
      destruct (IH (if b then set_add x s0 else s0)) as (s & Es & Ns & Is); [intros y Iy; apply I; now right|destruct b; [now apply set_add_NoDup|exact N]|].
      exists s. split; [exact Es|]. split; [exact Ns|]. intros y. rewrite Is. destruct b.
      + rewrite set_add_In. cbn [In]. split; [|intros [A|[[A|A] B]]; auto]. intros [[-> |A]|[A B]]; auto. right. split; [now left|now apply Eb].
      + cbn [In]. split; [intros [A|[A B]]; auto|]. intros [A|[[->|A] B]]; auto. exfalso. apply Eb in B. discriminate B. }
  destruct (G rules [] (incl_refl _) (NoDup_nil _)) as (s & Es & Ns & Is). exists s. split; [exact Es|]. split; [exact Ns|]. intros x. rewrite Is. cbn. tauto.
Qed.
(** ** Rules are in order *)
Lemma positions_from {A B} (f : A -> list B) l : (forall a, length (f a) <= 1) -> forall k,
  StronglySorted lt (map fst (flat_map (fun ka => map (pair (fst ka)) (f (snd ka))) (numbered k l))) /\
  Forall (fun x => k <= x) (map fst (flat_map (fun ka => map (pair (fst ka)) (f (snd ka))) (numbered k l))).
Proof.
  intros L. induction l as [|a l IH]; intros k; cbn [numbered flat_map map]; [split; constructor|].
  destruct (IH (S k)) as (S1 & F1). rewrite map_app. cbn [fst snd]. specialize (L a). destruct (f a) as [|b [|b2 fa]]; cbn [map app length] in *; [| |lia].
  - split; [exact S1|]. eapply Forall_impl; [|exact F1]. cbn. intros; lia.
  - assert (F2 : Forall (fun x => k <= x) (map fst (flat_map (fun ka => map (pair (fst ka)) (f (snd ka))) (numbered (S k) l)))) by (eapply Forall_impl; [|exact F1]; cbn; intros; lia).
    split; constructor; cbn [fst]; auto.
Qed.
Lemma seq_sorted n : forall k, StronglySorted lt (seq k n).
Proof. induction n as [|n IH]; intros k; cbn; constructor; [apply IH|]. rewrite Forall_forall. intros x I. apply in_seq in I. lia. Qed.
Lemma filter_sorted {A} (R : A -> A -> Prop) p l : StronglySorted R l -> StronglySorted R (filter p l).
Proof.
  induction 1 as [|x l S IH F]; cbn [filter]; [constructor|]. destruct (p x); [|exact IH]. constructor; [exact IH|].
  rewrite Forall_forall in *. intros y I. apply filter_In in I as (I & _). auto.
Qed.

Section Any.
  Context (isalpha isalnum isspace : N -> bool) (OK : classes_ok isalpha isalnum isspace).
  Context (py_int : pystr -> option Z)
          (PI1 : forall n, n <> [] -> forallb AddrText.is_digit n = true -> py_int n <> None)
          (PI2 : forall n, In n port_code -> py_int n = None).
  Context (xml_read : pystr -> result xml) (unescape : pystr -> pystr)
          (ip_addr : pystr -> option addr) (ip_net : pystr -> pystr -> result net) (AV : addresses_valid ip_addr ip_net)
          (to_time : option pystr -> result Z) (strip : pystr -> pystr)
          (ip_net_strict : pystr -> bool) (download : option pystr -> option (list pystr)).
  Notation auto_parse := (auto_parse isalpha isalnum isspace py_int xml_read unescape ip_addr ip_net to_time strip ip_net_strict download).
  Notation named_well := (named_well isalnum).
  Notation written_as := (written_as isalnum isspace).
  Notation acl_rules_run := (acl_rules_run isalpha isalnum isspace).

  Lemma entries_kept c c' : same_but_groups c c' -> forall x i, config_entry c' x i <-> config_entry c x i.
  Proof using. clear. intros S x i. destruct c, c'; cbn [same_but_groups] in S; try contradiction; cbn [config_entry]; [destruct S as (-> & -> & _)|destruct S as (-> & -> & _)|destruct S as (-> & _)]; reflexivity. Qed.
  (** [config.rules.rules] holds the entries that are rules, in order. *)
  Lemma rules_entries data f o c : o <> BadOptions -> auto_parse data f o = Ok c -> named_well c ->
    StronglySorted lt (rules_of c) /\ forall x, In x (rules_of c) <-> exists r, config_rule c x r.
  Proof using OK PI1 PI2 AV.
    intros B H W. destruct (parsed_good _ _ _ OK _ PI1 PI2 _ _ _ _ AV _ _ _ _ _ _ _ _ B H W) as (_ & En & _).
    apply (auto_cases _ _ _ _ _ _ _ _ _ _ _ _ _ _ _ _ B) in H as [(cs & ms & T & -> & P)|[(cs & ms & T & -> & P)|(cfg & s & root & -> & P)]]; unfold config_rule; cbn [rules_of config_entry c_rules c_nats] in *.
    - destruct (FileConfig.C58_contents _ _ _ _ _ _ _ _ P) as (R & _). split.
      + rewrite R. unfold positions, found. apply positions_from. intros y; destruct y; cbn; lia.
      + intros x. destruct (filtered_entries _ _ _ _ _ _ _ _ P x) as (A & _). rewrite A. split.
        * intros (i & E). destruct E as [k y E]. eexists. apply EN_rule. econstructor. exact E.
        * intros (r & E). inversion E as [k i E'| |]; subst. eauto.
    - destruct (ifile_is_good _ _ _ OK _ PI1 PI2 _ _ _ _ P W) as (_ & Rs & _). destruct (ios_nats ms) as (N1 & N2 & N3 & Rn). cbn zeta in En. rewrite N1, N2, N3 in En. cbn [concat] in En.
      split; [rewrite Rn; apply seq_sorted|]. intros x. rewrite !app_nil_r in En. rewrite En. split; intros (i & E); [destruct E as [k y E]; eexists; econstructor; exact E|eauto].
    - split; [apply seq_sorted|]. cbn [concat] in En. intros x. rewrite !app_nil_r in En. rewrite En. split; intros (i & E); [destruct E as [k y E]; eexists; econstructor; exact E|eauto].
  Qed.

  (** An expression with an IPv6 address *)
  Definition v6expr : cexpr := CE (CS None [OIp Src [TAddr (u "::1") None]]) [].
  Lemma v6expr_v6 : ~ no_ipv6 v6expr.
  Proof using.
    clear. intros H. assert (A : address_text (u "::1") (mkaddr V6 1)) by (unfold address_text; cbn [a_ver a_val]; apply Addr6Facts.parse6_spec; vm_compute; reflexivity).
    specialize (H (TAddr (u "::1") None) (NtHost (mkaddr V6 1)) (or_introl eq_refl) (NR_host _ _ A)). discriminate H.
  Qed.
  (** A rule made by hand can be compared with the rules of the configuration. *)
  Lemma hand_comparable data f o c c' : o <> BadOptions -> auto_parse data f o = Ok c -> named_well c -> c' = c \/ expanded c c' ->
    forall t x i, by_hand c' t -> rules_comparable c c' t -> config_entry c x i -> comparable_item (config_groups c') t i.
  Proof using OK PI1 PI2 AV.
    intros B H W X t x i (Rt & W1 & W2 & F1 & F2) Rc E.
    destruct (ready _ _ _ OK _ PI1 PI2 _ _ _ _ AV _ _ _ _ _ _ _ _ _ B H W X) as (G & _ & N & _).
    destruct (parsed_good _ _ _ OK _ PI1 PI2 _ _ _ _ AV _ _ _ _ _ _ _ _ B H W) as (_ & _ & _ & Cm).
    assert (Q : entry_good (h_next (config_groups c)) i /\ ((v6free (config_groups c') (r_src t) /\ v6free (config_groups c') (r_dst t)) \/ forall y, In y (item_srcs i ++ item_dsts i) -> ~ wild_end y)).
    { assert (D : AutoSpec.comparable c v6expr \/ (exists cs ms T, c = CIos cs ms T /\ v6free (config_groups c') (r_src t) /\ v6free (config_groups c') (r_dst t))).
      { destruct c as [cs ms T|cs ms T|cfg s]; cbn [rules_comparable AutoSpec.comparable] in *; [left; exact Logic.I| |left; exact Rc]. destruct Rc as [V|V]; [right; exists cs, ms, T; auto|left; now right]. }
      destruct D as [D|(cs & ms & T & -> & D)].
      - destruct (Cm v6expr D) as (Gi & [V|V]); [destruct (v6expr_v6 V)|]. split; [eapply Gi; exact E|]. right. intros y. eapply V. exact E.
      - destruct (Cm (CE (CS None []) [])) as (Gi & _); [left; intros tt nn []|]. split; [eapply Gi; exact E|]. now left. }
    destruct Q as ((Rs & En & Ri) & V). rewrite <- N in En.
    split; [exact Rs|]. split; [|split; [|split; [exact Rt|exact Ri]]]; intros y Iy; assert (Iy' : In y (item_srcs i ++ item_dsts i)) by (apply in_app_iff; auto);
      apply (iend_comparable (just (config_groups c')) (config_groups c') (ok_tables _ G) (extends_refl _)); auto; destruct V as [(V1 & V2)|V]; auto.
  Qed.

  Lemma one_filter data f o c c' target : o <> BadOptions -> auto_parse data f o = Ok c -> named_well c -> c' = c \/ expanded c c' ->
    Forall (by_hand c') target -> Forall (rules_comparable c c') target ->
    exists limit, forall k, limit <= k -> exists l, acl_rules_filter k c' target = Ok l /\ NoDup l /\
      forall x, In x l <-> exists r, config_rule c x r /\ one_selects c' target r.
  Proof using OK PI1 PI2 AV.
    intros B H W X Hb Hc. rewrite Forall_forall in Hb, Hc.
    destruct (parsed_good _ _ _ OK _ PI1 PI2 _ _ _ _ AV _ _ _ _ _ _ _ _ B H W) as (_ & _ & Ge & _).
    destruct (ready _ _ _ OK _ PI1 PI2 _ _ _ _ AV _ _ _ _ _ _ _ _ _ B H W X) as (G & _ & _ & S & _). destruct (same_frame _ _ S) as (E1 & _).
    destruct (rules_entries _ _ _ _ B H W) as (_ & In_).
    pose proof (good_acyclic _ (ok_tables _ G)) as (rk & R). cbn [only_groups tb_world w_net snd] in R.
    destruct (depth_bound rk target (map (c_get c) (rules_of c))) as (limit & D). exists limit. intros k K.
    assert (Er : rules_of c' = rules_of c) by (destruct c, c'; cbn [same_but_groups] in S; try contradiction; [destruct S as (-> & -> & _)|destruct S as (-> & -> & _)|destruct S as (-> & _)]; reflexivity).
    destruct (filter_many k (config_groups c') (c_get c) (fun r x => selects (config_groups c') r (c_get c x)) target (rules_of c)) as (l & El & Nl & Il).
    { intros r x Ir Ix. apply (item_exact _ rk R); [|apply (D k K); [exact Ir|now apply in_map]].
      apply In_ in Ix as (r0 & E). rewrite (Ge _ _ E). eapply hand_comparable; eauto. }
    exists l. split; [|split; [exact Nl|]].
    - unfold acl_rules_filter. rewrite Er. change (groups_in c') with (config_groups c') || (replace (groups_in c') with (config_groups c') by now destruct c').
      replace (object_at c') with (c_get c) by (rewrite <- E1; now destruct c'). exact El.
    - intros x. rewrite Il, In_. unfold one_selects. split.
      + intros ((r & E) & t & It & M). exists r. split; [exact E|]. exists t. split; [exact It|]. rewrite (Ge _ _ E) in M. exact M.
      + intros (r & E & t & It & M). split; [eauto|]. exists t. split; [exact It|]. rewrite (Ge _ _ E). exact M.
  Qed.
  (** C77: filtering the rules of a configuration that was read, expanded or not, by rules
      made by hand keeps the rules that one of them selects, and no NAT. *)
  Theorem C77_rules : forall data f o c c' target, o <> BadOptions -> auto_parse data f o = Ok c -> named_well c -> c' = c \/ expanded c c' ->
    Forall (by_hand c') target -> Forall (rules_comparable c c') target ->
    exists limit, forall k, limit <= k -> exists l, acl_rules_filter k c' target = Ok l /\ NoDup l /\
      forall x, In x l <-> exists r, config_rule c x r /\ one_selects c' target r.
  Proof using OK PI1 PI2 AV. exact one_filter. Qed.

  (** C77: filtering the rules alone by an expression. *)
  Theorem C77_run : forall data f o c c' query e, o <> BadOptions -> auto_parse data f o = Ok c -> named_well c -> c' = c \/ expanded c c' ->
    written_as e query -> readable e -> (forall id, In id (expr_ids e) -> id_regular id) -> AutoSpec.comparable c e ->
    exists limit, forall k, limit <= k -> exists l, acl_rules_run k c' query = Ok l /\ NoDup l /\
      forall x, In x l <-> exists r, config_rule c x r /\ expr_means (config_groups c') (Rules.IRule r) e.
  Proof using OK PI1 PI2 AV.
    intros data f o c c' query e B H W X Q R I K.
    destruct (parsed_good _ _ _ OK _ PI1 PI2 _ _ _ _ AV _ _ _ _ _ _ _ _ B H W) as (_ & _ & Ge & Cm). destruct (Cm e K) as (Gi & V).
    destruct (ready _ _ _ OK _ PI1 PI2 _ _ _ _ AV _ _ _ _ _ _ _ _ _ B H W X) as (G & _ & N & S & _). destruct (same_frame _ _ S) as (E1 & _).
    destruct (rules_entries _ _ _ _ B H W) as (_ & In_).
    assert (Er : rules_of c' = rules_of c) by (destruct c, c'; cbn [same_but_groups] in S; try contradiction; [destruct S as (-> & -> & _)|destruct S as (-> & -> & _)|destruct S as (-> & _)]; reflexivity).
    destruct (any_ready _ _ _ OK (config_groups c') (c_get c) (rules_of c) query e G Q R I) as (h1 & x & Ex & A & _ & Ci & M).
    { intros y Iy. apply In_ in Iy as (r & E). rewrite (Ge _ _ E), N. eapply Gi. exact E. }
    { destruct V as [V|V]; [now left|right]. intros y z Iy. apply In_ in Iy as (r & E). rewrite (Ge _ _ E). eapply V. exact E. }
    destruct (C19_run_exact h1 (c_get c) x (rules_of c) A Ci) as (limit & L). exists limit. intros k Lk. destruct (L k Lk) as (l & El & Nl & Il). exists l. split; [|split; [exact Nl|]].
    - unfold Manual.acl_rules_run. replace (groups_in c') with (config_groups c') by now destruct c'. rewrite Ex. cbn [bind]. rewrite Er.
      replace (object_at c') with (c_get c) by (rewrite <- E1; now destruct c'). exact El.
    - intros y. rewrite Il. split.
      + intros (Iy & D). apply M in D; [|exact Iy]. apply In_ in Iy as (r & E). rewrite (Ge _ _ E) in D. eauto.
      + intros (r & E & D). assert (Iy : In y (rules_of c)) by (apply In_; eauto). split; [exact Iy|]. apply M; [exact Iy|]. rewrite (Ge _ _ E). exact D.
  Qed.

  Lemma is_any_iff x : is_any x = true <-> any_end x.
  Proof using.
    clear. unfold any_end. destruct x as [[]| |]; cbn; split; try discriminate; auto; try (intros [E|[(url & E)|E]]; discriminate E); eauto.
  Qed.
  Lemma fold_adds (p : iid -> bool) l : forall s, NoDup s -> NoDup (fold_left (fun s x => if p x then set_add x s else s) l s) /\
    forall x, In x (fold_left (fun s x => if p x then set_add x s else s) l s) <-> In x s \/ (In x l /\ p x = true).
  Proof using.
    clear. induction l as [|y l IH]; intros s N; cbn [fold_left]; [split; [exact N|intros x; cbn; tauto]|].
    destruct (IH (if p y then set_add y s else s)) as (N' & I'); [destruct (p y); [now apply set_add_NoDup|exact N]|]. split; [exact N'|].
    intros x. rewrite I'. cbn [In]. destruct (p y) eqn:E; [rewrite set_add_In|]; split; intros; intuition (subst; try congruence; auto).
  Qed.
  Lemma any_any_rules data f o c c' : o <> BadOptions -> auto_parse data f o = Ok c -> named_well c -> c' = c \/ expanded c c' ->
    rules_of c' = rules_of c /\
    let l := fold_left (fun s x => if any_any (object_at c' x) then set_add x s else s) (rules_of c') [] in
    NoDup l /\ forall x, In x l <-> exists r, config_rule c x r /\ from_any_to_any r.
  Proof using OK PI1 PI2 AV.
    intros B H W X. destruct (parsed_good _ _ _ OK _ PI1 PI2 _ _ _ _ AV _ _ _ _ _ _ _ _ B H W) as (_ & _ & Ge & _).
    destruct (ready _ _ _ OK _ PI1 PI2 _ _ _ _ AV _ _ _ _ _ _ _ _ _ B H W X) as (_ & _ & _ & S & _). destruct (same_frame _ _ S) as (E1 & _).
    destruct (rules_entries _ _ _ _ B H W) as (_ & In_).
    assert (Er : rules_of c' = rules_of c) by (destruct c, c'; cbn [same_but_groups] in S; try contradiction; [destruct S as (-> & -> & _)|destruct S as (-> & -> & _)|destruct S as (-> & _)]; reflexivity).
    split; [exact Er|]. cbn zeta. replace (object_at c') with (c_get c) by (rewrite <- E1; now destruct c'). rewrite Er.
    destruct (fold_adds (fun x => any_any (c_get c x)) (rules_of c) [] (NoDup_nil _)) as (N & I). split; [exact N|]. intros x. rewrite I, In_. unfold from_any_to_any. cbn [In]. split.
    - intros [[]|((r & E) & A)]. exists r. split; [exact E|]. rewrite (Ge _ _ E) in A. cbn [any_any] in A. apply andb_prop in A as (A1 & A2). now rewrite <- !is_any_iff.
    - intros (r & E & A1 & A2). right. split; [eauto|]. rewrite (Ge _ _ E). cbn [any_any]. apply is_any_iff in A1, A2. now rewrite A1, A2.
  Qed.
  Lemma count_ok label l (P : nat -> Prop) : NoDup l -> (forall x, In x l <-> P x) -> count_text label P (count_line label l).
  Proof using. clear. intros N I. exists (length l), (dec_str (N.of_nat (length l))). split; [exists l; auto|]. split; [apply dec_str_spec|reflexivity]. Qed.

  (** C77: a program like examples/acl-filter.py prints the numbers of the rules from any to
      any, of those that one of [base] selects, of both together, of those that one of
      [target] selects, and of those that remain without the former; then these, in order. *)
  Theorem C77_manual : forall data f o c c' base target, o <> BadOptions -> auto_parse data f o = Ok c -> named_well c -> c' = c \/ expanded c c' ->
    Forall (by_hand c') base -> Forall (rules_comparable c c') base -> Forall (by_hand c') target -> Forall (rules_comparable c c') target ->
    let rule_with (P : Rules.rule -> Prop) x := exists r, config_rule c x r /\ P r in
    let out r := from_any_to_any r \/ one_selects c' base r in
    let left_ r := one_selects c' target r /\ ~ out r in
    exists limit, forall k, limit <= k -> exists t1 t2 t3 t4 t5 l, manual k c' (Ok base) (Ok target) = (t1 ++ t2 ++ t3 ++ t4 ++ t5, Ok l) /\
      count_text (u "anyany") (rule_with from_any_to_any) t1 /\ count_text (u "base") (rule_with (one_selects c' base)) t2 /\
      count_text (u "union") (rule_with out) t3 /\ count_text (u "rules") (rule_with (one_selects c' target)) t4 /\
      count_text (u "remain") (rule_with left_) t5 /\
      StronglySorted lt l /\ forall x, In x l <-> rule_with left_ x.
  Proof using OK PI1 PI2 AV.
    intros data f o c c' base target B H W X Hb Kb Ht Kt rule_with out left_.
    destruct (one_filter _ _ _ _ _ base B H W X Hb Kb) as (n1 & L1). destruct (one_filter _ _ _ _ _ target B H W X Ht Kt) as (n2 & L2).
    destruct (any_any_rules _ _ _ _ _ B H W X) as (Er & Na & Ia). destruct (rules_entries _ _ _ _ B H W) as (So & In_).
    destruct (parsed_good _ _ _ OK _ PI1 PI2 _ _ _ _ AV _ _ _ _ _ _ _ _ B H W) as (_ & _ & Ge & _).
    assert (One : forall x r r', config_rule c x r -> config_rule c x r' -> r = r') by (intros x r r' A A'; apply Ge in A, A'; rewrite A in A'; now injection A').
    exists (n1 + n2). intros k L. destruct (L1 k ltac:(lia)) as (b & Eb & Nb & Ib). destruct (L2 k ltac:(lia)) as (t & Et & Nt & It).
    set (a := fold_left _ (rules_of c') []) in *. set (un := set_op Union a b). set (rm := set_op Except t un).
    assert (Iu : forall x, In x un <-> rule_with out x).
    { intros x. unfold un. rewrite set_op_In. cbn [op_spec]. rewrite Ia, Ib. unfold rule_with, out. split; [intros [(r & E & P)|(r & E & P)]; eauto|intros (r & E & [P|P]); eauto]. }
    assert (Ir : forall x, In x rm <-> rule_with left_ x).
    { intros x. unfold rm. rewrite set_op_In. cbn [op_spec]. rewrite It, Iu. unfold rule_with, left_. split.
      - intros ((r & E & P) & Q). exists r. split; [exact E|]. split; [exact P|]. intros O. apply Q. eauto.
      - intros (r & E & P & Q). split; [eauto|]. intros (r' & E' & O). rewrite (One _ _ _ E' E) in O. auto. }
    exists (count_line (u "anyany") a), (count_line (u "base") b), (count_line (u "union") un), (count_line (u "rules") t), (count_line (u "remain") rm), (filter (fun x => mem x rm) (rules_of c')).
    split; [|split; [|split; [|split; [|split; [|split; [|split]]]]]]; try (apply count_ok; auto).
    - unfold manual. fold a. cbn [bind]. rewrite Eb. fold un. rewrite Et. fold rm. now rewrite !app_assoc.
    - unfold un. now apply set_op_NoDup.
    - unfold rm. now apply set_op_NoDup.
    - rewrite Er. now apply filter_sorted.
    - intros x. rewrite filter_In, mem_In, Ir, Er, In_. split; [intros (_ & P); exact P|]. intros P. split; [|exact P]. destruct P as (r & E & _). eauto.
  Qed.
  (** The rules that examples/acl-filter.py means to build are built, and can be used on
      every configuration whose own ids are regular. *)
  Theorem C77_intended : forall net, net = u "10.2.0.0" \/ net = u "10.1.0.0" -> exists a l, quad a = net /\ intended_rules net = Ok l /\
    l = [mkrule (Some (u "inside_in")) (HLeaf LAny) (HLeaf (LNet (mknet V4 a 24))); mkrule (Some (u "outside_in")) (HLeaf (LNet (mknet V4 a 24))) (HLeaf LAny)] /\
    forall c c', (forall cfg s, c = CPf cfg s -> forall r, In r (pcf_rules cfg) -> id_regular (p_id r)) -> Forall (by_hand c') l /\ Forall (rules_comparable c c') l.
  Proof using.
    clear. intros net Hn.
    assert (E : exists a, quad a = net /\ let n := mknet V4 a 24 in network net (u "24") = Ok (HLeaf (LNet n)) /\ net_wf n /\ n_ver n = V4).
    { destruct Hn as [-> | ->]; [exists (10 * 2 ^ 24 + 2 * 2 ^ 16)%N|exists (10 * 2 ^ 24 + 1 * 2 ^ 16)%N]; (split; [vm_compute; reflexivity|]; cbn zeta; (split; [vm_compute; reflexivity|split; [split; [vm_compute; discriminate|split; [vm_compute; reflexivity|apply N.mod_divide; [vm_compute; discriminate|vm_compute; reflexivity]]]|reflexivity]])). }
    destruct E as (a & Qa & E & Wn & Vn). cbn zeta in *. set (n := mknet V4 a 24) in *. unfold intended_rules. rewrite E. cbn [bind aclrule]. exists a. eexists. split; [exact Qa|]. split; [reflexivity|]. split; [reflexivity|].
    intros c c' P.
    assert (R : forall x y, reaches (config_groups c') (HLeaf x) y -> y = x) by (intros x y R; inversion R; subst; auto).
    assert (Hand : forall id s d, In s [LAny; LNet n] -> In d [LAny; LNet n] -> ~ In slash id -> by_hand c' (mkrule (Some id) (HLeaf s) (HLeaf d))).
    { intros id s d Is Id Ns. unfold by_hand. cbn [r_id r_src r_dst]. split; [now apply no_slash_regular|].
      repeat split; intros y Ry; apply R in Ry as ->; destruct Is as [<-|[<-|[]]], Id as [<-|[<-|[]]]; exact Wn || exact Logic.I || reflexivity. }
    assert (Cmp : forall id s d, In s [LAny; LNet n] -> In d [LAny; LNet n] -> rules_comparable c c' (mkrule (Some id) (HLeaf s) (HLeaf d))).
    { intros id s d Is Id. destruct c as [cs ms T|cs ms T|cfg st]; cbn [rules_comparable r_src r_dst]; [exact Logic.I| |eapply P; reflexivity].
      left. split; intros y Ry; apply R in Ry as ->; destruct Is as [<-|[<-|[]]], Id as [<-|[<-|[]]]; cbn [v6_leaf]; rewrite ?Vn; reflexivity. }
    assert (Ni : ~ In slash (u "inside_in") /\ ~ In slash (u "outside_in")) by (split; vm_compute; intuition discriminate).
    split; repeat constructor; try apply Hand; try apply Cmp; try apply Ni; cbn [In]; auto.
  Qed.
  (** C77: examples/acl-filter.py itself prints the first number and then fails, whatever
      the configuration is. *)
  Theorem C77_example : forall data f o c c' k, o <> BadOptions -> auto_parse data f o = Ok c -> named_well c -> c' = c \/ expanded c c' ->
    exists t, example k c' = (t, Err AssertionError) /\ count_text (u "anyany") (fun x => exists r, config_rule c x r /\ from_any_to_any r) t.
  Proof using OK PI1 PI2 AV.
    intros data f o c c' k B H W X. destruct (any_any_rules _ _ _ _ _ B H W X) as (_ & Na & Ia). cbn zeta in *.
    unfold example, manual. replace (example_rules (u "10.2.0.0")) with (@Err (list Rules.rule) AssertionError) by (vm_compute; reflexivity). cbn [bind].
    eexists. split; [reflexivity|]. now apply count_ok.
  Qed.
End Any.

(** ** Example *)
Definition C77_text : pystr :=
  line "access-list inside_in extended permit ip any any" ++
  line "access-list inside_in extended permit ip any host 10.1.0.7" ++
  line "access-list inside_in extended permit ip any 10.0.0.0 255.0.0.0" ++
  line "access-list other extended permit ip any host 10.1.0.7" ++
  u "access-list outside_in extended permit ip host 10.1.0.8 host 192.0.2.1".
Definition C77_read := Eval vm_compute in match C70_read C77_text with Ok x => Some x | Err _ => None end.
(** The second and the last rule remain; the program as it is stops after the first line. *)
Example C77_ex1 : exists c, C70_read C77_text = Ok c /\
  manual 5 c (intended_rules (u "10.2.0.0")) (intended_rules (u "10.1.0.0")) =
    (lines [u "anyany 1"; u "base 2"; u "union 2"; u "rules 4"; u "remain 2"], Ok [1; 4]) /\
  example 5 c = (lines [u "anyany 1"], Err AssertionError).
Proof.
  destruct C77_read as [c|] eqn:E; [|discriminate E]. exists c. unfold C77_read in E. injection E as <-. split; [vm_compute; reflexivity|]. split; vm_compute; reflexivity.
Qed.
Example C77_ex2 : exists c, C70_read C77_text = Ok c /\ Manual.acl_rules_run ascii_alpha ascii_alnum ascii_space 5 c (u "ip src 10.1.0.8 except id outside_in") = Ok [0; 1; 2; 3].
Proof.
  destruct C77_read as [c|] eqn:E; [|discriminate E]. exists c. unfold C77_read in E. injection E as <-. split; [vm_compute; reflexivity|]. lazy; reflexivity.
Qed.
Print Assumptions C77_rules.
Print Assumptions C77_run.
Print Assumptions C77_manual.
Print Assumptions C77_intended.
Print Assumptions C77_example.
