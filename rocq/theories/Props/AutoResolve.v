(** C73: resolving what was selected in a configuration of any format. *)
From Coq Require Import Lia String.
From Verif.Model Require Import Base Ip Hosts Groups Rules Caf Nat Iface Peg Ids AddrText Ports AclText Define GroupText ObjText LineText NatText FileText FileFilter IosText IosFile IosFilter Pfsense PfFile CafText Detect Auto Resolve AutoResolve.
From Verif.Model Require Config.
From Verif.Spec Require IosTextSpec.
From Verif.Spec Require Import AddrSpec AddrTextSpec GroupSpec RefSpec CafSpec CafMeanSpec CafTextSpec AclTextSpec GroupTextSpec ObjTextSpec FilterSpec LineTextSpec FileTextSpec FileConfigSpec ConfigSpec FileFilterSpec IosFileSpec IosConfigSpec IosFilterSpec PfSpec PfFileSpec PfFilterSpec AutoSpec PipelineSpec ResolveSpec AutoResolveSpec.
From Verif.Proofs Require Import GroupFacts DictFacts PfFacts FileGood PfIface ExpandGood ShownFacts.
From Verif.Props Require Config Define Ifaces FileConfig IosConfig.
From Verif.Props Require Import Filter CafText AclText Detect FileText FileFilter IosFileText IosFilter PfAliases PfFile PfFilter Auto Resolve Pipeline.
Local Open Scope list_scope.

(** ** The lists bound to interfaces *)
Lemma key4 a b : u "ip-" ++ a = u "ip-" ++ b -> a = b.
Proof. apply app_inv_head. Qed.
Lemma key6 a b : u "ipv6-" ++ a = u "ipv6-" ++ b -> a = b.
Proof. apply app_inv_head. Qed.
Lemma key46 a b : u "ip-" ++ a <> u "ipv6-" ++ b.
Proof. intros E. change (u "ip-") with ([105; 112; 45]%N) in E. change (u "ipv6-") with ([105; 112; 118; 54; 45]%N) in E. discriminate E. Qed.
Lemma keys4 self q dir : ~ In (u "ip-" ++ dir) (map fst (flat_map (detail_group self) q)) <-> forall b, ~ In (DGroup4 b dir) q.
Proof.
  rewrite in_map_iff. split.
  - intros N b I. apply N. eexists. split; [|apply in_flat_map; exists (DGroup4 b dir); split; [exact I|left; reflexivity]]. reflexivity.
  - intros N ((n & v) & E & I). cbn [fst] in E. subst n. apply in_flat_map in I as (d & I & J). destruct d; cbn [detail_group] in J; try (destruct J; fail); destruct J as [J|[]].
    + apply (f_equal fst) in J. cbn [fst] in J. apply key4 in J. subst. exact (N _ I).
    + apply (f_equal fst) in J. cbn [fst] in J. symmetry in J. now apply key46 in J.
Qed.
Lemma keys6 self q dir : ~ In (u "ipv6-" ++ dir) (map fst (flat_map (detail_group self) q)) <-> forall b, ~ In (DGroup6 b dir) q.
Proof.
  rewrite in_map_iff. split.
  - intros N b I. apply N. eexists. split; [|apply in_flat_map; exists (DGroup6 b dir); split; [exact I|left; reflexivity]]. reflexivity.
  - intros N ((n & v) & E & I). cbn [fst] in E. subst n. apply in_flat_map in I as (d & I & J). destruct d; cbn [detail_group] in J; try (destruct J; fail); destruct J as [J|[]].
    + apply (f_equal fst) in J. cbn [fst] in J. now apply key46 in J.
    + apply (f_equal fst) in J. cbn [fst] in J. apply key6 in J. subst. exact (N _ I).
Qed.
Lemma flat_split {A B} (f : A -> list B) l p x q : flat_map f l = p ++ x :: q -> (forall a, length (f a) <= 1) ->
  exists l1 a l2, l = l1 ++ a :: l2 /\ flat_map f l1 = p /\ f a = [x] /\ flat_map f l2 = q.
Proof.
  intros E L. revert p E. induction l as [|a l IH]; intros p E; [destruct p; discriminate|]. cbn [flat_map] in E. pose proof (L a) as La. destruct (f a) as [|b [|b' t]] eqn:Fa; [|clear La|cbn in La; lia].
  - destruct (IH p E) as (l1 & a' & l2 & -> & A1 & A2 & A3). exists (a :: l1), a', l2. cbn [flat_map app]. rewrite Fa. auto.
  - destruct p as [|b' p]; cbn [app] in E.
    + injection E as -> E. exists [], a, l. auto.
    + injection E as -> E. destruct (IH p E) as (l1 & a' & l2 & -> & A1 & A2 & A3). exists (a :: l1), a', l2. cbn [flat_map app]. rewrite Fa. cbn [app]. rewrite A1. auto.
Qed.
Lemma binds_table self lines t a : table_of_last (flat_map (detail_group self) lines) t ->
  (exists v, In v (map snd t) /\ ag_name v = a) <-> binds lines a.
Proof.
  intros T. pose proof (table_last_nodup _ _ T) as N. destruct T as (_ & D).
  split.
  - intros (v & I & E). apply in_map_iff in I as ((n & v') & Ev & I). cbn [snd] in Ev. subst v'. apply D in I as (pre & post & El & No).
    apply flat_split in El as (l1 & d & l2 & -> & _ & Ed & <-); [|intros []; cbn; lia]. destruct d; cbn [detail_group] in Ed; try discriminate Ed; injection Ed as <- <-; cbn [ag_name] in E; subst.
    + eapply BI_4; [reflexivity|]. eapply keys4, No.
    + eapply BI_6; [reflexivity|]. eapply keys6, No.
  - intros B. assert (G : exists n v, last_def (flat_map (detail_group self) lines) n v /\ ag_name v = a).
    { destruct B as [p a dir q -> No|p a dir q -> No].
      - eexists _, _. split; [|exact (eq_refl (ag_name (mkag (IfObj self) a dir)))]. exists (flat_map (detail_group self) p), (flat_map (detail_group self) q). split; [rewrite flat_map_app; reflexivity|]. now apply keys4.
      - eexists _, _. split; [|exact (eq_refl (ag_name (mkag (IfObj self) a dir)))]. exists (flat_map (detail_group self) p), (flat_map (detail_group self) q). split; [rewrite flat_map_app; reflexivity|]. now apply keys6. }
    destruct G as (n & v & L & E). exists v. split; [|exact E]. apply in_map_iff. exists (n, v). split; [reflexivity|]. now apply D.
Qed.

(** ** A configuration can be shown as objects *)
Definition eid (x : nat) : nat := 3 + 2 * x.
Definition grp_id (g : gid) : nat := 4 + 2 * g.
Definition show (x : host) : elem :=
  match x with HGrp g => EObj (grp_id g) | HObj _ => EObj 1 | HLeaf (LHost _) | HLeaf (LNet _) => EObj 2 | HLeaf _ => EObj 0 end.
Definition show_node (n : option natnode) : option elem :=
  match n with None => None | Some NNone => Some ENone | Some NIfaceName => Some ENone | Some (NHost x) => Some (show x) end.
Definition show_side (d : natside) : rside := mkrside (show_node (ns_src d)) (show_node (ns_dst d)) (EObj 0) ENone.
Definition show_item (i : item) : okind :=
  match i with
  | Rules.IRule r => KRule (mkrrule (r_id r) (EObj 0) (show (r_src r)) ENone (show (r_dst r)) ENone ENone [])
  | Rules.INat n => KNat (option_map show_side (Rules.nat_real n)) (option_map show_side (Rules.nat_mapped n))
  end.
Definition show_store (h : heap) (get : nat -> item) : store := mkstore
  (fun i => match i with
            | 0 => KOther | 1 => KNamed (u "NetworkObject") | 2 => KAddr None
            | S (S (S j)) => if Nat.even j then show_item (get (Nat.div2 j)) else KGroup (u "NetworkGroup") (map show (objs h (Nat.div2 j)))
            end)
  (fun i => match i with 0 => Some (Some (u "ip")) | _ => None end).
Definition rest (e : elem) : Prop := match e with ENone => True | EObj i => i < 3 | EStr s => s = u "NetworkObject" end.
Lemma kind_eid h get x : st_kind (show_store h get) (eid x) = show_item (get x).
Proof. cbn [show_store st_kind]. change (eid x) with (S (S (S (2 * x)))). cbn [st_kind]. rewrite Nat.even_mul, Nat.div2_double. reflexivity. Qed.
Lemma kind_gid h get g : st_kind (show_store h get) (grp_id g) = KGroup (u "NetworkGroup") (map show (objs h g)).
Proof. change (grp_id g) with (S (S (S (S (2 * g))))). cbn [show_store st_kind]. rewrite Nat.even_succ, <- Nat.negb_even, Nat.even_mul, Nat.div2_succ_double. reflexivity. Qed.
Lemma show_shown h get x : host_shown (show_store h get) grp_id rest x (show x).
Proof.
  destruct x as [l|o|g]; [|constructor; [reflexivity|cbn; lia]|constructor]. destruct l; cbn [show]; try (econstructor; [reflexivity|cbn; lia]); (apply HS_rest; [discriminate|discriminate|reflexivity|cbn; lia]).
Qed.
Lemma side_shows h get d : resolved_side (Some d) -> side_shown (show_store h get) grp_id rest d (show_side d).
Proof.
  intros (d' & [= <-] & R1 & R2). unfold side_shown, show_side. cbn [rs_src rs_dst rs_iface rs_service].
  assert (G : forall n, resolved_node n -> node_shown (show_store h get) grp_id rest n (show_node n)).
  { intros [[| |x]|] R; cbn [show_node]; [constructor|now destruct R|constructor; apply show_shown|constructor]. }
  repeat split; auto; cbn; lia.
Qed.
Lemma show_all c get : (forall x i, config_entry c x i -> get x = i) -> (forall x i, config_entry c x i -> resolved i) ->
  shown c (show_store (config_groups c) get) eid grp_id rest.
Proof.
  intros G R. split.
  - intros x r E. rewrite kind_eid, (G _ _ E). eexists. split; [reflexivity|]. unfold rule_shown. cbn [rr_id rr_protocol rr_shost rr_dhost rr_sport rr_dport rr_icmp rr_times].
    split; [reflexivity|]. split; [apply show_shown|]. split; [apply show_shown|]. split; [exists 0, (Some (u "ip")); auto|]. repeat split; try (cbn; lia).
  - intros x n a b E Ra Rb. rewrite kind_eid, (G _ _ E). cbn [show_item]. rewrite Ra, Rb. eexists _, _. split; [reflexivity|].
    destruct (R _ _ E) as (S1 & S2). rewrite Ra in S1. rewrite Rb in S2. split; now apply side_shows.
  - intros g. rewrite kind_gid. eexists. split; [reflexivity|]. induction (objs (config_groups c) g) as [|y l IH]; constructor; [apply show_shown|exact IH].
  - intros i O e Ed. cbn in O. destruct i as [|[|[|i]]]; [| | |lia]; destruct Ed as [? ? ? K|? ? K|? K|? K|? K|? K|? K|? ? K]; cbn in K; try discriminate K. injection K as <-. reflexivity.
  - intros s E. cbn [rest] in E. subst s. split; [cbn; auto 10|]. split; discriminate.
  - intros g O. cbn in O. unfold grp_id in O. lia.
  - intros x i _. unfold eid, grp_id. split; [cbn; lia|intros g; lia].
  - intros x y. unfold eid. lia.
  - intros x y. unfold grp_id. lia.
Qed.
Lemma refers_below h n : heap_ok h -> forall y g, refers h y g -> host_good n y -> g < n.
Proof. intros K y g R. revert n. induction R as [g|g x k I R IH]; intros n G; [exact G|]. cbn in G. pose proof (IH g (proj2 (K _ _ I))). lia. Qed.

Section Whole.
  Context (isalpha isalnum isspace : N -> bool) (OK : classes_ok isalpha isalnum isspace).
  Context (py_int : pystr -> option Z)
          (PI1 : forall n, n <> [] -> forallb AddrText.is_digit n = true -> py_int n <> None)
          (PI2 : forall n, In n port_code -> py_int n = None).
  Context (xml_read : pystr -> result xml) (unescape : pystr -> pystr)
          (ip_addr : pystr -> option addr) (ip_net : pystr -> pystr -> result net) (AV : addresses_valid ip_addr ip_net)
          (to_time : option pystr -> result Z) (strip : pystr -> pystr)
          (ip_net_strict : pystr -> bool) (download : option pystr -> option (list pystr)).
  Notation parse_file := (parse_file isalpha isalnum isspace py_int).
  Notation ios_parse := (ios_parse isalpha isalnum isspace py_int).
  Notation auto_parse := (auto_parse isalpha isalnum isspace py_int xml_read unescape ip_addr ip_net to_time strip ip_net_strict download).
  Notation named_well := (named_well isalnum).

  Lemma asa_lines data cs ms T : parse_file data = Ok (cs, ms, T) -> well_named isalnum cs -> forall k n l, nth_error cs k = Some (CSimple (SInterface n l)) ->
    forall self, flat_map (detail_group self) l = [].
  Proof using OK PI1 PI2.
    intros P W k n l E self. apply nth_error_split in E as (cs1 & cs2 & -> & _). destruct (FileConfig.C58_before _ _ _ OK _ PI1 PI2 _ _ _ _ _ _ P W) as (T0 & s & t & r & _ & _ & C).
    inversion C as [x t' r' S| | | | | | | | | ]; subst. inversion S; subst. match goal with X : details_text _ _ _ |- _ => rename X into DT end.
    clear - DT. induction DT as [|d t0 l0 ts K D IH|t0 l0 ts K O D IH]; [reflexivity| |exact IH]. cbn [flat_map]. rewrite IH. inversion K; reflexivity.
  Qed.
  Lemma asa_ids k ms : NoDup (Ifaces.iface_ids (items_from k ms)) /\ forall j, In j (Ifaces.iface_ids (items_from k ms)) -> k <= j.
  Proof using.
    clear. unfold Ifaces.iface_ids. revert k. induction ms as [|m ms IH]; intros k; [split; [constructor|intros j []]|]. cbn [items_from flat_map].
    destruct (IH (S k)) as (N & G). assert (A : forall l, (l = [] \/ l = [k]) -> NoDup (l ++ flat_map (fun i => match i with Config.KIface j => [j] | _ => [] end) (items_from (S k) ms)) /\
      forall j, In j (l ++ flat_map (fun i => match i with Config.KIface j => [j] | _ => [] end) (items_from (S k) ms)) -> k <= j).
    { intros l [->| ->]; cbn [app]; split; auto.
      - intros j J. apply G in J. lia.
      - constructor; [|exact N]. intros J. apply G in J. lia.
      - intros j [<-|J]; [lia|]. apply G in J. lia. }
    apply A. destruct m as [| | | | | | | | |[?|?|?|?|?]| | | ]; cbn; auto.
  Qed.
  (** Which lists are bound. *)
  Theorem C73_bound : forall data f o c, o <> BadOptions -> auto_parse data f o = Ok c -> named_well c -> forall a, access_groups c a = true <-> bound_in c a.
  Proof using OK PI1 PI2.
    intros data f o c B H W a. apply auto_cases in H as [(cs & ms & T & -> & P)|[(cs & ms & T & -> & P)|(cfg & s & root & -> & P)]]; [| | |exact B]; cbn [access_groups bound_in named_well] in *.
    - split; [|intros []]. intros D. destruct (asa_ids 0 ms) as (N & _). unfold config_of in D. apply (Ifaces.C32_index (iface_store ms) _ N) in D as (v & I & _).
      unfold Ifaces.inner_bindings in I. apply in_flat_map in I as (j & _ & I).
      destruct (FileConfig.C58_made _ _ _ _ _ _ _ _ P) as (L & M). unfold iface_store in I. destruct (nth_error ms j) as [m|] eqn:Em; [|destruct I]. destruct m as [| | | | |i| | | | | | | ]; try (destruct I; fail).
      destruct (nth_error cs j) as [c|] eqn:Ec; [|apply nth_error_None in Ec; assert (j < length ms) by (apply nth_error_Some; congruence); lia].
      pose proof (M _ _ _ Ec Em) as X. inversion X as [| | | | | |n l i' Ii| | | | | | | | | | | ]; subst. destruct (Ifaces.C32_interface_bindings _ _ _ _ Ii) as (G & _).
      rewrite (asa_lines _ _ _ _ P W _ _ _ Ec) in G. apply in_map_iff in I as ((n0 & v0) & _ & I). apply G in I as (p & q & E & _). destruct p; discriminate E.
    - pose proof (IosConfig.C66_index _ _ _ _ _ _ _ _ P a) as X. cbn zeta in X. rewrite (proj2 X). clear X. split.
      + intros (v & I & Ea). apply in_flat_map in I as (k & Ik & I). apply positions_in in Ik as (c & n & Ec & In'). destruct c as [| | |n' l| | | | | ]; try (destruct In'; fail).
        exists k, n', l. split; [exact Ec|]. pose proof (IosConfig.C66_interfaces _ _ _ _ _ _ _ _ P _ _ _ Ec) as X. cbn zeta in X. destruct X as (_ & _ & X & _). apply (binds_table k _ _ a X). eauto.
      + intros (k & n & l & Ec & Bi). pose proof (IosConfig.C66_interfaces _ _ _ _ _ _ _ _ P _ _ _ Ec) as X. cbn zeta in X. destruct X as (_ & _ & X & _). apply (binds_table k _ _ a X) in Bi as (v & I & Ea).
        exists v. split; [|exact Ea]. apply in_flat_map. exists k. split; [|exact I]. apply positions_in. exists (IIface n l), n. split; [exact Ec|now left].
    - split; [discriminate|intros []].
  Qed.
  Lemma entries_made data f o c : o <> BadOptions -> auto_parse data f o = Ok c -> named_well c ->
    (forall x i j, config_entry c x i -> config_entry c x j -> i = j) /\ (forall x i, config_entry c x i -> resolved i).
  Proof using OK PI1 PI2 AV.
    intros B H W. destruct (parsed_good _ _ _ OK _ PI1 PI2 _ _ _ _ AV _ _ _ _ _ _ _ _ B H W) as (_ & _ & Ge & Gi). split; [intros x i j E F; rewrite <- (Ge _ _ E); exact (Ge _ _ F)|].
    intros x i E. destruct c as [cs ms T|cs ms T|cfg s]; [|destruct E; exact Logic.I|destruct E; exact Logic.I]. exact (proj1 (proj1 (Gi (CE (CS None []) []) Logic.I) x i E)).
  Qed.
  Lemma ends_good data f o c : o <> BadOptions -> auto_parse data f o = Ok c -> named_well c ->
    forall x i y, config_entry c x i -> In y (item_srcs i ++ item_dsts i) -> end_good (h_next (config_groups c)) y.
  Proof using OK PI1 PI2 AV.
    intros B H W. destruct (parsed_good _ _ _ OK _ PI1 PI2 _ _ _ _ AV _ _ _ _ _ _ _ _ B H W) as (_ & _ & _ & Gi).
    assert (N : no_ipv6 (CE (CS None []) [])).
    { intros t n []. }
    destruct c as [cs ms T|cs ms T|cfg s].
    - intros x i y E. exact (proj1 (proj2 (proj1 (Gi (CE (CS None []) []) Logic.I) x i E)) y).
    - intros x i y E. exact (proj1 (proj2 (proj1 (Gi _ (or_introl N)) x i E)) y).
    - apply auto_cases in H as [(? & ? & ? & [=] & _)|[(? & ? & ? & [=] & _)|(cfg' & s' & root & [= <- <-] & P)]]; [|exact B]. destruct (document_good _ _ _ _ AV _ _ _ _ _ _ _ _ P) as (_ & Rg).
      intros x i z E. destruct E as [k y E]. destruct (Rg y ltac:(eapply nth_error_In; eauto)) as (G1 & G2). cbn [item_srcs item_dsts r_src r_dst]. intros [<-|[<-|[]]]; now left.
  Qed.
  Lemma same_entries c c' : c' = c \/ expanded c c' -> config_entry c' = config_entry c /\ (forall a, access_groups c' a = access_groups c a) /\ (forall a, bound_in c' a <-> bound_in c a).
  Proof using.
    clear. intros [->|(S & _)]; [repeat split; auto|]. destruct c, c'; cbn [same_but_groups] in S; try contradiction; cbn [config_entry access_groups bound_in].
    - destruct S as (-> & -> & _). repeat split; auto.
    - destruct S as (-> & -> & _). repeat split; auto.
    - destruct S as (-> & _). repeat split; auto.
  Qed.
  Section Objects.
    Context (data : pystr) (f : option pystr) (o : popts bool) (c c' : aclconfig) (B : o <> BadOptions) (H : auto_parse data f o = Ok c) (W : named_well c)
            (X : c' = c \/ expanded c c').
    Context (st : store) (entry : nat -> nat) (netgrp : gid -> nat) (other : elem -> Prop) (S : shown c' st entry netgrp other) (Fi : finitely_many c' st entry).
    Lemma entries_of : (forall x i j, config_entry c' x i -> config_entry c' x j -> i = j) /\ (forall x i, config_entry c' x i -> resolved i).
    Proof using OK PI1 PI2 AV B H W X. destruct (same_entries _ _ X) as (E & _). rewrite E. exact (entries_made _ _ _ _ B H W). Qed.
    Lemma bound_of a : access_groups c' a = true <-> bound_in c' a.
    Proof using OK PI1 PI2 B H W X. destruct (same_entries _ _ X) as (_ & E1 & E2). rewrite E1, E2. exact (C73_bound _ _ _ _ B H W a). Qed.

    (** C73: resolving selected entries fails exactly if one of them is a rule of a list
        that a line in an interface block of IOS binds. *)
    Theorem C73_fails : forall l, (forall x, In x l -> exists i, config_entry c' x i) ->
      exists n, forall order fuel, any_order order -> n <= fuel ->
        (snd (acl_resolve c' st entry order fuel l) = Err TypeError <->
         exists x r a, In x l /\ config_entry c' x (Rules.IRule r) /\ r_id r = Some a /\ bound_in c' a).
    Proof using OK PI1 PI2 AV B H W X S Fi.
      intros l En. destruct entries_of as (Fn & Rs). destruct Fi as (U & HU). exists (Datatypes.S (length U)). intros order fuel O L.
      unfold acl_resolve. rewrite <- (C25_bound_acl_fails st (access_groups c') _ U order fuel O); [|eapply start_formed; eauto|intros e; now apply HU|lia].
      split.
      - intros (i & ru & a & I & K & A & Bd). apply in_map_iff in I as (x & [= <-] & Ix). destruct (En x Ix) as (j & E). pose proof (entry_kind _ _ _ _ _ S Rs _ _ E) as Kj. destruct j as [r|n].
        + destruct Kj as (q & Kq & Id & _). rewrite K in Kq. injection Kq as <-. exists x, r, a. repeat (split; [first [assumption|congruence]|]). now apply bound_of.
        + destruct Kj as (? & ? & ? & ? & _ & _ & Kj & _). congruence.
      - intros (x & r & a & Ix & E & A & Bd). pose proof (entry_kind _ _ _ _ _ S Rs _ _ E) as (q & Kq & Id & _). exists (entry x), q, a. split; [apply in_map_iff; eauto|]. split; [exact Kq|]. split; [congruence|]. now apply bound_of.
    Qed.
    (** C73: otherwise it returns the selected entries, exactly the network groups they refer
        to, directly or through groups, the ids of the selected rules and no other text but
        names of kinds. *)
    Theorem C73_result : forall l, (forall x, In x l -> exists i, config_entry c' x i) ->
      (forall x r a, In x l -> config_entry c' x (Rules.IRule r) -> r_id r = Some a -> ~ bound_in c' a) ->
      exists n, forall order fuel, any_order order -> n <= fuel -> exists after res, acl_resolve c' st entry order fuel l = (after, Ok res) /\
        (forall x i, config_entry c' x i -> (In (EObj (entry x)) res <-> In x l)) /\
        (forall g, In (EObj (netgrp g)) res <-> entries_refer c' l g) /\
        (forall s, ~ kind_name s -> (In (EStr s) res <-> an_id c' l s)) /\
        (In (EStr (u "NetworkGroup")) res <-> an_id c' l (u "NetworkGroup") \/ exists g, entries_refer c' l g).
    Proof using OK PI1 PI2 AV B H W X S Fi.
      intros l En Nb. destruct entries_of as (Fn & Rs). destruct Fi as (U & HU).
      destruct (C24_least_closure st (access_groups c') (map (fun x => EObj (entry x)) l) U) as (n & Hn).
      - eapply start_formed; eauto.
      - intros i ru a I K A. apply in_map_iff in I as (x & [= <-] & Ix). destruct (En x Ix) as (j & E). pose proof (entry_kind _ _ _ _ _ S Rs _ _ E) as Kj. destruct j as [r|m].
        + destruct Kj as (q & Kq & Id & _). rewrite K in Kq. injection Kq as <-. destruct (access_groups c' a) eqn:D; [|reflexivity]. exfalso. apply (Nb x r a Ix E); [congruence|]. now apply bound_of.
        + destruct Kj as (? & ? & ? & ? & _ & _ & Kj & _). congruence.
      - intros e. now apply HU.
      - exists n. intros order fuel O L. destruct (Hn order fuel O L) as (res & after & E & R). exists after, res. split; [exact E|]. split; [|split; [|split]].
        + intros x i Ei. rewrite R. eapply reach_entries; eauto.
        + intros g. rewrite R. eapply reach_groups; eauto.
        + intros s N. rewrite R. eapply reach_texts; eauto.
        + rewrite R. eapply reach_section; eauto.
    Qed.
  End Objects.
  Lemma objects_given : forall data f o c c', o <> BadOptions -> auto_parse data f o = Ok c -> named_well c -> c' = c \/ expanded c c' ->
    shown c' (show_store (config_groups c') (c_get c)) eid grp_id rest /\ finitely_many c' (show_store (config_groups c') (c_get c)) eid.
  Proof using OK PI1 PI2 AV.
    intros data f o c c' B H W X. destruct (parsed_good _ _ _ OK _ PI1 PI2 _ _ _ _ AV _ _ _ _ _ _ _ _ B H W) as (G & En & Ge & _).
    destruct (entries_made _ _ _ _ B H W) as (Fn & Rs). pose proof (ends_good _ _ _ _ B H W) as Eg.
    assert (G' : heap_ok (config_groups c') /\ h_next (config_groups c') = h_next (config_groups c)).
    { destruct X as [->|X]; [auto|]. destruct (expanded_frame _ _ X) as (_ & _ & _ & E4 & E5). destruct X as (_ & F & _). rewrite <- E4, <- E5 in F.
      assert (It : groups_listed c (group_tables c)) by (eapply tables_listed; eassumption). destruct It as (It & _). apply (class_same _ _ _ (fun g => In g (gt_network (group_tables c)))) in F; [|intros g; symmetry; apply It].
      split; [exact (flat_ok _ _ _ G F)|exact (proj1 F)]. }
    destruct G' as (G' & Nx). destruct (same_entries _ _ X) as (Ec & _).
    assert (Sh : shown c' (show_store (config_groups c') (c_get c)) eid grp_id rest) by (apply show_all; rewrite Ec; assumption).
    split; [exact Sh|].
    set (all := c_rules c ++ concat (c_nats c)).
    exists (ENone :: map EObj [0; 1; 2] ++ map (fun x => EObj (eid x)) all ++ map (fun g => EObj (grp_id g)) (seq 0 (h_next (config_groups c))) ++
      map EStr [u "NetworkObject"; u "NetworkGroup"; u "NAT"] ++ map (fun x => match c_get c x with Rules.IRule r => id_elem (r_id r) | _ => ENone end) all).
    intros l e Il R. apply (reach_inv _ _ _ _ _ Sh _ Il) in R; [|rewrite Ec; exact Rs]. cbn [In]. rewrite !in_app_iff.
    assert (All : forall x i, config_entry c x i -> In x all) by (intros x i E; apply En; eauto).
    destruct e as [|s|i]; cbn [inv] in R; [auto| |].
    - destruct R as [O|[(x & r & Ix & E & Id)|[(-> & _)| ->]]].
      + cbn [rest] in O. subst s. do 4 right. left. cbn; auto.
      + rewrite Ec in E. do 5 right. apply in_map_iff. exists x. rewrite (Ge _ _ E), Id. split; [reflexivity|eauto].
      + do 4 right. left. cbn; auto.
      + do 4 right. left. cbn; auto.
    - destruct R as [(x & Ix & ->)|[(g & -> & x & j & y & Ix & E & Iy & R)|O]].
      + destruct (Il x Ix) as (j & E). rewrite Ec in E. do 2 right. left. apply in_map_iff. eauto.
      + rewrite Ec in E. do 3 right. left. apply in_map_iff. exists g. split; [reflexivity|]. apply in_seq. split; [lia|]. cbn.
        destruct (Eg _ _ _ E Iy) as [Gy|(a & w & -> & _)]; [|inversion R]. eapply refers_below; eauto.
      + right. left. cbn in O. destruct i as [|[|[|i]]]; cbn; auto. lia.
  Qed.
  (** C73: the objects of every configuration that was read, expanded or not, can be given
      so. *)
  Theorem C73_shown : forall data f o c c', o <> BadOptions -> auto_parse data f o = Ok c -> named_well c -> c' = c \/ expanded c c' ->
    exists st entry netgrp other, shown c' st entry netgrp other /\ finitely_many c' st entry.
  Proof using OK PI1 PI2 AV. intros. do 4 eexists. eapply objects_given; eassumption. Qed.
End Whole.

(** ** Examples *)
(** Two access lists that use one group, one of them bound to an interface. *)
Definition C73_text : pystr :=
  line "object-group network servers" ++ line " host 10.0.0.80" ++
  line "interface Vlan10" ++ line " ip address 10.9.0.1 255.255.255.0" ++ line " ip access-group IN in" ++ line "!" ++
  line "ip access-list extended IN" ++ line " permit tcp any object-group servers eq www" ++
  line "ip access-list extended FREE" ++ line " permit ip any object-group servers" ++ line " permit ip any any".
Definition C73_r1 := Eval vm_compute in match C70_read C73_text with Ok x => Some x | Err _ => None end.
Definition C73_run (c : aclconfig) (l : list nat) : result (list elem) :=
  snd (acl_resolve c (show_store (config_groups c) (c_get c)) eid (fun _ l => l) 50 l).
Definition texts_of (r : result (list elem)) : result (list pystr) := match r with Ok l => Ok (flat_map (fun e => match e with EStr s => [s] | _ => [] end) l) | Err e => Err e end.
Definition objects_of (r : result (list elem)) : result (list nat) := match r with Ok l => Ok (flat_map (fun e => match e with EObj i => [i] | _ => [] end) l) | Err e => Err e end.
Example C73_ex1 : exists c, C70_read C73_text = Ok c /\ c_rules c = [0; 1; 2] /\
  (exists r, c_get c 0 = Rules.IRule r /\ r_id r = Some (u "IN")) /\ access_groups c (u "IN") = true /\ access_groups c (u "FREE") = false /\
  C73_run c [0] = Err TypeError /\ C73_run c [1; 0] = Err TypeError /\
  objects_of (C73_run c [1]) = Ok [eid 1; 0; grp_id 0; 2] /\ texts_of (C73_run c [1]) = Ok [u "FREE"; u "NetworkGroup"] /\
  objects_of (C73_run c [2]) = Ok [eid 2; 0] /\ texts_of (C73_run c [2]) = Ok [u "FREE"].
Proof.
  destruct C73_r1 as [c|] eqn:E; [|discriminate E]. exists c. unfold C73_r1 in E. injection E as <-. split; [vm_compute; reflexivity|]. split; [vm_compute; reflexivity|].
  split; [eexists; split; vm_compute; reflexivity|]. do 4 (split; [vm_compute; reflexivity|]).
  repeat (split; [vm_compute; reflexivity|]). vm_compute; reflexivity.
Qed.
(** The hypotheses are met, and the binding is written in the text. *)
Example C73_ex2 : exists c, C70_read C73_text = Ok c /\ named_well ascii_alnum c /\ bound_in c (u "IN") /\ ~ bound_in c (u "FREE") /\
  (exists r, config_entry c 1 (Rules.IRule r) /\ r_id r = Some (u "FREE")) /\ entries_refer c [1] 0 /\ ~ entries_refer c [2] 0.
Proof.
  destruct C73_r1 as [c|] eqn:E; [|discriminate E]. exists c. unfold C73_r1 in E.
  assert (R : C70_read C73_text = Ok c) by (injection E as <-; vm_compute; reflexivity).
  assert (Ac : access_groups c (u "IN") = true /\ access_groups c (u "FREE") = false) by (injection E as <-; split; vm_compute; reflexivity).
  assert (W : named_well ascii_alnum c).
  { injection E as <-. cbn [AutoSpec.named_well].
    assert (G : forall A (l : list A) x (P : A -> Prop), In x l -> Forall P l -> P x) by (intros A l x P I F; rewrite Forall_forall in F; exact (F x I)).
    split.
    - intros k n c I. refine (G _ _ _ (fun c => igroup_named k n c -> n <> []) I _). repeat apply Forall_cons; try apply Forall_nil; intros B; inversion B; subst; discriminate.
    - intros a b n c c' I I' A B X.
      match type of I with In _ ?l => assert (K : forall c, In c l -> forall k n, igroup_named k n c -> k = NetGroup) end;
        [|apply K in A; [|exact I]; apply K in B; [|exact I']; subst; repeat (destruct X as [X|X]; [discriminate X|]); destruct X].
      intros c0 I0. refine (G _ _ _ (fun c => forall k n, igroup_named k n c -> k = NetGroup) I0 _). repeat apply Forall_cons; try apply Forall_nil; intros k0 n0 Y; inversion Y; subst; reflexivity.
    - intros a l I. refine (G _ _ _ (fun c => forall a l, c = IIface a l -> ~ IosTextSpec.opens_digit a) I _ a l eq_refl).
      repeat apply Forall_cons; try apply Forall_nil; intros y z Ey; try discriminate Ey. injection Ey as <- _. intros (c & q & Eq & D). injection Eq as <- _. unfold digit in D. lia. }
  split; [exact R|]. split; [exact W|].
  assert (Bd : forall a, access_groups c a = true <-> bound_in c a).
  { eapply (C73_bound _ _ _ C41_classes _ C52_int1 C52_int2); [|exact R|exact W]. discriminate. }
  split; [apply Bd, Ac|]. split; [rewrite <- Bd; destruct Ac as (_ & ->); discriminate|].
  injection E as <-. split; [|split].
  - eexists. split; [apply (IRE _ 1); vm_compute; reflexivity|reflexivity].
  - eexists 1, _, (HGrp 0). split; [now left|]. split; [apply (IRE _ 1); vm_compute; reflexivity|]. split; [vm_compute; auto|constructor].
  - intros (x & i & y & [<-|[]] & En & Iy & Rf). inversion En as [k z Ez]; subst. vm_compute in Ez. injection Ez as <-. cbn in Iy. destruct Iy as [<-|[<-|[]]]; inversion Rf.
Qed.
(** On ASA the list an access-group line binds does not count. *)
Definition C73_asa : pystr := line "access-list IN extended permit ip any any" ++ u "access-group IN in interface outside".
Definition C73_r2 := Eval vm_compute in match C70_read C73_asa with Ok x => Some x | Err _ => None end.
Example C73_ex3 : exists c, C70_read C73_asa = Ok c /\ access_groups c (u "IN") = false /\ objects_of (C73_run c [0]) = Ok [eid 0; 0] /\ texts_of (C73_run c [0]) = Ok [u "IN"].
Proof.
  destruct C73_r2 as [c|] eqn:E; [|discriminate E]. exists c. unfold C73_r2 in E. injection E as <-. repeat (split; [vm_compute; reflexivity|]). vm_compute; reflexivity.
Qed.
Print Assumptions C73_bound.
Print Assumptions C73_fails.
Print Assumptions C73_result.
Print Assumptions C73_shown.
