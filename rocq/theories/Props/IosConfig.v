(** C66: the configuration made from an IOS text. *)
From Coq Require Import Lia String.
From Verif.Model Require Import Base Ip Hosts Groups Rules Iface Peg Ids AddrText Ports AclText Define GroupText LineText FileText IosText IosFile.
From Verif.Model Require Config.
From Verif.Spec Require Import AddrSpec AddrTextSpec ConfigSpec CafTextSpec AclTextSpec LineTextSpec FileConfigSpec IosTextSpec IosFileSpec IosConfigSpec.
From Verif.Proofs Require Import GroupOps DictFacts IosFacts CafMean.
From Verif.Props Require Import CafText AclText IosFileText.
From Verif.Props Require FileConfig Config Ifaces.
Import FileConfig (numbered_app, found_snoc, flat_snoc, define_all_snoc, positions_flat, numbered_flat, swap_flat, version_last, define_number).
Local Open Scope list_scope.

(** ** Running the actions over a list of commands *)
Inductive iruns : itables -> list icommand -> list imade -> itables -> Prop :=
| IRN_nil T : iruns T [] [] T
| IRN_more T c T' m cs ms T'' : ilearn T c = Ok (T', m) -> iruns T' cs ms T'' -> iruns T (c :: cs) (m :: ms) T''.
Inductive iall_made : nat -> list icommand -> list imade -> Prop :=
| IAM_nil k : iall_made k [] []
| IAM_more k c m cs ms : imakes k c m -> iall_made (S k) cs ms -> iall_made k (c :: cs) (m :: ms).
Lemma ilearn_makes T c T' m : ilearn T c = Ok (T', m) -> imakes (it_count T) c m /\ it_count T' = S (it_count T).
Proof.
  destruct c; cbn [ilearn]; unfold icounted; try (intros H; injection H as <- <-; split; [constructor|reflexivity]).
  - intros H. destruct (iface_init _ _ _) as [i|] eqn:E; cbn [bind] in H; [|discriminate]. injection H as <- <-. split; [now constructor|reflexivity].
  - intros H. destruct (define_any _ _); cbn [bind] in H; [|discriminate]. injection H as <- <-. split; [constructor|reflexivity].
Qed.
Lemma iruns_made T cs ms T' : iruns T cs ms T' -> iall_made (it_count T) cs ms.
Proof. induction 1 as [|T c T' m cs ms T'' L _ IH]; constructor; apply ilearn_makes in L as (M & E); [exact M|rewrite <- E; exact IH]. Qed.
Lemma ifile_runs isalnum isspace f fr T cs ms T' s : ifile_text isalnum isspace f fr T cs ms T' s -> iruns T cs ms T'.
Proof. induction 1; econstructor; eauto. Qed.
Section File.
  Context (isalpha isalnum isspace : N -> bool) (py_int : pystr -> option Z).
  Notation icommands := (icommands isalpha isalnum isspace py_int).
  Notation ios_parse := (ios_parse isalpha isalnum isspace py_int).
  Lemma icommands_run fuel : forall T s cs ms T' r, icommands fuel T s = POk (cs, ms, T') r -> iruns T cs ms T'.
  Proof.
    induction fuel as [|fuel IH]; intros T s cs ms T' r H; cbn [IosFile.icommands] in H; [injection H as <- <- <- _; constructor|].
    destruct (icommand_ _ _ _ _ T s) as [|e|c q]; [injection H as <- <- <- _; constructor|discriminate|].
    destruct (ilearn T c) as [(T1, m)|] eqn:L; [|discriminate].
    destruct (Nat.ltb _ _); [|injection H as <- <- <- _; constructor].
    destruct (icommands fuel T1 q) as [|e|((cs', ms'), T2) r'] eqn:R; try discriminate. injection H as <- <- <- _. econstructor; eauto.
  Qed.
  Lemma iparse_runs data cs ms T : ios_parse data = Ok (cs, ms, T) -> iruns no_itables cs ms T.
  Proof.
    unfold IosFile.ios_parse. destruct (icommands _ _ _) as [|e|(([|c cs'], ms'), T') r] eqn:C; intros H; try discriminate H.
    destruct (ios_end _ _ r); try discriminate H. injection H as <- <- <-. eapply icommands_run, C.
  Qed.
End File.
Lemma iruns_snoc T cs ms T1 c m T2 : iruns T cs ms T1 -> ilearn T1 c = Ok (T2, m) -> iruns T (cs ++ [c]) (ms ++ [m]) T2.
Proof. induction 1; intros L; cbn [app]; econstructor; eauto. constructor. Qed.
Lemma iruns_rev (P : list icommand -> list imade -> itables -> Prop) T0 : P [] [] T0 ->
  (forall cs ms T c m T', iruns T0 cs ms T -> P cs ms T -> ilearn T c = Ok (T', m) -> P (cs ++ [c]) (ms ++ [m]) T') ->
  forall cs ms T, iruns T0 cs ms T -> P cs ms T.
Proof.
  intros B S. assert (G : forall T cs ms T', iruns T cs ms T' -> forall cs0 ms0, iruns T0 cs0 ms0 T -> P cs0 ms0 T -> P (cs0 ++ cs) (ms0 ++ ms) T').
  { induction 1 as [T|T c T' m cs ms T'' L _ IH]; intros cs0 ms0 R Q; [now rewrite !app_nil_r|].
    assert (E : forall A (x : A) l l', l ++ x :: l' = (l ++ [x]) ++ l') by (intros; now rewrite <- app_assoc). rewrite (E _ c), (E _ m). apply IH; [eapply iruns_snoc; eauto|eapply S; eauto]. }
  intros cs ms T R. apply (G _ _ _ _ R [] []); [constructor|exact B].
Qed.
Lemma iruns_count T cs ms T' : iruns T cs ms T' -> it_count T' = it_count T + length cs /\ length ms = length cs.
Proof. induction 1 as [|T c T' m cs ms T'' L _ (I1 & I2)]; cbn [length]; [lia|]. apply ilearn_makes in L as (_ & E). lia. Qed.
Lemma iruns_known cs ms T : iruns no_itables cs ms T -> iknown cs T.
Proof.
  revert cs ms T. apply iruns_rev.
  - split; [apply table_last_nil|reflexivity|reflexivity].
  - intros cs ms T c m T' R [K1 K2 K3] L. pose proof (proj2 (ilearn_makes _ _ _ _ L)) as C.
    split; rewrite ?flat_snoc, ?found_snoc; [| |rewrite app_length; cbn; lia].
    + rewrite map_app. destruct c; cbn [ilearn] in L; unfold icounted in L; try (injection L as <- <-; cbn [iifaces_in map it_if]; rewrite app_nil_r; exact K1).
      * destruct (iface_init _ _ _) as [i|] eqn:E; cbn [bind] in L; [|discriminate]. injection L as <- <-. cbn [iifaces_in map it_if]. unfold swap; cbn [fst snd]. rewrite K3. now apply table_last_snoc.
      * destruct (define_any _ _) as [w|] eqn:E; cbn [bind] in L; [|discriminate]. injection L as <- <-. cbn [iifaces_in map it_if]. now rewrite app_nil_r.
    + destruct c; cbn [ilearn] in L; unfold icounted in L; try (injection L as <- <-; cbn [igroups_in it_world]; rewrite app_nil_r; exact K2).
      * destruct (iface_init _ _ _) as [i|] eqn:E; cbn [bind] in L; [|discriminate]. injection L as <- <-. cbn [igroups_in it_world]. rewrite app_nil_r. exact K2.
      * destruct (define_any _ _) as [w|] eqn:E; cbn [bind] in L; [|discriminate]. injection L as <- <-. cbn [igroups_in it_world]. rewrite (define_all_snoc _ _ _ _ K2). exact E.
Qed.

(** ** The items *)
Lemma iitems_flat {B} (f : Config.citem -> list B) (g : nat -> icommand -> list B) :
  (forall k n c m, imakes k c m -> f (iitem_of k n m) = g k c) -> forall k n cs ms, iall_made k cs ms ->
  flat_map f (iitems_from k n ms) = flat_map (fun kc => g (fst kc) (snd kc)) (numbered k cs).
Proof. intros H k n cs ms A. revert n. induction A as [|k c m cs ms M _ IH]; intros n; [reflexivity|]. cbn [iitems_from flat_map numbered fst snd]. now rewrite IH, (H k n c m M). Qed.
Lemma iitems_nth ms : forall k n j, exists n', nth_error (iitems_from k n ms) j = option_map (iitem_of (k + j) n') (nth_error ms j).
Proof.
  induction ms as [|m ms IH]; intros k n [|j]; cbn [iitems_from nth_error]; [exists n; reflexivity|exists n; reflexivity|exists n; now rewrite Nat.add_0_r|].
  destruct (IH (S k) (n + length (rules_made m)) j) as (n' & E). exists n'. rewrite E. now rewrite Nat.add_succ_r.
Qed.
Lemma rules_same k cs ms : iall_made k cs ms -> flat_map rules_made ms = flat_map irules_in cs.
Proof. induction 1 as [|k c m cs ms M _ IH]; [reflexivity|]. cbn [flat_map]. rewrite IH. f_equal. destruct M; reflexivity. Qed.
Lemma rules_numbered ms : forall k n, flat_map Config.ios_rules_in (iitems_from k n ms) = seq n (length (flat_map rules_made ms)).
Proof.
  induction ms as [|m ms IH]; intros k n; [reflexivity|]. cbn [iitems_from flat_map]. rewrite IH, app_length, seq_app. f_equal.
  destruct m as [| | | |[d|d|d|d|d] g| | | |]; reflexivity.
Qed.
Lemma no_bind ms k n s name d : ~ In (Config.KAccessGroup s name d) (iitems_from k n ms).
Proof. revert k n. induction ms as [|m ms IH]; intros k n I; [destruct I|]. cbn [iitems_from] in I. destruct I as [E|I]; [|exact (IH _ _ I)]. destruct m as [| | | |[?|?|?|?|?] ?| | | |]; discriminate E. Qed.
Lemma store_same : forall items, (forall s name d, ~ In (Config.KAccessGroup s name d) items) -> forall st j, Config.c_store (Config.build st items) j = st j.
Proof.
  intros items. induction items as [|i items IH] using rev_ind; intros N st j; [reflexivity|]. rewrite Config.build_snoc. rewrite <- (IH ltac:(intros s name d I; apply (N s name d), in_app_iff; now left) st j).
  destruct i; cbn [Config.c_step]; try reflexivity.
  - destruct nat; match goal with |- context [if ?b then _ else _] => destruct b end; reflexivity.
  - exfalso. apply (N iface name dir), in_app_iff. right. now left.
  - match goal with |- context [if ?b then _ else _] => destruct b end; reflexivity.
Qed.

(** ** What the configuration keeps of an interface: all but the routes, which it adds *)
Definition but_routes (i j : interface) : Prop :=
  if_alias i = if_alias j /\ if_addrs i = if_addrs j /\ if_groups i = if_groups j /\ if_nameif i = if_nameif j /\ if_descr i = if_descr j /\ if_switch i = if_switch j.
Lemma but_routes_trans i j k : but_routes i j -> but_routes j k -> but_routes i k.
Proof. unfold but_routes. intuition congruence. Qed.
Lemma but_routes_refl i : but_routes i i.
Proof. unfold but_routes. tauto. Qed.
Lemma fold_keep {A B} (f : A -> B -> A) (R : A -> A -> Prop) : (forall a, R a a) -> (forall a b c, R a b -> R b c -> R a c) -> (forall a b, R (f a b) a) -> forall l a, R (fold_left f l a) a.
Proof. intros Rf Tr S l. induction l as [|x l IH]; intros a; cbn; [apply Rf|]. eapply Tr; [apply IH|apply S]. Qed.
Lemma attach_keeps gw ifs rs st j : but_routes (fold_left (Config.attach gw ifs) rs st j) (st j).
Proof.
  set (R := fun s s' : nat -> interface => forall j, but_routes (s j) (s' j)). enough (R (fold_left (Config.attach gw ifs) rs st) st) by auto.
  assert (R1 : forall s, R s s) by (intros s j'; apply but_routes_refl). assert (R2 : forall a b c, R a b -> R b c -> R a c) by (intros a b c X Y j'; eapply but_routes_trans; eauto).
  assert (R3 : forall s k r, R (Config.add_route s k r) s).
  { intros s k r j'. unfold Config.add_route. destruct (Nat.eqb_spec j' k) as [->|N]; [|apply but_routes_refl]. unfold but_routes. cbn. tauto. }
  apply fold_keep; auto. intros s r. unfold Config.attach. destruct (gw r) as [a|i]; [|auto]. apply fold_keep; auto. intros s' kv. apply fold_keep; auto. intros s'' n. destruct (net_contains n a); auto.
Qed.
Lemma iconfig_build ms : exists st, fst (iconfig_of ms) = Config.set_store (Config.set_rules (Config.build (iiface_store ms) (iitems_from 0 0 ms)) (seq 0 (length (flat_map rules_made ms)))) st /\
  forall j, but_routes (st j) (iiface_store ms j).
Proof.
  unfold iconfig_of, Config.ios_build. cbn [fst]. eexists. split.
  - f_equal. f_equal. rewrite <- (rules_numbered ms 0 0). apply (Config.C28_ios_rule_order (route_gw ms) (iiface_store ms)).
  - intros j. eapply but_routes_trans; [apply attach_keeps|]. cbn [Config.c_store Config.set_rules]. rewrite store_same by (intros; apply no_bind). apply but_routes_refl.
Qed.

Section Contents.
  Context (isalpha isalnum isspace : N -> bool) (py_int : pystr -> option Z).
  Notation ios_parse := (ios_parse isalpha isalnum isspace py_int).

  (** C66: each command makes one thing, which depends on the command and its position only. *)
  Lemma imade_at cs ms : forall k0, iall_made k0 cs ms -> forall k c m, nth_error cs k = Some c -> nth_error ms k = Some m -> imakes (k0 + k) c m.
  Proof using.
    clear. intros k0 A. induction A as [|k0 c0 m0 cs ms M _ IH]; intros [|k1] c m E F; try discriminate; cbn [nth_error] in *.
    - injection E as ->. injection F as ->. now rewrite Nat.add_0_r.
    - rewrite Nat.add_succ_r. now apply (IH k1).
  Qed.
  Theorem C66_made : forall data cs ms T, ios_parse data = Ok (cs, ms, T) ->
    length ms = length cs /\ forall k c m, nth_error cs k = Some c -> nth_error ms k = Some m -> imakes k c m.
  Proof. intros data cs ms T H. apply iparse_runs in H. split; [now apply iruns_count in H|]. apply iruns_made in H. exact (imade_at _ _ _ H). Qed.
  (** C66: what the names mean after the whole text. *)
  Theorem C66_known : forall data cs ms T, ios_parse data = Ok (cs, ms, T) -> iknown cs T.
  Proof. intros data cs ms T H. eapply iruns_known, iparse_runs, H. Qed.

  (** C66: rules in the order of the text, wherever they are written; the last version, host
      and domain name; the routes in order. *)
  Theorem C66_contents : forall data cs ms T, ios_parse data = Ok (cs, ms, T) -> let c := fst (iconfig_of ms) in
    map (nth_error (flat_map rules_made ms)) (Config.c_rules c) = map Some (flat_map irules_in cs) /\
    Config.c_version c = last (map Some (flat_map iversions_in cs)) None /\
    Config.c_hostname c = last (flat_map ihostnames_in cs) [] /\ Config.c_domain c = last (flat_map idomains_in cs) [] /\
    snd (iconfig_of ms) = positions iroutes_in cs.
  Proof using.
    intros data cs ms T H. apply iparse_runs, iruns_made in H. cbn [it_count no_itables] in H. cbn zeta.
    destruct (iconfig_build ms) as (st & -> & _). cbn [Config.c_rules Config.c_version Config.c_hostname Config.c_domain Config.set_store Config.set_rules].
    destruct (Config.C28_names (iiface_store ms) (iitems_from 0 0 ms)) as (_ & -> & ->). rewrite version_last.
    split; [|split; [|split; [|split]]].
    - rewrite <- (rules_same _ _ _ H). generalize (flat_map rules_made ms). intros l.
      assert (G : forall l pre : list irule, map (nth_error (pre ++ l)) (seq (length pre) (length l)) = map Some l); [|exact (G l [])].
      clear. induction l as [|x l IH]; intros pre; [reflexivity|]. cbn [length seq map]. rewrite nth_error_app2, Nat.sub_diag by lia. cbn [nth_error]. f_equal.
      specialize (IH (pre ++ [x])). rewrite <- app_assoc, app_length, Nat.add_1_r in IH. exact IH.
    - rewrite <- (numbered_flat iversions_in cs 0). f_equal. f_equal. apply (iitems_flat _ (fun _ c => iversions_in c)); [|exact H]. intros k n c m M. destruct M as [| | | |d| | | |]; try reflexivity. now destruct d.
    - rewrite <- (numbered_flat ihostnames_in cs 0). f_equal. apply (iitems_flat _ (fun _ c => ihostnames_in c)); [|exact H]. intros k n c m M. destruct M as [| | | |d| | | |]; try reflexivity. now destruct d.
    - rewrite <- (numbered_flat idomains_in cs 0). f_equal. apply (iitems_flat _ (fun _ c => idomains_in c)); [|exact H]. intros k n c m M. destruct M as [| | | |d| | | |]; try reflexivity. now destruct d.
    - unfold iconfig_of. rewrite Ifaces.C37_route_list. unfold positions, found. rewrite positions_flat.
      apply (iitems_flat _ (fun k c => map (fun _ => k) (iroutes_in c))); [|exact H]. intros k n c m M. destruct M as [| | | |d| | | |]; try reflexivity. now destruct d.
  Qed.

  (** ** Tables *)
  Definition inet_grp (m : imade) : list (pystr * gid) := match m with IMGroup (DNet d) g => [(gd_name d, g)] | _ => [] end.
  Definition iport_grp (m : imade) : list (pystr * gid) := match m with IMGroup (DPort d) g => [(gd_name d, g)] | _ => [] end.
  Definition iservice_grp (m : imade) : list (pystr * gid) := match m with IMGroup (DService d) g => [(gd_name d, g)] | _ => [] end.
  Definition iproto_grp (m : imade) : list (pystr * gid) := match m with IMGroup (DProto d) g => [(gd_name d, g)] | _ => [] end.
  Definition iicmp_grp (m : imade) : list (pystr * gid) := match m with IMGroup (DIcmp d) g => [(gd_name d, g)] | _ => [] end.
  Lemma igroup_tables cs ms T : iruns no_itables cs ms T ->
    table_of_last (flat_map inet_grp ms) (fst (w_net (it_world T))) /\ table_of_last (flat_map iport_grp ms) (fst (w_port (it_world T))) /\
    table_of_last (flat_map iservice_grp ms) (fst (w_service (it_world T))) /\ table_of_last (flat_map iproto_grp ms) (fst (w_proto (it_world T))) /\
    table_of_last (flat_map iicmp_grp ms) (fst (w_icmp (it_world T))).
  Proof using.
    clear. revert cs ms T. apply iruns_rev; [repeat split; apply table_last_nil|].
    intros cs ms T c m T' R K L. rewrite !flat_snoc.
    assert (A : (exists d, c = IGroup d) \/ (it_world T' = it_world T /\ forall d g, m <> IMGroup d g)).
    { destruct c; cbn [ilearn] in L; unfold icounted in L; eauto; right; try (injection L as <- <-; split; [reflexivity|discriminate]).
      destruct (iface_init _ _ _); cbn [bind] in L; [|discriminate]. injection L as <- <-. split; [reflexivity|discriminate]. }
    destruct A as [(d & ->)|(-> & N)].
    2: { destruct m; cbn [inet_grp iport_grp iservice_grp iproto_grp iicmp_grp]; rewrite ?app_nil_r; try exact K. now destruct (N d g). }
    cbn [ilearn] in L. destruct (define_any _ _) as [w|] eqn:E; cbn [bind] in L; [|discriminate]. injection L as <- <-. cbn [it_world].
    destruct d as [d|d|d|d|d]; cbn [define_any] in E; destruct (define _ _ _ _) as [x|] eqn:D; cbn [bind] in E; try discriminate E; injection E as <-;
      cbn [inet_grp iport_grp iservice_grp iproto_grp iicmp_grp w_net w_port w_service w_proto w_icmp next_gid]; rewrite !app_nil_r, (define_number _ _ _ _ _ D);
      destruct K as (K1 & K2 & K3 & K4 & K5); repeat split; try assumption; try apply table_last_snoc; try assumption; apply K1 || apply K2 || apply K3 || apply K4 || apply K5.
  Qed.
  Lemma idefs_made store t (f : imade -> list (pystr * nat)) : (forall k n m, definition_of store t (iitem_of k n m) = f m) -> forall ms k n, definitions store t (iitems_from k n ms) = flat_map f ms.
  Proof using. clear. intros E ms. unfold definitions. induction ms as [|m ms IH]; intros k n; [reflexivity|]. cbn [iitems_from flat_map]. now rewrite IH, E. Qed.
  (** C66: the group tables are those of the parser (C42 and C51 for their contents) ... *)
  Theorem C66_groups : forall data cs ms T, ios_parse data = Ok (cs, ms, T) -> let c := fst (iconfig_of ms) in
    Config.c_netgrp c = fst (w_net (it_world T)) /\ Config.c_portgrp c = fst (w_port (it_world T)) /\
    Config.c_svcgrp c = fst (w_service (it_world T)) /\ Config.c_protogrp c = fst (w_proto (it_world T)) /\
    Config.c_icmpgrp c = fst (w_icmp (it_world T)).
  Proof using.
    intros data cs ms T H. apply iparse_runs, igroup_tables in H as (K1 & K2 & K3 & K4 & K5). destruct (iconfig_build ms) as (st & -> & _). cbn zeta. cbn [Config.c_netgrp Config.c_portgrp Config.c_svcgrp Config.c_protogrp Config.c_icmpgrp Config.set_store Config.set_rules].
    assert (D : forall t f, t <> TNetObj -> (forall k n m, definition_of (iiface_store ms) t (iitem_of k n m) = f m) -> table_of_last (flat_map f ms) (table_in t (Config.build (iiface_store ms) (iitems_from 0 0 ms)))).
    { intros t f N E. rewrite <- (idefs_made _ _ _ E ms 0 0). now apply Config.C27_tables. }
    repeat split; eapply table_of_last_unique; try eassumption.
    - apply (D TNetGrp inet_grp); [discriminate|]. intros k n m. destruct m as [| | | |[d|d|d|d|d] g| | | |]; reflexivity.
    - apply (D TPortGrp iport_grp); [discriminate|]. intros k n m. destruct m as [| | | |[d|d|d|d|d] g| | | |]; reflexivity.
    - apply (D TSvcGrp iservice_grp); [discriminate|]. intros k n m. destruct m as [| | | |[d|d|d|d|d] g| | | |]; reflexivity.
    - apply (D TProtoGrp iproto_grp); [discriminate|]. intros k n m. destruct m as [| | | |[d|d|d|d|d] g| | | |]; reflexivity.
    - apply (D TIcmpGrp iicmp_grp); [discriminate|]. intros k n m. destruct m as [| | | |[d|d|d|d|d] g| | | |]; reflexivity.
  Qed.
  Lemma iiface_defs cs ms : iall_made 0 cs ms -> definitions (iiface_store ms) TIface (iitems_from 0 0 ms) = map swap (found iifaces_in cs).
  Proof using.
    clear. intros H. set (st := iiface_store ms).
    assert (G : forall k n cs' ms', iall_made k cs' ms' -> (forall j i, nth_error ms' j = Some (IMIface i) -> st (k + j) = i) ->
      definitions st TIface (iitems_from k n ms') = flat_map (fun ka => map (fun b => (b, fst ka)) (iifaces_in (snd ka))) (numbered k cs')).
    { intros k n cs' ms' A. revert n. induction A as [|k c m cs' ms' M _ IH]; intros n S; [reflexivity|]. unfold definitions in *. cbn [iitems_from flat_map numbered]. rewrite IH.
      - f_equal. destruct M as [| | |a l i I|d| | | |]; try reflexivity; [|now destruct d]. cbn. pose proof (S 0 i eq_refl) as S0. rewrite Nat.add_0_r in S0. rewrite S0.
        now rewrite (proj1 (proj2 (Ifaces.C32_interface_bindings _ _ _ _ I))).
      - intros j i Hj. rewrite <- (S (Datatypes.S j) i Hj). now rewrite Nat.add_succ_r. }
    unfold found. rewrite swap_flat. apply G; [exact H|]. intros j i Hj. unfold st, iiface_store. cbn. now rewrite Hj.
  Qed.
  (** ... and so is the table of interfaces; the tables only an ASA text fills are empty. *)
  Theorem C66_tables : forall data cs ms T, ios_parse data = Ok (cs, ms, T) -> let c := fst (iconfig_of ms) in
    Config.c_ifaces c = it_if T /\ Config.c_names c = [] /\ Config.c_netobj c = [] /\ Config.c_svcobj c = [] /\ Config.c_time c = [].
  Proof using.
    intros data cs ms T H. pose proof (C66_known _ _ _ _ H) as K. apply iparse_runs, iruns_made in H. cbn [it_count no_itables] in H.
    destruct (iconfig_build ms) as (st & -> & _). cbn zeta. cbn [Config.c_ifaces Config.c_names Config.c_netobj Config.c_svcobj Config.c_time Config.set_store Config.set_rules].
    assert (N : forall t, t <> TNetObj -> (forall k n m, definition_of (iiface_store ms) t (iitem_of k n m) = []) -> table_in t (Config.build (iiface_store ms) (iitems_from 0 0 ms)) = []).
    { intros t D E. eapply table_of_last_unique; [apply Config.C27_tables; exact D|]. rewrite (idefs_made _ t (fun _ => []) E ms 0 0). clear. induction ms as [|m ms IH]; [apply table_last_nil|exact IH]. }
    split; [|split; [|split; [|split]]].
    - eapply table_of_last_unique; [|apply (ik_ifaces _ _ K)]. rewrite <- (iiface_defs _ _ H). apply (Config.C27_tables _ _ TIface). discriminate.
    - destruct (Config.C28_names (iiface_store ms) (iitems_from 0 0 ms)) as (-> & _). rewrite (iitems_flat Config.names_in (fun _ _ => []) ltac:(intros k n c m M; destruct M as [| | | |[?|?|?|?|?]| | | |]; reflexivity) 0 0 cs ms H).
      clear. induction (numbered 0 cs); auto.
    - pose proof (Config.C27_network_objects (iiface_store ms) (iitems_from 0 0 ms)) as (K1 & _). unfold definitions in K1.
      rewrite (iitems_flat (definition_of (iiface_store ms) TNetObj) (fun _ _ => []) ltac:(intros k n c m M; destruct M as [| | | |[?|?|?|?|?]| | | |]; reflexivity) 0 0 cs ms H) in K1.
      replace (flat_map (fun _ => []) (numbered 0 cs)) with (@nil (pystr * nat)) in K1 by (clear; induction (numbered 0 cs); auto).
      match type of K1 with map fst ?x = _ => destruct x; [reflexivity|discriminate K1] end.
    - apply (N TSvcObj); [discriminate|]. intros k n m. destruct m as [| | | |[d|d|d|d|d] g| | | |]; reflexivity.
    - apply (N TTime); [discriminate|]. intros k n m. destruct m as [| | | |[d|d|d|d|d] g| | | |]; reflexivity.
  Qed.

  (** ** Interfaces *)
  Lemma iconstructed cs ms : iall_made 0 cs ms -> constructed (iiface_store ms).
  Proof using.
    clear. intros A j. unfold iiface_store. destruct (nth_error ms j) as [m|] eqn:E; [|exists [], []; reflexivity]. destruct m; try (exists [], []; reflexivity).
    assert (L : exists c, nth_error cs j = Some c).
    { clear - A E. revert j E. generalize dependent 0. intros k A. induction A as [|k c m cs ms M _ IH]; intros [|j] E; try discriminate; cbn [nth_error] in *; eauto. }
    destruct L as (c & Ec). pose proof (imade_at _ _ _ A _ _ _ Ec E) as M. inversion M; subst. eauto.
  Qed.
  Lemma iiface_at cs ms k a l : iall_made 0 cs ms -> length ms = length cs -> nth_error cs k = Some (IIface a l) -> iface_init k a l = Ok (iiface_store ms k).
  Proof using.
    clear. intros A L E. unfold iiface_store. destruct (nth_error ms k) as [m|] eqn:F.
    - pose proof (imade_at _ _ _ A _ _ _ E F) as X. inversion X; subst. assumption.
    - apply nth_error_None in F. assert (k < length cs) by (apply nth_error_Some; congruence). lia.
  Qed.
  Lemma iface_last j a l i : iface_init j a l = Ok i ->
    if_descr i = last (map Some (flat_map descr_in l)) None /\ if_nameif i = last (map Some (flat_map nameif_in l)) None /\ mode_of i = last (flat_map mode_in l) [].
  Proof using.
    clear. unfold iface_init. revert i. induction l as [|d l IH] using rev_ind; intros i H; [injection H as <-; auto|].
    rewrite Ifaces.fold_r_snoc in H. destruct (fold_r _ l _) as [i0|]; cbn [bind] in H; [|discriminate]. destruct (IH i0 eq_refl) as (I1 & I2 & I3). rewrite !flat_snoc.
    assert (S : forall o, sw_mode (sw_of o) = match o with Some s => sw_mode s | None => [] end) by (intros [s|]; reflexivity).
    destruct d; cbn [iface_detail descr_in nameif_in mode_in] in *; rewrite ?app_nil_r, ?map_app; cbn [map]; rewrite ?last_last;
      repeat match type of H with
        | (do _ <- ?x; _) = _ => destruct x; cbn [bind] in H; [|discriminate H]
        | match ?x with _ => _ end = _ => destruct x; try discriminate H
        end; injection H as <-; unfold mode_of in *; cbn [if_descr if_nameif if_switch sw_mode]; rewrite ?S; auto.
  Qed.
  (** C66: an interface command gives its interface a name, access groups, trunk, description
      and mode. *)
  Theorem C66_interfaces : forall data cs ms T, ios_parse data = Ok (cs, ms, T) -> forall k a l, nth_error cs k = Some (IIface a l) ->
    let i := Config.c_store (fst (iconfig_of ms)) k in
    (exists i0, iface_init k a l = Ok i0 /\ but_routes i i0) /\ if_alias i = a /\ table_of_last (flat_map (detail_group k) l) (if_groups i) /\ trunk_is l (trunk_of i) /\
    if_descr i = last (map Some (flat_map descr_in l)) None /\ if_nameif i = last (map Some (flat_map nameif_in l)) None /\ mode_of i = last (flat_map mode_in l) [].
  Proof using.
    intros data cs ms T H k a l E. apply iparse_runs in H. pose proof (proj2 (iruns_count _ _ _ _ H)) as L. apply iruns_made in H. cbn zeta.
    destruct (iconfig_build ms) as (st & -> & B). cbn [Config.c_store Config.set_store]. specialize (B k). pose proof (iiface_at _ _ _ _ _ H L E) as I.
    split; [eauto|]. destruct (Ifaces.C32_interface_bindings _ _ _ _ I) as (G & Al & _). destruct B as (B1 & _ & B3 & B4 & B5 & B6). split; [congruence|]. split; [now rewrite B3|].
    pose proof (Ifaces.C36_trunk _ _ _ _ I) as T'. pose proof (iface_last _ _ _ _ I) as (I1 & I2 & I3). unfold trunk_of, mode_of in *. rewrite B4, B5, B6. auto.
  Qed.
  (** C66: the lists bound to interfaces, found by name *)
  Lemma iids cs ms : iall_made 0 cs ms -> Ifaces.iface_ids (iitems_from 0 0 ms) = positions iifaces_in cs.
  Proof using.
    clear. intros H. unfold Ifaces.iface_ids, positions, found. rewrite positions_flat. apply (iitems_flat _ (fun k c => map (fun _ => k) (iifaces_in c))); [|exact H].
    intros k n c m M. destruct M as [| | | |[?|?|?|?|?]| | | |]; reflexivity.
  Qed.
  Lemma positions_nodup {A B} (f : A -> list B) l : (forall a, length (f a) <= 1) -> NoDup (positions f l).
  Proof using.
    clear. intros L. unfold positions, found. assert (G : forall k, NoDup (map fst (flat_map (fun ka => map (pair (fst ka)) (f (snd ka))) (numbered k l))) /\
      forall j, In j (map fst (flat_map (fun ka => map (pair (fst ka)) (f (snd ka))) (numbered k l))) -> k <= j); [|apply (G 0)].
    induction l as [|x l IH]; intros k; [split; [constructor|intros j []]|]. cbn [numbered flat_map fst snd]. rewrite map_app. destruct (IH (S k)) as (N & G). specialize (L x).
    destruct (f x) as [|b [|b' t]]; cbn [map app fst]; [|split|cbn in L; lia].
    - split; [exact N|]. intros j J. apply G in J. lia.
    - constructor; [|exact N]. intros J. apply G in J. lia.
    - intros j [<-|J]; [lia|]. apply G in J. lia.
  Qed.
  Theorem C66_index : forall data cs ms T, ios_parse data = Ok (cs, ms, T) -> let c := fst (iconfig_of ms) in
    let bound := flat_map (fun k => map snd (if_groups (Config.c_store c k))) (positions iifaces_in cs) in
    forall acl, Ifaces.entry (Config.c_agroups c) acl = filter (fun v => str_eqb (ag_name v) acl) bound /\
      (dmem (Config.c_agroups c) acl = true <-> exists v, In v bound /\ ag_name v = acl).
  Proof using.
    intros data cs ms T H. apply iparse_runs, iruns_made in H. cbn [it_count no_itables] in H. cbn zeta. intros acl.
    pose proof (Ifaces.C32_index (iiface_store ms) (iitems_from 0 0 ms)) as X. unfold Ifaces.inner_bindings in X. rewrite (iids _ _ H) in X.
    destruct (iconfig_build ms) as (st & -> & B). cbn [Config.c_store Config.c_agroups Config.set_store Config.set_rules].
    replace (flat_map (fun k => map snd (if_groups (st k))) (positions iifaces_in cs)) with (flat_map (fun k => map snd (if_groups (iiface_store ms k))) (positions iifaces_in cs)).
    - apply X. apply positions_nodup. intros c. destruct c; cbn; auto.
    - clear X. induction (positions iifaces_in cs) as [|k p IH]; [reflexivity|]. cbn [flat_map]. rewrite IH. destruct (B k) as (_ & _ & -> & _). reflexivity.
  Qed.
End Contents.

(** ** The last command for an interface *)
Lemma last_iface_iff cs : forall a j, last_def (map swap (found iifaces_in cs)) a j <-> last_iface cs a j.
Proof.
  induction cs as [|c cs IH] using rev_ind; intros a j.
  - split; [intros (p & q & E & _); destruct p; discriminate|intros ((l & E) & _); destruct j; discriminate].
  - rewrite found_snoc, map_app.
    assert (Nth : forall k x, nth_error (cs ++ [c]) k = Some x <-> nth_error cs k = Some x \/ k = length cs /\ x = c).
    { intros k x. destruct (Nat.lt_ge_cases k (length cs)) as [Lt|Ge].
      - rewrite nth_error_app1 by lia. split; [auto|]. intros [E|(-> & _)]; [auto|lia].
      - rewrite nth_error_app2 by lia. assert (nth_error cs k = None) as -> by (apply nth_error_None; lia). split.
        + intros E. right. assert (k < length (cs ++ [c])) by (apply nth_error_Some; rewrite nth_error_app2 by lia; congruence). rewrite app_length in H. cbn in H.
          assert (k = length cs) by lia. subst. rewrite Nat.sub_diag in E. cbn in E. split; congruence.
        + intros [E|(-> & ->)]; [discriminate|]. now rewrite Nat.sub_diag. }
    assert (Old : (forall x l, c = IIface x l -> x <> a) -> last_iface (cs ++ [c]) a j <-> last_iface cs a j).
    { intros N. unfold last_iface. split.
      - intros ((l & E) & F). apply Nth in E as [E|(-> & <-)]; [|now destruct (N _ _ eq_refl)]. split; [eauto|]. intros k' l' Lt E'. apply (F k' l' Lt). apply Nth. auto.
      - intros ((l & E) & F). split; [exists l; apply Nth; auto|]. intros k' l' Lt E'. apply Nth in E' as [E'|(-> & <-)]; [exact (F k' l' Lt E')|now destruct (N _ _ eq_refl)]. }
    destruct c as [| | |x l| | | | |]; cbn [iifaces_in map]; rewrite ?app_nil_r; try (rewrite IH; symmetry; apply Old; intros; discriminate).
    unfold swap at 2. cbn [fst snd]. rewrite last_def_snoc, IH. split.
    + intros [(-> & ->)|(N & L)].
      * split; [exists l; apply Nth; auto|]. intros k' l' Lt E. apply Nth in E as [E|(-> & _)]; [|lia]. assert (k' < length cs) by (apply nth_error_Some; congruence). lia.
      * apply Old; [intros y l' [= <- <-]; auto|exact L].
    + intros L. destruct (str_eqb_spec x a) as [->|N]; [|right; split; [auto|apply Old; [intros y l' [= <- <-]; auto|exact L]]].
      left. split; [reflexivity|]. destruct L as ((l' & E) & F). apply Nth in E as [E|(-> & _)]; [|reflexivity]. exfalso. apply (F (length cs) l); [apply nth_error_Some; congruence|]. apply Nth. auto.
Qed.

Lemma ifile_split isalnum isspace f fr T cs ms T' s : ifile_text isalnum isspace f fr T cs ms T' s -> forall cs1 c cs2, cs = cs1 ++ c :: cs2 ->
  exists s1 t r T0 ms1 m ms2, s = s1 ++ t ++ r /\ ms = ms1 ++ m :: ms2 /\ iruns T cs1 ms1 T0 /\ icommand_text isalnum isspace f fr T0 c t r.
Proof.
  induction 1 as [T|T c t r T' m cs ms T'' C L F IH]; intros cs1 c' cs2 E; [now destruct cs1|].
  destruct cs1 as [|x cs1]; cbn [app] in E; injection E as -> ->.
  - exists [], t, r, T, [], m, ms. repeat split; auto. constructor.
  - destruct (IH cs1 c' cs2 eq_refl) as (s1 & t' & r' & T0 & ms1 & m' & ms2 & -> & -> & R & C'). exists (t ++ s1), t', r', T0, (m :: ms1), m', ms2.
    split; [now rewrite <- app_assoc|]. split; [reflexivity|]. split; [econstructor; eauto|auto].
Qed.
Lemma kept_address isalnum d t a m : ios_kept isalnum d t -> address_line d a m -> valid a /\ match m with MaskQuad q => (q < 2 ^ 32)%N | MaskLen _ => True end.
Proof.
  intros K A. destruct K as [| | | | | |? ? ? ? ? ? ? ? ? ? ? ? TT ? ?]; inversion A; subst; try (split; [|exact I]).
  - split; [eapply quad_valid; eassumption|assumption].
  - match goal with V : v6_text _ _ |- _ => destruct V as (_ & V) end. eapply address_valid; eauto.
  - match goal with V : v6_text _ _ |- _ => destruct V as (_ & V) end. eapply address_valid; eauto.
  - inversion TT.
  - inversion TT.
  - inversion TT.
Qed.
Lemma details_addresses isalnum f l t : ios_details isalnum f l t -> forall d a m, In d l -> address_line d a m -> valid a /\ match m with MaskQuad q => (q < 2 ^ 32)%N | MaskLen _ => True end.
Proof.
  induction 1 as [|d' t' l' ts K _ IH|t' l' ts _ _ _ _ IH]; intros d a m I A; [destruct I| |].
  - destruct I as [->|I]; [eapply kept_address; eauto|eauto].
  - destruct I as [<-|I]; [inversion A|eauto].
Qed.
Section Whole.
  Context (isalpha isalnum isspace : N -> bool) (OK : classes_ok isalpha isalnum isspace).
  Context (py_int : pystr -> option Z)
          (PI1 : forall n, n <> [] -> forallb AddrText.is_digit n = true -> py_int n <> None)
          (PI2 : forall n, In n port_code -> py_int n = None).
  Notation ios_parse := (ios_parse isalpha isalnum isspace py_int).

  (** C66: each command is read with the names the commands before it define. *)
  Theorem C66_before : forall data cs1 c cs2 ms T, ios_parse data = Ok (cs1 ++ c :: cs2, ms, T) -> iwell_named (cs1 ++ c :: cs2) ->
    exists T0 s t r, iknown cs1 T0 /\ data ++ lf = s ++ t ++ r /\ icommand_text isalnum isspace clean_detail clean_route T0 c t r.
  Proof using OK PI1 PI2.
    intros data cs1 c cs2 ms T H W. apply (C65_reads _ _ _ OK _ PI1 PI2) in H as (H & _); [|exact W]. destruct (ifile_split _ _ _ _ _ _ _ _ _ H cs1 c cs2 eq_refl) as (s & t & r & T0 & ms1 & m & ms2 & E & -> & R & C).
    exists T0, s, t, r. split; [eapply iruns_known, R|auto].
  Qed.
  Lemma before_at data cs ms T k c : ios_parse data = Ok (cs, ms, T) -> iwell_named cs -> nth_error cs k = Some c ->
    exists T0 s t r, iknown (firstn k cs) T0 /\ data ++ lf = s ++ t ++ r /\ icommand_text isalnum isspace clean_detail clean_route T0 c t r.
  Proof using OK PI1 PI2.
    intros H W E. apply nth_error_split in E as (cs1 & cs2 & -> & <-). destruct (C66_before _ _ _ _ _ _ H W) as (T0 & s & t & r & K). exists T0, s, t, r.
    rewrite firstn_app, Nat.sub_diag, firstn_all, app_nil_r. exact K.
  Qed.
  Lemma iface_valid data cs ms T k a l : ios_parse data = Ok (cs, ms, T) -> iwell_named cs -> nth_error cs k = Some (IIface a l) ->
    forall d x m, In d l -> address_line d x m -> valid x /\ match m with MaskQuad q => (q < 2 ^ 32)%N | MaskLen _ => True end.
  Proof using OK PI1 PI2.
    intros H W E. destruct (before_at _ _ _ _ _ _ H W E) as (T0 & s & t & r & _ & _ & C). inversion C as [| | |a' l' t' r' I| | | | | | | | | | | | | |]; subst. inversion I; subst. eapply details_addresses; eauto.
  Qed.
  (** C66: a route names its gateway by the address, or by the name of an interface described
      before: the last of this name. *)
  Theorem C66_gateway : forall data cs ms T, ios_parse data = Ok (cs, ms, T) -> iwell_named cs -> forall r n gw, nth_error cs r = Some (IRoute n gw) ->
    match gw with
    | Config.GwAddr g => valid g /\ exists s t rest, data ++ lf = s ++ u "ip" ++ t ++ rest /\ exists g0 g1 t0 g2 m g3 z tg, t = g0 ++ u "route" ++ g1 ++ t0 ++ g2 ++ quad m ++ g3 ++ tg ++ z /\ eol_text z /\ quad_text tg g
    | Config.GwIface j => exists a, last_iface (firstn r cs) a j /\ exists s t rest, data ++ lf = s ++ u "ip" ++ t ++ rest /\ exists g0 g1 t0 g2 m g3 z, t = g0 ++ u "route" ++ g1 ++ t0 ++ g2 ++ quad m ++ g3 ++ a ++ z /\ eol_text z
    end.
  Proof using OK PI1 PI2.
    intros data cs ms T H W r n gw E. destruct (before_at _ _ _ _ _ _ H W E) as (T0 & s & t & rest & K & Ed & C).
    inversion C as [| | | | | | | | |g0 a m gw' n' t' r' G0 Sh Rn| | | | | | | |]; subst. destruct Sh as [g t g1 g2 tg z X1 X2 X3 X4 X5 Gw X6]. destruct Gw as [tg g' Q|a' j D].
    - split; [eapply quad_valid; eauto|]. exists s, (g0 ++ u "route" ++ g ++ t ++ g1 ++ quad m ++ g2 ++ tg ++ z), rest. split; [rewrite Ed; now rewrite <- !app_assoc|]. exists g0, g, t, g1, m, g2, z, tg. auto.
    - exists a'. split.
      + apply last_iface_iff. pose proof (ik_ifaces _ _ K) as T1. apply T1. now apply dget_in.
      + exists s, (g0 ++ u "route" ++ g ++ t ++ g1 ++ quad m ++ g2 ++ a' ++ z), rest. split; [rewrite Ed; now rewrite <- !app_assoc|]. exists g0, g, t, g1, m, g2, z. auto.
  Qed.
  (** C66: an interface has the subnets of its addresses, *)
  Theorem C66_addresses : forall data cs ms T, ios_parse data = Ok (cs, ms, T) -> iwell_named cs -> forall k a l, nth_error cs k = Some (IIface a l) ->
    forall g, (exists n, In n (if_addrs (Config.c_store (fst (iconfig_of ms)) k)) /\ in_net n g) <-> on_link l g.
  Proof using OK PI1 PI2.
    intros data cs ms T H W k a l E g. destruct (C66_interfaces _ _ _ _ _ _ _ _ H k a l E) as ((i0 & I & B) & _). destruct B as (_ & -> & _).
    destruct (Ifaces.iface_addrs _ _ _ _ I) as (_ & G); [|apply G]. intros d x m Id A. eapply iface_valid in A; eauto.
  Qed.
  (** C66: and the routes that name it, or whose gateway is in such a subnet and no later
      command describes an interface of its name. *)
  Theorem C66_routes : forall data cs ms T, ios_parse data = Ok (cs, ms, T) -> iwell_named cs -> forall j r,
    In r (if_routes (Config.c_store (fst (iconfig_of ms)) j)) <->
    exists n gw, nth_error cs r = Some (IRoute n gw) /\
      (gw = Config.GwIface j \/ exists g a l, gw = Config.GwAddr g /\ nth_error cs j = Some (IIface a l) /\ last_iface cs a j /\ on_link l g).
  Proof using OK PI1 PI2.
    intros data cs ms T H W j r. pose proof (iparse_runs _ _ _ _ _ _ _ _ H) as R. pose proof (proj2 (iruns_count _ _ _ _ R)) as L. pose proof (iruns_made _ _ _ _ R) as A. cbn [it_count no_itables] in A.
    set (al := fun k => match nth_error cs k with Some (IIface a _) => a | _ => [] end). set (det := fun k => match nth_error cs k with Some (IIface _ l) => l | _ => [] end).
    assert (Mk : forall k, nth_error ms k = None <-> nth_error cs k = None) by (intros k; rewrite !nth_error_None; lia).
    assert (B : built_from al det (iiface_store ms)).
    { intros k. unfold al, det. destruct (nth_error cs k) as [c|] eqn:E.
      - destruct c as [| | |a l| | | | |]; try (split; [|intros ? ? ? []]; unfold iiface_store; destruct (nth_error ms k) as [mk|] eqn:F; [|reflexivity]; pose proof (imade_at _ _ _ A _ _ _ E F) as M; inversion M; reflexivity).
        split; [eapply iiface_at; eauto|]. eapply iface_valid; eauto.
      - split; [|intros ? ? ? []]. unfold iiface_store. now rewrite (proj2 (Mk k) E). }
    assert (Gw : forall k, match nth_error cs k with Some (IRoute n g) => route_gw ms k = g | _ => route_gw ms k = Config.GwAddr (mkaddr V4 0) end).
    { intros k. unfold route_gw. destruct (nth_error ms k) as [mk|] eqn:F.
      - destruct (nth_error cs k) as [c|] eqn:E; [|apply Mk in E; congruence]. pose proof (imade_at _ _ _ A _ _ _ E F) as M. inversion M; subst; reflexivity.
      - rewrite (proj1 (Mk k) F). reflexivity. }
    assert (V : forall k a, route_gw ms k = Config.GwAddr a -> valid a).
    { intros k a E. specialize (Gw k). assert (Z : forall z, route_gw ms k = Config.GwAddr z -> valid z -> valid a) by (intros z Ez Vz; rewrite Ez in E; injection E as <-; exact Vz).
      destruct (nth_error cs k) as [c|] eqn:Ec; [|apply (Z _ Gw); vm_compute; reflexivity].
      destruct c as [| | | | | | |n g|]; try (apply (Z _ Gw); vm_compute; reflexivity). subst g. rewrite E in Ec. destruct (C66_gateway _ _ _ _ H W _ _ _ Ec) as (Va & _). exact Va. }
    unfold iconfig_of. rewrite (Ifaces.C37_routes al det _ _ _ B V j r), (iiface_defs _ _ A).
    assert (It : In (Config.KRoute r) (iitems_from 0 0 ms) <-> exists n g, nth_error cs r = Some (IRoute n g)).
    { split.
      - intros I. apply In_nth_error in I as (p & E). destruct (iitems_nth ms 0 0 p) as (n' & E'). rewrite E' in E. destruct (nth_error ms p) as [mp|] eqn:F; [|discriminate]. cbn in E. injection E as E.
        destruct mp as [| | | |[?|?|?|?|?] ?| | |n g|]; try discriminate E. injection E as <-. destruct (nth_error cs p) as [c|] eqn:Ec; [|apply Mk in Ec; congruence].
        pose proof (imade_at _ _ _ A _ _ _ Ec F) as M. inversion M; subst. eauto.
      - intros (n & g & E). destruct (nth_error ms r) as [mr|] eqn:F; [|apply Mk in F; congruence]. pose proof (imade_at _ _ _ A _ _ _ E F) as M. inversion M; subst.
        destruct (iitems_nth ms 0 0 r) as (n' & E'). rewrite F in E'. apply nth_error_In in E'. exact E'. }
    rewrite It. clear It. specialize (Gw r). split.
    - intros ((n & g & E) & Q). exists n, g. split; [exact E|]. rewrite E in Gw. rewrite Gw in Q. destruct Q as [Q|(x & a & Q & D & O)]; [auto|]. right.
      apply last_iface_iff in D. pose proof D as ((l & El) & _). exists x, a, l. unfold det in O. rewrite El in O. auto.
    - intros (n & g & E & Q). rewrite E in Gw. split; [eauto|]. rewrite Gw. destruct Q as [Q|(x & a & l & Q & El & D & O)]; [auto|]. right. exists x, a. split; [auto|]. split; [now apply last_iface_iff|].
      unfold det. now rewrite El.
  Qed.
End Whole.

(** ** Example: the configuration of C65.  The interface is command 8, the routes commands 11
    and 12; only the second is for this interface. *)
Example C66_ex : exists cs ms T, ip C65_data = Ok (cs, ms, T) /\ iwell_named cs /\ let c := fst (iconfig_of ms) in
  nth_error cs 8 = Some (IIface (u "Vlan10") [DDescription (u "office"); DAddr4 (mkaddr V4 168361985) 4294967040; DGroup4 (u "IN") (u "in")]) /\
  Config.c_rules c = [0; 1; 2; 3] /\ length (flat_map irules_in cs) = 4 /\ Config.c_hostname c = u "rtr1" /\ Config.c_domain c = u "example.org" /\ Config.c_version c = Some (u " 12.4") /\
  snd (iconfig_of ms) = [11; 12] /\ Config.c_netgrp c = [(u "servers", 0)] /\ Config.c_ifaces c = [(u "Vlan10", 8)] /\
  if_routes (Config.c_store c 8) = [12] /\ if_groups (Config.c_store c 8) = [(u "ip-in", mkag (IfObj 8) (u "IN") (u "in"))] /\
  Ifaces.entry (Config.c_agroups c) (u "IN") = [mkag (IfObj 8) (u "IN") (u "in")].
Proof.
  destruct C65_ex1 as (cs & ms & T & H & _ & W). exists cs, ms, T. split; [exact H|]. split; [exact W|].
  assert (R : ip C65_data = Ok match C65_result with Some x => x | None => ([], [], no_itables) end) by (vm_compute; reflexivity).
  rewrite H in R. unfold C65_result in R. injection R as -> -> ->. clear. vm_compute. repeat split.
Qed.
(** An interface described twice: a route that names it is kept with the first description,
    which the table of interfaces does not have. *)
Example C66_twice : exists cs ms T,
  ip (line "interface e0" ++ line " ip address 10.0.0.1 255.255.255.0" ++ line "ip route 10.5.0.0 255.255.0.0 e0" ++ line "interface e0" ++ line " description d") = Ok (cs, ms, T) /\
  Config.c_ifaces (fst (iconfig_of ms)) = [(u "e0", 2)] /\ if_routes (Config.c_store (fst (iconfig_of ms)) 0) = [1] /\ if_routes (Config.c_store (fst (iconfig_of ms)) 2) = [].
Proof. eexists _, _, _. split; [vm_compute; reflexivity|]. vm_compute. repeat split. Qed.

Print Assumptions C66_made.
Print Assumptions C66_known.
Print Assumptions C66_before.
Print Assumptions C66_contents.
Print Assumptions C66_groups.
Print Assumptions C66_tables.
Print Assumptions C66_interfaces.
Print Assumptions C66_index.
Print Assumptions C66_gateway.
Print Assumptions C66_addresses.
Print Assumptions C66_routes.
