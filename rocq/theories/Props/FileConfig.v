(** C58: the configuration made from a text. *)
From Coq Require Import Lia String.
From Verif.Model Require Import Base Ip Hosts Groups Rules Nat Iface Peg Ids AddrText Ports AclText Define GroupText ObjText LineText NatText FileText.
From Verif.Model Require Config.
From Verif.Spec Require Import AddrSpec ConfigSpec CafTextSpec AclTextSpec ObjTextSpec LineTextSpec FileTextSpec FileConfigSpec.
From Verif.Spec Require NatTextSpec.
From Verif.Proofs Require Import GroupOps DictFacts.
From Verif.Props Require Import CafText AclText LineText FileText.
From Verif.Props Require Config Ifaces.
Local Open Scope list_scope.

(** ** Running the actions over a list of commands *)
Inductive runs : tables -> list command -> list made -> tables -> Prop :=
| RN_nil T : runs T [] [] T
| RN_more T c T' m cs ms T'' : learn T c = Ok (T', m) -> runs T' cs ms T'' -> runs T (c :: cs) (m :: ms) T''.
Inductive all_made : nat -> list command -> list made -> Prop :=
| AM_nil k : all_made k [] []
| AM_more k c m cs ms : makes k c m -> all_made (S k) cs ms -> all_made k (c :: cs) (m :: ms).
Lemma learn_makes T c T' m : learn T c = Ok (T', m) -> makes (tb_count T) c m /\ tb_count T' = S (tb_count T).
Proof.
  destruct c as [x|d|d|x| |l|n| |]; cbn [learn].
  - destruct x; try (intros H; injection H as <- <-; split; [constructor|reflexivity]).
    intros H. destruct (iface_init _ _ _) as [i|] eqn:E; cbn [bind] in H; [|discriminate]. injection H as <- <-. split; [now constructor|reflexivity].
  - destruct d as [n d b|n d s].
    + intros H. destruct (network_object_def _ n d b) as [((t, p), o)|] eqn:E; cbn [bind] in H; [|discriminate]. injection H as <- <-. split; [|reflexivity].
      unfold network_object_def in E. destruct (match b with BArgs a n0 => (a, n0) | BNat n0 => (ANat, Some n0) end) as (args, nat) eqn:Eb.
      match type of E with (do _ <- ?x; _) = _ => destruct x as [o'|] eqn:Eo end; cbn [bind] in E; [|discriminate].
      destruct (mk_NetworkObject n d args) as [p'|] eqn:Ep; cbn [bind] in E; [|discriminate]. injection E as _ -> <-. constructor.
      * clear - Ep. unfold mk_NetworkObject in Ep. destruct args; repeat match type of Ep with (do _ <- ?x; _) = _ => destruct x; cbn [bind] in Ep | match ?x with _ => _ end = _ => destruct x end; try discriminate Ep; injection Ep as <-; reflexivity.
      * intros kn. unfold network_object_def. rewrite Eb, Eo. cbn [bind]. rewrite Ep. cbn [bind]. eauto.
    + intros H; injection H as <- <-; split; [constructor|reflexivity].
  - intros H. destruct (define_any _ _); cbn [bind] in H; [|discriminate]. injection H as <- <-. split; [constructor|reflexivity].
  - intros H; injection H as <- <-; split; [constructor|reflexivity].
  - intros H; injection H as <- <-; split; [constructor|reflexivity].
  - intros H; injection H as <- <-; split; [constructor|reflexivity].
  - destruct n; intros H; injection H as <- <-; split; [constructor|reflexivity|constructor|reflexivity].
  - intros H; injection H as <- <-; split; [constructor|reflexivity].
  - intros H; injection H as <- <-; split; [constructor|reflexivity].
Qed.
Lemma runs_made T cs ms T' : runs T cs ms T' -> all_made (tb_count T) cs ms.
Proof. induction 1 as [|T c T' m cs ms T'' L _ IH]; constructor; apply learn_makes in L as (M & E); [exact M|rewrite <- E; exact IH]. Qed.
Lemma file_runs isalnum isspace other T cs ms T' s : file_text isalnum isspace other T cs ms T' s -> runs T cs ms T'.
Proof. induction 1; econstructor; eauto. Qed.
Section File.
  Context (isalpha isalnum isspace : N -> bool) (py_int : pystr -> option Z).
  Notation commands := (commands isalpha isalnum isspace py_int).
  Notation parse_file := (parse_file isalpha isalnum isspace py_int).
  Lemma commands_run fuel : forall T s cs ms T' r, commands fuel T s = POk (cs, ms, T') r -> runs T cs ms T'.
  Proof.
    induction fuel as [|fuel IH]; intros T s cs ms T' r H; cbn [FileText.commands] in H; [injection H as <- <- <- _; constructor|].
    destruct (command_ _ _ _ _ T s) as [|e|c q]; [injection H as <- <- <- _; constructor|discriminate|].
    destruct (learn T c) as [(T1, m)|] eqn:L; [|discriminate].
    destruct (Nat.ltb _ _); [|injection H as <- <- <- _; constructor].
    destruct (commands fuel T1 q) as [|e|((cs', ms'), T2) r'] eqn:R; try discriminate. injection H as <- <- <- _. econstructor; eauto.
  Qed.
  Lemma parse_runs data cs ms T : parse_file data = Ok (cs, ms, T) -> runs no_tables cs ms T.
  Proof.
    unfold FileText.parse_file. destruct (commands _ _ _) as [|e|(([|c cs'], ms'), T') [|x r]] eqn:C; intros H; try discriminate H. injection H as <- <- <-. eapply commands_run, C.
  Qed.
End File.
Lemma runs_snoc T cs ms T1 c m T2 : runs T cs ms T1 -> learn T1 c = Ok (T2, m) -> runs T (cs ++ [c]) (ms ++ [m]) T2.
Proof. induction 1; intros L; cbn [app]; econstructor; eauto. constructor. Qed.
Lemma runs_rev (P : list command -> list made -> tables -> Prop) T0 : P [] [] T0 ->
  (forall cs ms T c m T', runs T0 cs ms T -> P cs ms T -> learn T c = Ok (T', m) -> P (cs ++ [c]) (ms ++ [m]) T') ->
  forall cs ms T, runs T0 cs ms T -> P cs ms T.
Proof.
  intros B S. assert (G : forall T cs ms T', runs T cs ms T' -> forall cs0 ms0, runs T0 cs0 ms0 T -> P cs0 ms0 T -> P (cs0 ++ cs) (ms0 ++ ms) T').
  { induction 1 as [T|T c T' m cs ms T'' L _ IH]; intros cs0 ms0 R Q; [now rewrite !app_nil_r|].
    assert (E : forall A (x : A) l l', l ++ x :: l' = (l ++ [x]) ++ l') by (intros; now rewrite <- app_assoc). rewrite (E _ c), (E _ m). apply IH; [eapply runs_snoc; eauto|eapply S; eauto]. }
  intros cs ms T R. apply (G _ _ _ _ R [] []); [constructor|exact B].
Qed.
Lemma numbered_app {A} (l : list A) : forall k l', numbered k (l ++ l') = numbered k l ++ numbered (k + length l) l'.
Proof. induction l as [|a l IH]; intros k l'; cbn [app numbered length]; [now rewrite Nat.add_0_r|]. rewrite IH. now rewrite Nat.add_succ_r. Qed.
Lemma found_snoc {A B} (f : A -> list B) l a : found f (l ++ [a]) = found f l ++ map (pair (length l)) (f a).
Proof. unfold found. rewrite numbered_app, flat_map_app. cbn. now rewrite app_nil_r. Qed.
Lemma runs_count T cs ms T' : runs T cs ms T' -> tb_count T' = tb_count T + length cs /\ length ms = length cs.
Proof. induction 1 as [|T c T' m cs ms T'' L _ (I1 & I2)]; cbn [length]; [lia|]. apply learn_makes in L as (_ & E). lia. Qed.
Lemma flat_snoc {A B} (f : A -> list B) l a : flat_map f (l ++ [a]) = flat_map f l ++ f a.
Proof. rewrite flat_map_app. cbn. now rewrite app_nil_r. Qed.
Lemma define_all_snoc w l d w' : define_all w l = Ok w' -> define_all w (l ++ [d]) = define_any w' d.
Proof.
  unfold define_all. revert w. induction l as [|x l IH]; intros w H; cbn [app fold_r] in *.
  - injection H as ->. destruct (define_any w' d); reflexivity.
  - destruct (define_any w x) as [w1|]; cbn [bind] in *; [now apply IH|discriminate].
Qed.
Lemma runs_known cs ms T : runs no_tables cs ms T -> known cs ms T.
Proof.
  revert cs ms T. apply runs_rev.
  - split; try apply table_last_nil; try apply table_first_nil. reflexivity.
  - intros cs ms T c m T' R [K1 K2 K3 K4 K5 K6] L. destruct (runs_count _ _ _ _ R) as (C & _). cbn [tb_count no_tables] in C.
    assert (Mk := proj1 (learn_makes _ _ _ _ L)).
    split; rewrite ?flat_snoc, ?found_snoc; unfold by_name in *; rewrite ?map_app.
    all: destruct c as [x|[n d b|n d s]|d|x| |l|[n|]| |]; [destruct x| | | | | | | | | |]; cbn [learn counted] in L;
      try (injection L as <- <-; cbn [tb_names tb_netobj tb_svcobj tb_world tb_time tb_if names_in netobjs_made svcobjs_in times_in ifnames_made groups_in map flat_map]; rewrite ?app_nil_r; assumption).
    all: try (destruct (iface_init _ _ _) as [i|] eqn:E; cbn [bind] in L; [|discriminate]).
    all: try (destruct (network_object_def _ _ _ _) as [((t, p), o)|] eqn:E; cbn [bind] in L; [|discriminate]).
    all: try (destruct (define_any _ _) as [w|] eqn:E; cbn [bind] in L; [|discriminate]).
    all: injection L as <- <-; cbn [tb_names tb_netobj tb_svcobj tb_world tb_time tb_if names_in netobjs_made svcobjs_in times_in ifnames_made groups_in map flat_map app]; rewrite ?app_nil_r; try assumption.
    + now apply table_last_snoc.
    + inversion Mk; subst. now apply table_first_snoc.
    + now apply table_first_snoc.
    + unfold swap; cbn [fst snd]. rewrite C. cbn. now apply table_last_snoc.
    + assert (Al : if_alias i = alias) by apply (Ifaces.C32_interface_bindings _ _ _ _ E). unfold ifnames_of. rewrite Al.
      destruct (if_nameif i) as [n|]; [|now apply table_last_snoc].
      match goal with |- table_of_last (_ ++ [?x; ?y]) _ => change [x; y] with ([x] ++ [y]) end. rewrite app_assoc. now apply table_last_snoc, table_last_snoc.
    + rewrite (define_all_snoc _ _ _ _ K6). exact E.
Qed.

(** ** The configuration *)
Lemma flat_items {B} (f : Config.citem -> list B) (g : nat -> command -> list B) :
  (forall k c m, makes k c m -> f (item_of k m) = g k c) -> forall k cs ms, all_made k cs ms ->
  flat_map f (items_from k ms) = flat_map (fun kc => g (fst kc) (snd kc)) (numbered k cs).
Proof. intros H k cs ms A. induction A as [|k c m cs ms M _ IH]; [reflexivity|]. cbn [items_from flat_map numbered fst snd]. now rewrite IH, (H k c m M). Qed.
Lemma positions_flat {A B} (f : A -> list B) k l : map fst (flat_map (fun ka => map (pair (fst ka)) (f (snd ka))) (numbered k l)) = flat_map (fun ka => map (fun _ => fst ka) (f (snd ka))) (numbered k l).
Proof. induction (numbered k l) as [|x n IH]; [reflexivity|]. cbn [flat_map]. now rewrite map_app, IH, map_map. Qed.
Lemma numbered_flat {A B} (f : A -> list B) l : forall k, flat_map (fun ka => f (snd ka)) (numbered k l) = flat_map f l.
Proof. induction l as [|a l IH]; intros k; [reflexivity|]. cbn [numbered flat_map snd]. now rewrite IH. Qed.
Lemma swap_flat {A B} (f : A -> list B) k l : map swap (flat_map (fun ka => map (pair (fst ka)) (f (snd ka))) (numbered k l)) = flat_map (fun ka => map (fun b => (b, fst ka)) (f (snd ka))) (numbered k l).
Proof. induction (numbered k l) as [|x n IH]; [reflexivity|]. cbn [flat_map]. now rewrite map_app, IH, map_map. Qed.
Lemma section_list k items l l' : Config.section_of k items l -> Config.section_of k items l' -> l = l'.
Proof.
  intros S. revert l'. induction S as [|i x items l I S IH|i items l I S IH]; intros l' S'; inversion S' as [|? y ? l2 I2 S2|? ? ? I2 S2]; subst; auto.
  - assert (x = y) by (destruct I; inversion I2; reflexivity). subst. f_equal. auto.
  - now apply I2 in I.
  - now apply I in I2.
Qed.
Lemma version_last store items : Config.c_version (Config.build store items) =
  last (map Some (flat_map (fun i => match i with Config.KVersion v => [v] | _ => [] end) items)) None.
Proof.
  induction items as [|i items IH] using rev_ind; [reflexivity|]. rewrite Config.build_snoc, flat_snoc.
  destruct i; cbn [Config.c_step]; rewrite ?app_nil_r; try exact IH.
  - cbn. rewrite map_app. cbn. now rewrite last_last.
  - destruct nat; match goal with |- context [if ?b then _ else _] => destruct b end; exact IH.
  - destruct (Config.find_iface _ _); exact IH.
  - destruct (Config.is_after _); exact IH.
Qed.

Section Contents.
  Context (isalpha isalnum isspace : N -> bool) (py_int : pystr -> option Z).
  Notation parse_file := (parse_file isalpha isalnum isspace py_int).

  (** C58: each command makes one thing, which depends on the command and its position only. *)
  Theorem C58_made : forall data cs ms T, parse_file data = Ok (cs, ms, T) ->
    length ms = length cs /\ forall k c m, nth_error cs k = Some c -> nth_error ms k = Some m -> makes k c m.
  Proof.
    intros data cs ms T H. apply parse_runs in H. split; [now apply runs_count in H|]. apply runs_made in H. cbn [tb_count no_tables] in H.
    assert (G : forall k0 k c m, nth_error cs k = Some c -> nth_error ms k = Some m -> all_made k0 cs ms -> makes (k0 + k) c m); [|intros k c m E F; now apply (G 0)].
    clear H. intros k0 k. revert k0 cs ms. induction k as [|k IH]; intros k0 cs ms c m E F A; destruct A as [|k0 c1 m1 cs ms M A]; try discriminate; cbn [nth_error] in *.
    - injection E as ->. injection F as ->. now rewrite Nat.add_0_r.
    - rewrite Nat.add_succ_r. now apply (IH (S k0) cs ms).
  Qed.
  (** C58: what the names mean after the whole text, *)
  Theorem C58_known : forall data cs ms T, parse_file data = Ok (cs, ms, T) -> known cs ms T.
  Proof. intros data cs ms T H. apply runs_known. eapply parse_runs, H. Qed.

  (** C58: rules, names, version, host and domain name. *)
  Theorem C58_contents : forall data cs ms T, parse_file data = Ok (cs, ms, T) ->
    Config.c_rules (config_of ms) = positions rules_in cs /\ Config.c_names (config_of ms) = positions names_in cs /\
    Config.c_version (config_of ms) = last (map Some (flat_map versions_in cs)) None /\
    Config.c_hostname (config_of ms) = last (flat_map hostnames_in cs) [] /\ Config.c_domain (config_of ms) = last (flat_map domains_in cs) [].
  Proof.
    intros data cs ms T H. apply parse_runs, runs_made in H. cbn [tb_count no_tables] in H. unfold config_of.
    destruct (Config.C28_names (iface_store ms) (items_from 0 ms)) as (-> & -> & ->). rewrite Config.C28_rule_order, version_last. unfold positions, found. rewrite !positions_flat.
    repeat split.
    - apply (flat_items _ (fun k c => map (fun _ => k) (rules_in c))); [|exact H]. intros k c m M. destruct M; try reflexivity. now destruct d.
    - apply (flat_items _ (fun k c => map (fun _ => k) (names_in c))); [|exact H]. intros k c m M. destruct M; try reflexivity. now destruct d.
    - rewrite <- (numbered_flat versions_in cs 0). f_equal. f_equal. apply (flat_items _ (fun _ c => versions_in c)); [|exact H]. intros k c m M. destruct M; try reflexivity. now destruct d.
    - rewrite <- (numbered_flat hostnames_in cs 0). f_equal. apply (flat_items _ (fun _ c => hostnames_in c)); [|exact H]. intros k c m M. destruct M; try reflexivity. now destruct d.
    - rewrite <- (numbered_flat domains_in cs 0). f_equal. apply (flat_items _ (fun _ c => domains_in c)); [|exact H]. intros k c m M. destruct M; try reflexivity. now destruct d.
  Qed.
  Lemma defs_positions store t (f : command -> list pystr) cs ms :
    (forall k c m, makes k c m -> definition_of store t (item_of k m) = map (fun b => (b, k)) (f c)) -> all_made 0 cs ms ->
    definitions store t (items_from 0 ms) = map swap (found f cs).
  Proof. intros E A. unfold definitions, found. rewrite swap_flat. apply (flat_items _ (fun k c => map (fun b => (b, k)) (f c))); auto. Qed.

  (** ** Groups: the tables of the configuration are those of the parser *)
  Definition net_grp (m : made) : list (pystr * gid) := match m with MGroup (DNet d) g => [(gd_name d, g)] | _ => [] end.
  Definition port_grp (m : made) : list (pystr * gid) := match m with MGroup (DPort d) g => [(gd_name d, g)] | _ => [] end.
  Definition service_grp (m : made) : list (pystr * gid) := match m with MGroup (DService d) g => [(gd_name d, g)] | _ => [] end.
  Definition proto_grp (m : made) : list (pystr * gid) := match m with MGroup (DProto d) g => [(gd_name d, g)] | _ => [] end.
  Definition icmp_grp (m : made) : list (pystr * gid) := match m with MGroup (DIcmp d) g => [(gd_name d, g)] | _ => [] end.
  Lemma define_number {X} mk al (w w' : gworld X) d : define mk al w d = Ok w' -> fst w' = dset (fst w) (gd_name d) (h_next (snd w)).
  Proof using.
    clear. unfold define. destruct w as (t & h). destruct (map_r _ _) as [ms|]; cbn [bind]; [|discriminate]. unfold h_alloc.
    destruct (fold_r _ _ _) as [h''|]; cbn [bind]; [|discriminate]. intros [= <-]. reflexivity.
  Qed.
  Lemma group_tables cs ms T : runs no_tables cs ms T ->
    table_of_last (flat_map net_grp ms) (fst (w_net (tb_world T))) /\ table_of_last (flat_map port_grp ms) (fst (w_port (tb_world T))) /\
    table_of_last (flat_map service_grp ms) (fst (w_service (tb_world T))) /\ table_of_last (flat_map proto_grp ms) (fst (w_proto (tb_world T))) /\
    table_of_last (flat_map icmp_grp ms) (fst (w_icmp (tb_world T))).
  Proof using.
    clear. revert cs ms T. apply runs_rev; [repeat split; apply table_last_nil|].
    intros cs ms T c m T' R K L. rewrite !flat_snoc.
    assert (A : (exists d, c = CGroup d) \/ (tb_world T' = tb_world T /\ forall d g, m <> MGroup d g)).
    { destruct c as [x|[n d b|n d s]|d|x| |l|[n|]| |]; [destruct x| | | | | | | | | |]; cbn [learn counted] in L; eauto; right;
        try (injection L as <- <-; split; [reflexivity|discriminate]).
      - destruct (iface_init _ _ _); cbn [bind] in L; [|discriminate]. injection L as <- <-. split; [reflexivity|discriminate].
      - destruct (network_object_def _ _ _ _) as [((t, p), o)|]; cbn [bind] in L; [|discriminate]. injection L as <- <-. split; [reflexivity|discriminate]. }
    destruct A as [(d & ->)|(-> & N)].
    2: { destruct m; cbn [net_grp port_grp service_grp proto_grp icmp_grp]; rewrite ?app_nil_r; try exact K. now destruct (N d g). }
    cbn [learn] in L. destruct (define_any _ _) as [w|] eqn:E; cbn [bind] in L; [|discriminate]. injection L as <- <-. cbn [tb_world].
    destruct d as [d|d|d|d|d]; cbn [define_any] in E; destruct (define _ _ _ _) as [x|] eqn:D; cbn [bind] in E; try discriminate E; injection E as <-;
      cbn [net_grp port_grp service_grp proto_grp icmp_grp w_net w_port w_service w_proto w_icmp next_gid]; rewrite !app_nil_r, (define_number _ _ _ _ _ D);
      destruct K as (K1 & K2 & K3 & K4 & K5); repeat split; try assumption; try apply table_last_snoc; try assumption; apply K1 || apply K2 || apply K3 || apply K4 || apply K5.
  Qed.
  Lemma defs_made store t (f : made -> list (pystr * nat)) : (forall k m, definition_of store t (item_of k m) = f m) -> forall ms k, definitions store t (items_from k ms) = flat_map f ms.
  Proof using. clear. intros E ms. unfold definitions. induction ms as [|m ms IH]; intros k; [reflexivity|]. cbn [items_from flat_map]. now rewrite IH, E. Qed.
  Theorem C58_groups : forall data cs ms T, parse_file data = Ok (cs, ms, T) ->
    Config.c_netgrp (config_of ms) = fst (w_net (tb_world T)) /\ Config.c_portgrp (config_of ms) = fst (w_port (tb_world T)) /\
    Config.c_svcgrp (config_of ms) = fst (w_service (tb_world T)) /\ Config.c_protogrp (config_of ms) = fst (w_proto (tb_world T)) /\
    Config.c_icmpgrp (config_of ms) = fst (w_icmp (tb_world T)).
  Proof using.
    intros data cs ms T H. apply parse_runs, group_tables in H as (K1 & K2 & K3 & K4 & K5). unfold config_of.
    assert (D : forall t f, t <> TNetObj -> (forall k m, definition_of (iface_store ms) t (item_of k m) = f m) -> table_of_last (flat_map f ms) (table_in t (Config.build (iface_store ms) (items_from 0 ms)))).
    { intros t f N E. rewrite <- (defs_made _ _ _ E ms 0). now apply Config.C27_tables. }
    repeat split; eapply table_of_last_unique; try eassumption.
    - apply (D TNetGrp net_grp); [discriminate|]. intros k m. destruct m as [| | | | | | |p [n|]|o|d g| | |]; try reflexivity; now destruct d.
    - apply (D TPortGrp port_grp); [discriminate|]. intros k m. destruct m as [| | | | | | |p [n|]|o|d g| | |]; try reflexivity; now destruct d.
    - apply (D TSvcGrp service_grp); [discriminate|]. intros k m. destruct m as [| | | | | | |p [n|]|o|d g| | |]; try reflexivity; now destruct d.
    - apply (D TProtoGrp proto_grp); [discriminate|]. intros k m. destruct m as [| | | | | | |p [n|]|o|d g| | |]; try reflexivity; now destruct d.
    - apply (D TIcmpGrp icmp_grp); [discriminate|]. intros k m. destruct m as [| | | | | | |p [n|]|o|d g| | |]; try reflexivity; now destruct d.
  Qed.
  (** C58: the other tables, by the positions of the commands.  Service objects: the last
      definition is in the table, though references use the first (C58_known). *)
  Theorem C58_tables : forall data cs ms T, parse_file data = Ok (cs, ms, T) ->
    Config.c_time (config_of ms) = tb_time T /\ table_of_last (map swap (found ifaces_in cs)) (Config.c_ifaces (config_of ms)) /\
    table_of_first (map swap (found netobjs_in cs)) (Config.c_netobj (config_of ms)) /\
    table_of_last (map swap (found (fun c => map so_name (svcobjs_in c)) cs)) (Config.c_svcobj (config_of ms)).
  Proof using.
    intros data cs ms T H. pose proof (C58_known _ _ _ _ H) as K. apply parse_runs, runs_made in H. cbn [tb_count no_tables] in H. unfold config_of.
    split; [|split; [|split]].
    - eapply table_of_last_unique; [|apply (kn_time _ _ _ K)]. rewrite <- (defs_positions (iface_store ms) TTime times_in cs ms); [|intros k c m M; destruct M; try reflexivity; now destruct d|exact H].
      apply (Config.C27_tables _ _ TTime). discriminate.
    - set (st := iface_store ms). assert (E : definitions st TIface (items_from 0 ms) = map swap (found ifaces_in cs)).
      { assert (G : forall k cs' ms', all_made k cs' ms' -> (forall j i, nth_error ms' j = Some (MIface i) -> st (k + j) = i) ->
          definitions st TIface (items_from k ms') = flat_map (fun ka => map (fun b => (b, fst ka)) (ifaces_in (snd ka))) (numbered k cs')).
        { induction 1 as [|k c m cs' ms' M _ IH]; intros S; [reflexivity|]. unfold definitions in *. cbn [items_from flat_map numbered]. rewrite IH.
          - f_equal. destruct M; try reflexivity; [|now destruct d]. cbn. pose proof (S 0 i eq_refl) as S0. rewrite Nat.add_0_r in S0. rewrite S0.
            now rewrite (proj1 (proj2 (Ifaces.C32_interface_bindings _ _ _ _ H0))).
          - intros j i Hj. rewrite <- (S (Datatypes.S j) i Hj). now rewrite Nat.add_succ_r. }
        unfold found. rewrite swap_flat. apply G; [exact H|]. intros j i Hj. unfold st, iface_store. cbn. now rewrite Hj. }
      rewrite <- E. apply (Config.C27_tables _ _ TIface). discriminate.
    - rewrite <- (defs_positions (iface_store ms) TNetObj netobjs_in cs ms); [apply Config.C27_network_objects| |exact H].
      intros k c m M. destruct M; try reflexivity; [|now destruct d]. destruct nat; cbn; now rewrite H0.
    - rewrite <- (defs_positions (iface_store ms) TSvcObj (fun c => map so_name (svcobjs_in c)) cs ms); [|intros k c m M; destruct M; try reflexivity; now destruct d|exact H].
      apply (Config.C27_tables _ _ TSvcObj). discriminate.
  Qed.
  (** C58: the NAT sections. *)
  Lemma after_iff n : after_object n = true <-> Config.manual_after (nat_opts n).
  Proof using. apply Config.is_after_iff. Qed.
  Lemma sections_of s (f : nat -> made -> list nat) : (forall k m, Config.section_of s [item_of k m] (f k m)) ->
    forall ms k, Config.section_of s (items_from k ms) (flat_map (fun km => f (fst km) (snd km)) (numbered k ms)).
  Proof using. clear. intros E ms. induction ms as [|m ms IH]; intros k; [constructor|]. cbn [items_from numbered flat_map]. apply (Config.section_of_app _ [_]); [apply E|apply IH]. Qed.
  Lemma numbered_made {B} (f : command -> list B) (g : made -> list B) : (forall k c m, makes k c m -> f c = g m) -> forall k cs ms, all_made k cs ms ->
    map fst (flat_map (fun ka => map (pair (fst ka)) (g (snd ka))) (numbered k ms)) = map fst (flat_map (fun ka => map (pair (fst ka)) (f (snd ka))) (numbered k cs)).
  Proof using. clear. intros E k cs ms A. induction A as [|k c m cs ms M _ IH]; [reflexivity|]. cbn [numbered flat_map fst snd]. now rewrite !map_app, IH, (E _ _ _ M). Qed.
  Definition manual_made (after : bool) (m : made) : list natobj := match m with MNat n => if Bool.eqb (after_object n) after then [n] else [] | _ => [] end.
  Theorem C58_nat_sections : forall data cs ms T, parse_file data = Ok (cs, ms, T) ->
    Config.c_nat1 (config_of ms) = positions nats_first cs /\ Config.c_nat2 (config_of ms) = positions object_nats ms /\
    Config.c_nat3 (config_of ms) = positions nats_last cs.
  Proof using.
    intros data cs ms T H. apply parse_runs, runs_made in H. cbn [tb_count no_tables] in H. unfold config_of, positions, found.
    pose proof (Config.C29_sections (iface_store ms) (items_from 0 ms)) as S. cbn [Config.section] in S.
    assert (G : forall s f l, Config.section_of s (items_from 0 ms) l -> (forall k m, Config.section_of s [item_of k m] (f k m)) -> l = flat_map (fun km => f (fst km) (snd km)) (numbered 0 ms)).
    { intros s f l A B. eapply section_list; [exact A|]. now apply sections_of. }
    split; [|split].
    - rewrite <- (numbered_made nats_first (manual_made false) ltac:(intros k c m M; destruct M; try reflexivity; unfold nats_first; cbn; now destruct (after_object n)) 0 cs ms H).
      rewrite positions_flat. apply (G 1 (fun k m => map (fun _ => k) (manual_made false m))); [apply (S 1)|].
      intros k m. destruct m as [| | | | | | |p [n|]|o|[d|d|d|d|d] g| |n|]; try (apply Config.SO_skip; [intros y Hy; inversion Hy; fail|constructor]). cbn [item_of manual_made]. destruct (after_object n) eqn:E; cbn [map Bool.eqb].
      + apply Config.SO_skip; [|constructor]. intros x Hx. inversion Hx; subst. now apply after_iff in E.
      + apply Config.SO_take; [|constructor]. constructor. intros M. apply after_iff in M. congruence.
    - rewrite positions_flat. apply (G 2 (fun k m => map (fun _ => k) (object_nats m))); [apply (S 2)|].
      intros k m. destruct m as [| | | | | | |p [n|]|o|[d|d|d|d|d] g| |n|]; try (apply Config.SO_skip; [intros y Hy; inversion Hy; fail|constructor]).
      apply Config.SO_take; constructor.
    - rewrite <- (numbered_made nats_last (manual_made true) ltac:(intros k c m M; destruct M; try reflexivity; unfold nats_last; cbn; now destruct (after_object n)) 0 cs ms H).
      rewrite positions_flat. apply (G 3 (fun k m => map (fun _ => k) (manual_made true m))); [apply (S 3)|].
      intros k m. destruct m as [| | | | | | |p [n|]|o|[d|d|d|d|d] g| |n|]; try (apply Config.SO_skip; [intros y Hy; inversion Hy; fail|constructor]). cbn [item_of manual_made]. destruct (after_object n) eqn:E; cbn [map Bool.eqb].
      + apply Config.SO_take; [|constructor]. constructor. now apply after_iff.
      + apply Config.SO_skip; [|constructor]. intros x Hx. inversion Hx; subst. apply after_iff in H1. congruence.
  Qed.

  (** ** Interfaces *)
  Lemma constructed_made cs ms : all_made 0 cs ms -> constructed (iface_store ms).
  Proof using.
    clear. intros A j. assert (G : forall k, all_made k cs ms -> forall j i, nth_error ms j = Some (MIface i) -> exists a l, iface_init (k + j) a l = Ok i).
    { clear. intros k B. induction B as [|k c m cs0 ms0 M _ IH]; intros [|j0] i E; try discriminate E; cbn [nth_error] in E.
      - injection E as ->. inversion M; subst. rewrite Nat.add_0_r. eauto.
      - rewrite Nat.add_succ_r. exact (IH j0 i E). }
    unfold iface_store. destruct (nth_error ms j) as [m|] eqn:E; [|exists [], []; reflexivity]. destruct m; try (exists [], []; reflexivity). apply (G 0 A j i E).
  Qed.
  (** C58: the interfaces are those the commands describe. *)
  Theorem C58_interfaces : forall data cs ms T, parse_file data = Ok (cs, ms, T) -> constructed (iface_store ms) /\
    forall k a l, nth_error cs k = Some (CSimple (SInterface a l)) -> iface_init k a l = Ok (iface_store ms k).
  Proof using.
    intros data cs ms T H. pose proof (C58_made _ _ _ _ H) as (L & M). split; [apply parse_runs, runs_made, constructed_made in H; exact H|].
    intros k a l E. unfold iface_store. destruct (nth_error ms k) as [m|] eqn:F.
    - pose proof (M _ _ _ E F) as X. inversion X; subst. assumption.
    - apply nth_error_None in F. assert (k < length cs) by (apply nth_error_Some; congruence). lia.
  Qed.
  Lemma items_nth ms : forall k j, nth_error (items_from k ms) j = option_map (item_of (k + j)) (nth_error ms j).
  Proof using. clear. induction ms as [|m ms IH]; intros k [|j]; try reflexivity; cbn [items_from nth_error]; [now rewrite Nat.add_0_r|]. rewrite IH. now rewrite Nat.add_succ_r. Qed.
End Contents.

(** ** Access groups *)
Lemma nodup_where {A B} (f : A -> list B) x : forall l i j a b, NoDup (flat_map f l) -> nth_error l i = Some a -> nth_error l j = Some b -> In x (f a) -> In x (f b) -> i = j.
Proof.
  induction l as [|y l IH]; intros [|i] [|j] a b N Ei Ej Ia Ib; try discriminate; try reflexivity; cbn [nth_error flat_map] in *.
  - exfalso. injection Ei as ->. assert (In x (flat_map f l)) by (apply in_flat_map; exists b; split; [eapply nth_error_In; eauto|auto]).
    clear - N Ia H. induction (f a) as [|z t IH]; [destruct Ia|]. cbn in N. apply NoDup_cons_iff in N as (N1 & N2). destruct Ia as [->|Ia]; [|auto]. apply N1, in_app_iff. now right.
  - exfalso. injection Ej as ->. assert (In x (flat_map f l)) by (apply in_flat_map; exists a; split; [eapply nth_error_In; eauto|auto]).
    clear - N Ib H. induction (f b) as [|z t IH]; [destruct Ib|]. cbn in N. apply NoDup_cons_iff in N as (N1 & N2). destruct Ib as [->|Ib]; [|auto]. apply N1, in_app_iff. now right.
  - f_equal. eapply IH; eauto. clear - N. induction (f y) as [|z t IH]; [auto|]. cbn in N. apply NoDup_cons_iff in N. tauto.
Qed.
Lemma nth_error_firstn' {A} (l : list A) : forall k p, p < k -> nth_error (firstn k l) p = nth_error l p.
Proof. induction l as [|x l IH]; intros [|k] [|p] L; try reflexivity; try lia. cbn. apply IH. lia. Qed.
Lemma iface_defs ms k a j : In (a, j) (definitions (iface_store ms) TIface (firstn k (items_from 0 ms))) <->
  j < k /\ exists i, nth_error ms j = Some (MIface i) /\ a = if_alias i.
Proof.
  unfold definitions. rewrite in_flat_map. split.
  - intros (it & I & D). apply In_nth_error in I as (p & E).
    assert (Lt : p < k). { assert (p < length (firstn k (items_from 0 ms))) by (apply nth_error_Some; congruence). rewrite firstn_length in H. lia. }
    rewrite nth_error_firstn' in E by exact Lt. rewrite items_nth in E. cbn [Nat.add] in E. destruct (nth_error ms p) as [m|] eqn:F; [|discriminate]. injection E as <-.
    destruct m as [| | | | |i| |? [?|]| |[?|?|?|?|?] ?| | |]; cbn in D; try (destruct D; fail). destruct D as [D|[]]. injection D as <- <-. split; [exact Lt|]. exists i. split; [exact F|]. unfold iface_store. now rewrite F.
  - intros (Lt & i & E & ->). exists (Config.KIface j). split.
    + apply nth_error_In with j. rewrite nth_error_firstn' by exact Lt. rewrite items_nth, E. reflexivity.
    + cbn. left. unfold iface_store. now rewrite E.
Qed.
Lemma concerned ms k s j : NoDup (flat_map nameifs_made ms) -> NoDup (flat_map (fun m => match m with MIface i => [if_alias i] | _ => [] end) ms) ->
  concerns (iface_store ms) (firstn k (items_from 0 ms)) s j <-> j < k /\ exists i, nth_error ms j = Some (MIface i) /\ if_nameif i = Some s.
Proof.
  intros N1 N2. set (st := iface_store ms). set (pre := firstn k (items_from 0 ms)). split.
  - intros (t & before & a & after & (_ & D) & -> & Nm & _). assert (I : last_def (definitions st TIface pre) a j) by (apply D, in_app_iff; right; now left).
    destruct I as (p & q & E & _). assert (I : In (a, j) (definitions st TIface pre)) by (rewrite E; apply in_app_iff; right; now left).
    apply iface_defs in I as (Lt & i & F & _). split; [exact Lt|]. exists i. split; [exact F|]. unfold ConfigSpec.named, st, iface_store in Nm. now rewrite F in Nm.
  - intros (Lt & i & F & Nm). pose proof (Config.C27_tables st pre TIface ltac:(discriminate)) as T. pose proof (table_last_nodup _ _ T) as ND.
    destruct T as (Kt & D). set (t := table_in TIface (Config.build st pre)) in *.
    assert (I : In (if_alias i, j) t).
    { assert (K : In (if_alias i) (map fst t)). { rewrite Kt. apply first_occ_in. apply (in_map fst _ (if_alias i, j)). apply iface_defs. eauto. }
      apply in_map_iff in K as ((a, j') & Ea & I). cbn in Ea. subst a. assert (j = j'); [|now subst]. apply D in I. destruct I as (p & q & E & _).
      assert (I : In (if_alias i, j') (definitions st TIface pre)) by (rewrite E; apply in_app_iff; right; now left). apply iface_defs in I as (_ & i' & F' & E').
      apply (nodup_where _ (if_alias i) _ _ _ _ _ N2 F F'); [now left|]. left. auto. }
    apply in_split in I as (before & after & Et). exists t, before, (if_alias i), after. split; [split; assumption|]. split; [exact Et|]. split.
    + unfold ConfigSpec.named, st, iface_store. now rewrite F.
    + intros (a', j') Ib Nb. cbn [snd] in Nb.
      assert (I : In (a', j') t) by (rewrite Et; apply in_app_iff; now left). apply D in I. destruct I as (p & q & E & _).
      assert (I : In (a', j') (definitions st TIface pre)) by (rewrite E; apply in_app_iff; right; now left). apply iface_defs in I as (_ & i' & F' & ->).
      unfold ConfigSpec.named, st, iface_store in Nb. rewrite F' in Nb.
      assert (j = j') by (apply (nodup_where _ s _ _ _ _ _ N1 F F'); cbn; [rewrite Nm|rewrite Nb]; now left). subst j'. rewrite F in F'. injection F' as <-.
      rewrite Et, map_app in ND. apply NoDup_remove_2 in ND. apply ND, in_app_iff. left. apply (in_map fst _ _ Ib).
Qed.
Lemma aliases_same : forall k0 cs ms, length ms = length cs -> (forall k c m, nth_error cs k = Some c -> nth_error ms k = Some m -> makes (k0 + k) c m) ->
  flat_map ifaces_in cs = flat_map (fun m => match m with MIface i => [if_alias i] | _ => [] end) ms.
Proof.
  intros k0 cs. revert k0. induction cs as [|c cs IH]; intros k0 [|m ms] L A; try discriminate; [reflexivity|]. cbn [flat_map]. injection L as L.
  rewrite (IH (S k0) ms L); [|intros k c' m' E F; pose proof (A (S k) c' m' E F) as M; now rewrite Nat.add_succ_r in M].
  f_equal. pose proof (A 0 c m eq_refl eq_refl) as M. destruct M; try reflexivity. cbn. now rewrite (proj1 (proj2 (Ifaces.C32_interface_bindings _ _ _ _ H))).
Qed.
Section Bind.
  Variables (cs : list command) (ms : list made).
  Hypothesis (A : forall k c m, nth_error cs k = Some c -> nth_error ms k = Some m -> makes k c m) (L : length ms = length cs)
    (N1 : NoDup (flat_map nameifs_made ms)) (N2 : NoDup (flat_map ifaces_in cs)).
  Lemma aliases_once : NoDup (flat_map (fun m => match m with MIface i => [if_alias i] | _ => [] end) ms).
  Proof using A L N2.
    replace (flat_map (fun m => match m with MIface i => [if_alias i] | _ => [] end) ms) with (flat_map ifaces_in cs); [exact N2|].
    now apply (aliases_same 0).
  Qed.
  Lemma binds_at pre j d name : binds (iface_store ms) (items_from 0 ms) pre j d name <-> pre = firstn (length pre) (items_from 0 ms) /\ bound_at cs ms (length pre) j d name.
  Proof using A L N1 N2.
    split.
    - intros (s & post & E & C). assert (P : pre = firstn (length pre) (items_from 0 ms)) by (rewrite E, firstn_app, Nat.sub_diag, firstn_all, app_nil_r; reflexivity).
      split; [exact P|]. rewrite P in C. apply (concerned ms _ s j N1 aliases_once) in C as (Lt & i & F & Nm).
      assert (X : nth_error (items_from 0 ms) (length pre) = Some (Config.KAccessGroup s name d)) by (rewrite E, nth_error_app2, Nat.sub_diag by lia; reflexivity).
      rewrite items_nth in X. destruct (nth_error ms (length pre)) as [m|] eqn:Em; [|discriminate X].
      destruct (nth_error cs (length pre)) as [c|] eqn:Ec; [|apply nth_error_None in Ec; assert (length pre < length ms) by (apply nth_error_Some; congruence); lia].
      pose proof (A _ _ _ Ec Em) as M. exists s, i. split; [|auto]. destruct M as [| | | | | | | |? ? ? p [nt|]| |[?|?|?|?|?] g| | | | | | |]; cbn in X; try discriminate X. now injection X as -> -> ->.
    - intros (P & s & i & E & Lt & F & Nm). destruct (nth_error ms (length pre)) as [m|] eqn:Em; [|apply nth_error_None in Em; assert (length pre < length cs) by (apply nth_error_Some; congruence); lia].
      pose proof (A _ _ _ E Em) as M. inversion M; subst. assert (X : nth_error (items_from 0 ms) (length pre) = Some (Config.KAccessGroup s name d)) by (rewrite items_nth, Em; reflexivity).
      apply nth_error_split in X as (p & q & E' & Lp). exists s, q. assert (p = pre) by (rewrite P, E', <- Lp, firstn_app, Nat.sub_diag, firstn_all, app_nil_r; reflexivity). subst p. split; [exact E'|].
      rewrite P. apply (concerned ms _ s j N1 aliases_once). eauto.
  Qed.
  Lemma bound_finally_iff j d name : finally_bound (iface_store ms) (items_from 0 ms) j d name <-> bound_finally cs ms j d name.
  Proof using A L N1 N2.
    assert (W : forall k name', bound_at cs ms k j d name' -> exists pre, length pre = k /\ binds (iface_store ms) (items_from 0 ms) pre j d name').
    { intros k name' B. assert (Lk : k < length ms) by (rewrite L; destruct B as (s & i & E & _); apply nth_error_Some; congruence).
      exists (firstn k (items_from 0 ms)). assert (Li : forall n l, length (items_from n l) = length l) by (intros n l; revert n; induction l; intros; cbn; auto).
      assert (Lf : length (firstn k (items_from 0 ms)) = k) by (rewrite firstn_length, Li; lia). split; [exact Lf|]. apply binds_at. rewrite Lf. auto. }
    split.
    - intros (pre & B & F). exists (length pre). split; [apply binds_at; exact B|]. intros k' name' Lt B'. apply W in B' as (pre' & <- & B'). now apply (F pre' name').
    - intros (k & B & F). apply W in B as (pre & <- & B). exists pre. split; [exact B|]. intros pre' name' Lt B'. apply binds_at in B' as (_ & B'). now apply (F _ _ Lt) in B'.
  Qed.
End Bind.

Lemma file_split isalnum isspace other T cs ms T' s : file_text isalnum isspace other T cs ms T' s -> forall cs1 c cs2, cs = cs1 ++ c :: cs2 ->
  exists s1 t r T0 ms1 m ms2, s = s1 ++ t ++ r /\ ms = ms1 ++ m :: ms2 /\ runs T cs1 ms1 T0 /\ command_text isalnum isspace other T0 c t r.
Proof.
  induction 1 as [T|T c t r T' m cs ms T'' C L F IH]; intros cs1 c' cs2 E; [now destruct cs1|].
  destruct cs1 as [|x cs1]; cbn [app] in E; injection E as -> ->.
  - exists [], t, r, T, [], m, ms. repeat split; auto. constructor.
  - destruct (IH cs1 c' cs2 eq_refl) as (s1 & t' & r' & T0 & ms1 & m' & ms2 & -> & -> & R & C'). exists (t ++ s1), t', r', T0, (m :: ms1), m', ms2.
    split; [now rewrite <- app_assoc|]. split; [reflexivity|]. split; [econstructor; eauto|auto].
Qed.
Section Whole.
  Context (isalpha isalnum isspace : N -> bool) (OK : classes_ok isalpha isalnum isspace).
  Context (py_int : pystr -> option Z)
          (PI1 : forall n, n <> [] -> forallb AddrText.is_digit n = true -> py_int n <> None)
          (PI2 : forall n, In n port_code -> py_int n = None).
  Notation parse_file := (parse_file isalpha isalnum isspace py_int).

  (** C58: each command is read with the names the commands before it define. *)
  Theorem C58_before : forall data cs1 c cs2 ms T, parse_file data = Ok (cs1 ++ c :: cs2, ms, T) -> well_named isalnum (cs1 ++ c :: cs2) ->
    exists T0 s t r, known cs1 (firstn (length cs1) ms) T0 /\ data ++ lf = s ++ t ++ r /\ command_text isalnum isspace other_line T0 c t r.
  Proof using OK PI1 PI2.
    intros data cs1 c cs2 ms T H W. apply (C57_reads _ _ _ OK _ PI1 PI2) in H; [|exact W]. destruct (file_split _ _ _ _ _ _ _ _ H cs1 c cs2 eq_refl) as (s & t & r & T0 & ms1 & m & ms2 & E & -> & R & C).
    exists T0, s, t, r. destruct (runs_count _ _ _ _ R) as (_ & L). rewrite <- L, firstn_app, Nat.sub_diag, firstn_all, app_nil_r. split; [now apply runs_known|auto].
  Qed.
  (** C58: a manual NAT line is in the last section exactly if a position is written. *)
  Theorem C58_nat_position : forall data cs1 n cs2 ms T, parse_file data = Ok (cs1 ++ CNat (Some n) :: cs2, ms, T) -> well_named isalnum (cs1 ++ CNat (Some n) :: cs2) ->
    exists T0 a s t r, known cs1 (firstn (length cs1) ms) T0 /\ data ++ lf = s ++ t ++ r /\ NatTextSpec.nat_line_text (env_of T0) (tb_if T0) a t /\
      nat_action a = Ok (Some n) /\ (after_object n = true <-> na_pos a = true).
  Proof using OK PI1 PI2.
    intros data cs1 n cs2 ms T H W. destruct (C58_before _ _ _ _ _ _ H W) as (T0 & s & t & r & K & E & C). inversion C as [| | | | | |a n' t' r' X A| | | ]; subst.
    exists T0, a, s, t, r. repeat (split; [assumption|]). rewrite after_iff. apply Config.C29_written_position; [exact A|].
    assert (G : forall f, In (OFlag f) (na_options a) -> words ["net-to-net"; "dns"; "unidirectional"; "no-proxy-arp"; "inactive"; "route-lookup"]%string f).
    { clear - X. intros f I. inversion X as [g na i n' i' pos tp g1 g2 static g3 r tr g4 m tm d td v tv o to X1 X2 X3 X4 X5 X6 X7 X8 X9 X10 X11 X12 Ta]; subst. cbn [na_options] in I.
      assert (Fl : forall l t, each NatTextSpec.flag_text l t -> In (OFlag f) l -> words ["net-to-net"; "dns"; "unidirectional"; "no-proxy-arp"; "inactive"; "route-lookup"]%string f).
      { induction 1 as [|? ? ? ? ? ? F ? IH]; intros J; [destruct J|]. destruct J as [->|J]; [|auto]. now inversion F. }
      inversion Ta; subst; [eauto|]. apply in_app_iff in I as [I|[I|[]]]; [eauto|discriminate I]. }
    intros f I. apply G in I as (w & Iw & ->). repeat (destruct Iw as [<-|Iw]; [split; discriminate|]). destruct Iw.
  Qed.
  (** C58: an interface is bound by the last access-group line of a direction that names it. *)
  Theorem C58_bindings : forall data cs ms T, parse_file data = Ok (cs, ms, T) -> well_named isalnum cs ->
    NoDup (flat_map nameifs_made ms) -> NoDup (flat_map ifaces_in cs) -> forall j d v,
    dget (if_groups (Config.c_store (config_of ms) j)) d = Some v <-> exists name, bound_finally cs ms j d name /\ v = mkag (IfObj j) name d.
  Proof using OK PI1 PI2.
    intros data cs ms T H W N1 N2 j d v. destruct (C58_made _ _ _ _ _ _ _ _ H) as (L & M). unfold config_of. rewrite Ifaces.C32_bindings.
    assert (G : if_groups (iface_store ms j) = []).
    { unfold iface_store. destruct (nth_error ms j) as [m|] eqn:E; [|reflexivity]. destruct m as [| | | | |i| | | | | | |]; try reflexivity.
      destruct (nth_error cs j) as [c|] eqn:Ec; [|apply nth_error_None in Ec; assert (j < length ms) by (apply nth_error_Some; congruence); lia].
      pose proof (M _ _ _ Ec E) as X. inversion X as [| | | | | |a l i' Ii| | | | | | | | | | |]; subst.
      apply nth_error_split in Ec as (cs1 & cs2 & -> & _). destruct (C58_before _ _ _ _ _ _ H W) as (T0 & s & t & r & _ & _ & C). inversion C as [y t' r' S _| | | | | | | | |]; subst.
      destruct (Ifaces.C32_interface_bindings _ _ _ _ Ii) as ((K & _) & _ & _).
      replace (flat_map (detail_group j) l) with (@nil (pystr * agroup)) in K; [now destruct (if_groups i)|].
      inversion S as [| | | | | | | |g a' z l' t0 _ _ _ D|]; subst. clear - D. induction D as [|dt t l ts Kt _ IH|t l ts _ _ _ IH]; [reflexivity| |exact IH]. destruct Kt; exact IH. }
    split.
    - intros [(name & B & ->)|(_ & E)]; [|rewrite G in E; discriminate E]. exists name. split; [|reflexivity]. now apply (bound_finally_iff cs ms M L N1 N2).
    - intros (name & B & ->). left. exists name. split; [|reflexivity]. now apply (bound_finally_iff cs ms M L N1 N2).
  Qed.
End Whole.

(** ** Example: the configuration of C57 *)
Example C58_ex : exists cs ms T, pf C57_data = Ok (cs, ms, T) /\ well_named ascii_alnum cs /\ NoDup (flat_map nameifs_made ms) /\ NoDup (flat_map ifaces_in cs) /\
  Config.c_rules (config_of ms) = [18; 19] /\ Config.c_nat1 (config_of ms) = [22] /\ Config.c_nat2 (config_of ms) = [14] /\
  Config.c_netobj (config_of ms) = [(u "web", 13)] /\ Config.c_netgrp (config_of ms) = [(u "servers", 0); (u "all", 1)] /\
  dget (if_groups (Config.c_store (config_of ms) 7)) (u "in") = Some (mkag (IfObj 7) (u "ACL") (u "in")).
Proof.
  destruct C57_ex1 as (cs & ms & T & H & _ & W). exists cs, ms, T. split; [exact H|]. split; [exact W|].
  assert (R : pf C57_data = Ok match C57_result with Some x => x | None => ([], [], no_tables) end) by (vm_compute; reflexivity).
  rewrite H in R. unfold C57_result in R. injection R as -> -> ->. clear.
  repeat split.
  1, 2: match goal with |- NoDup ?x => let y := eval vm_compute in x in change (NoDup y) end; repeat constructor; intros I; repeat (destruct I as [I|I]; [discriminate I|]); destruct I.
Qed.
(** A service object defined twice: the table of the configuration has the last definition,
    a reference uses the first. *)
Example C58_service_objects : exists cs ms T,
  pf (line "object service s" ++ line " service tcp destination eq 80" ++ line "object service s" ++ line " service tcp destination eq 443") = Ok (cs, ms, T) /\
  Config.c_svcobj (config_of ms) = [(u "s", 1)] /\ option_map (fun o => Some (MSvcObj o)) (dget (tb_svcobj T) (u "s")) = Some (nth_error ms 0) /\ nth_error ms 0 <> nth_error ms 1.
Proof. eexists _, _, _. split; [vm_compute; reflexivity|]. split; [vm_compute; reflexivity|]. split; [vm_compute; reflexivity|vm_compute; discriminate]. Qed.

Print Assumptions C58_made.
Print Assumptions C58_known.
Print Assumptions C58_before.
Print Assumptions C58_contents.
Print Assumptions C58_groups.
Print Assumptions C58_tables.
Print Assumptions C58_nat_sections.
Print Assumptions C58_nat_position.
Print Assumptions C58_interfaces.
Print Assumptions C58_bindings.
