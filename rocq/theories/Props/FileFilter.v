(** C59: filtering a configuration given as text by an expression given as text. *)
From Coq Require Import Lia String.
From Verif.Model Require Import Base Ip Hosts Groups Rules Caf Nat Iface Peg Ids AddrText Ports AclText Define GroupText ObjText LineText NatText FileText CafText FileFilter.
From Verif.Model Require Config.
From Verif.Spec Require Import AddrSpec FilterSpec CafSpec CafMeanSpec CafTextSpec AclTextSpec GroupTextSpec FileTextSpec FileConfigSpec FileFilterSpec.
From Verif.Proofs Require Import CafFacts CafTextFacts CafExpr CafMean FileGood.
From Verif.Props Require Define Expand.
From Verif.Props Require Import Filter CafText AclText FileText FileConfig.
Local Open Scope list_scope.

(** ** The groups of the expression do not matter to the configuration *)
Section Transfer.
  Variables (T : tables) (h' : heap).
  Context (G : tables_good T) (X : extends (snd (w_net (tb_world T))) h').
  Notation h := (snd (w_net (tb_world T))).
  Lemma same_objs g : g < h_next h -> objs h' g = objs h g.
  Proof using X. intros L. destruct X as (_ & E). unfold objs. now rewrite E. Qed.
  Lemma member_good g x : In x (objs h g) -> g < h_next h /\ host_good (h_next h) x.
  Proof using G. intros I. destruct (tg_heap T G _ _ I) as (L & H). split; [auto|]. eapply host_good_le; [|exact H]. lia. Qed.
  Lemma reach_good x l : reaches h' x l -> host_good (h_next h) x -> leaf_good l.
  Proof using G X.
    intros R. induction R as [l|o l I|g m l I _ IH]; cbn [host_good].
    - auto.
    - intros F. rewrite Forall_forall in F. exact (proj1 (F _ I)).
    - intros L. rewrite same_objs in I by auto. apply IH. now apply member_good in I.
  Qed.
  Lemma matches_same x a : host_good (h_next h) x -> matches h' x a <-> matches h x a.
  Proof using G X.
    intros H. split; intros M; revert H; (induction M as [l a M|o l a I M|g m a I M IH]; intros H; [now constructor|econstructor; eauto; fail|]).
    - cbn [host_good] in H. rewrite same_objs in I by auto. eapply M_grp; [exact I|]. apply IH. now apply member_good in I.
    - cbn [host_good] in H. eapply M_grp; [rewrite same_objs by auto; exact I|]. apply IH. now apply member_good in I.
  Qed.
  Lemma via_same x y : host_good (h_next h) x -> via_groups h' x y <-> via_groups h x y.
  Proof using G X.
    intros H. split; intros M; revert H; (induction M as [x|g m x I M IH]; intros H; [constructor|]).
    - cbn [host_good] in H. rewrite same_objs in I by auto. eapply VG_grp; [exact I|]. apply IH. now apply member_good in I.
    - cbn [host_good] in H. eapply VG_grp; [rewrite same_objs by auto; exact I|]. apply IH. now apply member_good in I.
  Qed.
  Lemma net_same n y : host_good (h_next h) y -> net_selects h' n y <-> net_selects h n y.
  Proof using G X.
    intros H. destruct n; cbn [net_selects]; try tauto; try (setoid_rewrite (via_same y) || setoid_rewrite (matches_same y) || rewrite (matches_same y)); auto; tauto.
  Qed.
  Lemma side_same d objects y : host_good (h_next h) y -> side_selects h' d objects y <-> side_selects h d objects y.
  Proof using G X.
    intros H. unfold side_selects. split; intros [N|(l & t & n & A & B & C & D)]; auto; right; exists l, t, n; repeat split; auto; now apply (net_same n y H).
  Qed.
  Lemma endpoint_host n x : endpoint n x <-> In x (node_host n).
  Proof using. split; [intros []; now left|]. destruct n as [[| |y]|]; cbn; try tauto. intros [->|[]]. constructor. Qed.
  Lemma natside_same objects s : (forall x, In x (node_host (ns_src s) ++ node_host (ns_dst s)) -> host_good (h_next h) x) ->
    nat_side_selects h' objects s <-> nat_side_selects h objects s.
  Proof using G X.
    intros H. unfold nat_side_selects.
    assert (A : forall x d, endpoint (ns_src s) x \/ endpoint (ns_dst s) x -> side_selects h' d objects x <-> side_selects h d objects x).
    { intros x d E. apply side_same, H, in_or_app. rewrite !endpoint_host in E. tauto. }
    split; intros (P & Q & R); (split; [|split; [|exact R]]); intros x E; apply A; auto.
  Qed.
  Lemma clause_same id objects i : (forall x, In x (item_srcs i ++ item_dsts i) -> host_good (h_next h) x) ->
    clause_selects h' id objects i <-> clause_selects h id objects i.
  Proof using G X.
    intros H. destruct i as [r|n]; cbn [clause_selects].
    - cbn in H. rewrite !side_same by auto. tauto.
    - cbn [item_srcs item_dsts] in H.
      assert (A : forall s, Rules.nat_real n = Some s \/ Rules.nat_mapped n = Some s -> nat_side_selects h' objects s <-> nat_side_selects h objects s).
      { intros s E. apply natside_same. intros x I. apply H. unfold side_srcs, side_dsts. destruct E as [E|E]; rewrite E; repeat (rewrite in_app_iff in *); tauto. }
      split; (intros [(s & E & S)|(s & E & S)]; [left|right]; exists s; split; auto; apply A; auto).
  Qed.
  Lemma expr_same i : (forall x, In x (item_srcs i ++ item_dsts i) -> host_good (h_next h) x) -> forall e, expr_means h' i e <-> expr_means h i e.
  Proof using G X.
    intros H. refine (fix IHe e := _ with IHs x : set_means h' i x <-> set_means h i x := _ for IHe).
    - destruct e as [f l]. cbn [expr_means]. apply sequence_ext; [|tauto|apply IHs].
      assert (F : Forall (fun ox => set_means h' i (snd ox) <-> set_means h i (snd ox)) l).
      { induction l as [|ox l IHl]; constructor; [destruct ox as (o, x); apply (IHs x)|apply IHl]. }
      rewrite Forall_forall in F. intros o x I. exact (F _ I).
    - destruct x as [id [|[d l|e] [|o objects]]]; cbn [set_means]; try (now apply clause_same). apply IHe.
  Qed.
  (** Every entry can be compared with every clause. *)
  Lemma compare r i : item_good (h_next h) i -> id_regular (r_id r) -> term_wf h' (r_src r) -> wildfree h' (r_src r) -> term_wf h' (r_dst r) -> wildfree h' (r_dst r) ->
    comparable_item h' r i.
  Proof using G X.
    intros (R & H & K) Id W1 F1 W2 F2.
    assert (A : forall y, host_good (h_next h) y -> term_wf h' y /\ AddrSpec.plain h' y /\ wildfree h' y).
    { intros y Y. split; [|split]; intros l L; apply reach_good in L; auto; destruct L as (? & ? & ?); auto. }
    split; [auto|]. split; [|split; [|split; [auto|]]].
    - intros y I. destruct (A y) as (? & ? & ?); [apply H, in_or_app; auto|]. repeat split; auto.
    - intros y I. destruct (A y) as (? & ? & ?); [apply H, in_or_app; auto|]. repeat split; auto.
    - destruct i as [r'|n]; [|exact Logic.I]. destruct K as (id & E & N). intros s p E' (-> & _). exfalso. apply N. rewrite E in E'. injection E' as ->. now left.
  Qed.
End Transfer.

(** ** Ids *)
Lemma eval_ids : forall e, readable e -> forall h h' v, eval_expr h e = Ok (h', v) -> forall r, In r (clauses (block v)) -> In (r_id r) (expr_ids e).
Proof.
  refine (fix IHe e (R : readable e) {struct R} := _
          with IHs x (R : readable_set x) {struct R} : forall h h' v, eval_set h x = Ok (h', v) -> forall r, In r (clauses (block v)) -> In (r_id r) (set_ids x) := _
          for IHe).
  - destruct R as [f l Rf Rl]. intros h h' v E r I. rewrite eval_expr_eq in E. destruct (eval_set h f) as [(h1 & v1)|] eqn:E1; [|discriminate]. cbn [bind] in E.
    destruct (eval_rest h1 l) as [(h2 & vs)|] eqn:E2; [|discriminate]. cbn [bind] in E. destruct (expr_seq v1 vs) as (w & Ew & Cw & _). rewrite Ew in E. cbn [bind] in E. injection E as <- <-.
    cbn [expr_ids]. rewrite Cw in I. apply in_or_app. apply in_app_or in I as [I|I]; [left; eapply IHs; eauto|right]. clear Cw Ew E1 f Rf w v1.
    revert h1 h2 vs E2 I. induction Rl as [|(o, x) l Rx Rl IHl]; intros h1 h2 vs E2 I; cbn [eval_rest] in E2; [injection E2 as <- <-; destruct I|].
    destruct (eval_set h1 x) as [(h3 & v3)|] eqn:E3; [|discriminate]. cbn [bind] in E2. destruct (eval_rest h3 l) as [(h4 & vs4)|] eqn:E4; [|discriminate]. injection E2 as <- <-.
    cbn [flat_map snd] in *. apply in_or_app. apply in_app_or in I as [I|I]; [left; eapply (IHs x); eauto|right; eapply IHl; eauto].
  - intros h h' v E r I. destruct R as [id e Re|id objects H].
    + cbn [set_ids]. rewrite eval_set_eq in E. cbn [eval_objs eval_obj] in E. destruct (eval_expr h e) as [(h1 & w)|] eqn:E1; [|discriminate]. cbn in E. injection E as <- <-.
      eapply (IHe e Re); [exact E1|]. destruct w; exact I.
    + assert (S : set_ids (CS id objects) = [id]). { destruct objects as [|[d l|e] [|o objects]]; try reflexivity. destruct (H (OExpr e) (or_introl eq_refl)) as (? & ? & [=] & _). }
      rewrite S. left. clear S. rewrite eval_set_eq in E. destruct (eval_objs h objects) as [(h1 & os)|] eqn:E1; [|discriminate]. cbn [bind] in E.
      assert (K : forall o, In o os -> exists d ns, o = SIp d ns).
      { clear E I r v h'. revert h h1 os E1. induction objects as [|o objects IH]; intros h h1 os E1; cbn [eval_objs] in E1; [injection E1 as <- <-; intros ? []|].
        destruct (H o (or_introl eq_refl)) as (d & l & -> & _). cbn [eval_obj] in E1. destruct (map_r net_of_text l) as [ns|]; [|discriminate]. cbn [bind] in E1.
        destruct (eval_objs h objects) as [(h2 & os')|] eqn:E2; [|discriminate]. injection E1 as <- <-. intros o [<-|I]; [eauto|]. eapply IH; [|exact E2|exact I]. intros o' I'. apply H. now right. }
      unfold set_action in E. destruct (set_objects h1 os) as [(h2 & vs)|] eqn:E2; [|discriminate]. cbn [bind] in E.
      assert (F : forall c, vs <> [VExpr c]).
      { intros c ->. destruct (set_objects_inv _ _ _ _ E2) as (_ & F). { intros C. destruct (K _ C) as (? & ? & [=]). }
        inversion F as [|o v0 os' vs' Ho F' E3 E4]; subst. destruct (K o (or_introl eq_refl)) as (? & ? & ->). contradiction. }
      assert (R : exists src dst hh, v = VRule (mkrule id src dst) /\ h' = hh).
      { destruct vs as [|[d x|c] [|w vs]]; try (now destruct (F c)); match type of E with context [ip_terms ?l] => destruct (ip_terms l) as [ip|]; [|discriminate] end; cbn [bind] in E;
          destruct (side_node h2 _) as (h3 & src); destruct (side_node h3 _) as (h4 & dst); injection E as <- <-; eauto. }
      destruct R as (src & dst & hh & -> & _). destruct I as [<-|[]]. reflexivity.
Qed.
Lemma denotes_get {A B} (sel : rule -> A -> Prop) (get : B -> A) c : forall x, denotes (fun r x => sel r (get x)) c x <-> denotes sel c (get x).
Proof. induction c as [r|b IH|o a IHa b IHb]; intros x; cbn [denotes]; [tauto|apply IH|]. destruct o; rewrite IHa, IHb; tauto. Qed.
Lemma positions_in {A B} (f : A -> list B) l x : In x (positions f l) <-> exists a b, nth_error l x = Some a /\ In b (f a).
Proof.
  unfold positions, found.
  assert (K : forall k, In x (map fst (flat_map (fun ka => map (pair (fst ka)) (f (snd ka))) (numbered k l))) <-> exists j a b, x = k + j /\ nth_error l j = Some a /\ In b (f a)).
  { induction l as [|a l IH]; intros k; cbn [numbered flat_map map].
    - split; [intros []|intros ([|j] & a & b & _ & [=] & _)].
    - rewrite map_app, in_app_iff, IH. cbn [fst snd]. split.
      + intros [I|(j & a' & b & -> & E & I)]; [|exists (S j), a', b; rewrite Nat.add_succ_r; auto].
        rewrite map_map in I. apply in_map_iff in I as (b & <- & I). exists 0, a, b. rewrite Nat.add_0_r. auto.
      + intros ([|j] & a' & b & -> & E & I); [left|right; exists j, a', b; rewrite Nat.add_succ_r; auto].
        injection E as <-. rewrite map_map. apply in_map_iff. exists b. split; [cbn; lia|auto]. }
  rewrite K. split; [intros (j & a & b & -> & E & I); eauto|intros (a & b & E & I); exists x, a, b; auto].
Qed.

Lemma lines_members {X} (P : X -> pystr -> Prop) l t : lines_text P l t -> forall m, In m l -> exists t', P m t'.
Proof. induction 1 as [|m t l t' H _ IH]; intros x I; [destruct I|]. destruct I as [<-|I]; eauto. Qed.
Lemma ragged_members {X} (P : X -> pystr -> Prop) l t : ragged_text P l t -> forall m, In m l -> exists t', P m t'.
Proof. induction 1 as [|l t _ IH|m t l t' H _ IH]; intros x I; [destruct I|eauto|]. destruct I as [<-|I]; eauto. Qed.
Lemma def_plain E d t : def_text E d t -> Define.plain_any d.
Proof.
  intros [g d' s _ P|g d' s _ P|g d' s _ P|g d' s _ P|g g1 n g2 p z ds td ms tm _ _ _ _ _ _ _ R]; cbn [Define.plain_any]; try (destruct P as [n h ds td ms tm _ _ R]); intros x I; cbn [gd_members] in I;
    (eapply lines_members in R as (t' & H) || eapply ragged_members in R as (t' & H)); try exact I; inversion H; subst; try reflexivity; match goal with Gr : groupref_text _ _ _ _ |- _ => inversion Gr end.
Qed.
Lemma written_plain isalnum isspace other T cs ms T' s : file_text isalnum isspace other T cs ms T' s -> Forall Define.plain_any (flat_map groups_in cs).
Proof.
  induction 1 as [T|T c t r T1 m cs ms T2 H _ _ IH]; cbn [flat_map]; [constructor|]. apply Forall_app. split; [|exact IH].
  destruct H; cbn [groups_in]; constructor; [|constructor]. eapply def_plain; eauto.
Qed.

Section Whole.
  Context (isalpha isalnum isspace : N -> bool) (OK : classes_ok isalpha isalnum isspace).
  Context (py_int : pystr -> option Z)
          (PI1 : forall n, n <> [] -> forallb AddrText.is_digit n = true -> py_int n <> None)
          (PI2 : forall n, In n port_code -> py_int n = None).
  Notation parse_file := (parse_file isalpha isalnum isspace py_int).
  Notation file_filter := (file_filter isalpha isalnum isspace py_int).
  Notation file_rules_filter := (file_rules_filter isalpha isalnum isspace py_int).
  Notation caf_read := (caf_read isalpha isalnum isspace).
  Notation written_as := (written_as isalnum isspace).
  Notation groups_of T := (snd (w_net (tb_world T))).

  (** C59: groups are nested without cycles, and every entry that is made has resolved ends. *)
  Lemma file_is_good data cs ms T : parse_file data = Ok (cs, ms, T) -> well_named isalnum cs ->
    tables_good T /\ forall k m i, nth_error ms k = Some m -> made_item m = Some i -> item_good (h_next (groups_of T)) i.
  Proof using OK PI1 PI2.
    intros H W. apply (C57_reads _ _ _ OK _ PI1 PI2) in H; [|exact W]. destruct (file_good _ _ _ _ _ _ _ _ H nothing_good) as (G & _ & I).
    split; [exact G|]. intros k m i E. apply I. eapply nth_error_In; eauto.
  Qed.
  Lemma entry_made data cs ms T : parse_file data = Ok (cs, ms, T) -> forall k i, entry cs ms k i <-> exists m, nth_error ms k = Some m /\ made_item m = Some i.
  Proof using.
    clear OK PI1 PI2. intros H k i. destruct (C58_made _ _ _ _ _ _ _ _ H) as (L & M). split.
    - intros E. assert (P : forall c, nth_error cs k = Some c -> exists m, nth_error ms k = Some m /\ makes k c m).
      { intros c Ec. destruct (nth_error ms k) as [m|] eqn:Em; [eauto|]. apply nth_error_None in Em. assert (k < length cs) by (apply nth_error_Some; congruence). lia. }
      destruct E as [k i [k' x Ec]|k n Ec|k p n Em].
      + destruct (P _ Ec) as (m & Em & Mk). inversion Mk; subst. eexists. split; [exact Em|reflexivity].
      + destruct (P _ Ec) as (m & Em & Mk). inversion Mk; subst. eexists. split; [exact Em|reflexivity].
      + eexists. split; [exact Em|reflexivity].
    - intros (m & Em & E). destruct (nth_error cs k) as [c|] eqn:Ec; [|apply nth_error_None in Ec; assert (k < length ms) by (apply nth_error_Some; congruence); lia].
      specialize (M _ _ _ Ec Em). destruct M; try discriminate E; cbn [made_item] in E.
      + destruct nat as [x|]; [|discriminate E]. injection E as <-. eapply EN_object; eauto.
      + injection E as <-. apply EN_rule. constructor. exact Ec.
      + injection E as <-. apply EN_nat. exact Ec.
  Qed.
  Lemma entry_item data cs ms T : parse_file data = Ok (cs, ms, T) -> forall k i, entry cs ms k i -> item_at ms k = i.
  Proof using. clear OK PI1 PI2. intros H k i E. apply (entry_made _ _ _ _ H) in E as (m & Em & Ei). unfold item_at. now rewrite Em, Ei. Qed.
  (** The objects the configuration hands to the filter are its entries. *)
  Lemma filtered_entries data cs ms T : parse_file data = Ok (cs, ms, T) -> forall k,
    (In k (Config.c_rules (config_of ms)) <-> exists i, rule_entry cs k i) /\
    (In k (Config.c_rules (config_of ms)) \/ (exists s, In s [Config.c_nat1 (config_of ms); Config.c_nat2 (config_of ms); Config.c_nat3 (config_of ms)] /\ In k s) <-> exists i, entry cs ms k i).
  Proof using.
    clear OK PI1 PI2. intros H k. destruct (C58_contents _ _ _ _ _ _ _ _ H) as (R & _). destruct (C58_nat_sections _ _ _ _ _ _ _ _ H) as (N1 & N2 & N3).
    assert (A : In k (Config.c_rules (config_of ms)) <-> exists i, rule_entry cs k i).
    { rewrite R, positions_in. split.
      - intros (c & b & E & I). destruct c; try contradiction I. eexists. constructor. exact E.
      - intros (i & [k' x E]). exists (CRule x), x. split; [exact E|now left]. }
    split; [exact A|]. rewrite A. split.
    - intros [(i & I)|(s & [<-|[<-|[<-|[]]]] & I)]; [exists i; now apply EN_rule| | |].
      + rewrite N1, positions_in in I. destruct I as (c & b & E & I). unfold nats_first in I. apply filter_In in I as (I & _). destruct c as [| | | | | |[n|]| |]; try contradiction I. eexists. apply EN_nat. exact E.
      + rewrite N2, positions_in in I. destruct I as (m & b & E & I). destruct m as [| | | | | | |p [n|]| | | | |]; try contradiction I. eexists. eapply EN_object; eauto.
      + rewrite N3, positions_in in I. destruct I as (c & b & E & I). unfold nats_last in I. apply filter_In in I as (I & _). destruct c as [| | | | | |[n|]| |]; try contradiction I. eexists. apply EN_nat. exact E.
    - intros (i & [k' i' I|k' n E|k' p n E]); [left; eauto| |].
      + right. destruct (after_object n) eqn:B.
        * exists (Config.c_nat3 (config_of ms)). split; [cbn; auto|]. rewrite N3, positions_in. exists (CNat (Some n)), n. split; [exact E|]. unfold nats_last. apply filter_In. split; [now left|exact B].
        * exists (Config.c_nat1 (config_of ms)). split; [cbn; auto|]. rewrite N1, positions_in. exists (CNat (Some n)), n. split; [exact E|]. unfold nats_first. apply filter_In. split; [now left|]. now rewrite B.
      + right. exists (Config.c_nat2 (config_of ms)). split; [cbn; auto|]. rewrite N2, positions_in. exists (MNetObj p (Some n)), n. split; [exact E|now left].
  Qed.

  (** The common part of both filters. *)
  Lemma filter_setup data query cs ms T e : parse_file data = Ok (cs, ms, T) -> well_named isalnum cs -> written_as e query -> readable e ->
    (forall id, In id (expr_ids e) -> id_regular id) ->
    exists h c, caf_read (groups_of T) query = Ok (h, c) /\ acyclic h /\
      forall k i, entry cs ms k i -> item_at ms k = i /\ (forall r, In r (clauses c) -> comparable_item h r (item_at ms k)) /\
        (denotes (fun r x => selects h r (item_at ms x)) c k <-> expr_means (groups_of T) i e).
  Proof using OK PI1 PI2.
    intros H W Q R Id. destruct (file_is_good _ _ _ _ H W) as (G & I). pose proof (good_acyclic _ G) as A.
    destruct (proj2 (C41_accepted _ _ _ OK _ query A) (ex_intro _ e (conj Q R))) as ((h & c) & E).
    destruct (C41_meaning _ _ _ OK _ _ _ _ _ A Q E) as (X & A' & Wf & M). exists h, c. split; [exact E|]. split; [exact A'|].
    intros k i K. pose proof (entry_item _ _ _ _ H _ _ K) as Ei. split; [exact Ei|]. rewrite denotes_get, Ei, M.
    apply (entry_made _ _ _ _ H) in K as (m & Em & K). pose proof (I _ _ _ Em K) as Gi. split; [|apply (expr_same T h G X); apply Gi].
    intros r Ir. destruct (Wf r Ir) as (W1 & F1 & W2 & F2). apply (compare T h G X); auto. apply Id.
    unfold CafText.caf_read in E. apply (p_grammar_spec _ _ _ OK) in Q. rewrite Q in E. cbn [bind] in E. destruct (eval_expr (groups_of T) e) as [(h1 & v)|] eqn:Ev; [|discriminate]. cbn [bind] in E. injection E as <- <-.
    eapply eval_ids; [exact R|exact Ev|]. destruct v; exact Ir.
  Qed.

  (** C59: the filter returns exactly the entries the expression means. *)
  Theorem C59_filter : forall data query cs ms T e, parse_file data = Ok (cs, ms, T) -> well_named isalnum cs -> written_as e query -> readable e ->
    (forall id, In id (expr_ids e) -> id_regular id) ->
    exists limit, forall k, limit <= k -> exists s, file_filter k data query = Ok s /\ NoDup s /\
      forall x, In x s <-> exists i, entry cs ms x i /\ expr_means (groups_of T) i e.
  Proof using OK PI1 PI2.
    intros data query cs ms T e H W Q R Id. destruct (filter_setup _ _ _ _ _ _ H W Q R Id) as (h & c & E & A & K).
    set (cfg := config_of ms). pose proof (filtered_entries _ _ _ _ H) as F. fold cfg in F.
    destruct (C23_config_filter h (item_at ms) c (Config.c_rules cfg) [Config.c_nat1 cfg; Config.c_nat2 cfg; Config.c_nat3 cfg] A) as (limit & L).
    { intros r x Ir Ix. assert (Y : exists i, entry cs ms x i). { apply (F x). apply in_app_or in Ix as [Ix|Ix]; [now left|right]. apply in_concat in Ix. exact Ix. }
      destruct Y as (i & Y). now apply (K x i Y). }
    exists limit. intros k Lk. destruct (L k Lk) as (s & Es & N & S). exists s. split; [|split; [exact N|]].
    - unfold FileFilter.file_filter. rewrite H. cbn [bind]. rewrite E. cbn [bind]. exact Es.
    - intros x. rewrite S. rewrite (proj2 (F x)). split.
      + intros ((i & Ei) & D). exists i. split; [exact Ei|]. now apply (K x i Ei).
      + intros (i & Ei & D). split; [eauto|]. now apply (K x i Ei).
  Qed.
  (** C59: run on the rules only, exactly the rules the expression means. *)
  Theorem C59_rules : forall data query cs ms T e, parse_file data = Ok (cs, ms, T) -> well_named isalnum cs -> written_as e query -> readable e ->
    (forall id, In id (expr_ids e) -> id_regular id) ->
    exists limit, forall k, limit <= k -> exists s, file_rules_filter k data query = Ok s /\ NoDup s /\
      forall x, In x s <-> exists i, rule_entry cs x i /\ expr_means (groups_of T) i e.
  Proof using OK PI1 PI2.
    intros data query cs ms T e H W Q R Id. destruct (filter_setup _ _ _ _ _ _ H W Q R Id) as (h & c & E & A & K).
    set (cfg := config_of ms). pose proof (filtered_entries _ _ _ _ H) as F. fold cfg in F.
    destruct (C19_run_exact h (item_at ms) c (Config.c_rules cfg) A) as (limit & L).
    { intros r x Ir Ix. apply (F x) in Ix as (i & Y). now apply (K x i (EN_rule _ _ _ _ Y)). }
    exists limit. intros k Lk. destruct (L k Lk) as (s & Es & N & S). exists s. split; [|split; [exact N|]].
    - unfold FileFilter.file_rules_filter. rewrite H. cbn [bind]. rewrite E. cbn [bind]. exact Es.
    - intros x. rewrite S. rewrite (proj1 (F x)). split.
      + intros ((i & Ei) & D). exists i. split; [exact Ei|]. now apply (K x i (EN_rule _ _ _ _ Ei)).
      + intros (i & Ei & D). split; [eauto|]. now apply (K x i (EN_rule _ _ _ _ Ei)).
  Qed.
  (** C59: any other query is refused. *)
  Theorem C59_refused : forall data query cs ms T, parse_file data = Ok (cs, ms, T) -> well_named isalnum cs -> ~ (exists e, written_as e query /\ readable e) ->
    exists err, forall k, file_filter k data query = Err err /\ file_rules_filter k data query = Err err.
  Proof using OK PI1 PI2.
    intros data query cs ms T H W N. destruct (file_is_good _ _ _ _ H W) as (G & _). pose proof (good_acyclic _ G) as A.
    destruct (caf_read (groups_of T) query) as [r|err] eqn:E.
    - exfalso. apply N. apply (C41_accepted _ _ _ OK _ query A). eauto.
    - exists err. intros k. unfold FileFilter.file_filter, FileFilter.file_rules_filter. rewrite H. cbn [bind]. rewrite E. auto.
  Qed.
  (** C59: expanding the groups of a configuration ends, whatever the text. *)
  Theorem C59_expand : forall data cs ms T t, parse_file data = Ok (cs, ms, T) -> well_named isalnum cs ->
    exists s, Groups.config_expand (S (length (flat_map groups_in cs))) t (Define.groups_of (tb_world T)) = Ok s /\
      Expand.config_expanded t (Define.groups_of (tb_world T)) s.
  Proof using OK PI1 PI2.
    intros data cs ms T t H W. pose proof (C58_known _ _ _ _ _ _ _ _ H) as K. apply (Define.C42_expand_terminates _ _ t); [|exact (kn_groups _ _ _ K)].
    apply (C57_reads _ _ _ OK _ PI1 PI2) in H; [|exact W]. exact (written_plain _ _ _ _ _ _ _ _ H).
  Qed.
End Whole.

(** ** Example: the configuration of C57 *)
Definition C59_query : pystr := u "id ACL ip dst 10.0.0.0/24 except ip dst ANY".
Example C59_ex : exists cs ms T e, pf C57_data = Ok (cs, ms, T) /\ well_named ascii_alnum cs /\ written_as ascii_alnum ascii_space e C59_query /\ readable e /\
  (forall id, In id (expr_ids e) -> id_regular id) /\
  file_filter ascii_alpha ascii_alnum ascii_space C52_int 20 C57_data C59_query = Ok [18] /\
  file_filter ascii_alpha ascii_alnum ascii_space C52_int 20 C57_data (u "ip src 192.0.2.80") = Ok [18; 19; 22; 14] /\
  file_rules_filter ascii_alpha ascii_alnum ascii_space C52_int 20 C57_data (u "ip src 192.0.2.80") = Ok [18; 19].
Proof.
  destruct C57_ex1 as (cs & ms & T & H & _ & W).
  assert (P : exists e, p_grammar ascii_alpha ascii_alnum ascii_space C59_query = Ok e) by (eexists; lazy; reflexivity).
  destruct P as (e & P). exists cs, ms, T, e. split; [exact H|]. split; [exact W|].
  pose proof (proj1 (p_grammar_spec _ _ _ C41_classes _ _) P) as Q. split; [exact Q|].
  unfold file_filter, file_rules_filter. rewrite H. cbn [bind].
  assert (R : pf C57_data = Ok match C57_result with Some x => x | None => ([], [], no_tables) end) by (vm_compute; reflexivity).
  rewrite H in R. unfold C57_result in R. injection R as -> -> ->. clear H W.
  split; [|split; [|split; [|split]]].
  - assert (A : exists r, caf_read ascii_alpha ascii_alnum ascii_space (mkheap (fun _ => mkgroup [] [] [] []) 0) C59_query = Ok r) by (eexists; lazy; reflexivity).
    assert (Ac : acyclic (mkheap (fun _ => mkgroup [] [] [] []) 0)) by (exists (fun _ => 0); intros g m []).
    apply (proj1 (C41_accepted _ _ _ C41_classes _ _ Ac)) in A as (e' & Q' & R). now rewrite (C41_reading_unique _ _ _ C41_classes _ _ _ Q Q').
  - lazy in P. injection P as <-. intros id I s p -> K. cbn in I. destruct I as [I|[I|[]]]; [|discriminate I]. injection I as <-. destruct K as (K & _). discriminate K.
  - lazy. reflexivity.
  - lazy. reflexivity.
  - lazy. reflexivity.
Qed.

Print Assumptions C59_filter.
Print Assumptions C59_rules.
Print Assumptions C59_refused.
Print Assumptions C59_expand.
