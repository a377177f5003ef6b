(** C67: filtering an IOS configuration given as text by an expression given as text. *)
From Coq Require Import Lia String.
From Verif.Model Require Import Base Ip Hosts Groups Rules Caf Nat Iface Peg Ids AddrText Ports AclText Define GroupText LineText FileText CafText IosText IosFile IosFilter.
From Verif.Model Require Config.
From Verif.Spec Require Import AddrSpec FilterSpec CafSpec CafMeanSpec CafTextSpec AclTextSpec GroupTextSpec FileConfigSpec IosTextSpec IosFileSpec IosConfigSpec IosFilterSpec.
From Verif.Spec Require FileFilterSpec.
From Verif.Proofs Require Import CafFacts CafTextFacts CafExpr CafMean FileGood DictFacts.
From Verif.Props Require Define Expand FileFilter Config.
From Verif.Props Require Import Filter CafText AclText IosFileText IosConfig.
Import FileFilterSpec (expr_ids).
Import FileFilter (lines_members, ragged_members, eval_ids, denotes_get).
Local Open Scope list_scope.

(** ** Clauses without IPv6 addresses *)
Lemma no_ipv6_written d objects os l : Forall2 obj_reads objects os ->
  (forall t n, In t (flat_map nets_of_obj objects) -> net_reads t n -> match n with NtHost a | NtNet a _ => a_ver a = V4 | _ => True end) ->
  written d os l -> v6_leaf l = false.
Proof.
  intros F N [(_ & ->)|(ns & n & I & J & E)]; [reflexivity|].
  destruct (Forall2_In_r _ _ _ _ F I) as (o & Io & d' & l' & ns' & -> & [= <- <-] & Fn). destruct (Forall2_In_r _ _ _ _ Fn J) as (t & It & R).
  assert (V := N t n ltac:(apply in_flat_map; exists (OIp d l'); split; [exact Io|exact It]) R).
  destruct n; cbn [network_action] in E; try (injection E as <-; reflexivity).
  - injection E as <-. cbn. now rewrite V.
  - unfold mk_Network in E. destruct (ip_network _ _ _) as [k|] eqn:K; [|discriminate]. injection E as <-. cbn.
    assert (K1 : n_ver k = a_ver a); [|now rewrite K1, V]. clear - K. unfold ip_network in K.
    repeat match type of K with (do _ <- ?x; _) = _ => destruct x; cbn [bind] in K; [|discriminate K] | match ?x with _ => _ end = _ => destruct x; try discriminate K end; injection K as <-; reflexivity.
Qed.
Definition sides_v4 (h' : heap) (c : caf) : Prop := forall h2, extends h' h2 -> forall r, In r (clauses c) -> v6free h2 (r_src r) /\ v6free h2 (r_dst r).
Lemma sides_later h h' c : extends h h' -> sides_v4 h c -> sides_v4 h' c.
Proof. intros X S h2 X2. apply S. eapply extends_trans; eauto. Qed.
Lemma eval_v4 : forall e, readable e -> no_ipv6 e -> forall h, acyclic h -> forall h' v, eval_expr h e = Ok (h', v) -> sides_v4 h' (block v).
Proof.
  refine (fix IHe e (R : readable e) {struct R} := _
          with IHs x (R : readable_set x) {struct R} :
            (forall t n, In t (nets_of_set x) -> net_reads t n -> match n with NtHost a | NtNet a _ => a_ver a = V4 | _ => True end) ->
            forall h, acyclic h -> forall h' v, eval_set h x = Ok (h', v) -> sides_v4 h' (block v) := _
          for IHe).
  - destruct R as [f l Rf Rl]. intros N h A h' v E. rewrite eval_expr_eq in E. destruct (eval_set h f) as [(h1 & v1)|] eqn:E1; [|discriminate]. cbn [bind] in E.
    destruct (eval_rest h1 l) as [(h2 & vs)|] eqn:E2; [|discriminate]. cbn [bind] in E. destruct (expr_seq v1 vs) as (w & Ew & Cw & _). rewrite Ew in E. cbn [bind] in E. injection E as <- <-.
    assert (K1 : sides_v4 h1 (block v1)) by (eapply (IHs f Rf); [|exact A|exact E1]; intros t n I; apply N; cbn [named_nets]; apply in_app_iff; auto).
    assert (Ev : forall x, readable_set x -> forall h, acyclic h -> forall h' v, eval_set h x = Ok (h', v) -> extends h h' /\ acyclic h').
    { clear. intros x Rx h A h' v E. assert (R : readable (CE x [])) by (constructor; [auto|constructor]). destruct (eval_ok _ R h A) as (h2 & v2 & E2 & X2 & A2 & _).
      rewrite eval_expr_eq, E in E2. cbn [bind eval_rest] in E2. destruct (expr_seq v []) as (w & Ew & _). rewrite Ew in E2. cbn [bind] in E2. injection E2 as <- <-. auto. }
    destruct (Ev f Rf h A _ _ E1) as (_ & A1).
    assert (Nl : forall t n, In t (flat_map (fun x => nets_of_set (snd x)) l) -> net_reads t n -> match n with NtHost a | NtNet a _ => a_ver a = V4 | _ => True end)
      by (intros t n I; apply N; cbn [named_nets]; apply in_app_iff; auto).
    assert (K2 : extends h1 h2 /\ forall y, In y vs -> sides_v4 h2 (block (snd y))).
    { clear E1 K1 Ew Cw w N v1. revert h1 h2 vs A1 E2. induction Rl as [|(o, x) l Rx Rl IHl]; intros h1 h2 vs A1 E2; cbn [eval_rest] in E2; [injection E2 as <- <-; split; [apply extends_refl|intros ? []]|].
      destruct (eval_set h1 x) as [(h3 & v3)|] eqn:E3; [|discriminate]. cbn [bind] in E2. destruct (eval_rest h3 l) as [(h4 & vs4)|] eqn:E4; [|discriminate]. injection E2 as <- <-.
      destruct (Ev x Rx _ A1 _ _ E3) as (X3 & A3).
      destruct (IHl ltac:(intros t n I; apply Nl; cbn [flat_map]; apply in_app_iff; auto) _ _ _ A3 E4) as (X4 & K4). split; [eapply extends_trans; eauto|].
      intros y [<-|I]; [|auto]. eapply sides_later; [exact X4|]. cbn [snd]. eapply (IHs x Rx); [|exact A1|exact E3]. intros t n I. apply Nl. cbn [flat_map snd]. apply in_app_iff. auto. }
    destruct K2 as (X2 & K2). intros h3 X3 r I. rewrite Cw in I. apply in_app_iff in I as [I|I].
    + apply K1; [eapply extends_trans; eauto|exact I].
    + apply in_flat_map in I as (y & Iy & I). exact (K2 y Iy h3 X3 r I).
  - destruct R as [id e Re|id objects H].
    + intros N h A h' v E. rewrite eval_set_eq in E. cbn [eval_objs eval_obj] in E. destruct (eval_expr h e) as [(h1 & w)|] eqn:E1; [|discriminate]. cbn in E. injection E as <- <-.
      pose proof (IHe e Re ltac:(intros t n I; apply N; cbn [nets_of_set flat_map nets_of_obj]; rewrite app_nil_r; exact I) h A _ _ E1) as K. destruct w; exact K.
    + intros N h A h' v E. rewrite eval_set_eq in E. destruct (eval_objs_clause h objects H) as (os & Eo & F). rewrite Eo in E. cbn [bind] in E.
      assert (V : Forall obj_valid os).
      { apply Forall_forall. intros so I. destruct (Forall2_In_r _ _ _ _ F I) as (o & _ & d & l & ns & _ & -> & Fn). cbn. apply Forall_forall. intros n In_.
        destruct (Forall2_In_r _ _ _ _ Fn In_) as (t & _ & R). now apply net_reads_spec in R. }
      assert (Ne : existsb is_expr os = false).
      { apply Bool.not_true_iff_false. intros X. apply existsb_exists in X as (so & I & X). destruct (Forall2_In_r _ _ _ _ F I) as (o & _ & d & l & ns & _ & -> & _). discriminate. }
      destruct (set_action_clause h id os A V Ne) as (h1 & r & Er & _ & _ & _ & S & D). rewrite Er in E. injection E as <- <-. intros h2 X2 r' [<-|[]].
      split; intros l Rl; [apply (S h2 l X2) in Rl|apply (D h2 l X2) in Rl]; eapply no_ipv6_written; eauto; exact N.
Qed.

(** ** What the commands make can be compared *)
Definition wild_end (x : host) : Prop := exists a w, x = HLeaf (LWild a w) /\ leaf_wf (LWild a w).
Definition end_good (n : nat) (x : host) : Prop := host_good n x \/ wild_end x.
Definition rule_good (n : nat) (x : irule) : Prop :=
  end_good n (th_host (an_host (ir_src x))) /\ end_good n (th_host (an_host (ir_dst x))) /\ ~ In slash (ir_id x).
(** An ASA configuration with these groups and nothing else *)
Definition groups_only (T : itables) : tables := mktables [] [] [] (it_world T) [] [] 0.
Notation igood T := (tables_good (groups_only T)).
Notation iheap T := (snd (w_net (it_world T))).
Section Step.
  Variables (T : itables).
  Context (G : igood T).
  Notation N := (h_next (iheap T)).
  Lemma ihost_ok x t : ihost_text (ienv T) x t -> end_good N (th_host x).
  Proof using G.
    intros H. destruct H as [t a g m n Q _ L D|t a g m Q _ L D|t a Q|g t a _ Q|g n x _ D|]; cbn [th_host].
    - left. apply net_of_good with a (MaskQuad m); [|exact D]. destruct Q as (_ & Q). eapply address_valid; eauto.
    - right. exists a, (mkaddr V4 m). split; [reflexivity|]. cbn. destruct Q as (V & Q). apply address_valid in Q. repeat split; auto.
    - left. destruct Q as (_ & Q). apply address_valid in Q. now split.
    - left. destruct Q as (_ & Q). apply address_valid in Q. now split.
    - left. exact (tg_grps _ G _ _ D).
    - left. now repeat split.
  Qed.
  Lemma ihost6_ok x t : ihost6_text x t -> end_good N (th_host x).
  Proof using.
    intros H. left. destruct H as [t a d p n _ A _ D|g t a _ _ A|]; cbn [th_host host_good].
    - apply net_of_good with a (MaskLen p); [|exact D]. eapply address_valid; eauto.
    - apply address_valid in A. now split.
    - now repeat split.
  Qed.
  Lemma aclhost_ok x t : host_text (ienv T) x t -> end_good N (th_host x).
  Proof using G. intros H. left. exact (host_ok (groups_only T) G x t H). Qed.
  Lemma aclnode_ok x t : node_text (ienv T) x t -> end_good N (th_host (an_host x)).
  Proof using G. intros H. left. exact (node_ok (groups_only T) G x t H). Qed.
  Lemma inode_ok x t : inode_text (ienv T) x t -> end_good N (th_host (an_host x)).
  Proof using G. intros H. destruct H; cbn [an_host]; eapply ihost_ok; eauto. Qed.
  Lemma inode6_ok x t : inode6_text (ienv T) x t -> end_good N (th_host (an_host x)).
  Proof using. intros H. destruct H; cbn [an_host]; eapply ihost6_ok; eauto. Qed.
  Lemma any_ok : end_good N (HLeaf LAny).
  Proof using. left. now repeat split. Qed.
  Lemma chars_noslash n : name_chars n -> ~ In slash n.
  Proof using. clear. intros C I. specialize (C _ I). unfold letter, digit, slash in C. lia. Qed.
  Lemma number_noslash lo hi n : list_number lo hi n -> ~ In slash n.
  Proof using.
    clear. intros (v & D & _) I. apply decimal_text_spec in D as (_ & D & _). rewrite forallb_forall in D. apply D in I. discriminate I.
  Qed.
  Lemma items_ok (rule : list pystr -> irule -> pystr -> Prop) xs ts : (forall rem x t, rule rem x t -> rule_good N x) -> Forall2 (item_text rule) xs ts -> forall x, In x xs -> rule_good N x.
  Proof using. clear. intros R F x I. destruct (Forall2_In_l _ _ _ _ F I) as (t & _ & H). inversion H; subst. eauto. Qed.
  Lemma command_rules isalnum isspace f fr c t r : icommand_text isalnum isspace f fr T c t r -> forall x, In x (irules_in c) -> rule_good N x.
  Proof using G.
    intros H x I. destruct H; cbn [irules_in] in I; try (destruct I; fail).
    - destruct I as [<-|[]]. inversion H as [x' ts t' _ M]; subst. destruct M as [id m hd g h t o ot z Id|id m hd g p g1 src s g2 dst d icmp i o ot z Id|id m hd g p pt g1 src s g2 dst d o ot z Id]; unfold rule_good; cbn [ir_src ir_dst ir_id an_host any_end th_host];
        (split; [|split; [|destruct Id; eapply number_noslash; eauto]]); eauto using ihost_ok, aclhost_ok, aclnode_ok, any_ok.
    - match goal with L : named_list_text _ _ _ |- _ => destruct L as [g1 n z xs ts _ C _ F|g1 n z xs ts _ C _ F] end.
      + eapply items_ok; [|exact F|exact I]. intros rem y ty R. destruct R. unfold rule_good. cbn [ir_src ir_dst ir_id an_host any_end th_host].
        split; [eauto using ihost_ok|split; [apply any_ok|now apply chars_noslash]].
      + eapply items_ok; [|exact F|exact I]. intros rem y ty R. destruct R; unfold rule_good; cbn [ir_src ir_dst ir_id an_host any_end th_host];
        (split; [|split; [|now apply chars_noslash]]); eauto using ihost_ok, inode_ok.
    - match goal with L : list6_text _ _ _ |- _ => destruct L as [g1 n z xs ts _ C _ _ F] end. destruct (Forall2_In_l _ _ _ _ F I) as (tx & _ & R). destruct R; unfold rule_good; cbn [ir_src ir_dst ir_id];
        (split; [|split; [|now apply chars_noslash]]); eauto using inode6_ok.
  Qed.
  Lemma imember_ok m t x : ios_net_text (ienv T) m t -> Define.stands_for HGrp (fst (w_net (it_world T))) m x -> host_good N x.
  Proof using G.
    intros H S. destruct H as [g t a z _ A _|t a g m n z Q _ L D _|t a d p n z Q _ D _|m t R].
    - cbn in S. subst x. apply address_valid in A. now split.
    - cbn in S. subst x. destruct Q as (_ & Q). apply address_valid in Q. now apply net_of_good with a (MaskQuad m).
    - cbn in S. subst x. destruct Q as (_ & Q). apply address_valid in Q. now apply net_of_good with a (MaskLen p).
    - destruct R as [g n z _ _ _]. destruct S as (k & D & ->). exact (tg_grps _ G _ _ D).
  Qed.
End Step.

Lemma end_good_le n n' x : n <= n' -> end_good n x -> end_good n' x.
Proof. intros L [H|H]; [left; eapply host_good_le; eauto|now right]. Qed.
Lemma rule_good_le n n' x : n <= n' -> rule_good n x -> rule_good n' x.
Proof. intros L (A & B & C). repeat split; eauto using end_good_le. Qed.
Lemma igood_same T T' : it_world T' = it_world T -> igood T -> igood T'.
Proof. intros E [A1 A2 A3 A4]. split; cbn [tb_names tb_netobj tb_world groups_only] in *; rewrite ?E; auto. Qed.
Lemma istep_good isalnum isspace f fr T c t r T' m : igood T -> icommand_text isalnum isspace f fr T c t r -> ilearn T c = Ok (T', m) ->
  igood T' /\ h_next (iheap T) <= h_next (iheap T') /\ forall x, In x (rules_made m) -> rule_good (h_next (iheap T')) x.
Proof.
  intros G H L.
  assert (Same : forall T1 m1, it_world T1 = it_world T -> (forall x, In x (rules_made m1) -> In x (irules_in c)) -> icounted T1 m1 = Ok (T', m) ->
    igood T' /\ h_next (iheap T) <= h_next (iheap T') /\ forall x, In x (rules_made m) -> rule_good (h_next (iheap T')) x).
  { intros T1 m1 E1 I1 C. unfold icounted in C. injection C as <- <-. cbn [it_world] in *. rewrite E1. split; [|split; [lia|]].
    - eapply igood_same; [|exact G]. reflexivity.
    - intros x Ix. eapply command_rules; [exact G|exact H|auto]. }
  destruct c as [v|n|n|a l|d|y|l|n g|]; cbn [ilearn] in L; try (eapply Same; [| |exact L]; [reflexivity|cbn [rules_made irules_in]; tauto]).
  - destruct (iface_init _ _ _) as [i|]; [|discriminate]. cbn [bind] in L. eapply Same; [| |exact L]; [reflexivity|cbn [rules_made]; tauto].
  - destruct (define_any (it_world T) d) as [w|] eqn:W; [|discriminate]. cbn [bind] in L. clear Same. unfold icounted in L. injection L as <- <-. cbn [rules_made it_world].
    assert (Other : w_net w = w_net (it_world T) -> igood (mkitables w (it_if T) (S (it_count T))) /\ h_next (iheap T) <= h_next (snd (w_net w)) /\ forall x, In x [] -> rule_good (h_next (snd (w_net w))) x).
    { intros E1. rewrite E1. split; [|split; [lia|intros ? []]]. destruct G as [A1 A2 A3 A4]. split; cbn [tb_names tb_netobj tb_world groups_only it_world] in *; rewrite ?E1; auto. }
    destruct d as [d|d|d|d|d]; cbn [define_any] in W; destruct (define _ _ _ _) as [w1|] eqn:Df in W; try discriminate W; cbn [bind] in W; injection W as <-; try (apply Other; reflexivity).
    clear Other. cbn [w_net]. destruct (w_net (it_world T)) as [tb h] eqn:Ew. destruct w1 as [tb' h']. destruct (Define.define_ok _ _ _ _ _ _ _ Df) as (g & -> & N' & Tn & M & _ & _ & _ & _ & Fr). cbn [snd fst].
    pose proof G as [A1 A2 A3 A4]. cbn [groups_only tb_world] in A3, A4. rewrite Ew in A3, A4. cbn [fst snd] in A3, A4. split; [|split; [lia|intros ? []]]. split; cbn [tb_names tb_netobj tb_world groups_only it_world w_net fst snd]; auto.
    + intros n g. rewrite Tn. destruct (str_eqb (gd_name d) n); [intros [= <-]; lia|]. intros D'. specialize (A3 _ _ D'). lia.
    + intros g x I. destruct (Nat.eq_dec g (h_next h)) as [->|Ne].
      * split; [lia|]. assert (D : ios_group_text (ienv T) (DNet d) t) by (inversion H; auto). inversion D as [g d0 t0 _ P| | | |]; subst. destruct P as [n hh dd td ms tm _ _ Ls]. cbn [gd_members] in M.
        assert (K : exists m1 t1, ios_net_text (ienv T) m1 t1 /\ Define.stands_for HGrp tb m1 x).
        { clear -Ls M I. revert M I. generalize (objs h' (h_next h)). induction Ls as [|m1 t1 l tt Hm _ IH]; intros os M I; inversion M; subst; [destruct I|]. destruct I as [->|I]; eauto. }
        destruct K as (m1 & t1 & Hm & S). pose proof (imember_ok T G m1 t1 x Hm) as Q. rewrite Ew in Q. exact (Q S).
      * assert (I' : In x (objs h g)). { unfold objs in *. rewrite <- (Fr g); auto. }
        destruct (A4 _ _ I'). split; [lia|auto].
Qed.
Lemma ifile_good isalnum isspace f fr T cs ms T' s : ifile_text isalnum isspace f fr T cs ms T' s -> igood T ->
  igood T' /\ h_next (iheap T) <= h_next (iheap T') /\ forall x, In x (flat_map rules_made ms) -> rule_good (h_next (iheap T')) x.
Proof.
  induction 1 as [T s _|T c t r T1 m cs ms T2 H L _ IH]; intros G.
  - split; [auto|]. split; [lia|intros ? []].
  - destruct (istep_good _ _ _ _ _ _ _ _ _ _ G H L) as (G1 & L1 & I1). destruct (IH G1) as (G2 & L2 & I2). split; [auto|]. split; [lia|].
    cbn [flat_map]. intros x I. apply in_app_iff in I as [I|I]; [|eauto]. eapply rule_good_le; [|eauto]. lia.
Qed.
Lemma inothing_good : igood no_itables.
Proof. exact nothing_good. Qed.

(** ** The groups of the expression do not matter to the configuration *)
Section Transfer.
  Variables (T : itables) (h' : heap).
  Context (G : igood T) (X : extends (iheap T) h').
  Notation h := (iheap T).
  Lemma leaf_reaches k l m : reaches k (HLeaf l) m -> m = l.
  Proof using. intros R. now inversion R. Qed.
  Lemma leaf_via k k' l y : via_groups k (HLeaf l) y -> via_groups k' (HLeaf l) y.
  Proof using. intros V. inversion V. constructor. Qed.
  Lemma leaf_match k k' l a : matches k (HLeaf l) a -> matches k' (HLeaf l) a.
  Proof using. intros M. inversion M; subst. now constructor. Qed.
  Lemma leaf_net n l : net_selects h' n (HLeaf l) <-> net_selects h n (HLeaf l).
  Proof using.
    assert (V : forall y, via_groups h' (HLeaf l) y <-> via_groups h (HLeaf l) y) by (intros; split; apply leaf_via).
    assert (M : forall a, matches h' (HLeaf l) a <-> matches h (HLeaf l) a) by (intros; split; apply leaf_match).
    destruct n; cbn [net_selects]; try tauto; try (setoid_rewrite V || setoid_rewrite M || rewrite M); tauto.
  Qed.
  Lemma iside_same d objects y : end_good (h_next h) y -> side_selects h' d objects y <-> side_selects h d objects y.
  Proof using G X.
    intros [H|(a & w & -> & _)]; [exact (FileFilter.side_same (groups_only T) h' G X d objects y H)|].
    unfold side_selects. split; intros [N|(l & t & n & A & B & C & D)]; auto; right; exists l, t, n; repeat split; auto; now apply leaf_net.
  Qed.
  Lemma iexpr_same x : rule_good (h_next h) x -> forall e, expr_means h' (Rules.IRule (irule_of x)) e <-> expr_means h (Rules.IRule (irule_of x)) e.
  Proof using G X.
    intros (H1 & H2 & _).
    assert (C : forall id objects, clause_selects h' id objects (Rules.IRule (irule_of x)) <-> clause_selects h id objects (Rules.IRule (irule_of x))).
    { intros id objects. cbn [clause_selects irule_of r_src r_dst r_id]. rewrite !iside_same by auto. tauto. }
    refine (fix IHe e := _ with IHs y : set_means h' (Rules.IRule (irule_of x)) y <-> set_means h (Rules.IRule (irule_of x)) y := _ for IHe).
    - destruct e as [f l]. cbn [expr_means]. apply sequence_ext; [|tauto|apply IHs].
      assert (F : Forall (fun ox => set_means h' (Rules.IRule (irule_of x)) (snd ox) <-> set_means h (Rules.IRule (irule_of x)) (snd ox)) l).
      { induction l as [|ox l IHl]; constructor; [destruct ox as (o, y); apply (IHs y)|apply IHl]. }
      rewrite Forall_forall in F. intros o y I. exact (F _ I).
    - destruct y as [id [|[d l|e] [|o objects]]]; cbn [set_means]; try apply C. apply IHe.
  Qed.
  Lemma iend_comparable c y : end_good (h_next h) y -> term_wf h' c -> wildfree h' c -> v6free h' c \/ ~ wild_end y -> comparable h' c y.
  Proof using G X.
    intros E W F V. unfold comparable. destruct E as [H|(a & w & -> & Wf)].
    - assert (A : forall l, reaches h' y l -> leaf_good l) by (intros l R; exact (FileFilter.reach_good (groups_only T) h' G X y l R H)).
      repeat split; auto; try (left; intros l R); try intros l R; now destruct (A l R) as (? & ? & ?).
    - destruct V as [V|V]; [|exfalso; apply V; exists a, w; auto].
      repeat split; auto; intros l R; apply leaf_reaches in R as ->; auto.
  Qed.
  Lemma icompare r x : rule_good (h_next h) x -> id_regular (r_id r) -> term_wf h' (r_src r) -> wildfree h' (r_src r) -> term_wf h' (r_dst r) -> wildfree h' (r_dst r) ->
    (v6free h' (r_src r) /\ v6free h' (r_dst r)) \/ (~ wild_end (th_host (an_host (ir_src x))) /\ ~ wild_end (th_host (an_host (ir_dst x)))) ->
    comparable_item h' r (Rules.IRule (irule_of x)).
  Proof using G X.
    intros (H1 & H2 & S) Id W1 F1 W2 F2 V. split; [exact I|]. cbn [item_srcs item_dsts irule_of r_src r_dst r_id]. split; [|split; [|split; [auto|]]].
    - intros y [<-|[]]. apply iend_comparable; auto. tauto.
    - intros y [<-|[]]. apply iend_comparable; auto. tauto.
    - intros s p E (-> & _). exfalso. injection E as E. apply S. rewrite E. now left.
  Qed.
End Transfer.

Lemma no_nats st : forall items, (forall i, In i items -> match i with Config.KNat _ _ | Config.KNetObj _ _ _ => False | _ => True end) ->
  Config.c_nat1 (Config.build st items) = [] /\ Config.c_nat2 (Config.build st items) = [] /\ Config.c_nat3 (Config.build st items) = [].
Proof.
  intros items. induction items as [|i items IH] using rev_ind; intros N; [now repeat split|]. rewrite Config.build_snoc.
  destruct IH as (A & B & C); [intros j I; apply N, in_app_iff; auto|]. specialize (N i ltac:(apply in_app_iff; right; now left)).
  destruct i; cbn [Config.c_step]; try contradiction; try destruct (Config.find_iface _ _); auto.
Qed.
Lemma ios_nats ms : Config.c_nat1 (fst (iconfig_of ms)) = [] /\ Config.c_nat2 (fst (iconfig_of ms)) = [] /\ Config.c_nat3 (fst (iconfig_of ms)) = [] /\
  Config.c_rules (fst (iconfig_of ms)) = seq 0 (length (flat_map rules_made ms)).
Proof.
  destruct (iconfig_build ms) as (st & -> & _). cbn [Config.c_nat1 Config.c_nat2 Config.c_nat3 Config.c_rules Config.set_store Config.set_rules].
  destruct (no_nats (iiface_store ms) (iitems_from 0 0 ms)) as (A & B & C); auto. generalize 0 at 1. generalize 0.
  induction ms as [|m ms IH]; intros k n i I; [destruct I|]. cbn [iitems_from] in I. destruct I as [<-|I]; [|eapply IH; eauto].
  destruct m as [| | | |[?|?|?|?|?] ?| | | |]; exact Logic.I.
Qed.

Lemma idef_plain E d t : ios_group_text E d t -> Define.plain_any d.
Proof.
  intros [g d' s _ P|g d' s _ P|g d' s _ P|g d' s _ P|g g1 n g2 p z ds td ms tm _ _ _ _ _ _ _ R]; cbn [Define.plain_any]; try (destruct P as [n h ds td ms tm _ _ R]); intros x I; cbn [gd_members] in I;
    (eapply lines_members in R as (t' & H) || eapply ragged_members in R as (t' & H)); try exact I; inversion H; subst; try reflexivity; match goal with Gr : groupref_text _ _ _ _ |- _ => inversion Gr end.
Qed.
Lemma iwritten_plain isalnum isspace f fr T cs ms T' s : ifile_text isalnum isspace f fr T cs ms T' s -> Forall Define.plain_any (flat_map igroups_in cs).
Proof.
  induction 1 as [T|T c t r T1 m cs ms T2 H _ _ IH]; cbn [flat_map]; [constructor|]. apply Forall_app. split; [|exact IH].
  destruct H; cbn [igroups_in]; constructor; [|constructor]. eapply idef_plain; eauto.
Qed.

Section Whole.
  Context (isalpha isalnum isspace : N -> bool) (OK : classes_ok isalpha isalnum isspace).
  Context (py_int : pystr -> option Z)
          (PI1 : forall n, n <> [] -> forallb AddrText.is_digit n = true -> py_int n <> None)
          (PI2 : forall n, In n port_code -> py_int n = None).
  Notation ios_parse := (ios_parse isalpha isalnum isspace py_int).
  Notation ios_filter := (ios_filter isalpha isalnum isspace py_int).
  Notation caf_read := (caf_read isalpha isalnum isspace).
  Notation written_as := (written_as isalnum isspace).
  Notation groups_of T := (snd (w_net (it_world T))).

  Lemma ifile_is_good data cs ms T : ios_parse data = Ok (cs, ms, T) -> iwell_named cs ->
    igood T /\ flat_map rules_made ms = flat_map irules_in cs /\ forall x, In x (flat_map irules_in cs) -> rule_good (h_next (groups_of T)) x.
  Proof using OK PI1 PI2.
    intros H W. pose proof H as H2. apply iparse_runs, iruns_made, rules_same in H2. apply (C65_reads _ _ _ OK _ PI1 PI2) in H as (H & _); [|exact W].
    destruct (ifile_good _ _ _ _ _ _ _ _ _ H inothing_good) as (G & _ & I). rewrite H2 in I. auto.
  Qed.
  (** C67: the filter returns exactly the rules the expression means, provided no wildcard has
      to be compared with an IPv6 address. *)
  Theorem C67_filter : forall data query cs ms T e, ios_parse data = Ok (cs, ms, T) -> iwell_named cs -> written_as e query -> readable e ->
    (forall id, In id (expr_ids e) -> id_regular id) -> no_ipv6 e \/ no_wildcards cs ->
    exists limit, forall k, limit <= k -> exists s, ios_filter k data query = Ok s /\ NoDup s /\
      forall x, In x s <-> exists i, irule_entry cs x i /\ expr_means (groups_of T) i e.
  Proof using OK PI1 PI2.
    intros data query cs ms T e H W Q R Id V. destruct (ifile_is_good _ _ _ _ H W) as (G & Rs & I). pose proof (good_acyclic (groups_only T) G) as A. cbn [groups_only tb_world] in A.
    destruct (proj2 (C41_accepted _ _ _ OK _ query A) (ex_intro _ e (conj Q R))) as ((h & c) & E).
    destruct (C41_meaning _ _ _ OK _ _ _ _ _ A Q E) as (X & A' & Wf & M).
    assert (Ev : exists v, eval_expr (groups_of T) e = Ok (h, v) /\ clauses c = clauses (block v)).
    { pose proof E as E1. unfold CafText.caf_read in E1. pose proof (proj2 (p_grammar_spec _ _ _ OK _ _) Q) as Q1. rewrite Q1 in E1. cbn [bind] in E1. destruct (eval_expr (groups_of T) e) as [(h1 & v)|] eqn:Ev; [|discriminate]. cbn [bind] in E1. injection E1 as <- <-. exists v. split; [reflexivity|destruct v; reflexivity]. }
    destruct Ev as (v & Ev & Ec).
    assert (K : forall k x, nth_error (flat_map irules_in cs) k = Some x -> irule_at ms k = Rules.IRule (irule_of x)) by (intros k x Ek; unfold irule_at; now rewrite Rs, Ek).
    assert (Cmp : forall r k x, In r (clauses c) -> nth_error (flat_map irules_in cs) k = Some x -> comparable_item h r (irule_at ms k)).
    { intros r k x Ir Ek. rewrite (K _ _ Ek). destruct (Wf r Ir) as (W1 & F1 & W2 & F2). pose proof (nth_error_In _ _ Ek) as Ix. apply (icompare T h G X); auto.
      - apply Id. eapply eval_ids; [exact R|exact Ev|]. rewrite <- Ec. exact Ir.
      - destruct V as [V|V]; [left|right].
        + rewrite Ec in Ir. exact (eval_v4 _ R V _ A _ _ Ev h (extends_refl h) r Ir).
        + split; intros (a & w & Eq & _); destruct (V x a w Ix) as (V1 & V2); [exact (V1 Eq)|exact (V2 Eq)]. }
    destruct (ios_nats ms) as (N1 & N2 & N3 & Rn). rewrite Rs in Rn.
    destruct (C23_config_filter h (irule_at ms) c (seq 0 (length (flat_map irules_in cs))) [[]; []; []] A') as (limit & L).
    { intros r k Ir Ik. apply in_app_or in Ik as [Ik|Ik]; [|now cbn in Ik]. apply in_seq in Ik as (_ & Lk). cbn [plus] in Lk. apply nth_error_Some in Lk. destruct (nth_error _ k) as [x|] eqn:Ek; [|congruence]. eapply Cmp; eauto. }
    exists limit. intros k Lk. destruct (L k Lk) as (s & Es & N & S). exists s. split; [|split; [exact N|]].
    - unfold IosFilter.ios_filter. rewrite H. cbn [bind]. rewrite E. cbn [bind]. rewrite N1, N2, N3, Rn. exact Es.
    - intros x. rewrite S. assert (D : forall y, nth_error (flat_map irules_in cs) x = Some y -> denotes (fun r x => selects h r (irule_at ms x)) c x <-> expr_means (groups_of T) (Rules.IRule (irule_of y)) e).
      { intros y Ey. rewrite denotes_get, (K _ _ Ey), M. apply (iexpr_same T h G X). apply I. eapply nth_error_In; eauto. }
      split.
      + intros (Ix & Dx). assert (Lx : x < length (flat_map irules_in cs)). { destruct Ix as [Ix|(l & Il & Ix)]; [apply in_seq in Ix; lia|]. destruct Il as [El|[El|[El|[]]]]; subst l; destruct Ix. }
        apply nth_error_Some in Lx. destruct (nth_error _ x) as [y|] eqn:Ey; [|congruence]. exists (Rules.IRule (irule_of y)). split; [now constructor|]. now apply (D y).
      + intros (i & Ei & Dx). destruct Ei as [k' y Ey]. split; [|now apply (D y)]. left. apply in_seq. split; [lia|]. cbn [plus]. apply nth_error_Some. congruence.
  Qed.
  (** C67: any other query is refused. *)
  Theorem C67_refused : forall data query cs ms T, ios_parse data = Ok (cs, ms, T) -> iwell_named cs -> ~ (exists e, written_as e query /\ readable e) ->
    exists err, forall k, ios_filter k data query = Err err.
  Proof using OK PI1 PI2.
    intros data query cs ms T H W N. destruct (ifile_is_good _ _ _ _ H W) as (G & _). pose proof (good_acyclic (groups_only T) G) as A. cbn [groups_only tb_world] in A.
    destruct (caf_read (groups_of T) query) as [r|err] eqn:E.
    - exfalso. apply N. apply (C41_accepted _ _ _ OK _ query A). eauto.
    - exists err. intros k. unfold IosFilter.ios_filter. rewrite H. cbn [bind]. now rewrite E.
  Qed.
  (** C67: expanding the groups of a configuration ends, whatever the text. *)
  Theorem C67_expand : forall data cs ms T t, ios_parse data = Ok (cs, ms, T) -> iwell_named cs ->
    exists s, Groups.config_expand (S (length (flat_map igroups_in cs))) t (Define.groups_of (it_world T)) = Ok s /\
      Expand.config_expanded t (Define.groups_of (it_world T)) s.
  Proof using OK PI1 PI2.
    intros data cs ms T t H W. pose proof (C66_known _ _ _ _ _ _ _ _ H) as K. apply (Define.C42_expand_terminates _ _ t); [|exact (ik_groups _ _ K)].
    apply (C65_reads _ _ _ OK _ PI1 PI2) in H as (H & _); [|exact W]. exact (iwritten_plain _ _ _ _ _ _ _ _ _ H).
  Qed.
End Whole.

(** ** Example: the configuration of C65 *)
Definition C67_query : pystr := u "ip dst 10.0.0.80 except id 10".
Example C67_ex : exists cs ms T e, ip C65_data = Ok (cs, ms, T) /\ iwell_named cs /\ written_as ascii_alnum ascii_space e C67_query /\ readable e /\
  (forall id, In id (expr_ids e) -> id_regular id) /\ no_ipv6 e /\ no_wildcards cs /\
  ios_filter ascii_alpha ascii_alnum ascii_space C52_int 20 C65_data C67_query = Ok [0; 1; 3] /\
  ios_filter ascii_alpha ascii_alnum ascii_space C52_int 20 C65_data (u "ip src 11.0.0.1 ip dst 10.1.0.5") = Ok [0; 1; 3].
Proof.
  destruct C65_ex1 as (cs & ms & T & H & _ & W).
  assert (P : exists e, p_grammar ascii_alpha ascii_alnum ascii_space C67_query = Ok e) by (eexists; lazy; reflexivity).
  destruct P as (e & P). exists cs, ms, T, e. split; [exact H|]. split; [exact W|].
  pose proof (proj1 (p_grammar_spec _ _ _ C41_classes _ _) P) as Q. split; [exact Q|].
  unfold ios_filter. rewrite H. cbn [bind].
  assert (R : ip C65_data = Ok match C65_result with Some x => x | None => ([], [], no_itables) end) by (vm_compute; reflexivity).
  rewrite H in R. unfold C65_result in R. injection R as -> -> ->. clear H W.
  split; [|split; [|split; [|split; [|split]]]].
  - assert (A : exists r, caf_read ascii_alpha ascii_alnum ascii_space (mkheap (fun _ => mkgroup [] [] [] []) 0) C67_query = Ok r) by (eexists; lazy; reflexivity).
    assert (Ac : acyclic (mkheap (fun _ => mkgroup [] [] [] []) 0)) by (exists (fun _ => 0); intros g m []).
    apply (proj1 (C41_accepted _ _ _ C41_classes _ _ Ac)) in A as (e' & Q' & R). now rewrite (C41_reading_unique _ _ _ C41_classes _ _ _ Q Q').
  - lazy in P. injection P as <-. intros id I s p -> K. cbn in I. destruct I as [I|[I|[]]]; [discriminate I|]. injection I as <-. destruct K as (K & _). discriminate K.
  - lazy in P. injection P as <-. intros t n I R. cbn in I. destruct I as [<-|[]]. apply net_reads_spec in R as (R & _). revert R. clear. destruct n; vm_compute; try discriminate; intros [= <-]; reflexivity.
  - intros x a w I. cbn in I. repeat (destruct I as [<-|I]; [split; discriminate|]). destruct I.
  - lazy. reflexivity.
  - lazy. reflexivity.
Qed.
(** Why wildcards and IPv6 addresses are kept apart: a wildcard compares numbers whatever the
    version, so this IPv4 rule is returned for an IPv6 address. *)
Definition C67_wild : pystr := line "ip access-list extended A" ++ line " permit ip 10.0.0.0 0.255.0.255 any" ++ line " deny ip host 10.3.0.7 any".
Example C67_wild_ex : ios_filter ascii_alpha ascii_alnum ascii_space C52_int 20 C67_wild (u "ip src 10.3.0.7") = Ok [0; 1] /\
  ios_filter ascii_alpha ascii_alnum ascii_space C52_int 20 C67_wild (u "ip src ::a03:7") = Ok [0].
Proof. split; lazy; reflexivity. Qed.

Print Assumptions C67_filter.
Print Assumptions C67_refused.
Print Assumptions C67_expand.
