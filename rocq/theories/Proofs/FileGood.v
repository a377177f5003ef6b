(** What the commands of a text make can be filtered: addresses are in range, no NAT end is
    left unresolved, groups refer to older groups only. *)
From Coq Require Import Lia String.
From Verif.Model Require Import Base Ip Hosts Groups Rules Caf Nat Iface AddrText Ports AclText Define ObjText LineText NatText FileText FileFilter.
From Verif.Spec Require Import AddrSpec FilterSpec CafSpec CafMeanSpec GroupSpec AclTextSpec GroupTextSpec ObjTextSpec LineTextSpec FileTextSpec.
From Verif.Spec Require NatTextSpec.
From Verif.Proofs Require Import MaskFacts CafMean DictFacts.
From Verif.Props Require Define Addresses.
Local Open Scope list_scope.

Definition leaf_good (l : leaf) : Prop := leaf_wf l /\ is_caf l = false /\ is_wild l = false.
(** The values of a network object are no interface terms. *)
Definition obj_good (l : leaf) : Prop := leaf_good l /\ match l with LIface _ => False | _ => True end.
Definition host_good (n : nat) (x : host) : Prop :=
  match x with HLeaf l => leaf_good l | HObj o => Forall obj_good (o_addrs o) | HGrp g => g < n end.
Record tables_good (T : tables) : Prop := {
  tg_names : forall n x, dget (tb_names T) n = Some x -> valid (nm_addr x);
  tg_objs : forall n o, dget (tb_netobj T) n = Some o -> Forall obj_good (o_addrs o);
  tg_grps : forall n g, dget (fst (w_net (tb_world T))) n = Some g -> g < h_next (snd (w_net (tb_world T)));
  tg_heap : forall g x, In x (objs (snd (w_net (tb_world T))) g) -> g < h_next (snd (w_net (tb_world T))) /\ host_good g x }.
Definition item_good (n : nat) (i : item) : Prop :=
  resolved i /\ (forall x, In x (item_srcs i ++ item_dsts i) -> host_good n x) /\
  match i with IRule r => exists id, r_id r = Some id /\ ~ In slash id | INat _ => True end.
Notation heap_of T := (snd (w_net (tb_world T))).

Lemma host_good_le n n' x : n <= n' -> host_good n x -> host_good n' x.
Proof. intros L. destruct x; cbn [host_good]; auto. intros; lia. Qed.
Lemma item_good_le n n' i : n <= n' -> item_good n i -> item_good n' i.
Proof. intros L (R & G & K). split; [auto|]. split; [|auto]. intros x I. eapply host_good_le; eauto. Qed.
Lemma net_of_good a m n : valid a -> net_of a m n -> leaf_good (LNet n).
Proof.
  intros V (D & Ev & Ea). split; [|split; reflexivity]. cbn [leaf_wf]. unfold net_wf.
  assert (P : (n_plen n <= bits (a_ver a))%N).
  { destruct m as [k|q]; cbn [mask_denotes] in D; [destruct D; lia|]. destruct D as (E & [(? & _)|((? & _) & _)]); rewrite E; cbn; lia. }
  rewrite Ev, Ea. split; [auto|]. split.
  - unfold valid in V. pose proof (N.mul_div_le (a_val a) (2 ^ (bits (a_ver a) - n_plen n))) as Q. rewrite N.mul_comm in Q. eapply N.le_lt_trans; [apply Q|auto]. apply N.pow_nonzero. discriminate.
  - apply N.divide_factor_r.
Qed.
Lemma network_good a m l : valid a -> mask_in_range m -> mk_Network a m = Ok l -> obj_good l.
Proof.
  intros V M E. unfold mk_Network in E. destruct (ip_network false a m) as [n|] eqn:I; [|discriminate]. injection E as <-.
  destruct (ip_network_wf _ _ _ _ V M I) as (W & _). split; [now split|exact Logic.I].
Qed.
Section Step.
  Variables (isspace : N -> bool) (T : tables).
  Context (G : tables_good T).
  Notation E := (env_of T).
  Notation N := (h_next (heap_of T)).

  Lemma ref_valid v a x t : address_ref E v a x t -> valid a.
  Proof using G. intros H. destruct H as [n x H|a t _ H]; [exact (tg_names T G _ _ H)|exact (address_valid _ _ H)]. Qed.
  Lemma host_ok x t : host_text E x t -> host_good N (th_host x).
  Proof using G.
    intros H. destruct H as [w g a n t W Gp R|g n Gp I| | | |g n o Gp D|g n x Gp D|a x t g m n R Gp M D|a x t d p n R Dt D]; cbn [th_host host_good].
    - apply ref_valid in R. now split.
    - now repeat split.
    - now repeat split.
    - now repeat split.
    - now repeat split.
    - exact (tg_objs T G _ _ D).
    - exact (tg_grps T G _ _ D).
    - apply ref_valid in R. now apply net_of_good with a (MaskQuad m).
    - apply ref_valid in R. now apply net_of_good with a (MaskLen p).
  Qed.
  Lemma node_ok x t : node_text E x t -> host_good N (th_host (an_host x)).
  Proof using G. intros H. destruct H; cbn [an_host]; eapply host_ok; eauto. Qed.
  Lemma rule_ok x t : rule_text E isspace x t -> item_good N (IRule (rule_of x)).
  Proof using G.
    intros [y ts s _ L]. clear ts.
    assert (NS : forall k id mode hd, head_text k id mode hd -> ~ In slash id).
    { intros k id mode hd (g1 & g2 & g3 & _ & _ & _ & (_ & C) & _). intros I. specialize (C _ I). unfold letter, digit, slash in C. lia. }
    assert (A : host_good N (HLeaf LAny)) by now repeat split.
    split; [exact I|]. unfold rule_of. cbn [item_srcs item_dsts r_src r_dst r_id].
    destruct L; cbn [ar_id ar_src ar_dst an_host th_host any_end]; (split; [|eexists; split; [reflexivity|eauto]]);
      (intros zz [<-|[<-|[]]]); eauto using host_ok, node_ok; now repeat split.
  Qed.
  Lemma args_ok n d a t o : args_text isspace a t -> mk_NetworkObject n d a = Ok o -> Forall obj_good (o_addrs o).
  Proof using.
    clear. intros H M. destruct H as [g a t z Gp A Z|g a g' m z Gp A Gp' Mm Z|g a t d' p z Gp V A D Z|g a t g' b t' z Gp A Gp' B Ev Z|g x z Gp U Z|g v g' x z Gp Gp' U Z]; cbn [mk_NetworkObject] in M.
    - injection M as <-. cbn. constructor; [|constructor]. split; [now split; [eapply address_valid; eauto|]|exact Logic.I].
    - destruct (mk_Network _ _) as [l|] eqn:K; [|discriminate]. injection M as <-. constructor; [|constructor]. eapply network_good; [| |exact K]; [exact A|exact Mm].
    - destruct (mk_Network _ _) as [l|] eqn:K; [|discriminate]. injection M as <-. constructor; [|constructor]. eapply network_good; [| |exact K]; [eapply address_valid; eauto|exact I].
    - apply address_valid in A, B. destruct (N.le_gt_cases (a_val a) (a_val b)) as [L|L].
      + destruct (Addresses.C08_range_exact n d a b A B Ev L) as (nets & Eq & W & _). cbn [mk_NetworkObject] in Eq. rewrite Eq in M. injection M as <-. cbn.
        apply Forall_forall. intros l I. apply in_map_iff in I as (k & <- & I). rewrite Forall_forall in W. split; [split; [exact (W _ I)|now split]|exact Logic.I].
      + destruct (Addresses.C08_range_rejected n d a b) as (_ & R). specialize (R Ev L). cbn [mk_NetworkObject] in R. now rewrite R in M.
    - injection M as <-. repeat constructor.
    - destruct v; injection M as <-; repeat constructor.
  Qed.
  Lemma pool_ok x t : pool_range E x t -> host_good N x.
  Proof using G. intros [n y D|n o D _]; [exact (tg_grps T G _ _ D)|exact (tg_objs T G _ _ D)]. Qed.
  Definition natnode_good (k : natnode) : Prop := match k with NHost x => host_good N x | _ => True end.
  Lemma mapped_ok m t k : mapped_text E m t -> network_nat_mapped m = Ok k -> k <> NNone /\ natnode_good k.
  Proof using G.
    intros H M. destruct H as [n o f D F|n x f D U F|a t f A U F|a t d p n f V A D K F|t U O|g h n l o f U Gp P Ea F]; cbn [network_nat_mapped] in M.
    - injection M as <-. split; [discriminate|exact (tg_objs T G _ _ D)].
    - injection M as <-. split; [discriminate|exact (tg_grps T G _ _ D)].
    - injection M as <-. split; [discriminate|]. now split; [eapply address_valid; eauto|].
    - destruct (mk_Network _ _) as [l|] eqn:L; [|discriminate]. injection M as <-. split; [discriminate|]. eapply network_good; [| |exact L]; [eapply address_valid; eauto|exact I].
    - injection M as <-. now split.
    - injection M as <-. split; [discriminate|]. eapply pool_ok; eauto.
  Qed.
  Lemma objnat_ok a t n p : nat_text E (tb_if T) a t -> network_object_nat a = Ok n -> Forall obj_good (o_addrs p) -> item_good N (INat (set_real_src n p)).
  Proof using G.
    intros H K P. destruct H as [g nn i n' i' g1 st g2 m tm s ts o to z _ _ _ _ _ M _ _ _ _ _]. unfold network_object_nat in K. cbn [on_mapped on_iface on_static on_service on_options fst snd] in K.
    destruct (network_nat_mapped m) as [k|] eqn:Q; [|discriminate]. cbn [bind] in K. injection K as <-. destruct (mapped_ok _ _ _ M Q) as (NN & Gk).
    assert (A : host_good N (HLeaf LAny)) by now repeat split.
    split; [|split; [|exact I]].
    - cbn. split; eexists; (split; [reflexivity|]); cbn; (split; [|discriminate]); [discriminate|]. destruct k; discriminate.
    - intros x Hx. cbn in Hx. destruct k as [| |y]; cbn in Hx; [congruence| |];
        repeat (destruct Hx as [<-|Hx]; [first [exact P|exact A|exact Gk|now repeat split]|]); destruct Hx.
  Qed.
  Lemma netobj_ok bare n d b t known known' p nat : obj_text isspace E (tb_if T) bare (ONet n d b) t -> network_object_def known n d b = Ok (known', p, nat) ->
    Forall obj_good (o_addrs p) /\ forall k, nat = Some k -> item_good N (INat k).
  Proof using G.
    intros H K. inversion H as [g g' n0 b0 tb d0 td _ _ _ B _ _|]; subst. clear H. unfold network_object_def in K.
    assert (Main : forall args on, (forall a0, mk_NetworkObject n d args = Ok a0 -> Forall obj_good (o_addrs a0)) -> (forall m, on = Some m -> exists t, nat_text E (tb_if T) m t) ->
      (do n0 <- (match on with Some a => do x <- network_object_nat a; Ok (Some x) | None => Ok None end); do p <- mk_NetworkObject n d args;
       Ok (match known n with None => Nat.learn known n p | Some _ => known end, p, option_map (fun x => set_real_src x p) n0)) = Ok (known', p, nat) ->
      Forall obj_good (o_addrs p) /\ forall k, nat = Some k -> item_good N (INat k)).
    { intros args on A O K'. destruct on as [m|].
      - destruct (network_object_nat m) as [x|] eqn:Q; [|discriminate]. cbn [bind] in K'. destruct (mk_NetworkObject n d args) as [p'|] eqn:P; [|discriminate]. cbn [bind option_map] in K'.
        injection K' as _ <- <-. split; [auto|]. intros k [= <-]. destruct (O _ eq_refl) as (tn & Tn). eapply objnat_ok; eauto.
      - cbn [bind] in K'. destruct (mk_NetworkObject n d args) as [p'|] eqn:P; [|discriminate]. injection K' as _ <- <-. split; [auto|]. discriminate. }
    destruct B as [z a ta on tn _ A O|z m tm on tn _ M _|on tn O].
    - apply (Main a on); [intros; eapply args_ok; eauto| |exact K]. intros m ->. inversion O; subst; eauto.
    - apply (Main ANat (Some m)); [intros a0 [= <-]; constructor| |exact K]. intros m' [= <-]; eauto.
    - apply (Main ANone on); [intros a0 [= <-]; constructor| |exact K]. intros m ->. inversion O; subst; eauto.
  Qed.
  Lemma natnode_ok h t : NatTextSpec.node_text E h t -> host_good N h.
  Proof using G. intros [n o D|n x D _]; [exact (tg_objs T G _ _ D)|exact (tg_grps T G _ _ D)]. Qed.
  Lemma mappednode_ok st m t : NatTextSpec.mapped_node_text E st m t -> match m with MNode x => host_good N x | _ => True end.
  Proof using G. intros H. destruct H; auto; [eapply natnode_ok; eauto|eapply pool_ok; eauto]. Qed.
  Lemma nat_ok a t n : NatTextSpec.nat_line_text E (tb_if T) a t -> nat_action a = Ok (Some n) -> item_good N (INat n).
  Proof using G.
    intros H K. destruct H as [g nn i n' i' pos tp g1 g2 st g3 r tr g4 m tm d td v tv o to _ _ _ _ _ _ _ R _ M D _ _].
    unfold nat_action in K. cbn [na_iface na_static na_service na_options na_src na_dst na_pos fst snd] in K.
    destruct (nat_services st v) as [(rsv & msv)|] eqn:S; [|discriminate]. cbn [bind] in K. destruct (nat_opts_of o None []) as (descr & opts). injection K as <-.
    assert (A : host_good N (HLeaf LAny)) by now repeat split.
    assert (Rg : host_good N (nat_real_node r)) by (destruct R; [eapply natnode_ok; eauto|exact A]).
    apply mappednode_ok in M.
    assert (Dg : forall m' x, d = Some (m', x) -> host_good N x /\ match m' with MNode y => host_good N y | _ => True end).
    { intros m' x ->. inversion D; subst. split; [eapply natnode_ok; eauto|eapply mappednode_ok; eauto]. }
    clear D. split; [|split; [|exact I]].
    - cbn. split; eexists; (split; [reflexivity|]); cbn; unfold resolved_node; destruct d as [(m1, x)|]; try destruct m1; destruct m; cbn; split; discriminate.
    - intros x Hx. unfold item_srcs, item_dsts, side_srcs, side_dsts in Hx. cbn [nat_real nat_mapped ns_src ns_dst option_map resolve_iface node_host] in Hx.
      destruct d as [(m', y)|]; [destruct (Dg _ _ eq_refl) as (Gy & Gm)|]; destruct m; try destruct m'; cbn in Hx;
        repeat (destruct Hx as [<-|Hx]; [first [assumption|exact A|now repeat split]|]); destruct Hx.
  Qed.
  Lemma member_ok m t x : net_member_text E m t -> Define.stands_for HGrp (fst (w_net (tb_world T))) m x -> host_good N x.
  Proof using G.
    intros H S. destruct H as [g g' a y t z _ _ R _|g g' n o z _ _ D _|g a y t g' m n z _ R _ M D _|g a y t d p n z _ R Dt D _|m t R].
    - cbn in S. subst x. apply ref_valid in R. now split.
    - cbn in S. subst x. exact (tg_objs T G _ _ D).
    - cbn in S. subst x. apply ref_valid in R. now apply net_of_good with a (MaskQuad m).
    - cbn in S. subst x. apply ref_valid in R. now apply net_of_good with a (MaskLen p).
    - destruct R as [g n z _ _ _]. destruct S as (k & D & ->). exact (tg_grps T G _ _ D).
  Qed.
End Step.

Definition later (T T' : tables) : Prop := h_next (heap_of T) <= h_next (heap_of T').
Lemma step_good isalnum isspace other T c t r T' m : tables_good T -> command_text isalnum isspace other T c t r -> learn T c = Ok (T', m) ->
  tables_good T' /\ later T T' /\ forall i, made_item m = Some i -> item_good (h_next (heap_of T')) i.
Proof.
  intros G H L. unfold later.
  assert (Same : forall T1 m1 (_ : True), tables_good T1 -> heap_of T1 = heap_of T -> (forall i, made_item m1 = Some i -> item_good (h_next (heap_of T)) i) -> counted T1 m1 = Ok (T', m) ->
    tables_good T' /\ h_next (heap_of T) <= h_next (heap_of T') /\ forall i, made_item m = Some i -> item_good (h_next (heap_of T')) i).
  { intros T1 m1 _ G1 E1 I1 C. unfold counted in C. injection C as <- <-. split; [|cbn [tb_world]; rewrite E1; split; [lia|exact I1]].
    destruct G1 as [A1 A2 A3 A4]. split; cbn [tb_names tb_netobj tb_world]; auto. }
  assert (Plain : forall m1, made_item m1 = None -> counted T m1 = Ok (T', m) -> tables_good T' /\ h_next (heap_of T) <= h_next (heap_of T') /\ forall i, made_item m = Some i -> item_good (h_next (heap_of T')) i).
  { intros m1 E1. apply (Same T m1 I); auto. intros i. now rewrite E1. }
  destruct H as [x t r X _|bare d t r O _|d t r D|x t r R|t r _|l ts r _ _ _|a n t r NL NA|t r _ _|t r _|t r _]; cbn [learn] in L;
    try (eapply Plain; [|exact L]; reflexivity).
  - destruct x as [v|n|n|y|n d i|n|a l|n l]; try (eapply Plain; [|exact L]; reflexivity).
    + eapply (Same _ _ I); [| | |exact L]; [|reflexivity|discriminate]. destruct G as [A1 A2 A3 A4]. split; cbn [tb_names tb_netobj tb_world]; auto.
      intros n z D. rewrite dget_dset in D. destruct (str_eqb (nm_host y) n); [|eauto]. injection D as <-. inversion X; subst; cbn [nm_addr]; eapply address_valid; eauto.
    + destruct (iface_init _ _ _) as [i|]; [|discriminate]. cbn [bind] in L. eapply (Same _ _ I); [| | |exact L]; [|reflexivity|discriminate]. destruct G as [A1 A2 A3 A4]. split; cbn [tb_names tb_netobj tb_world]; auto.
    + eapply (Same _ _ I); [| | |exact L]; [|reflexivity|discriminate]. destruct G as [A1 A2 A3 A4]. split; cbn [tb_names tb_netobj tb_world]; auto.
  - destruct d as [n d b|n d s].
    + destruct (network_object_def _ n d b) as [((k & p) & nat)|] eqn:K; [|discriminate]. cbn [bind] in L. destruct (netobj_ok _ _ G _ _ _ _ _ _ _ _ _ O K) as (P & Q).
      eapply (Same _ _ I); [| | |exact L]; [|reflexivity|].
      * destruct G as [A1 A2 A3 A4]. split; cbn [tb_names tb_netobj tb_world]; auto. intros n' o D. destruct (dmem (tb_netobj T) n); [eauto|]. rewrite dget_dset in D. destruct (str_eqb n n'); [injection D as <-; auto|eauto].
      * intros i. cbn [made_item]. destruct nat as [k'|]; [|discriminate]. intros [= <-]. auto.
    + eapply (Same _ _ I); [| | |exact L]; [|reflexivity|discriminate]. destruct G as [A1 A2 A3 A4]. split; cbn [tb_names tb_netobj tb_world]; auto.
  - destruct (define_any (tb_world T) d) as [w|] eqn:W; [|discriminate]. cbn [bind] in L. unfold counted in L. injection L as <- <-. cbn [made_item tb_world].
    assert (Other : w_net w = w_net (tb_world T) -> tables_good (mktables (tb_names T) (tb_netobj T) (tb_svcobj T) w (tb_time T) (tb_if T) (S (tb_count T))) /\ h_next (heap_of T) <= h_next (snd (w_net w)) /\ forall i, None = Some i -> item_good (h_next (snd (w_net w))) i).
    { intros E1. rewrite E1. split; [|split; [lia|discriminate]]. destruct G as [A1 A2 A3 A4]. split; cbn [tb_names tb_netobj tb_world]; rewrite ?E1; auto. }
    destruct d as [d|d|d|d|d]; cbn [define_any] in W; destruct (define _ _ _ _) as [w1|] eqn:Df in W; try discriminate W; cbn [bind] in W; injection W as <-; try (apply Other; reflexivity).
    clear Other. cbn [w_net]. destruct (w_net (tb_world T)) as [tb h] eqn:Ew. destruct w1 as [tb' h']. destruct (Define.define_ok _ _ _ _ _ _ _ Df) as (g & -> & N' & Tn & M & _ & _ & _ & _ & Fr). cbn [snd fst].
    pose proof G as [A1 A2 A3 A4]. rewrite Ew in A3, A4. cbn [fst snd] in A3, A4. split; [|split; [lia|discriminate]]. split; cbn [tb_names tb_netobj tb_world w_net fst snd]; auto.
    + intros n g. rewrite Tn. destruct (str_eqb (gd_name d) n); [intros [= <-]; lia|]. intros D'. specialize (A3 _ _ D'). lia.
    + intros g x I. destruct (Nat.eq_dec g (h_next h)) as [->|Ne].
      * split; [lia|]. inversion D as [g d0 t0 _ P| | | |]; subst. destruct P as [n hh dd td ms tm _ _ Ls]. cbn [gd_members] in M.
        assert (K : exists m1 t1, net_member_text (env_of T) m1 t1 /\ Define.stands_for HGrp tb m1 x).
        { clear -Ls M I. revert M I. generalize (objs h' (h_next h)). induction Ls as [|m1 t1 l tt Hm _ IH]; intros os M I; inversion M; subst; [destruct I|]. destruct I as [->|I]; eauto. }
        destruct K as (m1 & t1 & Hm & S). pose proof (member_ok T G m1 t1 x Hm) as Q. rewrite Ew in Q. exact (Q S).
      * assert (I' : In x (objs h g)). { unfold objs in *. rewrite <- (Fr g); auto. }
        destruct (A4 _ _ I'). split; [lia|auto].
  - eapply (Same T _ I); [| | |exact L]; auto. intros i [= <-]. eapply rule_ok; eauto.
  - eapply (Same T _ I); [| | |exact L]; auto. intros i [= <-]. eapply nat_ok; eauto.
Qed.
Lemma file_good isalnum isspace other T cs ms T' s : file_text isalnum isspace other T cs ms T' s -> tables_good T ->
  tables_good T' /\ later T T' /\ forall m i, In m ms -> made_item m = Some i -> item_good (h_next (heap_of T')) i.
Proof.
  induction 1 as [T|T c t r T1 m cs ms T2 H L _ IH]; intros G.
  - split; [auto|]. split; [unfold later; lia|]. intros ? ? [].
  - destruct (step_good _ _ _ _ _ _ _ _ _ G H L) as (G1 & L1 & I1). destruct (IH G1) as (G2 & L2 & I2). split; [auto|]. unfold later in *. split; [lia|].
    intros m' i [<-|I]; [|eauto]. intros E. eapply item_good_le; [|eauto]. lia.
Qed.
Lemma nothing_good : tables_good no_tables.
Proof. split; cbn; try discriminate. intros g x []. Qed.

(** ** What is good can be compared *)
Lemma good_ranked T : tables_good T -> ranked (heap_of T) (fun g => g).
Proof. intros G g m I. destruct (tg_heap T G _ _ I) as (_ & K). exact K. Qed.
Lemma good_acyclic T : tables_good T -> acyclic (heap_of T).
Proof. intros G. exists (fun g => g). now apply good_ranked. Qed.
