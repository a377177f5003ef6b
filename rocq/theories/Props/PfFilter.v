(** C69: filtering a pfSense configuration by an expression given as text. *)
From Coq Require Import Lia String.
From Verif.Model Require Import Base Ip Hosts Groups Rules Caf Iface Peg Ids Ports Define FileText CafText Pfsense PfFile.
From Verif.Model Require AddrText.
From Verif.Spec Require Import AddrSpec FilterSpec CafSpec CafMeanSpec CafTextSpec PfSpec PfFileSpec PfFilterSpec.
From Verif.Spec Require FileFilterSpec.
From Verif.Proofs Require Import CafFacts CafTextFacts CafExpr CafMean MaskFacts AddrTextFacts FileGood PfIface.
From Verif.Props Require FileFilter.
From Verif.Props Require Import Filter CafText Pfsense PfAliases PfFile.
Import FileFilterSpec (expr_ids).
Import FileFilter (eval_ids, denotes_get).
Local Open Scope list_scope.

(** An ASA configuration with these groups and nothing else *)
Definition only_groups (h : heap) : tables := mktables [] [] [] (mkworld ([], h) (w_port world_init) (w_service world_init) (w_proto world_init) (w_icmp world_init)) [] [] 0.
Definition heap_good (h : heap) : Prop := forall g x, In x (objs h g) -> g < h_next h /\ exists l, x = HLeaf l /\ obj_good l.
Lemma heap_tables h : heap_good h -> tables_good (only_groups h).
Proof.
  intros G. split; cbn [tb_names tb_netobj tb_world only_groups w_net fst snd dget]; try discriminate.
  intros g x I. destruct (G g x I) as (L & l & -> & Gl). split; [exact L|exact (proj1 Gl)].
Qed.

Section P.
  Context (unescape : pystr -> pystr) (py_int : pystr -> option Z)
          (ip_addr : pystr -> option addr) (ip_net : pystr -> pystr -> result net) (AV : addresses_valid ip_addr ip_net)
          (to_time : option pystr -> result Z) (strip : pystr -> pystr)
          (ip_net_strict : pystr -> bool) (download : option pystr -> option (list pystr))
          (fetch : bool).
  Context (isalpha isalnum isspace : N -> bool) (OK : classes_ok isalpha isalnum isspace).
  Notation pf_parse := (pf_parse unescape py_int ip_addr ip_net to_time strip ip_net_strict download fetch).
  Notation alias_means := (alias_means unescape py_int ip_addr ip_net strip ip_net_strict download fetch).
  Notation filter_reads := (filter_reads unescape py_int ip_addr ip_net to_time).
  Notation pf_config_filter := (pf_config_filter unescape py_int ip_addr ip_net to_time strip ip_net_strict download fetch isalpha isalnum isspace).
  Notation caf_read := (caf_read isalpha isalnum isspace).
  Notation written_as := (written_as isalnum isspace).

  (** *** What the document makes can be compared *)
  Lemma host_leaf s a : ip_addr s = Some a -> obj_good (LHost a).
  Proof using AV. intros H. destruct AV as (A & _). split; [split; [exact (A _ _ H)|split; reflexivity]|exact Logic.I]. Qed.
  Lemma net_leaf a m n : ip_net a m = Ok n -> obj_good (LNet n).
  Proof using AV. intros H. destruct AV as (_ & A). split; [split; [exact (A _ _ _ H)|split; reflexivity]|exact Logic.I]. Qed.
  Lemma alias_members k n d l : alias_means k n d (CHosts l) -> forall x, In x l -> exists y, x = HLeaf y /\ obj_good y.
  Proof using AV.
    intros (_ & _ & t & _ & M) x I. inversion M as [a es l' _ _ F|a es l' _ _ F| |E|url ls hs _ _ _ F|]; subst.
    - destruct (Forall2_In_r _ _ _ _ F I) as (e & _ & [(v & E & ->)|(_ & ->)]); eexists; (split; [reflexivity|]); [eapply host_leaf; eauto|now repeat split].
    - destruct (Forall2_In_r _ _ _ _ F I) as (e & _ & (a' & m & n' & _ & E & ->)); eexists; (split; [reflexivity|]); eapply net_leaf; eauto.
    - destruct I as [<-|[]]. exists LAny. now repeat split.
    - apply in_concat in I as (h & Ih & I). destruct (Forall2_In_r _ _ _ _ F Ih) as (e & _ & [(a & m & n' & _ & _ & E & ->)|[(v & _ & E & ->)|(_ & _ & ->)]]); [| |destruct I]; destruct I as [<-|[]]; eexists; (split; [reflexivity|]).
      + eapply net_leaf; eauto.
      + eapply host_leaf; eauto.
    - destruct I.
  Qed.
  Lemma learned_good al l : Forall2 (fun i (x : alias) => let '(n, d, c) := x in alias_means (x_kids i) n d c) l al -> heap_good (ps_nh (fold_left learn_alias al ps_empty)).
  Proof using AV to_time.
    revert l. induction al as [|x al IH] using rev_ind; intros l F; [intros g x []|].
    apply Forall2_app_inv_r in F as (l1 & l2 & F1 & F2 & ->). specialize (IH _ F1). rewrite fold_left_app. cbn [fold_left]. set (s := fold_left learn_alias al ps_empty) in *.
    inversion F2 as [|i ? ? ? M F3]; subst. destruct x as [[n d] [m|m]]; cbn [learn_alias learned]; [|exact IH].
    unfold learn_net, h_alloc. cbn [ps_nh]. intros g x I. unfold objs in I. cbn [h_get h_next] in *. destruct (Nat.eqb_spec g (h_next (ps_nh s))) as [->|N].
    - cbn [g_objs] in I. split; [lia|]. eapply alias_members; eauto.
    - destruct (IH g x I) as (L & X). split; [lia|exact X].
  Qed.
  Lemma address_good s t h : (forall n k, aget opt_eqb (ps_net s) n = Some k -> k < h_next (ps_nh s)) -> address_means ip_addr ip_net s t h -> host_good (h_next (ps_nh s)) h.
  Proof using AV. intros K [g E|a x m n _ _ _ E|a v _ _ _ E]; cbn [host_good]; [eauto|eapply net_leaf; eauto|eapply host_leaf; eauto]. Qed.
  Lemma side_good s tag kids n : (forall n k, aget opt_eqb (ps_net s) n = Some k -> k < h_next (ps_nh s)) -> side_of py_int ip_addr ip_net s tag kids n -> host_good (h_next (ps_nh s)) (pn_host n).
  Proof using AV.
    intros K [(c & _ & _ & (b & d & a & _ & A & _) & _)|(_ & ->)]; [|now repeat split].
    destruct A as [_|h _ A|m a' _ _ _]; [now repeat split|eapply address_good; eauto|now repeat split].
  Qed.
  Definition prule_good (s : pstate) (r : prule) : Prop := host_good (h_next (ps_nh s)) (pn_host (p_src r)) /\ host_good (h_next (ps_nh s)) (pn_host (p_dst r)).
  Lemma reads_good s l rs : (forall n k, aget opt_eqb (ps_net s) n = Some k -> k < h_next (ps_nh s)) -> filter_reads s l rs -> forall r, In r rs -> prule_good s r.
  Proof using AV.
    intros K F. induction F as [|l rs c r F IH _ M|l rs c ms rs' F IH _ _ (L & S)]; intros x I.
    - destruct I.
    - apply in_app_iff in I as [I|[<-|[]]]; [auto|]. destruct M as (_ & _ & _ & _ & A & B & _). split; eapply side_good; eauto.
    - apply In_nth_error in I as (n & E). assert (n < length rs) by (rewrite <- L; apply nth_error_Some; congruence). destruct (nth_error rs n) as [r0|] eqn:E0; [|apply nth_error_None in E0; lia].
      destruct (S n r0 E0) as (r' & _ & _ & E' & (_ & _ & _ & P1 & P2 & _) & _). rewrite E in E'. injection E' as <-. unfold prule_good. rewrite P1, P2. apply IH. eapply nth_error_In; eauto.
  Qed.
  Lemma document_good root cfg s : pf_parse root = Ok (cfg, s) -> heap_good (ps_nh s) /\ forall r, In r (pcf_rules cfg) -> prule_good s r.
  Proof using AV.
    intros H. split.
    - apply parse_shape in H as (al & objs & rss & (_ & _ & _ & A & _ & -> & _) & _). destruct (put_frame objs (fold_left learn_alias al ps_empty)) as (_ & _ & -> & _). eapply learned_good; eauto.
    - apply C68_reads in H as ((_ & _ & _ & ((al & _ & (Ln & _ & T) & _) & _) & _) & (rss & F & ->) & _). intros r I. apply in_concat in I as (rs & Irs & I).
      destruct (Forall2_In_r _ _ _ _ F Irs) as (e & _ & R). eapply reads_good; [|exact R|exact I]. intros n k E. apply T in E as ((x & E & _) & _). rewrite Ln. apply nth_error_Some. congruence.
  Qed.
  Lemma pcompare s h r x : heap_good (ps_nh s) -> extends (ps_nh s) h -> prule_good s x -> id_regular (p_id x) -> id_regular (r_id r) ->
    term_wf h (r_src r) -> wildfree h (r_src r) -> term_wf h (r_dst r) -> wildfree h (r_dst r) -> comparable_item h r (IRule (prule_of x)).
  Proof using.
    clear. intros G X (H1 & H2) Ix Ir W1 F1 W2 F2. pose proof (heap_tables _ G) as GT.
    assert (A : forall y, host_good (h_next (ps_nh s)) y -> term_wf h y /\ AddrSpec.plain h y /\ wildfree h y).
    { intros y Y. split; [|split]; intros l L; apply (FileFilter.reach_good (only_groups (ps_nh s)) h GT X y l) in L; auto; now destruct L as (? & ? & ?). }
    split; [exact I|]. cbn [item_srcs item_dsts prule_of r_src r_dst r_id]. split; [|split; [|split; auto]]; intros y [<-|[]].
    - destruct (A _ H1) as (? & ? & ?). repeat split; auto.
    - destruct (A _ H2) as (? & ? & ?). repeat split; auto.
  Qed.

  (** C69: the filter returns exactly the rules the expression means. *)
  Theorem C69_filter : forall root query cfg s e, pf_parse root = Ok (cfg, s) -> written_as e query -> readable e ->
    (forall id, In id (expr_ids e) -> id_regular id) -> (forall r, In r (pcf_rules cfg) -> id_regular (p_id r)) ->
    exists limit, forall k, limit <= k -> exists l, pf_config_filter k root query = Ok l /\ NoDup l /\
      forall x, In x l <-> exists i, prule_entry (pcf_rules cfg) x i /\ expr_means (ps_nh s) i e.
  Proof using OK AV.
    intros root query cfg s e H Q R Id Ir. destruct (document_good _ _ _ H) as (G & Rg). pose proof (heap_tables _ G) as GT. pose proof (good_acyclic _ GT) as A. cbn [only_groups tb_world w_net snd] in A.
    destruct (proj2 (C41_accepted _ _ _ OK _ query A) (ex_intro _ e (conj Q R))) as ((h & c) & E).
    destruct (C41_meaning _ _ _ OK _ _ _ _ _ A Q E) as (X & A' & Wf & M).
    assert (Ev : exists v, eval_expr (ps_nh s) e = Ok (h, v) /\ clauses c = clauses (block v)).
    { pose proof E as E1. unfold CafText.caf_read in E1. pose proof (proj2 (p_grammar_spec _ _ _ OK _ _) Q) as Q1. rewrite Q1 in E1. cbn [bind] in E1. destruct (eval_expr (ps_nh s) e) as [(h1 & v)|] eqn:Ev; [|discriminate]. cbn [bind] in E1. injection E1 as <- <-. exists v. split; [reflexivity|destruct v; reflexivity]. }
    destruct Ev as (v & Ev & Ec). set (rs := pcf_rules cfg) in *.
    assert (K : forall k x, nth_error rs k = Some x -> prule_at rs k = IRule (prule_of x)) by (intros k x Ek; unfold prule_at; now rewrite Ek).
    destruct (C23_config_filter h (prule_at rs) c (seq 0 (length rs)) [[]; []; []] A') as (limit & L).
    { intros r k Ic Ik. apply in_app_or in Ik as [Ik|Ik]; [|now cbn in Ik]. apply in_seq in Ik as (_ & Lk). cbn [plus] in Lk. apply nth_error_Some in Lk. destruct (nth_error _ k) as [x|] eqn:Ek; [|congruence].
      rewrite (K _ _ Ek). destruct (Wf r Ic) as (W1 & F1 & W2 & F2). pose proof (nth_error_In _ _ Ek) as Ix. eapply (pcompare s); eauto. apply Id. eapply eval_ids; [exact R|exact Ev|]. rewrite <- Ec. exact Ic. }
    exists limit. intros k Lk. destruct (L k Lk) as (l & El & N & S). exists l. split; [|split; [exact N|]].
    - unfold PfFile.pf_config_filter. rewrite H. cbn [bind]. rewrite E. cbn [bind]. exact El.
    - intros x. rewrite S. assert (D : forall y, nth_error rs x = Some y -> denotes (fun r x => selects h r (prule_at rs x)) c x <-> expr_means (ps_nh s) (IRule (prule_of y)) e).
      { intros y Ey. rewrite denotes_get, (K _ _ Ey), M. apply (FileFilter.expr_same (only_groups (ps_nh s)) h GT X). destruct (Rg y ltac:(eapply nth_error_In; eauto)) as (G1 & G2). intros z [<-|[<-|[]]]; auto. }
      split.
      + intros (Ix & Dx). assert (Lx : x < length rs). { destruct Ix as [Ix|(l' & Il & Ix)]; [apply in_seq in Ix; lia|]. destruct Il as [El'|[El'|[El'|[]]]]; subst l'; destruct Ix. }
        apply nth_error_Some in Lx. destruct (nth_error _ x) as [y|] eqn:Ey; [|congruence]. exists (IRule (prule_of y)). split; [now constructor|]. now apply (D y).
      + intros (i & Ei & Dx). destruct Ei as [k' y Ey]. split; [|now apply (D y)]. left. apply in_seq. split; [lia|]. cbn [plus]. apply nth_error_Some. congruence.
  Qed.
  (** C69: any other query is refused. *)
  Theorem C69_refused : forall root query cfg s, pf_parse root = Ok (cfg, s) -> ~ (exists e, written_as e query /\ readable e) ->
    exists err, forall k, pf_config_filter k root query = Err err.
  Proof using OK AV.
    intros root query cfg s H N. destruct (document_good _ _ _ H) as (G & _). pose proof (good_acyclic _ (heap_tables _ G)) as A. cbn [only_groups tb_world w_net snd] in A.
    destruct (caf_read (ps_nh s) query) as [r|err] eqn:E.
    - exfalso. apply N. apply (C41_accepted _ _ _ OK _ query A). eauto.
    - exists err. intros k. unfold PfFile.pf_config_filter. rewrite H. cbn [bind]. now rewrite E.
  Qed.
End P.

(** ** Example: the document of C68 *)
Lemma C69_library : addresses_valid C68_addr C68_net.
Proof.
  assert (V : forall s a, AddrText.ip_address s = Ok a -> valid a) by (intros s a E; eapply address_valid; apply ip_address_spec; exact E).
  split.
  - intros s a H. unfold C68_addr in H. destruct (AddrText.ip_address s) as [b|] eqn:E; [|discriminate]. injection H as ->. eauto.
  - intros a m n H. unfold C68_net, AddrText.ip_network_text in H. destruct (AddrText.ip_address a) as [b|] eqn:E; [|discriminate]. cbn [bind] in H.
    destruct (AddrText.read_mask m) as [k|] eqn:K; [|discriminate]. apply (ip_network_wf false b k n (V _ _ E)) in H; [apply H|].
    unfold AddrText.read_mask in K. destruct (_ && _); [injection K as <-; exact I|]. destruct (AddrText.parse4 m) as [q|] eqn:Q; [|discriminate]. injection K as <-.
    apply parse4_spec in Q as (L & _). exact L.
Qed.
Definition C69_filter_ex := pf_config_filter (fun x => x) (fun _ => None) C68_addr C68_net (fun _ => Err ValueError) (fun x => x) (fun _ => false) (fun _ => None) true ascii_alpha ascii_alnum ascii_space.
Definition C69_query : pystr := u "ip src 10.0.0.80 ip dst 192.168.0.1".
Example C69_ex : exists e, written_as ascii_alnum ascii_space e C69_query /\ readable e /\ (forall id, In id (expr_ids e) -> id_regular id) /\
  C69_filter_ex 20 C68_doc C69_query = Ok [0] /\ C69_filter_ex 20 C68_doc (u "id DMZ union ip dst 10.1.1.1") = Ok [0; 1] /\
  (* the rule for an interface's network is selected whatever the address, and so is one for an alias with a host name *)
  C69_filter_ex 20 C68_doc (u "ip src 192.0.2.1 ip dst 10.1.1.1") = Ok [0; 1].
Proof.
  assert (P : exists e, p_grammar ascii_alpha ascii_alnum ascii_space C69_query = Ok e) by (eexists; lazy; reflexivity).
  destruct P as (e & P). exists e. pose proof (proj1 (p_grammar_spec _ _ _ C41_classes _ _) P) as Q. split; [exact Q|]. split; [|split; [|split; [|split]]].
  - assert (A : exists r, caf_read ascii_alpha ascii_alnum ascii_space (mkheap (fun _ => mkgroup [] [] [] []) 0) C69_query = Ok r) by (eexists; lazy; reflexivity).
    assert (Ac : acyclic (mkheap (fun _ => mkgroup [] [] [] []) 0)) by (exists (fun _ => 0); intros g m []).
    apply (proj1 (C41_accepted _ _ _ C41_classes _ _ Ac)) in A as (e' & Q' & R). now rewrite (C41_reading_unique _ _ _ C41_classes _ _ _ Q Q').
  - lazy in P. injection P as <-. intros id I s p -> K. cbn in I. destruct I as [I|[]]. discriminate I.
  - lazy. reflexivity.
  - lazy. reflexivity.
  - lazy. reflexivity.
Qed.
Print Assumptions C69_filter.
Print Assumptions C69_refused.
