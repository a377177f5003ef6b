(** C38, C39, C40: pfSense rules, interfaces and separators. *)
From Coq Require Import Lia String.
From Verif.Model Require Import Base Ip Hosts Groups Iface Ports Pfsense.
From Verif.Spec Require Import PfSpec.
From Verif.Proofs Require Import GroupOps DictFacts PfFacts PfRule PfIface.
Local Open Scope list_scope.

Section P.
  Context (unescape : pystr -> pystr) (py_int : pystr -> option Z)
          (ip_addr : pystr -> option addr) (ip_net : pystr -> pystr -> result net)
          (to_time : option pystr -> result Z).
  Notation pf_rule := (pf_rule unescape py_int ip_addr ip_net to_time).
  Notation pf_filter := (pf_filter unescape py_int ip_addr ip_net to_time).
  Notation pf_filter_item := (pf_filter_item unescape py_int ip_addr ip_net to_time).
  Notation rule_means := (rule_means unescape py_int ip_addr ip_net to_time).
  Notation sep_means := (sep_means unescape py_int).
  Notation iface_means := (iface_means unescape).
  Notation pf_interfaces := (pf_interfaces unescape).

  (** C38: an XML rule element is converted exactly to the rule it stands for, and the
      conversion fails exactly if it stands for none. *)
  Theorem C38_rule s tag txt kids r : pf_rule s (Xml tag txt kids) = Ok r <-> rule_means s kids r.
  Proof. apply pf_rule_exact. Qed.

  (** In particular: permitted only if the type is "pass"; inactive exactly if disabled;
      logged exactly if log is present; the id is "floating" or the mapped interface. *)
  Theorem C38_summary s e r : pf_rule s e = Ok r ->
    (p_mode r = u "permit" <-> child_text (u "type") (x_kids e) (Some (u "pass"))) /\
    (p_mode r = u "permit" \/ p_mode r = u "deny") /\
    (p_inactive r = true <-> exists c, In c (x_kids e) /\ x_tag c = u "disabled") /\
    (p_log r = true <-> exists c, In c (x_kids e) /\ x_tag c = u "log") /\
    (p_id r = Some (u "floating") \/ exists i, child_text (u "interface") (x_kids e) i /\ p_id r = option_map (alias_of s) i).
  Proof.
    destruct e as [tag txt kids]. intros H. apply C38_rule in H. cbn [x_kids].
    destruct H as (_ & A1 & (t & C & P & Q) & _ & _ & _ & _ & _ & A8 & A9 & _).
    assert (NC : forall tag, ~ no_child tag kids <-> exists c, In c kids /\ x_tag c = tag).
    { intros tg. unfold no_child. destruct (lastf tg kids) as [c|] eqn:L.
      - apply lastf_some in L as (b & a & -> & T & _). split.
        + intros _. exists c. split; auto. apply in_elt.
        + intros _ N. apply (N c); auto. apply in_elt.
      - apply lastf_none in L. split; [tauto|]. intros (c & I & T). destruct (L c I T). }
    split; [|split; [|split; [|split]]].
    - destruct (opt_eqb_spec t (Some (u "pass"))) as [->|N].
      + rewrite P by auto. tauto.
      + rewrite Q by auto. split; [discriminate|]. intros C'. destruct N. eapply child_text_fun; eauto.
    - destruct (opt_eqb_spec t (Some (u "pass"))); auto.
    - now rewrite A8, NC.
    - now rewrite A9, NC.
    - destruct A1 as [(_ & E & _)|(_ & _ & i & Ci & E)]; eauto.
  Qed.

  (** C38, a whole filter element: every rule element gives one rule, in order, that is
      what it stands for except for its captions. *)
  Definition is_rule (i : xml) : bool := str_eqb (x_tag i) (u "rule").
  Definition converted s (i : xml) (r : prule) : Prop := exists r0, rule_means s (x_kids i) r0 /\ same_but_head r0 r.

  Lemma same_refl r : same_but_head r r.
  Proof. repeat split. Qed.
  Lemma same_trans a b c : same_but_head a b -> same_but_head b c -> same_but_head a c.
  Proof. unfold same_but_head. intuition congruence. Qed.

  (** C40: a separator element gives every rule read so far the captions of the
      separators for the rule's list and its place in the run of rules of that list. *)
  Theorem C40_separators s ast txt kids ast' :
    pf_filter_item s ast (Xml (u "separator") txt kids) = Ok ast' ->
    exists ms, Forall2 (sep_means s) (flat_map x_kids kids) ms /\ separated ms ast ast'.
  Proof.
    unfold Pfsense.pf_filter_item. cbn [x_tag].
    rewrite (str_eqb_false (u "separator") (u "rule")) by discriminate. rewrite str_eqb_same.
    unfold pf_seps. cbn [x_kids]. rewrite fold_nested. intros H.
    destruct (fold_r (pf_sep unescape py_int s) (flat_map x_kids kids) []) as [d|] eqn:E; [|discriminate].
    cbn [bind] in H. injection H as <-.
    apply (fold_sep unescape py_int s _ [] []) in E as (ms & F & Hd).
    - exists ms. split; auto.
      assert (I : run_inv (map p_id []) 0 None).
      { split; cbn; try lia; try (intros; lia). intros C. now destruct C. }
      destruct (attach_ok d ms Hd ast [] 0 None I) as (L & R). split; [exact L|].
      intros n r En. destruct (R n r En) as (r' & k & caps & X). exists r', k, caps. exact X.
    - intros id row. exists []. split; [constructor|reflexivity].
  Qed.
  (** It is read exactly if all its separators can be. *)
  Theorem C40_separators_total s ast txt kids :
    (exists ast', pf_filter_item s ast (Xml (u "separator") txt kids) = Ok ast') <->
    (forall e, In e (flat_map x_kids kids) -> exists m, sep_means s e m).
  Proof.
    split.
    - intros (ast' & H). apply C40_separators in H as (ms & F & _). intros e I.
      clear - F I. induction F as [|x y l l' M F IH]; [destruct I|]. destruct I as [<-|I]; eauto.
    - intros H. assert (exists ms, Forall2 (sep_means s) (flat_map x_kids kids) ms) as (ms & F).
      { induction (flat_map x_kids kids) as [|e l IH]; [exists []; constructor|].
        destruct (H e (or_introl eq_refl)) as (m & M). destruct IH as (ms & F); [intros x X; apply H; now right|].
        exists (m :: ms). now constructor. }
      destruct (fold_sep_total unescape py_int s _ [] ms F) as (d & E).
      unfold Pfsense.pf_filter_item. cbn [x_tag].
      rewrite (str_eqb_false (u "separator") (u "rule")) by discriminate. rewrite str_eqb_same.
      unfold pf_seps. cbn [x_kids]. rewrite fold_nested, E. cbn [bind]. eauto.
  Qed.

  Theorem C38_filter s l ast : pf_filter s l = Ok ast ->
    Forall2 (converted s) (filter is_rule l) ast /\
    (forall i, In i l -> x_tag i = u "rule" \/ x_tag i = u "separator").
  Proof.
    unfold Pfsense.pf_filter. revert ast. induction l as [|i l IH] using rev_ind; intros ast H.
    - injection H as <-. split; [constructor|intros i []].
    - rewrite fold_r_snoc in H. destruct (fold_r (pf_filter_item s) l []) as [a0|] eqn:E; [|discriminate].
      cbn [bind] in H. destruct (IH a0 eq_refl) as (F & T). rewrite filter_app. cbn [filter]. unfold is_rule at 2.
      destruct i as [tag txt kids].
      destruct (str_eqb_spec tag (u "rule")) as [->|N1].
      + unfold Pfsense.pf_filter_item in H. cbn [x_tag] in *. rewrite str_eqb_same in H.
        destruct (pf_rule s (Xml (u "rule") txt kids)) as [r|] eqn:Er; [|discriminate]. cbn [bind] in H. injection H as <-.
        apply C38_rule in Er. rewrite str_eqb_same. split.
        * apply Forall2_app; auto. constructor; [|constructor]. exists r. split; [exact Er|apply same_refl].
        * intros i I. apply in_app_iff in I as [I|[<-|[]]]; auto.
      + destruct (str_eqb_spec tag (u "separator")) as [->|N2].
        * apply C40_separators in H as (ms & _ & L & R). cbn [x_tag].
          rewrite (str_eqb_false (u "separator") (u "rule")) by discriminate. rewrite app_nil_r. split.
          -- clear - F L R.
             assert (S : Forall2 same_but_head a0 ast).
             { clear F. revert ast L R. induction a0 as [|r a0 IHa]; intros ast L R.
               - destruct ast; [constructor|discriminate].
               - destruct ast as [|r' ast]; [discriminate|]. constructor.
                 + destruct (R 0 r eq_refl) as (r1 & k & caps & E & S & _). injection E as <-. exact S.
                 + injection L as L.
                   (* weaker hypothesis for the tail *)
                   assert (G : forall n x, nth_error a0 n = Some x -> exists x', nth_error ast n = Some x' /\ same_but_head x x').
                   { intros n x En. destruct (R (S n) x En) as (x' & k & caps & E & S & _). eauto. }
                   clear - L G. revert ast L G. induction a0 as [|y a0 IHb]; intros [|y' ast] L G; try discriminate; constructor.
                   * destruct (G 0 y eq_refl) as (x' & [= <-] & S). exact S.
                   * apply IHb; [now injection L|]. intros n x En. apply (G (S n) x En). }
             clear L R. revert ast S. induction F as [|e r es rs (r0 & M & S0) F IHF]; intros ast S; inversion S; subst; constructor; auto.
             exists r0. split; auto. eapply same_trans; eauto.
          -- intros i I. apply in_app_iff in I as [I|[<-|[]]]; auto.
        * exfalso. unfold Pfsense.pf_filter_item in H. cbn [x_tag] in H. rewrite !str_eqb_false in H by auto. discriminate.
  Qed.

  (** C39: the interfaces are loaded exactly if none of them has a static address (and all
      have a device and none an empty description element). *)
  Theorem C39_loads s k l : (exists r, pf_interfaces k l s = Ok r) <-> (forall i, In i l -> loadable i).
  Proof.
    split.
    - intros (r & E). eapply pf_interfaces_inv; eauto.
    - intros H. destruct (pf_interfaces_ok unescape l k s H) as (objs & E & _). eauto.
  Qed.
  Theorem C39_static_never s k l i : In i l -> static i -> exists e, pf_interfaces k l s = Err e.
  Proof.
    intros I (a & C & N). destruct (pf_interfaces k l s) as [r|e] eqn:E; [|eauto]. exfalso.
    destruct (pf_interfaces_inv _ _ _ _ _ E i I) as ([F|D] & _).
    - eapply child_text_some; eauto.
    - apply N. eapply child_text_fun; eauto.
  Qed.
  (** A well-formed static interface: the error is an IndexError. *)
  Theorem C39_static_index_error s k before i after :
    (forall j, In j before -> loadable j) -> static i ->
    (exists m, child_text (u "subnet") (x_kids i) m) -> ~ child_text (u "descr") (x_kids i) None ->
    pf_interfaces k (before ++ i :: after) s = Err IndexError.
  Proof.
    intros B S (m & Cm) ND. destruct (pf_interfaces_app unescape before (i :: after) k s B) as (objs & _ & ->).
    cbn [Pfsense.pf_interfaces].
    destruct (pf_iface unescape i) as [[[alias det] descr]|e] eqn:E.
    - cbn [bind]. now rewrite (pf_iface_static unescape i _ _ _ _ S E).
    - exfalso. destruct S as (a & C & N). unfold pf_iface in E.
      rewrite (lookup_iface i (u "ipaddr")), (lookup_iface i (u "descr")) in E by reflexivity. unfold need in E.
      rewrite (lookup_iface i (u "subnet")) in E by reflexivity.
      apply child_text_f in C, Cm. rewrite C, Cm in E.
      destruct (opt_eqb_spec a (Some (u "dhcp"))); [congruence|]. cbn [bind] in E.
      rewrite child_text_f in ND.
      destruct (option_map x_text (lastf (u "descr") (x_kids i))) as [[t|]|]; [|congruence|];
        destruct (starts_with (u "opt") (x_tag i)); discriminate.
  Qed.
  (** What is loaded, and the two tables rules are resolved with. *)
  Theorem C39_interfaces s k l objs s' : pf_interfaces k l s = Ok (objs, s') ->
    Forall2 iface_means l objs /\
    (forall n, (In n (map if_alias objs) /\ dget (ps_ifs s') n = Some n) \/
               (~ In n (map if_alias objs) /\ dget (ps_ifs s') n = dget (ps_ifs s) n)) /\
    (forall n, (exists o, last_described objs n o /\ dget (ps_map s') n = Some (if_alias o)) \/
               ((forall o, In o objs -> if_descr o <> Some n) /\ dget (ps_map s') n = dget (ps_map s) n)) /\
    ps_net s' = ps_net s /\ ps_port s' = ps_port s.
  Proof.
    intros H. assert (L : forall i, In i l -> loadable i) by (eapply pf_interfaces_inv; eauto).
    destruct (pf_interfaces_ok unescape l k s L) as (objs' & E & F). rewrite E in H. injection H as -> <-.
    split; [exact F|]. split; [|split].
    - intros n. rewrite put_ifs. destruct (existsb (fun o => str_eqb (if_alias o) n) objs) eqn:X.
      + left. split; auto. apply existsb_exists in X as (o & I & E'). apply in_map_iff. exists o.
        destruct (str_eqb_spec (if_alias o) n); [auto|discriminate].
      + right. split; auto. intros I. apply in_map_iff in I as (o & <- & I).
        assert (existsb (fun p => str_eqb (if_alias p) (if_alias o)) objs = true).
        { apply existsb_exists. exists o. split; auto. apply str_eqb_same. }
        congruence.
    - intros n. apply put_map. intros o I.
      clear - F I. induction F as [|i p l objs M F IH]; [destruct I|]. destruct I as [<-|I]; auto.
      destruct M as (_ & [(_ & -> & _)|(_ & _ & a & _ & ->)] & _); eauto.
    - destruct (put_frame objs s) as (-> & -> & _). auto.
  Qed.
End P.

(** ** Witnesses *)
Definition el (t : string) (s : string) : xml := Xml (u t) (Some (u s)) [].
Definition no_heap {X} : gheap X := mkheap (fun _ => mkgroup [] [] [] []) 0.
Definition ws : pstate := mkps [] [] [(u "DMZ", u "DMZ"); (u "wan", u "wan")] [(u "opt1", u "DMZ"); (u "", u "wan")] no_heap no_heap.
Definition w_rule : xml :=
  Xml (u "rule") None
    [el "type" "pass"; el "interface" "opt1"; el "protocol" "tcp"; Xml (u "log") None [];
     Xml (u "source") None [el "network" "DMZ"]; Xml (u "destination") None [Xml (u "any") None []; el "port" "443"];
     Xml (u "descr") None []].
Definition w_pf := fun s e => pf_rule (fun x => x) (fun _ => None) (fun _ => None) (fun _ _ => Err ValueError) (fun _ => Err ValueError) s e.
Example C38_witness : match w_pf ws w_rule with
  | Ok r => p_id r = Some (u "DMZ") /\ p_mode r = u "permit" /\ p_log r = true /\
            p_src r = mkpnode (HLeaf (LIface (u "DMZ"))) None
  | Err _ => False end.
Proof. vm_compute. repeat split. Qed.
Definition w_block : xml := Xml (u "rule") None [el "type" "match"; el "interface" "wan"; el "descr" "x"; Xml (u "disabled") None []].
(** A "match" rule, which on pfSense decides nothing, becomes a deny. *)
Example C38_match_denies : match w_pf ws w_block with
  | Ok r => p_mode r = u "deny" /\ p_inactive r = true
  | Err _ => False end.
Proof. vm_compute. repeat split. Qed.

Definition w_if (tag addr : string) : xml := Xml (u tag) None [el "if" "em0"; el "ipaddr" addr; el "subnet" "24"; el "descr" "LAN"].
Example C39_witness : loadable (w_if "wan" "dhcp") /\ static (w_if "lan" "10.0.0.1") /\
  pf_interfaces (fun x => x) 0 [w_if "opt1" "dhcp"; w_if "lan" "10.0.0.1"] ws = Err IndexError.
Proof.
  split; [|split; [|vm_compute; reflexivity]].
  - split; [right|split]; [apply child_text_f; reflexivity|exists (Some (u "em0")); apply child_text_f; reflexivity|].
    rewrite child_text_f. discriminate.
  - exists (Some (u "10.0.0.1")). split; [apply child_text_f; reflexivity|discriminate].
Qed.

Definition w_sep : xml :=
  Xml (u "separator") None [Xml (u "opt1") None [Xml (u "sep0") None [el "if" "opt1"; el "row" "fr1"; el "color" "red"; el "text" "here"]]].
Definition w_int (s : pystr) : option Z := match s with [48%N] => Some 0%Z | [49%N] => Some 1%Z | _ => None end.
Example C40_witness :
  match pf_filter (fun x => x) w_int (fun _ => None) (fun _ _ => Err ValueError) (fun _ => Err ValueError) ws
    [w_block; w_rule; w_rule; w_sep] with
  | Ok l => map p_head l = [None; None; Some [(Some (u "red"), u "here")]]
  | Err _ => False end.
Proof. vm_compute. reflexivity. Qed.
