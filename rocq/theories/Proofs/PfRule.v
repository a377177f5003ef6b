(** A whole pfSense rule element: the loop over its children and what is built from it. *)
From Coq Require Import Lia String.
From Verif.Model Require Import Base Ip Hosts Groups Iface Ports Pfsense.
From Verif.Spec Require Import PfSpec.
From Verif.Proofs Require Import GroupOps DictFacts PfFacts.
Local Open Scope list_scope.

Lemma tag_in_spec t l : tag_in t l = true <-> In t l.
Proof.
  unfold tag_in. rewrite existsb_exists. split.
  - intros (x & I & E). destruct (str_eqb_spec t x); [congruence|discriminate].
  - intros I. exists t. split; auto. destruct (str_eqb_spec t t); congruence.
Qed.
Lemma str_eqb_false a b : a <> b -> str_eqb a b = false.
Proof. destruct (str_eqb_spec a b); congruence. Qed.
Lemma str_eqb_same a : str_eqb a a = true.
Proof. destruct (str_eqb_spec a a); congruence. Qed.

Lemma fold_r_app {A S} (f : S -> A -> result S) l1 l2 s :
  fold_r f (l1 ++ l2) s = do s' <- fold_r f l1 s; fold_r f l2 s'.
Proof. revert s. induction l1 as [|y l1 IH]; intros s; cbn; [reflexivity|]. destruct (f s y); cbn; auto. Qed.

Lemma times_snoc tag kids c :
  times tag (kids ++ [c]) = times tag kids ++ (if str_eqb (x_tag c) tag then x_kids c else []).
Proof. unfold times. rewrite flat_map_app. cbn. now rewrite app_nil_r. Qed.

Lemma child_text_fun tag kids t t' : child_text tag kids t -> child_text tag kids t' -> t = t'.
Proof. intros A B. apply child_text_f in A, B. congruence. Qed.
Lemma child_text_some tag kids t : child_text tag kids t -> no_child tag kids -> False.
Proof. intros (c & (b & a & -> & T & _) & _) N. apply (N c); auto. apply in_elt. Qed.
Lemma text_or_fun tag d kids t t' : text_or tag d kids t -> text_or tag d kids t' -> t = t'.
Proof.
  intros [A|[N ->]] [B|[N' ->]]; auto.
  - eapply child_text_fun; eauto.
  - destruct (child_text_some _ _ _ A N').
  - destruct (child_text_some _ _ _ B N).
Qed.
Lemma last_child_fun tag kids c c' : last_child tag kids c -> last_child tag kids c' -> c = c'.
Proof. intros A B. apply lastf_some in A, B. congruence. Qed.
Lemma last_child_some tag kids c : last_child tag kids c -> no_child tag kids -> False.
Proof. intros (b & a & -> & T & _) N. apply (N c); auto. apply in_elt. Qed.

Section Rule.
  Context (unescape : pystr -> pystr) (py_int : pystr -> option Z)
          (ip_addr : pystr -> option addr) (ip_net : pystr -> pystr -> result net)
          (to_time : option pystr -> result Z).
  Context (s : pstate).
  Notation side_means := (side_means py_int ip_addr ip_net s).
  Notation rule_side := (rule_side py_int ip_addr ip_net s).
  Notation rule_child := (rule_child unescape py_int ip_addr ip_net to_time s).
  Notation pf_rule := (pf_rule unescape py_int ip_addr ip_net to_time s).
  Notation rule_means := (rule_means unescape py_int ip_addr ip_net to_time s).
  Notation understood := (understood py_int ip_addr ip_net to_time s).
  Notation rule_time := (rule_time to_time).
  Notation time_of := (time_of to_time).
  Notation side_of := (side_of py_int ip_addr ip_net s).
  Notation place_of := (place_of s).

  (** ** Times *)
  Definition time_ok (d : xml) : Prop := x_tag d = u "time" -> exists t, to_time (x_text d) = Ok t.
  Lemma rule_time_ok old kids : (exists z, rule_time old kids = Ok z) <-> (forall d, In d kids -> time_ok d).
  Proof using to_time.
    unfold Pfsense.rule_time. apply fold_r_ok. intros z d. unfold time_ok.
    destruct (str_eqb_spec (x_tag d) (u "time")) as [T|N].
    - unfold bind. split.
      + intros (z' & H) _. destruct (to_time (x_text d)); [eauto|discriminate].
      + intros H. destruct (H T) as (t & ->). eauto.
    - split; [tauto|eauto].
  Qed.
  Lemma rule_time_last kids z : rule_time None kids = Ok z ->
    (exists c t, last_child (u "time") kids c /\ to_time (x_text c) = Ok t /\ z = Some t) \/
    (no_child (u "time") kids /\ z = None).
  Proof using to_time.
    unfold Pfsense.rule_time. revert z. induction kids as [|c kids IH] using rev_ind; intros z H.
    - injection H as <-. right. split; auto. intros d [].
    - rewrite fold_r_snoc in H. destruct (fold_r _ kids None) as [z0|]; [|discriminate]. cbn [bind] in H.
      destruct (str_eqb_spec (x_tag c) (u "time")) as [T|N].
      + unfold bind in H. destruct (to_time (x_text c)) as [t|] eqn:E; [|discriminate]. injection H as <-.
        left. exists c, t. split; auto. exists kids, []. split; [reflexivity|]. split; auto.
      + injection H as <-. destruct (IH z0 eq_refl) as [(c' & t & L & E & ->)|[F ->]].
        * left. exists c', t. split; auto. apply lastf_some in L. apply lastf_some.
          rewrite lastf_snoc, str_eqb_false; auto.
        * right. split; auto. apply lastf_none in F. apply lastf_none.
          rewrite lastf_snoc, str_eqb_false; auto.
  Qed.
  Lemma time_of_fun tag kids z z' : time_of tag kids z -> time_of tag kids z' -> z = z'.
  Proof using to_time.
    intros [(c & t & L & E & ->)|[N ->]] [(c' & t' & L' & E' & ->)|[N' ->]]; auto.
    - rewrite (last_child_fun _ _ _ _ L L') in E. congruence.
    - destruct (last_child_some _ _ _ L N').
    - destruct (last_child_some _ _ _ L' N).
  Qed.
  Lemma side_of_fun tag kids n n' : side_of tag kids n -> side_of tag kids n' -> n = n'.
  Proof using py_int ip_addr ip_net s.
    intros [(c & L & M)|[N ->]] [(c' & L' & M')|[N' ->]]; auto.
    - rewrite <- (last_child_fun _ _ _ _ L L') in M'. eapply side_means_fun; eauto.
    - destruct (last_child_some _ _ _ L N').
    - destruct (last_child_some _ _ _ L' N).
  Qed.

  (** ** The loop *)
  Definition stored (t : pystr) (c : xml) : option pystr :=
    if str_eqb t (u "descr") then Some (unescape (opt_str (x_text c))) else x_text c.
  Definition side_val (o : option xml) (n : pnode) : Prop :=
    match o with Some c => rule_side (x_kids c) = Ok n | None => n = mkpnode (HLeaf LAny) None end.
  Record loop_inv (kids : list xml) (w : pvals) : Prop := {
    li_pv : forall t, In t valueable ->
      dget (pv w) t = match lastf t kids with Some c => Some (stored t c) | None => dget (pv pv_init) t end;
    li_log : pv_log w = match lastf (u "log") kids with Some _ => true | None => false end;
    li_src : side_val (lastf (u "source") kids) (pv_src w);
    li_dst : side_val (lastf (u "destination") kids) (pv_dst w);
    li_created : rule_time None (times (u "created") kids) = Ok (pv_created w);
    li_updated : rule_time None (times (u "updated") kids) = Ok (pv_updated w);
    li_icmp : pv_icmp w = option_map x_text (lastf (u "icmptype") kids) }.

  Lemma valueable_cases t : In t valueable ->
    t <> u "log" /\ t <> u "source" /\ t <> u "destination" /\ t <> u "created" /\ t <> u "updated" /\ t <> u "icmptype".
  Proof.
    unfold valueable. cbn [map In]. intros H.
    repeat (destruct H as [<-|H]; [repeat split; discriminate|]). destruct H.
  Qed.
  Lemma ignored_cases t : In t ignored_tags ->
    t <> u "log" /\ t <> u "source" /\ t <> u "destination" /\ t <> u "created" /\ t <> u "updated" /\ t <> u "icmptype".
  Proof.
    unfold ignored_tags. cbn [map In]. intros H.
    repeat (destruct H as [<-|H]; [repeat split; discriminate|]). destruct H.
  Qed.

  Lemma loop_step kids w c w' : loop_inv kids w -> rule_child w c = Ok w' -> loop_inv (kids ++ [c]) w'.
  Proof.
    intros [I1 I2 I3 I4 I5 I6 I7] H. unfold Pfsense.rule_child in H.
    assert (TM : forall tag z, x_tag c <> tag -> rule_time None (times tag kids) = Ok z ->
                   rule_time None (times tag (kids ++ [c])) = Ok z).
    { intros tag z N E. rewrite times_snoc, str_eqb_false; auto. now rewrite app_nil_r. }
    assert (TM' : forall tag z0 z, x_tag c = tag -> rule_time None (times tag kids) = Ok z0 -> rule_time z0 (x_kids c) = Ok z ->
                   rule_time None (times tag (kids ++ [c])) = Ok z).
    { intros tag z0 z T E1 E2. rewrite times_snoc, T, str_eqb_same. unfold Pfsense.rule_time in *.
      rewrite fold_r_app, E1. exact E2. }
    assert (LS : forall tag, x_tag c <> tag -> lastf tag (kids ++ [c]) = lastf tag kids).
    { intros tag N. rewrite lastf_snoc, str_eqb_false; auto. }
    assert (LT : forall tag, x_tag c = tag -> lastf tag (kids ++ [c]) = Some c).
    { intros tag N. now rewrite lastf_snoc, N, str_eqb_same. }
    destruct (tag_in (x_tag c) valueable) eqn:V.
    { apply tag_in_spec in V. pose proof (valueable_cases _ V) as (n1 & n2 & n3 & n4 & n5 & n6).
      injection H as <-. split; cbn [pv pv_log pv_src pv_dst pv_created pv_updated pv_icmp]; rewrite ?LS; auto.
      intros t It. rewrite dget_dset. destruct (str_eqb_spec (x_tag c) t) as [<-|N].
      - rewrite LT; auto.
      - rewrite LS; auto. }
    assert (NV : forall t, In t valueable -> x_tag c <> t).
    { intros t It E. rewrite <- E in It. apply tag_in_spec in It. congruence. }
    destruct (str_eqb_spec (x_tag c) (u "log")) as [T|N1].
    { assert (NN : forall t, u "log" <> t -> x_tag c <> t) by congruence.
      injection H as <-. split; cbn [pv pv_log pv_src pv_dst pv_created pv_updated pv_icmp];
        try (apply TM; [apply NN; discriminate|assumption]).
      - intros t It. rewrite LS; auto.
      - now rewrite LT.
      - rewrite LS; auto. apply NN; discriminate.
      - rewrite LS; auto. apply NN; discriminate.
      - rewrite LS; auto. apply NN; discriminate. }
    destruct (str_eqb_spec (x_tag c) (u "source")) as [T|N2].
    { assert (NN : forall t, u "source" <> t -> x_tag c <> t) by congruence.
      unfold bind in H. destruct (rule_side (x_kids c)) as [n|] eqn:E; [|discriminate].
      injection H as <-. split; cbn [pv pv_log pv_src pv_dst pv_created pv_updated pv_icmp];
        try (apply TM; [apply NN; discriminate|assumption]).
      - intros t It. rewrite LS; auto.
      - rewrite LS; auto.
      - rewrite LT; auto.
      - rewrite LS; auto. apply NN; discriminate.
      - rewrite LS; auto. apply NN; discriminate. }
    destruct (str_eqb_spec (x_tag c) (u "destination")) as [T|N3].
    { assert (NN : forall t, u "destination" <> t -> x_tag c <> t) by congruence.
      unfold bind in H. destruct (rule_side (x_kids c)) as [n|] eqn:E; [|discriminate].
      injection H as <-. split; cbn [pv pv_log pv_src pv_dst pv_created pv_updated pv_icmp];
        try (apply TM; [apply NN; discriminate|assumption]).
      - intros t It. rewrite LS; auto.
      - rewrite LS; auto.
      - rewrite LS; auto.
      - rewrite LT; auto.
      - rewrite LS; auto. apply NN; discriminate. }
    destruct (str_eqb_spec (x_tag c) (u "created")) as [T|N4].
    { assert (NN : forall t, u "created" <> t -> x_tag c <> t) by congruence.
      unfold bind in H. destruct (rule_time (pv_created w) (x_kids c)) as [n|] eqn:E; [|discriminate].
      injection H as <-. split; cbn [pv pv_log pv_src pv_dst pv_created pv_updated pv_icmp];
        try (apply TM; [apply NN; discriminate|assumption]); try (rewrite LS by (apply NN; discriminate); assumption).
      - intros t It. rewrite LS; auto.
      - eapply TM'; eauto. }
    destruct (str_eqb_spec (x_tag c) (u "updated")) as [T|N5].
    { assert (NN : forall t, u "updated" <> t -> x_tag c <> t) by congruence.
      unfold bind in H. destruct (rule_time (pv_updated w) (x_kids c)) as [n|] eqn:E; [|discriminate].
      injection H as <-. split; cbn [pv pv_log pv_src pv_dst pv_created pv_updated pv_icmp];
        try (apply TM; [apply NN; discriminate|assumption]); try (rewrite LS by (apply NN; discriminate); assumption).
      - intros t It. rewrite LS; auto.
      - eapply TM'; eauto. }
    destruct (str_eqb_spec (x_tag c) (u "icmptype")) as [T|N6].
    { injection H as <-. split; cbn [pv pv_log pv_src pv_dst pv_created pv_updated pv_icmp]; rewrite ?LS by auto; auto.
      - intros t It. rewrite LS; auto.
      - now rewrite LT. }
    destruct (tag_in (x_tag c) ignored_tags) eqn:V'; [|discriminate]. injection H as <-.
    split; rewrite ?LS by auto; auto. intros t It. rewrite LS; auto.
  Qed.

  Lemma loop_ok kids w : fold_r rule_child kids pv_init = Ok w -> loop_inv kids w.
  Proof.
    revert w. induction kids as [|c kids IH] using rev_ind; intros w H.
    - injection H as <-. split; try reflexivity.
    - rewrite fold_r_snoc in H. destruct (fold_r rule_child kids pv_init) as [w0|] eqn:E; [|discriminate].
      cbn [bind] in H. eapply loop_step; eauto.
  Qed.

  Lemma known_split t : In t known_tags <->
    In t valueable \/ In t (map u ["log"; "source"; "destination"; "created"; "updated"; "icmptype"]%string) \/ In t ignored_tags.
  Proof. unfold known_tags, valueable, ignored_tags. cbn [map In]. tauto. Qed.

  Lemma rule_child_ok w c : (exists w', rule_child w c = Ok w') <-> understood c.
  Proof.
    unfold PfSpec.understood. rewrite known_split. unfold Pfsense.rule_child.
    destruct (tag_in (x_tag c) valueable) eqn:V.
    { apply tag_in_spec in V. pose proof (valueable_cases _ V) as (n1 & n2 & n3 & n4 & n5 & n6).
      split; [intros _|eauto]. split; [auto|]. split; intros [E|E]; congruence. }
    assert (NV : ~ In (x_tag c) valueable) by (rewrite <- tag_in_spec; congruence).
    destruct (str_eqb_spec (x_tag c) (u "log")) as [T|N1].
    { rewrite T. split; [intros _|eauto]. split; [right; left; cbn [map In]; auto|].
      split; intros [E|E]; discriminate. }
    destruct (str_eqb_spec (x_tag c) (u "source")) as [T|N2].
    { rewrite T. unfold bind. split.
      - intros (w' & H). destruct (rule_side (x_kids c)) as [n|] eqn:E; [|discriminate].
        split; [right; left; cbn [map In]; auto|]. split.
        + intros _. exists n. now apply rule_side_ok.
        + intros [E'|E']; discriminate.
      - intros (_ & H & _). destruct H as (n & M); [auto|]. apply rule_side_ok in M. rewrite M. eexists; reflexivity. }
    destruct (str_eqb_spec (x_tag c) (u "destination")) as [T|N3].
    { rewrite T. unfold bind. split.
      - intros (w' & H). destruct (rule_side (x_kids c)) as [n|] eqn:E; [|discriminate].
        split; [right; left; cbn [map In]; auto|]. split.
        + intros _. exists n. now apply rule_side_ok.
        + intros [E'|E']; discriminate.
      - intros (_ & H & _). destruct H as (n & M); [auto|]. apply rule_side_ok in M. rewrite M. eexists; reflexivity. }
    destruct (str_eqb_spec (x_tag c) (u "created")) as [T|N4].
    { rewrite T. unfold bind. split.
      - intros (w' & H). destruct (rule_time (pv_created w) (x_kids c)) as [n|] eqn:E; [|discriminate].
        split; [right; left; cbn [map In]; auto 6|]. split.
        + intros [E'|E']; discriminate.
        + intros _. apply (rule_time_ok (pv_created w)). eauto.
      - intros (_ & _ & H). destruct (proj2 (rule_time_ok (pv_created w) (x_kids c))) as (z & ->); [intros d Id Td; apply H; auto|]. eexists; reflexivity. }
    destruct (str_eqb_spec (x_tag c) (u "updated")) as [T|N5].
    { rewrite T. unfold bind. split.
      - intros (w' & H). destruct (rule_time (pv_updated w) (x_kids c)) as [n|] eqn:E; [|discriminate].
        split; [right; left; cbn [map In]; auto 7|]. split.
        + intros [E'|E']; discriminate.
        + intros _. apply (rule_time_ok (pv_updated w)). eauto.
      - intros (_ & _ & H). destruct (proj2 (rule_time_ok (pv_updated w) (x_kids c))) as (z & ->); [intros d Id Td; apply H; auto|]. eexists; reflexivity. }
    destruct (str_eqb_spec (x_tag c) (u "icmptype")) as [T|N6].
    { rewrite T. split; [intros _|eauto]. split; [right; left; cbn [map In]; auto 8|].
      split; intros [E|E]; discriminate. }
    destruct (tag_in (x_tag c) ignored_tags) eqn:V'.
    - apply tag_in_spec in V'. split; [intros _|eauto]. split; [auto|]. split; intros [E|E]; congruence.
    - assert (~ In (x_tag c) ignored_tags) by (rewrite <- tag_in_spec; congruence).
      split; [intros (w' & H'); discriminate|]. intros (K & _). exfalso. cbn [map In] in K.
      destruct K as [K|[K|K]]; try tauto. repeat (destruct K as [K|K]; [congruence|]). destruct K.
  Qed.

  (** ** The rule *)
  Lemma in_valueable x : tag_in x valueable = true -> In x valueable.
  Proof. apply tag_in_spec. Qed.
  Lemma side_val_of tag kids n : side_val (lastf tag kids) n <-> side_of tag kids n.
  Proof.
    unfold side_val, PfSpec.side_of. destruct (lastf tag kids) as [c|] eqn:L.
    - rewrite rule_side_ok. apply lastf_some in L. split; [left; eauto|].
      intros [(c' & L' & M)|[N _]]; [|destruct (last_child_some _ _ _ L N)].
      now rewrite (last_child_fun _ _ _ _ L L').
    - apply lastf_none in L. split; [right; auto|].
      intros [(c' & L' & M)|[N E]]; [destruct (last_child_some _ _ _ L' L)|auto].
  Qed.

  Lemma li_get kids w t : loop_inv kids w -> tag_in t valueable = true -> str_eqb t (u "descr") = false ->
    dget (pv w) t = match lastf t kids with Some c => Some (x_text c) | None => dget (pv pv_init) t end.
  Proof.
    intros I V D. rewrite (li_pv _ _ I) by now apply in_valueable.
    destruct (lastf t kids); auto. unfold stored. now rewrite D.
  Qed.

  Lemma need_text kids w t v : loop_inv kids w -> tag_in t valueable = true -> str_eqb t (u "descr") = false ->
    dget (pv pv_init) t = None -> need (pv w) t = Ok v <-> child_text t kids v.
  Proof.
    intros I V D N. unfold need. rewrite (li_get _ _ t I V D), child_text_f.
    destruct (lastf t kids) as [c|]; cbn [option_map]; [split; congruence|]. rewrite N. split; discriminate.
  Qed.
  Lemma need_text_or kids w t d v : loop_inv kids w -> tag_in t valueable = true -> str_eqb t (u "descr") = false ->
    dget (pv pv_init) t = Some d -> need (pv w) t = Ok v <-> text_or t d kids v.
  Proof.
    intros I V D N. unfold need, text_or. rewrite (li_get _ _ t I V D), child_text_f.
    rewrite <- lastf_none.
    destruct (lastf t kids) as [c|]; cbn [option_map].
    - split; [intros [= <-]; auto|]. intros [[= ->]|[[=] _]]. auto.
    - rewrite N. split; [intros [= <-]; auto|]. intros [[=]|[_ ->]]. auto.
  Qed.
  Lemma need_ok {V} (d : dict V) k : (exists v, need d k = Ok v) \/ need d k = Err KeyError.
  Proof. unfold need. destruct (dget d k); eauto. Qed.

  Lemma map_iface_alias i : map_iface s i = option_map (alias_of s) i.
  Proof. unfold map_iface, alias_of. destruct i as [n|]; cbn; auto. destruct (dget (ps_map s) n); auto. Qed.

  Lemma rule_place w kids id fl : loop_inv kids w ->
    (do floating <- need (pv w) (u "floating");
     (if opt_eqb floating (Some (u "yes")) then
         do i <- need (pv w) (u "interface");
         match i with
         | None => Err AttributeError
         | Some i =>
             do d <- need (pv w) (u "direction");
             Ok (Some (u "floating"), Some (map (fun n => opt_str (map_iface s (Some n))) (split_on c_comma i), d))
         end
       else do i <- need (pv w) (u "interface"); Ok (map_iface s i, None))) = Ok (id, fl) <-> place_of kids id fl.
  Proof.
    intros I.
    pose proof (fun v => need_text_or kids w (u "floating") (Some (u "no")) v I eq_refl eq_refl eq_refl) as HF.
    pose proof (fun v => need_text kids w (u "interface") v I eq_refl eq_refl eq_refl) as HI.
    pose proof (fun v => need_text kids w (u "direction") v I eq_refl eq_refl eq_refl) as HD.
    assert (AL : forall l, map (fun n => opt_str (map_iface s (Some n))) l = map (alias_of s) l).
    { intros l. apply map_ext. intros n. now rewrite map_iface_alias. }
    assert (FY : child_text (u "floating") kids (Some (u "yes")) <-> need (pv w) (u "floating") = Ok (Some (u "yes"))).
    { rewrite HF. unfold text_or. split; [auto|]. intros [H|[_ H]]; [auto|discriminate]. }
    assert (FE : exists f, need (pv w) (u "floating") = Ok f).
    { destruct (lastf (u "floating") kids) as [c|] eqn:L.
      - exists (x_text c). apply HF. left. exists c. split; auto. now apply lastf_some.
      - exists (Some (u "no")). apply HF. right. split; auto. now apply lastf_none. }
    unfold PfSpec.place_of. rewrite FY. destruct FE as (f & ->). cbn [bind].
    destruct (opt_eqb_spec f (Some (u "yes"))) as [->|NY].
    - split.
      + intros H. left. split; [reflexivity|].
        destruct (need (pv w) (u "interface")) as [[i|]|] eqn:Ei; cbn [bind] in H; try discriminate.
        destruct (need (pv w) (u "direction")) as [d|] eqn:Ed; cbn [bind] in H; try discriminate.
        injection H as <- <-. split; [reflexivity|]. exists i, (split_on c_comma i), d.
        pose proof (proj1 (HI _) eq_refl) as Ei'. pose proof (proj1 (HD _) eq_refl) as Ed'. rewrite AL. repeat split; auto. now apply split_commas.
      + intros [(_ & -> & i & names & d & Ci & Cl & Cd & ->)|(N & _)]; [|congruence].
        apply HI in Ci. apply HD in Cd. rewrite Ci, Cd. cbn [bind]. apply split_commas in Cl.
        change c_comma with 44%N. now rewrite Cl, AL.
    - split.
      + intros H. right. split; [congruence|].
        destruct (need (pv w) (u "interface")) as [i|] eqn:Ei; cbn [bind] in H; try discriminate.
        injection H as <- <-. split; [reflexivity|]. exists i. pose proof (proj1 (HI _) eq_refl) as Ei'. split; auto. apply map_iface_alias.
      + intros [(E & _)|(_ & -> & i & Ci & ->)]; [congruence|].
        apply HI in Ci. rewrite Ci. cbn [bind]. now rewrite map_iface_alias.
  Qed.

  Lemma need_descr kids w v : loop_inv kids w ->
    need (pv w) (u "descr") = Ok v <->
    exists t, child_text (u "descr") kids t /\ v = Some (unescape (match t with Some x => x | None => [] end)).
  Proof.
    intros I. unfold need. rewrite (li_pv _ _ I) by now apply in_valueable.
    split.
    - destruct (lastf (u "descr") kids) as [c|] eqn:L; [|discriminate].
      unfold stored. rewrite str_eqb_same. intros [= <-]. exists (x_text c). split; [|reflexivity].
      exists c. split; auto. now apply lastf_some.
    - intros (t & (c & L & <-) & ->). apply lastf_some in L. rewrite L. unfold stored. now rewrite str_eqb_same.
  Qed.

  Lemma iff_bool b b' P : (b = true <-> P) -> (b' = true <-> P) -> b = b'.
  Proof. destruct b, b'; intuition congruence. Qed.

  Lemma opt_text_fun tag kids o o' :
    ((exists t, child_text tag kids t /\ o = Some t) \/ (no_child tag kids /\ o = None)) ->
    ((exists t, child_text tag kids t /\ o' = Some t) \/ (no_child tag kids /\ o' = None)) -> o = o'.
  Proof.
    intros [(t & C & ->)|[N ->]] [(t' & C' & ->)|[N' ->]]; auto.
    - f_equal. eapply child_text_fun; eauto.
    - destruct (child_text_some _ _ _ C N').
    - destruct (child_text_some _ _ _ C' N).
  Qed.

  Lemma place_fun kids id fl id' fl' : place_of kids id fl -> place_of kids id' fl' -> id = id' /\ fl = fl'.
  Proof.
    intros [(F & -> & i & l & d & Ci & Cl & Cd & ->)|(F & -> & i & Ci & ->)] [(F' & -> & i' & l' & d' & Ci' & Cl' & Cd' & ->)|(F' & -> & i' & Ci' & ->)];
      try tauto.
    - pose proof (child_text_fun _ _ _ _ Ci Ci') as [= <-]. pose proof (child_text_fun _ _ _ _ Cd Cd') as <-.
      apply split_commas in Cl, Cl'. split; congruence.
    - pose proof (child_text_fun _ _ _ _ Ci Ci') as <-. auto.
  Qed.

  Lemma rule_means_fun kids r r' : rule_means kids r -> rule_means kids r' -> r = r'.
  Proof.
    intros (_ & A1 & A2 & A3 & A4 & A5 & A6 & A7 & A8 & A9 & A10 & A11 & A12 & A13 & A14)
           (_ & B1 & B2 & B3 & B4 & B5 & B6 & B7 & B8 & B9 & B10 & B11 & B12 & B13 & B14).
    destruct (place_fun _ _ _ _ _ A1 B1) as (E1 & E1').
    assert (E2 : p_mode r = p_mode r').
    { destruct A2 as (t & C & P & Q), B2 as (t' & C' & P' & Q'). rewrite <- (child_text_fun _ _ _ _ C C') in *.
      destruct (opt_eqb_spec t (Some (u "pass"))); [rewrite P, P'|rewrite Q, Q']; auto. }
    pose proof (text_or_fun _ _ _ _ _ A3 B3) as E3.
    pose proof (side_of_fun _ _ _ _ A4 B4) as E4. pose proof (side_of_fun _ _ _ _ A5 B5) as E5.
    assert (E6 : p_descr r = p_descr r').
    { destruct A6 as (t & C & ->), B6 as (t' & C' & ->). now rewrite (child_text_fun _ _ _ _ C C'). }
    pose proof (opt_text_fun _ _ _ _ A7 B7) as E7. pose proof (opt_text_fun _ _ _ _ A11 B11) as E11.
    pose proof (iff_bool _ _ _ A8 B8) as E8. pose proof (iff_bool _ _ _ A9 B9) as E9.
    assert (E10 : p_statetype r = p_statetype r').
    { destruct A10 as (t & C & P & Q), B10 as (t' & C' & P' & Q'). rewrite <- (text_or_fun _ _ _ _ _ C C') in *.
      destruct (opt_eqb_spec t (Some (u "keep state"))); [rewrite P, P'|rewrite Q, Q']; auto. }
    pose proof (time_of_fun _ _ _ _ A12 B12) as E12. pose proof (time_of_fun _ _ _ _ A13 B13) as E13.
    destruct r as [x0 x1 x2 x3 x4 x5 x6 x7 x8 x9 x10 x11 x12 x13 x14], r' as [y0 y1 y2 y3 y4 y5 y6 y7 y8 y9 y10 y11 y12 y13 y14]. cbn [p_id p_mode p_proto p_src p_dst p_descr p_xref p_float p_inactive p_log p_statetype p_icmp p_created p_updated p_head] in *.
    congruence.
  Qed.

  Lemma no_child_dec tag kids : (match lastf tag kids with Some _ => true | None => false end = true) <-> ~ no_child tag kids.
  Proof. rewrite <- lastf_none. destruct (lastf tag kids); split; intros; congruence. Qed.

  Lemma pf_rule_sound tag txt kids r : pf_rule (Xml tag txt kids) = Ok r -> rule_means kids r.
  Proof.
    unfold Pfsense.pf_rule. cbn [x_kids]. intros H.
    destruct (fold_r rule_child kids pv_init) as [w|] eqn:F; [|discriminate]. cbn [bind] in H.
    assert (U : forall c, In c kids -> understood c).
    { apply (fold_r_ok rule_child understood kids pv_init rule_child_ok). eauto. }
    apply loop_ok in F. rename F into I.
    pose proof (rule_place w kids) as RP.
    match type of H with (do floating <- ?n; do x <- ?b; ?k) = _ => idtac end.
    destruct (need (pv w) (u "floating")) as [f|] eqn:Ef; [|discriminate]. cbn [bind] in H, RP.
    match type of H with (do x <- ?b; ?k) = _ => destruct b as [[id fl]|] eqn:Eb; [|discriminate] end.
    pose proof (proj1 (RP _ _ I) eq_refl) as Pl. clear RP Eb. cbn [bind] in H.
    destruct (need (pv w) (u "statetype")) as [st|] eqn:E1; [|discriminate]. cbn [bind] in H.
    destruct (need (pv w) (u "type")) as [ty|] eqn:E2; [|discriminate]. cbn [bind] in H.
    destruct (need (pv w) (u "protocol")) as [pr|] eqn:E3; [|discriminate]. cbn [bind] in H.
    destruct (need (pv w) (u "descr")) as [de|] eqn:E4; [|discriminate]. cbn [bind] in H.
    apply (need_text_or kids w (u "statetype") (Some (u "keep state")) st I eq_refl eq_refl eq_refl) in E1.
    apply (need_text kids w (u "type") ty I eq_refl eq_refl eq_refl) in E2.
    apply (need_text_or kids w (u "protocol") (Some (u "any")) pr I eq_refl eq_refl eq_refl) in E3.
    apply (need_descr kids w de I) in E4.
    injection H as <-. unfold PfSpec.rule_means.
    cbn [p_id p_mode p_proto p_src p_dst p_descr p_xref p_float p_inactive p_log p_statetype p_icmp p_created p_updated p_head].
    split; [exact U|]. split; [exact Pl|]. split.
    { exists ty. split; auto. destruct (opt_eqb_spec ty (Some (u "pass"))); split; congruence. }
    split; [exact E3|]. split; [apply side_val_of, I|]. split; [apply side_val_of, I|]. split; [exact E4|]. split.
    { rewrite (li_get _ _ (u "tracker") I eq_refl eq_refl). destruct (lastf (u "tracker") kids) as [c|] eqn:L.
      - left. exists (x_text c). split; auto. exists c. split; auto. now apply lastf_some.
      - right. split; auto. now apply lastf_none. }
    split.
    { unfold dmem. rewrite (li_get _ _ (u "disabled") I eq_refl eq_refl). rewrite <- no_child_dec.
      destruct (lastf (u "disabled") kids); reflexivity. }
    split.
    { rewrite (li_log _ _ I). apply no_child_dec. }
    split.
    { exists st. split; auto. destruct (opt_eqb_spec st (Some (u "keep state"))); split; congruence. }
    split.
    { rewrite (li_icmp _ _ I). destruct (lastf (u "icmptype") kids) as [c|] eqn:L.
      - left. exists (x_text c). split; auto. exists c. split; auto. now apply lastf_some.
      - right. split; auto. now apply lastf_none. }
    split; [apply rule_time_last, I|]. split; [apply rule_time_last, I|]. reflexivity.
  Qed.

  Lemma pf_rule_total tag txt kids r : rule_means kids r -> exists r', pf_rule (Xml tag txt kids) = Ok r'.
  Proof.
    intros (U & A1 & A2 & A3 & A4 & A5 & A6 & A7 & A8 & A9 & A10 & _).
    destruct (proj2 (fold_r_ok rule_child understood kids pv_init rule_child_ok) U) as (w & F).
    unfold Pfsense.pf_rule. cbn [x_kids]. rewrite F. cbn [bind]. apply loop_ok in F. rename F into I.
    apply (rule_place w kids _ _ I) in A1.
    destruct (need (pv w) (u "floating")) as [f|] eqn:Ef; [|discriminate]. cbn [bind] in A1 |- *.
    rewrite A1. cbn [bind].
    destruct A10 as (st & A10 & _). apply (need_text_or kids w (u "statetype") (Some (u "keep state")) st I eq_refl eq_refl eq_refl) in A10.
    destruct A2 as (ty & A2 & _). apply (need_text kids w (u "type") ty I eq_refl eq_refl eq_refl) in A2.
    apply (need_text_or kids w (u "protocol") (Some (u "any")) _ I eq_refl eq_refl eq_refl) in A3.
    apply (need_descr kids w _ I) in A6.
    rewrite A10, A2, A3, A6. cbn [bind]. eauto.
  Qed.

  Theorem pf_rule_exact tag txt kids r : pf_rule (Xml tag txt kids) = Ok r <-> rule_means kids r.
  Proof.
    split; [apply pf_rule_sound|]. intros M. destruct (pf_rule_total tag txt kids r M) as (r' & E).
    rewrite E. f_equal. eapply rule_means_fun; eauto. eapply pf_rule_sound; eauto.
  Qed.
End Rule.
