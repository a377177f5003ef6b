(** C48, C49: pfSense aliases and interface names. *)
From Coq Require Import Lia String.
From Verif.Model Require Import Base Ip Hosts Groups Iface Ports Pfsense.
From Verif.Spec Require Import PfSpec.
From Verif.Proofs Require Import GroupOps DictFacts PfFacts PfRule PfIface.
From Verif.Props Require Import Pfsense.
Local Open Scope list_scope.

Lemma split_pieces c s l : split_on c s = l <-> pieces c s l.
Proof.
  split.
  - revert s. induction l as [|w ws IH]; intros s H; [now apply split_nonempty in H|].
    apply split_inv in H as (F & [[-> ->]|(r & -> & ->)]).
    + now constructor.
    + constructor; auto.
  - induction 1 as [a F|a r l F H IH]; [now apply split_free|]. rewrite split_app; auto. now rewrite IH.
Qed.
Lemma entries_ok a l : entries a = l <-> entries_of a l.
Proof.
  unfold entries, entries_of. destruct a as [[|c s]|]; try (split; congruence). apply split_pieces.
Qed.
Lemma map_r_forall2 {A B} (f : A -> result B) (R : A -> B -> Prop) :
  (forall a b, f a = Ok b <-> R a b) -> forall l m, map_r f l = Ok m <-> Forall2 R l m.
Proof.
  intros H. induction l as [|a l IH]; intros m; cbn [map_r].
  - split; [intros [= <-]; constructor|]. intros F; inversion F; auto.
  - split.
    + destruct (f a) as [b|] eqn:E; [|discriminate]. cbn [bind]. destruct (map_r f l) as [m'|] eqn:E'; [|discriminate].
      cbn [bind]. intros [= <-]. constructor; [now apply H|]. now apply IH.
    + intros F. inversion F as [|? b ? m' R1 F']; subst. apply H in R1. apply IH in F'. now rewrite R1, F'.
Qed.

Section A.
  Context (unescape : pystr -> pystr) (py_int : pystr -> option Z)
          (ip_addr : pystr -> option addr) (ip_net : pystr -> pystr -> result net)
          (strip : pystr -> pystr) (ip_net_strict : pystr -> bool) (download : option pystr -> option (list pystr)).
  Notation pf_alias := (pf_alias unescape py_int ip_addr ip_net strip ip_net_strict download).
  Notation alias_means := (alias_means unescape py_int ip_addr ip_net strip ip_net_strict download).
  Notation content_means := (content_means py_int ip_addr ip_net strip ip_net_strict download).
  Notation table_entry := (table_entry ip_addr ip_net strip ip_net_strict).
  Notation urltable_line := (urltable_line ip_addr ip_net strip ip_net_strict).

  Lemma alias_host_ok e h : alias_host ip_addr e = h <-> host_entry ip_addr e h.
  Proof using ip_addr.
    clear unescape py_int ip_net strip ip_net_strict download.
    unfold alias_host, host_entry. destruct (ip_addr e) as [a|]; split.
    - intros <-. left. eauto.
    - intros [(b & [= <-] & ->)|([=] & _)]. reflexivity.
    - intros <-. right. auto.
    - intros [(b & [=] & _)|(_ & ->)]. reflexivity.
  Qed.
  Lemma mk_net_ok e h : mk_net ip_net e = Ok h <-> network_entry ip_net e h.
  Proof using ip_net.
    clear unescape py_int ip_addr strip ip_net_strict download.
    unfold mk_net, network_entry. split.
    - destruct (split_on c_divide e) as [|a [|m [|z [|]]]] eqn:E; try discriminate.
      + destruct (ip_net a m) as [n|] eqn:En; [|discriminate]. cbn [bind]. intros [= <-].
        exists a, m, n. split; [now apply split_two|auto].
      + destruct (ip_net a m); discriminate.
    - intros (a & m & n & P & En & ->). apply split_two in P. change c_divide with 47%N. rewrite P, En. reflexivity.
  Qed.
  Lemma alias_port_ok e p : alias_port py_int e = Ok p <-> port_entry py_int e p.
  Proof using py_int.
    clear unescape ip_addr ip_net strip ip_net_strict download.
    unfold alias_port, port_entry. destruct (has_char c_colon e) eqn:C.
    - apply has_char_spec in C. split.
      + destruct (split_on c_colon e) as [|a [|b [|]]] eqn:E; try discriminate. intros H. left. exists a, b.
        split; [now apply split_two|auto].
      + intros [(a & b & P & H)|(N & _)]; [|tauto]. apply split_two in P. change c_colon with 58%N. now rewrite P.
    - apply has_char_false in C. split.
      + intros [= <-]. right. auto.
      + intros [(a & b & (-> & _) & _)|(_ & ->)]; [|reflexivity]. destruct C. apply in_elt.
  Qed.
  Lemma urltable_ok line l : urltable_line line = l <-> table_entry line l.
  Proof using ip_addr ip_net strip ip_net_strict.
    clear unescape py_int download.
    unfold Pfsense.urltable_line, PfSpec.table_entry. cbv zeta. set (t := strip line).
    assert (F : forall a m, parts2 47 t a m -> In 47%N t) by (intros a m (-> & _); apply in_elt).
    destruct (has_char c_divide t) eqn:D.
    - apply has_char_spec in D. destruct (ip_net_strict t) eqn:S.
      + destruct (mk_net ip_net t) as [h|] eqn:M.
        * apply mk_net_ok in M as (a & m & n & P & En & ->). split.
          -- intros <-. left. exists a, m, n. auto.
          -- intros [(a' & m' & n' & P' & _ & En' & ->)|[(v & N & _)|(N & _)]].
             ++ apply split_two in P, P'. rewrite P in P'. injection P' as <- <-. congruence.
             ++ destruct (N D).
             ++ destruct N. eauto 8.
        * assert (NM : ~ exists a m n, parts2 47 t a m /\ true = true /\ ip_net a m = Ok n).
          { intros (a & m & n & P & _ & En). assert (E : mk_net ip_net t = Ok (HLeaf (LNet n))) by (apply mk_net_ok; exists a, m, n; auto). congruence. }
          split.
          -- intros <-. right. right. split; [exact NM|]. split; auto. intros (v & N & _). auto.
          -- intros [(a & m & n & P & X & En & ->)|[(v & N & _)|(_ & _ & ->)]]; auto.
             ++ destruct NM. eauto 7.
             ++ destruct (N D).
      + split.
        * intros <-. right. right. split; [intros (a & m & n & _ & X & _); discriminate|]. split; auto. intros (v & N & _). auto.
        * intros [(a & m & n & P & X & En & ->)|[(v & N & _)|(_ & _ & ->)]]; auto; [discriminate|destruct (N D)].
    - apply has_char_false in D.
      assert (NM : ~ exists a m n, parts2 47 t a m /\ ip_net_strict t = true /\ ip_net a m = Ok n).
      { intros (a & m & n & P & _). apply D. eapply F; eauto. }
      destruct (ip_addr t) as [v|] eqn:V; split.
      + intros <-. right. left. eauto.
      + intros [(a & m & n & P & X & En & ->)|[(v' & N & [= <-] & ->)|(_ & N & _)]].
        * destruct D. eapply F; eauto.
        * reflexivity.
        * destruct N. eauto.
      + intros <-. right. right. split; [exact NM|]. split; auto. intros (v & _ & [=]).
      + intros [(a & m & n & P & X & En & ->)|[(v' & N & [=] & ->)|(_ & _ & ->)]]; auto.
        destruct D. eapply F; eauto.
  Qed.
  Lemma map_forall2 {A B} (f : A -> B) (R : A -> B -> Prop) :
    (forall a b, f a = b <-> R a b) -> forall l m, map f l = m <-> Forall2 R l m.
  Proof using.
    intros H. induction l as [|a l IH]; intros m; cbn [map].
    - split; [intros <-; constructor|]. intros F; inversion F; auto.
    - split.
      + intros <-. constructor; [now apply H|]. now apply IH.
      + intros F. inversion F as [|? b ? m' R1 F']; subst. apply H in R1. apply IH in F'. congruence.
  Qed.

  Lemma learn_net_bound s name descr l : registered s (learn_net s name descr l) name descr (CHosts l).
  Proof using.
    unfold learn_net, registered. cbn [h_alloc ps_ifs ps_map ps_net ps_port ps_nh ps_ph].
    split; [reflexivity|]. split; [reflexivity|]. split; [|auto].
    exists (h_next (ps_nh s)). cbn [h_alloc h_get h_next fst snd]. repeat split.
    - now rewrite Nat.eqb_refl.
    - intros j N. apply Nat.eqb_neq in N. now rewrite N.
    - rewrite aget_aset by apply opt_eqb_spec. destruct (opt_eqb_spec name name); congruence.
    - intros n N. rewrite aget_aset by apply opt_eqb_spec. destruct (opt_eqb_spec name n); congruence.
  Qed.
  Lemma learn_port_bound s name descr l : registered s (learn_port s name descr l) name descr (CPorts l).
  Proof using.
    unfold learn_port, registered. cbn [h_alloc ps_ifs ps_map ps_net ps_port ps_nh ps_ph].
    split; [reflexivity|]. split; [reflexivity|]. split; [|auto].
    exists (h_next (ps_ph s)). cbn [h_alloc h_get h_next fst snd]. repeat split.
    - now rewrite Nat.eqb_refl.
    - intros j N. apply Nat.eqb_neq in N. now rewrite N.
    - rewrite aget_aset by apply opt_eqb_spec. destruct (opt_eqb_spec name name); congruence.
    - intros n N. rewrite aget_aset by apply opt_eqb_spec. destruct (opt_eqb_spec name n); congruence.
  Qed.

  Definition learned (s : pstate) name descr (c : content) : pstate :=
    match c with CHosts l => learn_net s name descr l | CPorts l => learn_port s name descr l end.

  Lemma need_texts kids k v : need (texts kids []) k = Ok v <-> child_text k kids v.
  Proof using.
    unfold need. rewrite texts_get, child_text_f. destruct (lastf k kids); cbn [option_map dget]; split; congruence.
  Qed.

  (** The alias element is converted exactly as described. *)
  Lemma pf_alias_exact fetch s i s' :
    pf_alias fetch s i = Ok s' <->
    exists name descr c, alias_means fetch (x_kids i) name descr c /\ s' = learned s name descr c.
  Proof.
    unfold Pfsense.pf_alias. cbv zeta. set (kids := x_kids i). split.
    - intros H.
      destruct (need (texts kids []) (u "descr")) as [d|] eqn:Ed; [|discriminate]. cbn [bind] in H. apply need_texts in Ed.
      destruct (need (texts kids []) (u "type")) as [t|] eqn:Et; [|discriminate]. cbn [bind] in H. apply need_texts in Et.
      assert (DD : exists d', child_text (u "descr") kids d' /\ unescape (opt_str d) = unescape (match d' with Some x => x | None => [] end)).
      { exists d. split; auto. }
      assert (NA : forall (k : option pystr -> result pstate) s0, (do name <- need (texts kids []) (u "name"); k name) = Ok s0 -> exists name, child_text (u "name") kids name /\ k name = Ok s0).
      { intros k s0 E. destruct (need (texts kids []) (u "name")) as [n|] eqn:En; [|discriminate]. apply need_texts in En. eauto. }
      assert (AD : forall (k : option pystr -> result pstate) s0, (do a <- need (texts kids []) (u "address"); k a) = Ok s0 -> exists a : option pystr, child_text (u "address") kids a /\ k a = Ok s0).
      { intros k s0 E. destruct (need (texts kids []) (u "address")) as [n|] eqn:En; [|discriminate]. apply need_texts in En. eauto. }
      destruct (opt_eqb_spec t (Some (u "host"))) as [->|N1].
      { apply NA in H as (name & Cn & H). apply AD in H as (a & Ca & H). injection H as <-.
        exists name, (unescape (opt_str d)), (CHosts (map (alias_host ip_addr) (entries a))). split; [|reflexivity].
        split; [exact Cn|]. split; [exact DD|]. exists (u "host"). split; [exact Et|].
        eapply cm_host; [exact Ca|now apply entries_ok|]. now apply (map_forall2 _ _ alias_host_ok). }
      destruct (opt_eqb_spec t (Some (u "network"))) as [->|N2].
      { apply NA in H as (name & Cn & H). apply AD in H as (a & Ca & H).
        destruct (map_r (mk_net ip_net) (entries a)) as [l|] eqn:El; [|discriminate]. injection H as <-.
        exists name, (unescape (opt_str d)), (CHosts l). split; [|reflexivity].
        split; [exact Cn|]. split; [exact DD|]. exists (u "network"). split; [exact Et|].
        eapply cm_network; [exact Ca|now apply entries_ok|]. now apply (map_r_forall2 _ _ mk_net_ok). }
      destruct (opt_eqb_spec t (Some (u "urltable"))) as [->|N3].
      { apply NA in H as (name & Cn & H). injection H as <-.
        eexists name, (unescape (opt_str d)), (CHosts _). split; [|reflexivity].
        split; [exact Cn|]. split; [exact DD|]. exists (u "urltable"). split; [exact Et|].
        destruct fetch; [|now apply cm_not_fetched].
        rewrite texts_get. destruct (lastf (u "url") kids) as [c|] eqn:L; cbn [dget].
        - assert (CU : child_text (u "url") kids (x_text c)) by (apply child_text_f; now rewrite L).
          destruct (download (x_text c)) as [ls|] eqn:Dl.
          + rewrite flat_map_concat_map. eapply cm_fetched; eauto. now apply (map_forall2 _ _ urltable_ok).
          + apply cm_failed; auto. intros url C. now rewrite <- (child_text_fun _ _ _ _ CU C).
        - apply cm_failed; auto. intros url C. apply child_text_f in C. rewrite L in C. discriminate. }
      destruct (opt_eqb_spec t (Some (u "port"))) as [->|N4]; [|discriminate].
      apply NA in H as (name & Cn & H). apply AD in H as (a & Ca & H).
      destruct (map_r (alias_port py_int) (entries a)) as [l|] eqn:El; [|discriminate]. injection H as <-.
      exists name, (unescape (opt_str d)), (CPorts l). split; [|reflexivity].
      split; [exact Cn|]. split; [exact DD|]. exists (u "port"). split; [exact Et|].
      eapply cm_port; [exact Ca|now apply entries_ok|]. now apply (map_r_forall2 _ _ alias_port_ok).
    - intros (name & descr & c & (Cn & (d & Cd & ->) & t & Ct & M) & ->).
      apply need_texts in Cn, Cd, Ct. rewrite Cd, Ct, Cn. cbn [bind opt_eqb].
      change (match d with Some x => x | None => [] end) with (opt_str d).
      destruct M as [a es l Ca Ee F|a es l Ca Ee F|a es l Ca Ee F|Ef|url ls hs Ef Cu Dl F|Ef Hd].
      + rewrite str_eqb_same. apply need_texts in Ca. rewrite Ca. cbn [bind learned]. apply entries_ok in Ee as ->.
        apply (map_forall2 _ _ alias_host_ok) in F as ->. reflexivity.
      + rewrite (str_eqb_false (u "network") (u "host")) by discriminate. rewrite str_eqb_same.
        apply need_texts in Ca. rewrite Ca. cbn [bind learned]. apply entries_ok in Ee as ->.
        apply (map_r_forall2 _ _ mk_net_ok) in F as ->. reflexivity.
      + rewrite (str_eqb_false (u "port") (u "host")), (str_eqb_false (u "port") (u "network")),
          (str_eqb_false (u "port") (u "urltable")) by discriminate. rewrite str_eqb_same.
        apply need_texts in Ca. rewrite Ca. cbn [bind learned]. apply entries_ok in Ee as ->.
        apply (map_r_forall2 _ _ alias_port_ok) in F as ->. reflexivity.
      + rewrite (str_eqb_false (u "urltable") (u "host")), (str_eqb_false (u "urltable") (u "network")) by discriminate.
        rewrite str_eqb_same, Ef. reflexivity.
      + rewrite (str_eqb_false (u "urltable") (u "host")), (str_eqb_false (u "urltable") (u "network")) by discriminate.
        rewrite str_eqb_same, Ef. rewrite texts_get. apply child_text_f in Cu.
        destruct (lastf (u "url") kids) as [c|]; [|discriminate]. cbn [option_map] in Cu. injection Cu as ->.
        rewrite Dl. apply (map_forall2 _ _ urltable_ok) in F as <-. now rewrite flat_map_concat_map.
      + rewrite (str_eqb_false (u "urltable") (u "host")), (str_eqb_false (u "urltable") (u "network")) by discriminate.
        rewrite str_eqb_same, Ef. rewrite texts_get. destruct (lastf (u "url") kids) as [c|] eqn:L; [|reflexivity].
        rewrite Hd; [reflexivity|]. apply child_text_f. now rewrite L.
  Qed.

  (** C48: an alias element makes its name stand for a new group with exactly the members
      its text describes, and fails exactly if the text describes none. *)
  Theorem C48_alias fetch s i s' : pf_alias fetch s i = Ok s' ->
    exists name descr c, alias_means fetch (x_kids i) name descr c /\ registered s s' name descr c.
  Proof.
    intros H. apply pf_alias_exact in H as (name & descr & c & M & ->). exists name, descr, c. split; [exact M|].
    destruct c; [apply learn_net_bound|apply learn_port_bound].
  Qed.
  Theorem C48_alias_total fetch s i :
    (exists s', pf_alias fetch s i = Ok s') <-> exists name descr c, alias_means fetch (x_kids i) name descr c.
  Proof.
    split.
    - intros (s' & H). apply pf_alias_exact in H as (n & d & c & M & _). eauto.
    - intros (n & d & c & M). eexists. apply pf_alias_exact. eauto.
  Qed.
  (** C48: an entry of a host alias that is not an address (a host name, or another alias)
      puts "any" in the group. *)
  Theorem C48_unresolved_is_any fetch s i s' a es e :
    pf_alias fetch s i = Ok s' -> child_text (u "type") (x_kids i) (Some (u "host")) ->
    child_text (u "address") (x_kids i) a -> entries_of a es -> In e es -> ip_addr e = None ->
    exists name g, child_text (u "name") (x_kids i) name /\ aget opt_eqb (ps_net s') name = Some g /\
      In (HLeaf LAny) (objs (ps_nh s') g).
  Proof.
    intros H Ct Ca Ee I N. apply C48_alias in H as (name & descr & c & (Cn & _ & t & Ct' & M) & _ & _ & R).
    pose proof (child_text_fun _ _ _ _ Ct Ct') as [= <-].
    inversion M as [a' es' l Ca' Ee' F| | | | |]; subst.
    pose proof (child_text_fun _ _ _ _ Ca Ca') as <-. apply entries_ok in Ee, Ee'. rewrite Ee in Ee'. subst es'. clear Ee.
    destruct R as ((g & _ & _ & G & _ & A & _) & _). exists name, g. split; [exact Cn|]. split; [exact A|].
    unfold objs. rewrite G. cbn [g_objs]. clear - F I N. induction F as [|x y l l' Hxy F IH]; [destruct I|].
    destruct I as [->|I]; [left|right; auto]. destruct Hxy as [(v & E & _)|(_ & ->)]; [congruence|reflexivity].
  Qed.
End A.

Section N.
  Context (unescape : pystr -> pystr) (py_int : pystr -> option Z)
          (ip_addr : pystr -> option addr) (ip_net : pystr -> pystr -> result net)
          (to_time : option pystr -> result Z).

  (** C49: a rule that refers to the network of an interface is accepted only with the
      name the interface got, which for an optional interface is its description. *)
  Theorem C49_network_reference s0 k l objs s e c d t :
    pf_interfaces unescape k l s0 = Ok (objs, s) -> ps_ifs s0 = [] ->
    In c (x_kids e) -> x_tag c = u "source" \/ x_tag c = u "destination" ->
    In d (x_kids c) -> x_tag d = u "network" -> x_text d = Some t ->
    ~ In t (map if_alias objs) ->
    exists err, pf_rule unescape py_int ip_addr ip_net to_time s e = Err err.
  Proof.
    intros H E0 Ic Tc Id Td Xd N.
    destruct (pf_rule unescape py_int ip_addr ip_net to_time s e) as [r|err] eqn:E; [|eauto]. exfalso.
    destruct e as [tag txt kids]. apply C38_rule in E as (U & _). destruct (U c Ic) as (_ & S & _).
    destruct (S Tc) as (n & G & _). destruct (G d Id) as [(h & A)|(p & A)].
    - inversion A as [T|h' T M|n' a T X D]; rewrite Td in T; try discriminate T.
      rewrite Xd in X. injection X as <-.
      destruct (C39_interfaces _ _ _ _ _ _ H) as (_ & T1 & _). destruct (T1 t) as [(I & _)|(_ & D')]; [auto|].
      rewrite D', E0 in D. discriminate.
    - apply port_child_tag in A. rewrite Td in A. discriminate.
  Qed.
  (** C49: the rules of an optional interface go to the list named by its description,
      provided no later interface is described by its tag. *)
  Theorem C49_rules_of_interface s0 k l objs s o before after e r n :
    pf_interfaces unescape k l s0 = Ok (objs, s) ->
    objs = before ++ o :: after -> if_descr o = Some n -> (forall p, In p after -> if_descr p <> Some n) ->
    pf_rule unescape py_int ip_addr ip_net to_time s e = Ok r ->
    child_text (u "interface") (x_kids e) (Some n) -> ~ child_text (u "floating") (x_kids e) (Some (u "yes")) ->
    p_id r = Some (if_alias o).
  Proof.
    intros H Eo Dn La E Ci Nf.
    destruct (C39_interfaces _ _ _ _ _ _ H) as (_ & _ & T2 & _).
    destruct e as [tag txt kids]. cbn [x_kids] in *. apply C38_rule in E as (_ & P & _).
    destruct P as [(F & _)|(_ & _ & i & Ci' & ->)]; [tauto|].
    rewrite <- (child_text_fun _ _ _ _ Ci Ci'). cbn [option_map]. unfold alias_of.
    destruct (T2 n) as [(o' & (b & a & Eo' & D' & L') & ->)|(N & _)].
    - rewrite Eo in Eo'. apply (last_unique (fun p => if_descr p = Some n)) in Eo'; auto.
      destruct Eo' as (_ & -> & _). reflexivity.
    - exfalso. apply (N o); auto. rewrite Eo. apply in_elt.
  Qed.
End N.

(** ** Witnesses *)
Definition w_alias : xml := Xml (u "alias") None [el "name" "srv"; el "type" "host"; el "address" "1.2.3.4 other"; el "descr" "d"].
Definition w_ip (s : pystr) : option addr := if str_eqb s (u "1.2.3.4") then Some (mkaddr V4 16909060%N) else None.
Example C48_witness :
  match pf_alias (fun x => x) (fun _ => None) w_ip (fun _ _ => Err ValueError) (fun x => x) (fun _ => false) (fun _ => None) true ws w_alias with
  | Ok s => aget opt_eqb (ps_net s) (Some (u "srv")) = Some 0 /\
            objs (ps_nh s) 0 = [HLeaf (LHost (mkaddr V4 16909060%N)); HLeaf LAny]
  | Err _ => False end.
Proof. vm_compute. split; reflexivity. Qed.

Definition w_if2 (tag descr : string) : xml := Xml (u tag) None [el "if" "em0"; el "descr" descr].
Definition w_empty : pstate := mkps [] [] [] [] no_heap no_heap.
Definition w_netrule (n : string) : xml :=
  Xml (u "rule") None [el "type" "pass"; el "interface" "opt1"; Xml (u "source") None [el "network" n]; el "descr" "x"].
Definition w_run (l : list xml) (e : xml) : result prule :=
  do (objs, s) <- pf_interfaces (fun x => x) 0 l w_empty; w_pf s e.
(** "opt1" described as "DMZ": its network is only found as "DMZ"; and an interface
    described as "opt1" takes over the rules of the interface with that tag. *)
Example C49_witness :
  match w_run [w_if2 "opt1" "DMZ"] (w_netrule "DMZ") with Ok r => p_id r = Some (u "DMZ") | Err _ => False end /\
  w_run [w_if2 "opt1" "DMZ"] (w_netrule "opt1") = Err ValueError /\
  match w_run [w_if2 "opt1" "DMZ"; w_if2 "lan" "opt1"] (w_netrule "DMZ") with Ok r => p_id r = Some (u "lan") | Err _ => False end.
Proof. vm_compute. repeat split. Qed.
