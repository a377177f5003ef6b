(** C68: a whole pfSense configuration. *)
From Coq Require Import Lia String.
From Verif.Model Require Import Base Ip Hosts Groups Iface Ports Pfsense PfFile.
From Verif.Model Require AddrText.
From Verif.Spec Require Import PfSpec PfFileSpec.
From Verif.Proofs Require Import GroupOps DictFacts PfFacts PfRule PfIface.
From Verif.Props Require Import Pfsense PfAliases.
Local Open Scope list_scope.

(** ** Separators determine the captions *)
Lemma run_index_fun ids n k k' : run_index ids n k -> run_index ids n k' -> k = k'.
Proof.
  assert (H : forall k k', run_index ids n k -> run_index ids n k' -> k < k' -> False).
  { intros a b (A1 & _ & _ & A4) (B1 & _ & B3 & _) L. apply (A4 (n - a - 1)); [lia|]. apply B3. lia. }
  intros A B. destruct (Nat.lt_trichotomy k k') as [L|[L|L]]; [exfalso; eauto|exact L|exfalso; eauto].
Qed.
Lemma same_head r a b : same_but_head r a -> same_but_head r b -> p_head a = p_head b -> a = b.
Proof. unfold same_but_head. destruct a, b; cbn. intros A B H. decompose [and] A. decompose [and] B. clear A B. subst. reflexivity. Qed.
Lemma separated_fun ms l a b : separated ms l a -> separated ms l b -> a = b.
Proof.
  intros (La & A) (Lb & B).
  assert (G : forall n, nth_error a n = nth_error b n).
  { intros n. destruct (nth_error l n) as [r|] eqn:E.
    - destruct (A n r E) as (ra & ka & ca & Ea & Sa & Ka & Ca & Na & Ma). destruct (B n r E) as (rb & kb & cb & Eb & Sb & Kb & Cb & Nb & Mb).
      rewrite Ea, Eb. f_equal. rewrite (run_index_fun _ _ _ _ Ka Kb) in Ca. pose proof (captions_fun _ _ _ _ _ Ca Cb) as ->.
      apply (same_head r); auto. destruct cb; [rewrite Na, Nb by auto; reflexivity|rewrite Ma, Mb by discriminate; reflexivity].
    - apply nth_error_None in E. rewrite (proj2 (nth_error_None a n)), (proj2 (nth_error_None b n)) by lia. reflexivity. }
  clear - G. revert b G. induction a as [|x a IH]; intros [|y b] G; auto; try (specialize (G 0); discriminate).
  pose proof (G 0) as [= ->]. f_equal. apply IH. intros n. exact (G (S n)).
Qed.

(** ** The last entry with a property *)
Lemma last_at_snoc {A} (P : A -> Prop) l x k : (P x \/ ~ P x) ->
  last_at P (l ++ [x]) k <-> (P x /\ k = length l) \/ (~ P x /\ last_at P l k).
Proof.
  intros D. unfold last_at. split.
  - intros ((y & E & Y) & H). destruct (Nat.lt_trichotomy k (length l)) as [L|[->|L]].
    + rewrite nth_error_app1 in E by auto. right. assert (N : ~ P x).
      { apply (H (length l) x L). rewrite nth_error_app2, Nat.sub_diag by lia. reflexivity. }
      split; auto. split; [eauto|]. intros j z J E'. apply (H j z J). rewrite nth_error_app1; auto. apply nth_error_Some. congruence.
    + rewrite nth_error_app2, Nat.sub_diag in E by lia. injection E as ->. auto.
    + exfalso. assert (nth_error (l ++ [x]) k = None) by (apply nth_error_None; rewrite app_length; cbn; lia). congruence.
  - intros [(X & ->)|(N & (y & E & Y) & H)].
    + split. { exists x. rewrite nth_error_app2, Nat.sub_diag by lia. auto. }
      intros j z J E. exfalso. assert (nth_error (l ++ [x]) j = None) by (apply nth_error_None; rewrite app_length; cbn; lia). congruence.
    + assert (K : k < length l) by (apply nth_error_Some; congruence). split. { exists y. rewrite nth_error_app1 by auto. auto. }
      intros j z J E'. destruct (Nat.lt_ge_cases j (length l)) as [Lj|Lj].
      * rewrite nth_error_app1 in E' by auto. eauto.
      * rewrite nth_error_app2 in E' by auto. destruct (j - length l) as [|m]; [injection E' as <-; exact N|]. destruct m; discriminate.
Qed.
Lemma last_at_fun {A} (P : A -> Prop) l k k' : last_at P l k -> last_at P l k' -> k = k'.
Proof.
  intros ((x & E & X) & H) ((y & E' & Y) & H'). destruct (Nat.lt_trichotomy k k') as [L|[L|L]]; auto; exfalso; [eapply H|eapply H']; eauto.
Qed.
Lemma opt_dec (a b : option pystr) : a = b \/ a <> b.
Proof. destruct (opt_eqb_spec a b); auto. Qed.

Lemma Forall2_concat {A B} (R : A -> B -> Prop) l1 l2 m : Forall2 R (l1 ++ l2) m -> exists m1 m2, m = m1 ++ m2 /\ Forall2 R l1 m1 /\ Forall2 R l2 m2.
Proof. intros F. apply Forall2_app_inv_l in F as (m1 & m2 & F1 & F2 & ->). eauto. Qed.

(** ** Aliases *)
Definition learn_alias (s : pstate) (x : alias) : pstate := let '(n, d, c) := x in learned s n d c.
Definition groups_known (l : list alias) (s : pstate) : Prop :=
  names_stand_for (host_groups l) (ps_net s) (ps_nh s) /\ names_stand_for (service_groups l) (ps_port s) (ps_ph s).
Lemma stand_snoc {X} defs tab (h : gheap X) n g : names_stand_for defs tab h ->
  names_stand_for (defs ++ [(n, g)]) (aset opt_eqb tab n (h_next h)) (fst (h_alloc h g)).
Proof.
  intros (L & G & T). unfold h_alloc. cbn [fst h_next h_get]. split; [|split].
  - cbn [h_next]. rewrite app_length. cbn. lia.
  - intros k m g' E. cbn [h_get]. destruct (Nat.eqb_spec k (h_next h)) as [->|N].
    + rewrite L, nth_error_app2, Nat.sub_diag in E by lia. now injection E.
    + assert (k < length (defs ++ [(n, g)])) by (apply nth_error_Some; congruence). rewrite app_length in H. cbn in H.
      rewrite nth_error_app1 in E by lia. eauto.
  - intros m k. rewrite aget_aset by apply opt_eqb_spec. rewrite last_at_snoc by apply opt_dec. cbn [fst].
    destruct (opt_eqb_spec n m) as [<-|N].
    + split; [intros [= <-]; auto|]. intros [(_ & ->)|(C & _)]; [now rewrite L|now destruct C].
    + rewrite T. split; [auto|]. intros [(C & _)|(_ & H)]; [congruence|exact H].
Qed.
Lemma known_snoc l s x : groups_known l s -> groups_known (l ++ [x]) (learn_alias s x).
Proof.
  intros (A & B). destruct x as [[n d] [m|m]]; cbn [learn_alias learned]; unfold groups_known, host_groups, service_groups; rewrite !flat_map_app; cbn [flat_map]; rewrite !app_nil_r.
  - unfold learn_net. pose proof (stand_snoc _ _ _ n (mkgroup (opt_str n) d [] m) A) as A'. destruct (h_alloc (ps_nh s) _) as [h' g] eqn:E.
    cbn [ps_net ps_nh ps_port ps_ph] in *. unfold h_alloc in E. injection E as <- <-. split; [exact A'|exact B].
  - unfold learn_port. pose proof (stand_snoc _ _ _ n (mkgroup (opt_str n) d (u "any") m) B) as B'. destruct (h_alloc (ps_ph s) _) as [h' g] eqn:E.
    cbn [ps_net ps_nh ps_port ps_ph] in *. unfold h_alloc in E. injection E as <- <-. split; [exact A|exact B'].
Qed.
Lemma known_all l : groups_known l (fold_left learn_alias l ps_empty).
Proof.
  induction l as [|x l IH] using rev_ind; [|rewrite fold_left_app; now apply known_snoc].
  assert (E : forall X, names_stand_for (X:=X) [] [] no_groups).
  { intros X. split; [reflexivity|]. split; [intros [|k] n g [=]|]. intros n k. cbn. split; [discriminate|]. intros ((x & E & _) & _). destruct k; discriminate. }
  split; apply E.
Qed.
Lemma learn_frame l : forall s, ps_ifs (fold_left learn_alias l s) = ps_ifs s /\ ps_map (fold_left learn_alias l s) = ps_map s.
Proof. induction l as [|[[n d] [m|m]] l IH]; intros s; [auto| |]; cbn [fold_left]; destruct (IH (learn_alias s (n, d, CHosts m))) as (A & B) || destruct (IH (learn_alias s (n, d, CPorts m))) as (A & B); rewrite A, B; auto. Qed.
(** What the configuration gets for an alias *)
Definition alias_made (s : pstate) (x : alias) : pitem := let '(n, d, c) := x in match c with CHosts _ => QNet n (h_next (ps_nh s)) | CPorts _ => QPort n (h_next (ps_ph s)) end.
Fixpoint aliases_made (s : pstate) (l : list alias) : list pitem :=
  match l with [] => [] | x :: l => alias_made s x :: aliases_made (learn_alias s x) l end.

(** ** The configuration *)
Lemma pc_nets l : forall c, pcf_net (fold_left pc_step l c) = fold_left (fun d i => match i with QNet n g => aset opt_eqb d n g | _ => d end) l (pcf_net c).
Proof. induction l as [|i l IH]; intros c; cbn [fold_left]; [reflexivity|]. rewrite IH. now destruct i. Qed.
Lemma pc_ports l : forall c, pcf_port (fold_left pc_step l c) = fold_left (fun d i => match i with QPort n g => aset opt_eqb d n g | _ => d end) l (pcf_port c).
Proof. induction l as [|i l IH]; intros c; cbn [fold_left]; [reflexivity|]. rewrite IH. now destruct i. Qed.
Lemma pc_ifs l : forall c, pcf_ifaces (fold_left pc_step l c) = fold_left (fun d i => match i with QIface o => dset d (if_alias o) o | _ => d end) l (pcf_ifaces c).
Proof. induction l as [|i l IH]; intros c; cbn [fold_left]; [reflexivity|]. rewrite IH. now destruct i. Qed.
Lemma pc_rls l : forall c, pcf_rules (fold_left pc_step l c) = pcf_rules c ++ flat_map (fun i => match i with QRule r => [r] | _ => [] end) l.
Proof. induction l as [|i l IH]; intros c; cbn [fold_left flat_map]; [now rewrite app_nil_r|]. rewrite IH. destruct i; auto. cbn [pc_step pcf_rules]. now rewrite <- app_assoc. Qed.
Lemma pc_host l : forall c, pcf_hostname (fold_left pc_step l c) = fold_left (fun d i => match i with QHostname n => n | _ => d end) l (pcf_hostname c).
Proof. induction l as [|i l IH]; intros c; cbn [fold_left]; [reflexivity|]. rewrite IH. now destruct i. Qed.
Lemma pc_dom l : forall c, pcf_domain (fold_left pc_step l c) = pcf_domain c.
Proof. induction l as [|i l IH]; intros c; cbn [fold_left]; [reflexivity|]. rewrite IH. now destruct i. Qed.
Lemma skip_fold {A D} (f : D -> A -> D) l : (forall i d, In i l -> f d i = d) -> forall d, fold_left f l d = d.
Proof. induction l as [|i l IH]; intros H d; cbn [fold_left]; [reflexivity|]. rewrite H by now left. apply IH. intros; apply H; now right. Qed.
Lemma skip_flat {A B} (f : A -> list B) l : (forall i, In i l -> f i = []) -> flat_map f l = [].
Proof. induction l as [|i l IH]; intros H; cbn [flat_map]; [reflexivity|]. rewrite H by now left. apply IH. intros; apply H; now right. Qed.
Lemma made_kind l : forall s i, In i (aliases_made s l) -> exists n g, i = QNet n g \/ i = QPort n g.
Proof. induction l as [|x l IH]; intros s i I; [destruct I|]. destruct I as [<-|I]; [|eauto]. destruct x as [[n d] [m|m]]; cbn [alias_made]; eauto. Qed.
Lemma made_nets l : forall s, fold_left (fun d i => match i with QNet n g => aset opt_eqb d n g | _ => d end) (aliases_made s l) (ps_net s) = ps_net (fold_left learn_alias l s).
Proof. induction l as [|[[n d] [m|m]] l IH]; intros s; cbn [aliases_made fold_left alias_made]; [reflexivity| |]; rewrite <- IH; reflexivity. Qed.
Lemma made_ports l : forall s, fold_left (fun d i => match i with QPort n g => aset opt_eqb d n g | _ => d end) (aliases_made s l) (ps_port s) = ps_port (fold_left learn_alias l s).
Proof. induction l as [|[[n d] [m|m]] l IH]; intros s; cbn [aliases_made fold_left alias_made]; [reflexivity| |]; rewrite <- IH; reflexivity. Qed.
Lemma ifs_table objs n o : dget (fold_left (fun d o => dset d (if_alias o) o) objs []) n = Some o <-> exists k, last_at (fun o => if_alias o = n) objs k /\ nth_error objs k = Some o.
Proof.
  induction objs as [|x objs IH] using rev_ind.
  - cbn. split; [discriminate|]. intros ([|k] & _ & [=]).
  - rewrite fold_left_app. cbn [fold_left]. rewrite dget_dset. assert (D : if_alias x = n \/ if_alias x <> n) by (destruct (str_eqb_spec (if_alias x) n); auto).
    destruct (str_eqb_spec (if_alias x) n) as [E|N].
    + split.
      * intros [= <-]. exists (length objs). rewrite last_at_snoc by exact D. rewrite nth_error_app2, Nat.sub_diag by lia. auto.
      * intros (k & L & Ek). rewrite last_at_snoc in L by exact D. destruct L as [(_ & ->)|(C & _)]; [|congruence]. rewrite nth_error_app2, Nat.sub_diag in Ek by lia. exact Ek.
    + rewrite IH. split; intros (k & L & Ek); exists k.
      * rewrite last_at_snoc by exact D. assert (k < length objs) by (apply nth_error_Some; congruence). rewrite nth_error_app1 by auto. auto.
      * rewrite last_at_snoc in L by exact D. destruct L as [(C & _)|(_ & L)]; [congruence|]. split; [exact L|]. destruct L as ((y & Ey & _) & _). assert (k < length objs) by (apply nth_error_Some; congruence). rewrite nth_error_app1 in Ek by auto. exact Ek.
Qed.
Definition whole (births : list xml) (al : list alias) (objs : list interface) (rs : list prule) (sys : list xml) : list pitem :=
  map (fun _ => QBirth) births ++ aliases_made ps_empty al ++ map QIface objs ++ map QRule rs ++ map (fun e => QHostname (pf_system (x_kids e))) sys.
Ltac kinds := let I := fresh in intros ? ? I; (apply in_map_iff in I as (? & <- & _) || apply made_kind in I as (? & ? & [->| ->])); reflexivity.
Ltac kinds1 := let I := fresh in intros ? I; (apply in_map_iff in I as (? & <- & _) || apply made_kind in I as (? & ? & [->| ->])); reflexivity.
Lemma fold_map {A B D} (f : D -> B -> D) (g : A -> B) l : forall d, fold_left f (map g l) d = fold_left (fun d a => f d (g a)) l d.
Proof. induction l as [|a l IH]; intros d; cbn; auto. Qed.
Lemma whole_config b al objs rs sys : let c := pc_build (whole b al objs rs sys) in
  pcf_net c = ps_net (fold_left learn_alias al ps_empty) /\ pcf_port c = ps_port (fold_left learn_alias al ps_empty) /\
  pcf_ifaces c = fold_left (fun d o => dset d (if_alias o) o) objs [] /\ pcf_rules c = rs /\ pcf_domain c = [] /\
  pcf_hostname c = fold_left (fun _ e => pf_system (x_kids e)) sys [].
Proof.
  unfold pc_build, whole. rewrite pc_nets, pc_ports, pc_ifs, pc_rls, pc_dom, pc_host. cbn [pc_init pcf_net pcf_port pcf_ifaces pcf_rules pcf_domain pcf_hostname app]. rewrite !fold_left_app, !flat_map_app.
  split; [|split; [|split; [|split; [|split; [reflexivity|]]]]].
  - rewrite (skip_fold _ (map (fun _ => QBirth) b)) by kinds. rewrite (skip_fold _ (map QIface objs)), (skip_fold _ (map QRule rs)), (skip_fold _ (map _ sys)) by kinds. exact (made_nets al ps_empty).
  - rewrite (skip_fold _ (map (fun _ => QBirth) b)) by kinds. rewrite (skip_fold _ (map QIface objs)), (skip_fold _ (map QRule rs)), (skip_fold _ (map _ sys)) by kinds. exact (made_ports al ps_empty).
  - rewrite (skip_fold _ (map (fun _ => QBirth) b)), (skip_fold _ (aliases_made _ _)), (skip_fold _ (map QRule rs)), (skip_fold _ (map _ sys)) by kinds. now rewrite fold_map.
  - rewrite (skip_flat _ (map (fun _ => QBirth) b)), (skip_flat _ (aliases_made _ _)), (skip_flat _ (map QIface objs)), (skip_flat _ (map _ sys)) by kinds1. cbn [app]. rewrite app_nil_r.
    induction rs as [|r rs IH]; cbn; congruence.
  - rewrite (skip_fold _ (map (fun _ => QBirth) b)), (skip_fold _ (aliases_made _ _)), (skip_fold _ (map QIface objs)), (skip_fold _ (map QRule rs)) by kinds. now rewrite fold_map.
Qed.

(** ** Tables that agree *)
Definition same_tables (s s' : pstate) : Prop :=
  (forall n, aget opt_eqb (ps_net s) n = aget opt_eqb (ps_net s') n) /\ (forall n, aget opt_eqb (ps_port s) n = aget opt_eqb (ps_port s') n) /\
  (forall n, dget (ps_ifs s) n = dget (ps_ifs s') n) /\ (forall n, dget (ps_map s) n = dget (ps_map s') n).
Lemma fold_r_ext {A S} (f g : S -> A -> result S) l : (forall s x, f s x = g s x) -> forall s, fold_r f l s = fold_r g l s.
Proof. intros H. induction l as [|x l IH]; intros s; cbn [fold_r]; [reflexivity|]. rewrite H. destruct (g s x); cbn [bind]; auto. Qed.

Section P.
  Context (unescape : pystr -> pystr) (py_int : pystr -> option Z)
          (ip_addr : pystr -> option addr) (ip_net : pystr -> pystr -> result net)
          (to_time : option pystr -> result Z) (strip : pystr -> pystr)
          (ip_net_strict : pystr -> bool) (download : option pystr -> option (list pystr))
          (fetch : bool).
  Notation pf_rule := (pf_rule unescape py_int ip_addr ip_net to_time).
  Notation pf_filter := (pf_filter unescape py_int ip_addr ip_net to_time).
  Notation pf_filter_item := (pf_filter_item unescape py_int ip_addr ip_net to_time).
  Notation filter_reads := (filter_reads unescape py_int ip_addr ip_net to_time).
  Notation pf_alias := (pf_alias unescape py_int ip_addr ip_net strip ip_net_strict download fetch).
  Notation alias_items := (alias_items unescape py_int ip_addr ip_net strip ip_net_strict download fetch).
  Notation alias_means := (alias_means unescape py_int ip_addr ip_net strip ip_net_strict download fetch).
  Notation pf_section := (pf_section unescape py_int ip_addr ip_net to_time strip ip_net_strict download fetch).
  Notation pf_parse := (pf_parse unescape py_int ip_addr ip_net to_time strip ip_net_strict download fetch).
  Notation names_of := (names_of unescape py_int ip_addr ip_net strip ip_net_strict download fetch).
  Notation document := (document unescape py_int ip_addr ip_net to_time strip ip_net_strict download fetch).
  Notation rules_of := (rules_of unescape py_int ip_addr ip_net to_time).
  Notation revision_ok := (revision_ok to_time).
  Notation iface_means := (iface_means unescape).
  Notation meaning := (fun i (x : alias) => let '(n, d, c) := x in alias_means (x_kids i) n d c).

  (** *** Filter sections *)
  Lemma rule_same s s' i : same_tables s s' -> pf_rule s i = pf_rule s' i.
  Proof using.
    clear strip ip_net_strict download fetch.
    intros (T1 & T2 & T3 & T4).
    assert (Sd : forall k, rule_side py_int ip_addr ip_net s k = rule_side py_int ip_addr ip_net s' k).
    { intros k. unfold rule_side. rewrite (fold_r_ext _ (rule_node py_int ip_addr ip_net s')); [reflexivity|]. intros st n.
      unfold rule_node, rule_address, rule_port, rule_network. rewrite T1, T2. destruct (x_text n) as [t|]; [rewrite T3|]; reflexivity. }
    assert (M : forall n, map_iface s n = map_iface s' n) by (intros [n|]; cbn; [rewrite T4|]; reflexivity).
    unfold Pfsense.pf_rule. rewrite (fold_r_ext _ (rule_child unescape py_int ip_addr ip_net to_time s')).
    2:{ intros w c. unfold rule_child. now rewrite !Sd. }
    destruct (fold_r _ (x_kids i) pv_init) as [w|]; [|reflexivity]. cbn [bind]. destruct (need (pv w) (u "floating")) as [fl|]; [|reflexivity]. cbn [bind].
    destruct (need (pv w) (u "interface")) as [[n|]|]; destruct (opt_eqb fl (Some (u "yes"))); cbn [bind]; rewrite ?M; try reflexivity.
    destruct (need (pv w) (u "direction")) as [d|]; [|reflexivity]. cbn [bind].
    replace (map (fun n0 => opt_str (map_iface s (Some n0))) (split_on c_comma n)) with (map (fun n0 => opt_str (map_iface s' (Some n0))) (split_on c_comma n)); [reflexivity|].
    apply map_ext. intros m. now rewrite M.
  Qed.
  Lemma filter_same s s' l : same_tables s s' -> pf_filter s l = pf_filter s' l.
  Proof using.
    clear strip ip_net_strict download fetch.
    intros T. unfold Pfsense.pf_filter. apply fold_r_ext. intros ast i. unfold Pfsense.pf_filter_item. rewrite (rule_same s s' i T).
    replace (pf_seps unescape py_int s i) with (pf_seps unescape py_int s' i); [reflexivity|]. unfold pf_seps. apply fold_r_ext. intros d e. apply fold_r_ext. intros d' sep.
    unfold pf_sep. destruct T as (_ & _ & _ & T4). assert (M : forall n, map_iface s' n = map_iface s n) by (intros [n|]; cbn; [rewrite T4|]; reflexivity).
    destruct (py_int _); [|reflexivity]. destruct (need _ (u "if")); [|reflexivity]. cbn [bind]. now rewrite M.
  Qed.
  Lemma filter_exact s l rs : pf_filter s l = Ok rs <-> filter_reads s l rs.
  Proof using.
    clear strip ip_net_strict download fetch. split.
    - unfold Pfsense.pf_filter. revert rs. induction l as [|i l IH] using rev_ind; intros rs H.
      + injection H as <-. constructor.
      + rewrite fold_r_snoc in H. destruct (fold_r (pf_filter_item s) l []) as [a0|] eqn:E; [|discriminate]. cbn [bind] in H. specialize (IH a0 eq_refl).
        destruct i as [tag txt kids]. destruct (str_eqb_spec tag (u "rule")) as [->|N1].
        * unfold Pfsense.pf_filter_item in H. cbn [x_tag] in H. rewrite str_eqb_same in H. destruct (pf_rule s _) as [r|] eqn:Er; [|discriminate]. cbn [bind] in H. injection H as <-.
          apply C38_rule in Er. econstructor; eauto.
        * destruct (str_eqb_spec tag (u "separator")) as [->|N2].
          -- apply C40_separators in H as (ms & F & S). eapply FR_separator; eauto.
          -- exfalso. unfold Pfsense.pf_filter_item in H. cbn [x_tag] in H. rewrite !str_eqb_false in H by auto. discriminate.
    - unfold Pfsense.pf_filter. induction 1 as [|l rs c r _ IH T M|l rs c ms rs' _ IH T F S]; [reflexivity| |]; rewrite fold_r_snoc, IH; cbn [bind]; destruct c as [tag txt kids]; cbn [x_tag] in T; subst tag.
      + unfold Pfsense.pf_filter_item. cbn [x_tag]. rewrite str_eqb_same. apply (C38_rule unescape py_int ip_addr ip_net to_time s (u "rule") txt) in M. cbn [x_kids] in M. now rewrite M.
      + destruct (proj2 (C40_separators_total unescape py_int ip_addr ip_net to_time s rs txt kids)) as (rs1 & E).
        { intros e I. cbn [x_kids] in F. clear - F I. induction F as [|x y l l' M F IH]; [destruct I|]. destruct I as [<-|I]; eauto. }
        rewrite E. f_equal. apply C40_separators in E as (ms' & F' & S'). cbn [x_kids] in F.
        assert (ms' = ms) as ->; [|eapply separated_fun; eauto].
        clear - F F'. revert ms' F'. induction F as [|x y l m M F IH]; intros ms' F'; inversion F'; subst; auto. f_equal; [eapply sep_means_fun; eauto|auto].
  Qed.

  (** *** Alias sections *)
  Lemma alias_one s i s' : pf_alias s i = Ok s' <-> exists x, meaning i x /\ s' = learn_alias s x.
  Proof using.
    rewrite (pf_alias_exact unescape py_int ip_addr ip_net strip ip_net_strict download fetch s i s'). split.
    - intros (n & d & c & M & ->). exists (n, d, c). auto.
    - intros ([[n d] c] & M & ->). exists n, d, c. auto.
  Qed.
  Lemma alias_item_ok s i x : meaning i x -> alias_item s i = Ok (alias_made s x).
  Proof using.
    destruct x as [[n d] c]. intros (Cn & _ & t & Ct & M). unfold alias_item. apply need_texts in Cn, Ct. rewrite Ct, Cn. cbn [bind opt_eqb alias_made].
    destruct M; first [rewrite str_eqb_same|rewrite str_eqb_false by discriminate]; reflexivity.
  Qed.
  Lemma alias_items_ok l : forall s al, Forall2 meaning l al -> alias_items l s = Ok (aliases_made s al, fold_left learn_alias al s).
  Proof using.
    induction l as [|i l IH]; intros s al F; inversion F as [|? x ? al' M F']; subst; [reflexivity|]. cbn [PfFile.alias_items].
    rewrite (proj2 (alias_one s i (learn_alias s x))) by eauto. cbn [bind]. rewrite (alias_item_ok s i x M). cbn [bind]. rewrite (IH _ _ F'). reflexivity.
  Qed.
  Lemma alias_items_inv l : forall s r, alias_items l s = Ok r -> exists al, Forall2 meaning l al.
  Proof using.
    induction l as [|i l IH]; intros s r H; [exists []; constructor|]. cbn [PfFile.alias_items] in H.
    destruct (pf_alias s i) as [s1|] eqn:E; [|discriminate]. cbn [bind] in H. apply alias_one in E as (x & M & ->). rewrite (alias_item_ok s i x M) in H. cbn [bind] in H.
    destruct (alias_items l (learn_alias s x)) as [r'|] eqn:E'; [|discriminate]. destruct (IH _ _ E') as (al & F). exists (x :: al). now constructor.
  Qed.
  Lemma meaning_fun i x y : meaning i x -> meaning i y -> x = y.
  Proof using.
    intros X Y. pose proof (proj2 (alias_one ps_empty i _) (ex_intro _ x (conj X eq_refl))) as EX. pose proof (proj2 (alias_one ps_empty i _) (ex_intro _ y (conj Y eq_refl))) as EY.
    rewrite EX in EY. injection EY as E. clear - E. destruct x as [[n d] [m|m]], y as [[n' d'] [m'|m']]; cbn in E; try discriminate; injection E as E1 E2; try (subst n').
    - pose proof (f_equal (fun f => f 0) E2) as E3. cbn in E3. injection E3 as -> ->. reflexivity.
    - pose proof (f_equal (fun f => f 0) E2) as E3. cbn in E3. injection E3 as -> ->. reflexivity.
  Qed.
  Lemma meanings_fun l al al' : Forall2 meaning l al -> Forall2 meaning l al' -> al = al'.
  Proof using.
    intros F. revert al'. induction F as [|i x l al M F IH]; intros al' F'; inversion F'; subst; auto. f_equal; [eapply meaning_fun; eauto|auto].
  Qed.
  Lemma aliases_app s a b : aliases_made s (a ++ b) = aliases_made s a ++ aliases_made (fold_left learn_alias a s) b.
  Proof using. clear. revert s. induction a as [|x a IH]; intros s; cbn [app aliases_made fold_left]; [reflexivity|]. now rewrite IH. Qed.

  (** *** The loops over the sections *)
  Lemma loop_revision es : forall ast s, (forall e, In e es -> pf_revision to_time (x_kids e) = Ok tt) ->
    fold_r (pf_section (u "revision")) es (ast, s) = Ok (ast ++ map (fun _ => QBirth) es, s).
  Proof using.
    induction es as [|e es IH]; intros ast s H; cbn [fold_r map]; [now rewrite app_nil_r|]. unfold PfFile.pf_section at 1. rewrite str_eqb_same, H by now left. cbn [bind].
    rewrite IH by (intros; apply H; now right). now rewrite <- app_assoc.
  Qed.
  Lemma loop_revision_inv es : forall st r, fold_r (pf_section (u "revision")) es st = Ok r -> forall e, In e es -> pf_revision to_time (x_kids e) = Ok tt.
  Proof using.
    induction es as [|e es IH]; intros [ast s] r H e' I; [destruct I|]. cbn [fold_r] in H. unfold PfFile.pf_section at 1 in H. rewrite str_eqb_same in H.
    destruct (pf_revision to_time (x_kids e)) as [[]|] eqn:E; [|discriminate]. cbn [bind] in H. destruct I as [<-|I]; eauto.
  Qed.
  Lemma loop_aliases es : forall ast s al, Forall2 meaning (flat_map x_kids es) al ->
    fold_r (pf_section (u "aliases")) es (ast, s) = Ok (ast ++ aliases_made s al, fold_left learn_alias al s).
  Proof using.
    induction es as [|e es IH]; intros ast s al F; cbn [flat_map] in F.
    - inversion F. cbn. now rewrite app_nil_r.
    - apply Forall2_concat in F as (a & b & -> & F1 & F2). cbn [fold_r]. unfold PfFile.pf_section at 1. rewrite (str_eqb_false (u "aliases") (u "revision")), str_eqb_same by discriminate.
      rewrite (alias_items_ok _ s a F1). cbn [bind]. rewrite (IH _ _ _ F2), aliases_app, fold_left_app, <- app_assoc. reflexivity.
  Qed.
  Lemma loop_aliases_inv es : forall st r, fold_r (pf_section (u "aliases")) es st = Ok r -> exists al, Forall2 meaning (flat_map x_kids es) al.
  Proof using.
    induction es as [|e es IH]; intros [ast s] r H; [exists []; constructor|]. cbn [fold_r] in H. unfold PfFile.pf_section at 1 in H. rewrite (str_eqb_false (u "aliases") (u "revision")), str_eqb_same in H by discriminate.
    destruct (alias_items (x_kids e) s) as [[xs s1]|] eqn:E; [|discriminate]. cbn [bind] in H. destruct (alias_items_inv _ _ _ E) as (a & F). destruct (IH _ _ H) as (b & F'). exists (a ++ b). now apply Forall2_app.
  Qed.
  Lemma loop_interfaces es : forall ast s, (forall i, In i (flat_map x_kids es) -> loadable i) ->
    exists objs, Forall2 iface_means (flat_map x_kids es) objs /\
      fold_r (pf_section (u "interfaces")) es (ast, s) = Ok (ast ++ map QIface objs, fold_left put objs s).
  Proof using.
    induction es as [|e es IH]; intros ast s H; cbn [flat_map] in *.
    - exists []. cbn. rewrite app_nil_r. split; [constructor|reflexivity].
    - destruct (pf_interfaces_ok unescape (x_kids e) (length ast) s) as (o1 & E & F1); [intros i I; apply H, in_app_iff; auto|].
      destruct (IH (ast ++ map QIface o1) (fold_left put o1 s)) as (o2 & F2 & E2); [intros i I; apply H, in_app_iff; auto|].
      exists (o1 ++ o2). split; [now apply Forall2_app|]. cbn [fold_r]. unfold PfFile.pf_section at 1.
      rewrite (str_eqb_false (u "interfaces") (u "revision")), (str_eqb_false (u "interfaces") (u "aliases")), str_eqb_same by discriminate. rewrite E. cbn [bind]. rewrite E2.
      now rewrite map_app, fold_left_app, <- app_assoc.
  Qed.
  Lemma loop_interfaces_inv es : forall st r, fold_r (pf_section (u "interfaces")) es st = Ok r -> forall i, In i (flat_map x_kids es) -> loadable i.
  Proof using.
    induction es as [|e es IH]; intros [ast s] r H i I; [destruct I|]. cbn [fold_r] in H. unfold PfFile.pf_section at 1 in H.
    rewrite (str_eqb_false (u "interfaces") (u "revision")), (str_eqb_false (u "interfaces") (u "aliases")), str_eqb_same in H by discriminate.
    destruct (pf_interfaces unescape (length ast) (x_kids e) s) as [[o s1]|] eqn:E; [|discriminate]. cbn [bind] in H. cbn [flat_map] in I. apply in_app_iff in I as [I|I]; [|eauto].
    eapply pf_interfaces_inv; eauto.
  Qed.
  Lemma loop_filter es : forall ast s rss, Forall2 (fun e r => pf_filter s (x_kids e) = Ok r) es rss ->
    fold_r (pf_section (u "filter")) es (ast, s) = Ok (ast ++ map QRule (concat rss), s).
  Proof using.
    induction es as [|e es IH]; intros ast s rss F; inversion F as [|? rs ? rss' E F']; subst; cbn [fold_r concat map]; [now rewrite app_nil_r|].
    unfold PfFile.pf_section at 1. rewrite (str_eqb_false (u "filter") (u "revision")), (str_eqb_false (u "filter") (u "aliases")), (str_eqb_false (u "filter") (u "interfaces")), str_eqb_same by discriminate.
    rewrite E. cbn [bind]. now rewrite (IH _ _ _ F'), map_app, <- app_assoc.
  Qed.
  Lemma loop_filter_inv es : forall ast s r, fold_r (pf_section (u "filter")) es (ast, s) = Ok r -> exists rss, Forall2 (fun e r => pf_filter s (x_kids e) = Ok r) es rss.
  Proof using.
    induction es as [|e es IH]; intros ast s r H; [exists []; constructor|]. cbn [fold_r] in H. unfold PfFile.pf_section at 1 in H.
    rewrite (str_eqb_false (u "filter") (u "revision")), (str_eqb_false (u "filter") (u "aliases")), (str_eqb_false (u "filter") (u "interfaces")), str_eqb_same in H by discriminate.
    destruct (pf_filter s (x_kids e)) as [rs|] eqn:E; [|discriminate]. cbn [bind] in H. destruct (IH _ _ _ H) as (rss & F). exists (rs :: rss). now constructor.
  Qed.
  Lemma loop_system es : forall ast s, fold_r (pf_section (u "system")) es (ast, s) = Ok (ast ++ map (fun e => QHostname (pf_system (x_kids e))) es, s).
  Proof using.
    induction es as [|e es IH]; intros ast s; cbn [fold_r map]; [now rewrite app_nil_r|]. unfold PfFile.pf_section at 1.
    rewrite (str_eqb_false (u "system") (u "revision")), (str_eqb_false (u "system") (u "aliases")), (str_eqb_false (u "system") (u "interfaces")), (str_eqb_false (u "system") (u "filter")), str_eqb_same by discriminate.
    cbn [bind]. now rewrite IH, <- app_assoc.
  Qed.
  Lemma revision_iff e : pf_revision to_time (x_kids e) = Ok tt <-> revision_ok e.
  Proof using.
    clear. unfold PfFileSpec.revision_ok. induction (x_kids e) as [|i l IH]; cbn [pf_revision].
    - split; [left; intros d []|reflexivity].
    - destruct (str_eqb_spec (x_tag i) (u "time")) as [T|T].
      + split.
        * destruct (to_time (x_text i)) as [t|] eqn:E; [|discriminate]. intros _. right. exists [], i, l, t. split; [reflexivity|]. split; [intros d []|auto].
        * intros [N|(b & c & a & t & E & N & Tc & Et)]; [destruct (N i); [now left|auto]|]. destruct b as [|j b]; cbn in E; injection E as <- E; [rewrite Et; reflexivity|]. destruct (N i); [now left|auto].
      + rewrite IH. split.
        * intros [N|(b & c & a & t & -> & N & Tc & Et)]; [left; intros d [<-|I]; auto|]. right. exists (i :: b), c, a, t. split; [reflexivity|]. split; [|auto]. intros d [<-|I]; auto.
        * intros [N|(b & c & a & t & E & N & Tc & Et)]; [left; intros d I; apply N; now right|]. destruct b as [|j b]; cbn in E; injection E as <- E; [congruence|]. right. exists b, c, a, t. split; [exact E|]. split; [|auto]. intros d I. apply N. now right.
  Qed.
  Lemma system_ok e : hostname_of e (pf_system (x_kids e)).
  Proof using.
    clear. unfold hostname_of, pf_system.
    assert (K : forall l, let '(d, h) := fold_left (fun '(d, h) i => if str_eqb (x_tag i) (u "domain") then (x_text i, h) else if str_eqb (x_tag i) (u "hostname") then (d, x_text i) else (d, h)) l (None, None) in
      text_or (u "hostname") None l h /\ text_or (u "domain") None l d).
    { intros l. match goal with |- context [fold_left ?g l _] => set (f := g) end.
      assert (X : fold_left f l (None, None) = (match lastf (u "domain") l with Some c => x_text c | None => None end, match lastf (u "hostname") l with Some c => x_text c | None => None end)).
      { induction l as [|c l IH] using rev_ind; [reflexivity|]. rewrite fold_left_app, !lastf_snoc, IH. cbn [fold_left]. unfold f.
        destruct (str_eqb_spec (x_tag c) (u "domain")) as [->|N]; [rewrite (str_eqb_false (u "domain") (u "hostname")) by discriminate; reflexivity|].
        destruct (str_eqb (x_tag c) (u "hostname")); reflexivity. }
      rewrite X. clearbody f. clear X. split; unfold text_or; rewrite child_text_f.
      - destruct (lastf (u "hostname") l) eqn:L; [left; reflexivity|right; split; [now apply lastf_none|reflexivity]].
      - destruct (lastf (u "domain") l) eqn:L; [left; reflexivity|right; split; [now apply lastf_none|reflexivity]]. }
    specialize (K (x_kids e)). destruct (fold_left _ (x_kids e) (None, None)) as [d h]. destruct K as (H & D). exists h, d. split; [exact H|]. split; [exact D|]. destruct h, d; reflexivity.
  Qed.

  (** *** The whole document *)
  Definition shape (root : xml) (al : list alias) (objs : list interface) (s : pstate) (rss : list (list prule)) : Prop :=
    (x_tag root = u "pfsense" \/ x_tag root = u "opnsense") /\
    (forall e, In e (sections (u "revision") root) -> revision_ok e) /\
    (forall i, In i (contents (u "interfaces") root) -> loadable i) /\
    Forall2 meaning (contents (u "aliases") root) al /\ Forall2 iface_means (contents (u "interfaces") root) objs /\
    s = fold_left put objs (fold_left learn_alias al ps_empty) /\
    Forall2 (fun e r => pf_filter s (x_kids e) = Ok r) (sections (u "filter") root) rss.
  Lemma tags_eq (f : list pitem * pstate -> pystr -> result (list pitem * pstate)) st : fold_r f pf_tags st =
    do st <- f st (u "revision"); do st <- f st (u "aliases"); do st <- f st (u "interfaces"); do st <- f st (u "filter"); f st (u "system").
  Proof using.
    clear. unfold pf_tags. cbn [map fold_r]. destruct (f st _) as [a|]; [|reflexivity]. cbn [bind]. destruct (f a _) as [b|]; [|reflexivity]. cbn [bind].
    destruct (f b _) as [c|]; [|reflexivity]. cbn [bind]. destruct (f c _) as [d|]; [|reflexivity]. cbn [bind]. now destruct (f d _).
  Qed.
  Lemma parse_shape root cfg s : pf_parse root = Ok (cfg, s) -> exists al objs rss, shape root al objs s rss /\
    cfg = pc_build (whole (sections (u "revision") root) al objs (concat rss) (sections (u "system") root)).
  Proof using.
    unfold PfFile.pf_parse. intros H. destruct (_ || _) eqn:T; [|discriminate].
    assert (T' : x_tag root = u "pfsense" \/ x_tag root = u "opnsense").
    { apply Bool.orb_true_iff in T as [T|T]; [left|right]; destruct (str_eqb_spec (x_tag root) (u "pfsense")); destruct (str_eqb_spec (x_tag root) (u "opnsense")); congruence. }
    rewrite tags_eq in H. change (findall (u "revision") root) with (sections (u "revision") root) in H.
    destruct (fold_r (pf_section (u "revision")) (sections (u "revision") root) ([], ps_empty)) as [st|] eqn:E1; [|discriminate]. cbn [bind] in H.
    pose proof (loop_revision_inv _ _ _ E1) as R. rewrite loop_revision in E1 by exact R. injection E1 as <-. cbn [app] in H.
    change (findall (u "aliases") root) with (sections (u "aliases") root) in H.
    destruct (fold_r (pf_section (u "aliases")) (sections (u "aliases") root) _) as [st|] eqn:E2 in H; [|discriminate]. cbn [bind] in H.
    destruct (loop_aliases_inv _ _ _ E2) as (al & A). rewrite (loop_aliases _ _ _ _ A) in E2. injection E2 as <-.
    change (findall (u "interfaces") root) with (sections (u "interfaces") root) in H.
    destruct (fold_r (pf_section (u "interfaces")) (sections (u "interfaces") root) _) as [st|] eqn:E3 in H; [|discriminate]. cbn [bind] in H.
    pose proof (loop_interfaces_inv _ _ _ E3) as L. match type of E3 with fold_r _ _ (?a, ?s0) = _ => destruct (loop_interfaces _ a s0 L) as (objs & F & E3') end. rewrite E3' in E3. injection E3 as <-.
    change (findall (u "filter") root) with (sections (u "filter") root) in H.
    destruct (fold_r (pf_section (u "filter")) (sections (u "filter") root) _) as [st|] eqn:E4 in H; [|discriminate]. cbn [bind] in H.
    destruct (loop_filter_inv _ _ _ _ E4) as (rss & FF). rewrite (loop_filter _ _ _ _ FF) in E4. injection E4 as <-.
    change (findall (u "system") root) with (sections (u "system") root) in H. rewrite loop_system in H. cbn [bind] in H. injection H as <- <-.
    exists al, objs, rss. split; [|unfold whole; now rewrite <- !app_assoc]. split; [exact T'|]. split; [intros e I; apply revision_iff; auto|]. split; [exact L|]. split; [exact A|]. split; [exact F|]. split; [reflexivity|exact FF].
  Qed.
  Lemma shape_parse root al objs s rss : shape root al objs s rss -> exists cfg s', pf_parse root = Ok (cfg, s').
  Proof using.
    intros (T & R & L & A & F & -> & FF). unfold PfFile.pf_parse.
    replace (str_eqb (x_tag root) (u "pfsense") || str_eqb (x_tag root) (u "opnsense")) with true
      by (destruct T as [-> | ->]; rewrite str_eqb_same; [reflexivity|now rewrite Bool.orb_true_r]).
    rewrite tags_eq. change (findall (u "revision") root) with (sections (u "revision") root).
    rewrite loop_revision by (intros e I; apply revision_iff; auto). cbn [bind].
    change (findall (u "aliases") root) with (sections (u "aliases") root). rewrite (loop_aliases _ _ _ _ A). cbn [bind].
    change (findall (u "interfaces") root) with (sections (u "interfaces") root).
    match goal with |- context [fold_r (pf_section (u "interfaces")) _ (?a, ?s0)] => destruct (loop_interfaces (sections (u "interfaces") root) a s0 L) as (objs' & F' & E) end. rewrite E. cbn [bind]. clear E.
    assert (objs' = objs) as ->.
    { change (contents (u "interfaces") root) with (flat_map x_kids (sections (u "interfaces") root)) in F. clear - F F'. revert objs' F'. induction F as [|i o l objs M F IH]; intros objs' F'; inversion F' as [|? o' ? ? M' F'']; subst; auto. f_equal; [|auto]. clear - M M'.
      destruct M as ((d & D1 & D2) & A & B1 & B2 & B3 & B4). destruct M' as ((d' & D1' & D2') & A' & B1' & B2' & B3' & B4').
      pose proof (child_text_fun _ _ _ _ D1 D1') as <-.
      assert (X : if_alias o' = if_alias o /\ if_descr o' = if_descr o).
      { destruct A as [(O & A1 & a & A2 & A3)|(O & A1 & a & A2 & A3)], A' as [(O' & A1' & a' & A2' & A3')|(O' & A1' & a' & A2' & A3')]; try tauto;
        pose proof (text_or_fun _ _ _ _ _ A2 A2') as [= <-]; split; congruence. }
      destruct X as (X1 & X2). destruct o, o'; cbn in *; congruence. }
    change (findall (u "filter") root) with (sections (u "filter") root). rewrite (loop_filter _ _ _ _ FF). cbn [bind].
    change (findall (u "system") root) with (sections (u "system") root). rewrite loop_system. cbn [bind]. eauto.
  Qed.
  Lemma described_some objs l o : Forall2 iface_means l objs -> In o objs -> exists d, if_descr o = Some d.
  Proof using.
    clear. intros F I. induction F as [|i p l objs M F IH]; [destruct I|]. destruct I as [<-|I]; auto.
    destruct M as (_ & [(_ & -> & _)|(_ & _ & a & _ & ->)] & _); eauto.
  Qed.
  Lemma last_described_fun objs n o o' : last_described objs n o -> last_described objs n o' -> o = o'.
  Proof using.
    clear. intros (b & a & -> & D & N) (b' & a' & E & D' & N'). exact (proj1 (proj2 (last_unique (fun o => if_descr o = Some n) _ _ _ _ _ _ E D D' N N'))).
  Qed.
  Lemma built_names l al objs : Forall2 iface_means l objs -> let s := fold_left put objs (fold_left learn_alias al ps_empty) in groups_known al s /\ interfaces_known objs s.
  Proof using.
    intros F s. subst s. destruct (put_frame objs (fold_left learn_alias al ps_empty)) as (P1 & P2 & P3 & P4).
    destruct (learn_frame al ps_empty) as (L1 & L2). split.
    - unfold groups_known. rewrite P1, P2, P3, P4. apply known_all.
    - split.
      + intros n a. rewrite put_ifs, L1. destruct (existsb (fun o => str_eqb (if_alias o) n) objs) eqn:X.
        * apply existsb_exists in X as (o & I & E'). destruct (str_eqb_spec (if_alias o) n) as [<-|]; [|discriminate]. split; [intros [= <-]; split; auto; now apply in_map|intros (-> & _); reflexivity].
        * cbn. split; [discriminate|]. intros (-> & I). apply in_map_iff in I as (o & <- & I). assert (existsb (fun p => str_eqb (if_alias p) (if_alias o)) objs = true); [|congruence].
          apply existsb_exists. exists o. split; auto. apply str_eqb_same.
      + intros n a. destruct (put_map objs (fold_left learn_alias al ps_empty) n) as [(o & D & ->)|(N & ->)].
        * intros o I. eapply described_some; eauto.
        * split; [intros [= <-]; eauto|]. intros (o' & D' & ->). f_equal. f_equal. eapply last_described_fun; eauto.
        * rewrite L2. cbn. split; [discriminate|]. intros (o & (b & a' & -> & D & _) & _). exfalso. apply (N o); [apply in_elt|exact D].
  Qed.
  Lemma shape_names root al objs s rss : shape root al objs s rss -> groups_known al s /\ interfaces_known objs s.
  Proof using. intros (_ & _ & _ & _ & F & -> & _). eapply built_names; eauto. Qed.
  Lemma opt_ext {A} (a b : option A) : (forall x, a = Some x <-> b = Some x) -> a = b.
  Proof using. clear. intros H. destruct a as [x|]; [symmetry; now apply H|]. destruct b as [y|]; [now apply H|reflexivity]. Qed.
  Lemma ifaces_fun l objs objs' : Forall2 iface_means l objs -> Forall2 iface_means l objs' -> objs = objs'.
  Proof using.
    clear. intros F. revert objs'. induction F as [|i o l objs M F IH]; intros objs' F'; inversion F' as [|? o' ? ? M' F'']; subst; auto. f_equal; [|auto]. clear - M M'.
    destruct M as ((d & D1 & D2) & A & B1 & B2 & B3 & B4). destruct M' as ((d' & D1' & D2') & A' & B1' & B2' & B3' & B4').
    pose proof (child_text_fun _ _ _ _ D1 D1') as <-.
    assert (X : if_alias o' = if_alias o /\ if_descr o' = if_descr o).
    { destruct A as [(O & A1 & a & A2 & A3)|(O & A1 & a & A2 & A3)], A' as [(O' & A1' & a' & A2' & A3')|(O' & A1' & a' & A2' & A3')]; try tauto;
      pose proof (text_or_fun _ _ _ _ _ A2 A2') as [= <-]; split; congruence. }
    destruct X as (X1 & X2). destruct o, o'; cbn in *; congruence.
  Qed.
  Lemma names_same root s s' : names_of root s -> names_of root s' -> same_tables s s'.
  Proof using.
    intros ((al & A & (_ & _ & A1) & (_ & _ & A2)) & objs & O & O1 & O2) ((al' & A' & (_ & _ & A1') & (_ & _ & A2')) & objs' & O' & O1' & O2').
    pose proof (meanings_fun _ _ _ A A') as <-. pose proof (ifaces_fun _ _ _ O O') as <-.
    split; [|split; [|split]]; intros n; apply opt_ext; intros x.
    - now rewrite A1, A1'.
    - now rewrite A2, A2'.
    - now rewrite O1, O1'.
    - now rewrite O2, O2'.
  Qed.

  (** C68: what the configuration holds is what the document stands for. *)
  Theorem C68_reads root cfg s : pf_parse root = Ok (cfg, s) ->
    document root s /\ rules_of root s (pcf_rules cfg) /\
    pcf_net cfg = ps_net s /\ pcf_port cfg = ps_port s /\
    (exists objs, Forall2 iface_means (contents (u "interfaces") root) objs /\
       forall n o, dget (pcf_ifaces cfg) n = Some o <-> exists k, last_at (fun o => if_alias o = n) objs k /\ nth_error objs k = Some o) /\
    ((sections (u "system") root = [] /\ pcf_hostname cfg = []) \/
     exists before e, sections (u "system") root = before ++ [e] /\ hostname_of e (pcf_hostname cfg)) /\
    pcf_domain cfg = [].
  Proof using.
    intros H. apply parse_shape in H as (al & objs & rss & Sh & ->). destruct (whole_config (sections (u "revision") root) al objs (concat rss) (sections (u "system") root)) as (C1 & C2 & C3 & C4 & C5 & C6).
    destruct (shape_names _ _ _ _ _ Sh) as ((K1 & K2) & K3). destruct Sh as (T & R & L & A & F & E & FF).
    split; [|split; [|split; [|split; [|split; [|split; [|exact C5]]]]]].
    - split; [exact T|]. split; [exact R|]. split; [exact L|]. split.
      + split; [exists al; split; [exact A|]; split; assumption|exists objs; split; assumption].
      + intros e I. clear - FF I. induction FF as [|x y l l' M F IH]; [destruct I|]. destruct I as [<-|I]; [exists y; now apply filter_exact|auto].
    - exists rss. split; [|exact C4]. clear - FF. induction FF as [|x y l l' M F IH]; constructor; [now apply filter_exact|auto].
    - rewrite C1, E. symmetry. apply put_frame.
    - rewrite C2, E. symmetry. apply put_frame.
    - exists objs. split; [exact F|]. intros n o. rewrite C3. apply ifs_table.
    - rewrite C6. destruct (sections (u "system") root) as [|e sys _] using rev_ind; [left; auto|right]. exists sys, e. split; [reflexivity|]. rewrite fold_left_app. cbn [fold_left]. apply system_ok.
  Qed.
  (** C68: a document is read exactly if every part of it can be. *)
  Theorem C68_accepted root : (exists r, pf_parse root = Ok r) <-> exists s, document root s.
  Proof using.
    split.
    - intros ((cfg & s) & H). exists s. now apply C68_reads in H as (D & _).
    - intros (s & T & R & L & N & FF). pose proof N as ((al & A & _) & objs & O & _).
      set (s0 := fold_left put objs (fold_left learn_alias al ps_empty)).
      assert (N0 : names_of root s0).
      { destruct (built_names _ al objs O) as ((K1 & K2) & K3). split; [exists al; auto|exists objs; auto]. }
      pose proof (names_same _ _ _ N N0) as Sm.
      assert (exists rss, Forall2 (fun e r => pf_filter s0 (x_kids e) = Ok r) (sections (u "filter") root) rss) as (rss & F).
      { clear - FF Sm. induction (sections (u "filter") root) as [|e l IH]; [exists []; constructor|]. destruct (FF e (or_introl eq_refl)) as (rs & E). apply filter_exact in E. rewrite (filter_same _ _ _ Sm) in E.
        destruct IH as (rss & F); [intros x I; apply FF; now right|]. exists (rs :: rss). now constructor. }
      destruct (shape_parse root al objs s0 rss) as (cfg & s' & E); [|eauto]. split; [exact T|]. split; [exact R|]. split; [exact L|]. split; [exact A|]. split; [exact O|]. split; [reflexivity|exact F].
  Qed.
  (** C68: it stands for one list of rules only, whatever tables one reads off it. *)
  Theorem C68_rules root cfg s s' rs : pf_parse root = Ok (cfg, s) -> names_of root s' -> rules_of root s' rs -> rs = pcf_rules cfg.
  Proof using.
    intros H N (rss & F & ->). apply C68_reads in H as ((_ & _ & _ & N0 & _) & (rss0 & F0 & ->) & _). f_equal. pose proof (names_same _ _ _ N N0) as Sm.
    clear - F F0 Sm. revert rss0 F0. induction F as [|e r l rss E F IH]; intros rss0 F0; inversion F0 as [|? r0 ? ? E0 F0']; subst; auto. f_equal; [|auto].
    apply filter_exact in E, E0. rewrite (filter_same _ _ _ Sm), E0 in E. now injection E.
  Qed.
  (** C68: neither the order of sections of different kinds nor any other section matters,
      not even to the error. *)
  Theorem C68_order root root' : x_tag root = x_tag root' -> (forall tag, In tag (map u ["revision"; "aliases"; "interfaces"; "filter"; "system"]%string) -> sections tag root = sections tag root') ->
    pf_parse root = pf_parse root'.
  Proof using.
    intros T H. unfold PfFile.pf_parse. rewrite T, !tags_eq.
    change findall with sections. rewrite !H by (cbn; tauto). reflexivity.
  Qed.
  (** C68: another kind of document is refused with a ValueError. *)
  Theorem C68_other root : x_tag root <> u "pfsense" -> x_tag root <> u "opnsense" -> pf_parse root = Err ValueError.
  Proof using. intros A B. unfold PfFile.pf_parse. now rewrite !str_eqb_false. Qed.
  (** C68: one interface with a static address makes the whole document unreadable. *)
  Theorem C68_static root i : In i (contents (u "interfaces") root) -> static i -> exists e, pf_parse root = Err e.
  Proof using.
    intros I (a & C & N). destruct (pf_parse root) as [r|e] eqn:E; [|eauto]. exfalso. destruct (proj1 (C68_accepted root)) as (s & _ & _ & L & _); [eauto|].
    destruct (L i I) as ([F|D] & _); [eapply child_text_some; eauto|]. apply N. eapply child_text_fun; eauto.
  Qed.
  (** C68: the name of a pfSense configuration always ends in a dot. *)
  Theorem C68_name root cfg s : pf_parse root = Ok (cfg, s) -> pc_name cfg = pcf_hostname cfg ++ u ".".
  Proof using. intros H. apply C68_reads in H as (_ & _ & _ & _ & _ & _ & D). unfold pc_name. rewrite D. now rewrite app_nil_r. Qed.
End P.

(** ** Example *)
Definition sec (t : string) (l : list xml) : xml := Xml (u t) None l.
Definition C68_doc : xml :=
  sec "pfsense" [
    sec "filter" [
      sec "rule" [el "type" "pass"; el "interface" "opt1"; el "descr" "a"; sec "source" [el "address" "servers"]; sec "destination" [sec "any" []]];
      sec "rule" [el "type" "block"; el "interface" "wan"; el "descr" "b"; sec "source" [el "network" "DMZ"]; sec "destination" [el "address" "10.0.0.0/8"]]];
    sec "theme" [];
    sec "system" [el "hostname" "fw"; el "domain" "example.org"];
    sec "aliases" [sec "alias" [el "name" "servers"; el "type" "host"; el "address" "10.0.0.80 www"; el "descr" "x"]];
    sec "interfaces" [sec "wan" [el "if" "em0"; el "ipaddr" "dhcp"]; sec "opt1" [el "if" "em1"; el "descr" "DMZ"]]].
Definition C68_addr (s : pystr) : option addr := match AddrText.ip_address s with Ok a => Some a | Err _ => None end.
Definition C68_net (a m : pystr) : result net := AddrText.ip_network_text a m.
Definition C68_parse := pf_parse (fun x => x) (fun _ => None) C68_addr C68_net (fun _ => Err ValueError) (fun x => x) (fun _ => false) (fun _ => None) true.
Example C68_ex : match C68_parse C68_doc with
  | Ok (cfg, s) => pc_name cfg = u "fw.example.org." /\ map fst (pcf_ifaces cfg) = [u "wan"; u "DMZ"] /\ map p_id (pcf_rules cfg) = [Some (u "DMZ"); Some (u "wan")] /\
      map (fun r => pn_host (p_src r)) (pcf_rules cfg) = [HGrp 0; HLeaf (LIface (u "DMZ"))] /\
      aget opt_eqb (pcf_net cfg) (Some (u "servers")) = Some 0 /\ objs (ps_nh s) 0 = [HLeaf (LHost (mkaddr V4 167772240)); HLeaf LAny]
  | Err _ => False end.
Proof. vm_compute. repeat split. Qed.
(** The same sections in another order, and a static address. *)
Example C68_ex_order : C68_parse (sec "pfsense" (rev (x_kids C68_doc))) = C68_parse C68_doc.
Proof. vm_compute. reflexivity. Qed.
Example C68_ex_static : C68_parse (sec "pfsense" (x_kids C68_doc ++ [sec "interfaces" [sec "lan" [el "if" "em2"; el "ipaddr" "10.0.0.1"; el "subnet" "24"]]])) = Err IndexError.
Proof. vm_compute. reflexivity. Qed.
Print Assumptions C68_reads.
Print Assumptions C68_accepted.
Print Assumptions C68_rules.
Print Assumptions C68_order.
Print Assumptions C68_other.
Print Assumptions C68_static.
Print Assumptions C68_name.
