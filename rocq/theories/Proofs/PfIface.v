(** pfSense interfaces and separators. *)
From Coq Require Import Lia String.
From Verif.Model Require Import Base Ip Hosts Groups Iface Ports Pfsense.
From Verif.Spec Require Import PfSpec.
From Verif.Proofs Require Import GroupOps DictFacts PfFacts PfRule.
Local Open Scope list_scope.

Lemma starts_with_spec p s : starts_with p s = true <-> exists n, s = p ++ n.
Proof.
  revert s. induction p as [|a p IH]; intros s; cbn.
  - split; eauto.
  - destruct s as [|b s]; [split; [discriminate|intros (n & [=])]|].
    rewrite andb_true_iff, IH. split.
    + intros (E & n & ->). apply N.eqb_eq in E as ->. eauto.
    + intros (n & [= -> ->]). split; [apply N.eqb_refl|eauto].
Qed.

Lemma fold_r_err {A S} (f : S -> A -> result S) x l s e : f s x = Err e -> fold_r f (x :: l) s = Err e.
Proof. intros H. cbn. now rewrite H. Qed.

Section If.
  Context (unescape : pystr -> pystr).
  Notation pf_iface := (pf_iface unescape).
  Notation iface_means := (iface_means unescape).

  Lemma lookup_iface i k : str_eqb (u "name") k = false -> str_eqb (u "alias") k = false ->
    dget (dset (texts (x_kids i) [(u "alias", Some (x_tag i))]) (u "name") (Some (x_tag i))) k
    = option_map x_text (lastf k (x_kids i)).
  Proof.
    intros N A. rewrite dget_dset, N, texts_get. destruct (lastf k (x_kids i)); cbn [option_map dget]; auto. now rewrite A.
  Qed.

  Definition one (k : nat) (i : xml) : result interface :=
    do (alias, details, descr) <- pf_iface i; iface_init k alias details.

  Definition nameif_list (d : option pystr) : list ifdetail := match d with Some n => [DNameif n] | None => [] end.
  Lemma init_two k alias d t : iface_init k alias (nameif_list d ++ [DDescription t])
    = Ok (mkiface alias [] [] d (Some t) None []).
  Proof. destruct d; reflexivity. Qed.

  (** An element that has no static address. *)
  Lemma pf_iface_dynamic i d : loadable i -> child_text (u "if") (x_kids i) d ->
    exists alias descr, pf_iface i = Ok (alias, nameif_list d ++ [DDescription descr], descr) /\
      ((exists n, x_tag i = u "opt" ++ n) /\ descr = x_tag i /\
        (exists a, text_or (u "descr") (Some (x_tag i)) (x_kids i) (Some a) /\ alias = unescape a) \/
       ~ (exists n, x_tag i = u "opt" ++ n) /\ alias = x_tag i /\
        (exists a, text_or (u "descr") (Some []) (x_kids i) (Some a) /\ descr = unescape a)).
  Proof.
    intros (IP & _ & ND) If. unfold Pfsense.pf_iface.
    rewrite (lookup_iface i (u "ipaddr")), (lookup_iface i (u "descr")) by reflexivity. unfold need.
    rewrite (lookup_iface i (u "if")) by reflexivity. apply child_text_f in If. rewrite If.
    match goal with |- exists _ _, bind ?m _ = _ /\ _ => assert (AD : m = Ok (nameif_list d)) end.
    { destruct IP as [N|C].
      - apply lastf_none in N. rewrite N. reflexivity.
      - apply child_text_f in C. rewrite C. cbn [opt_eqb]. rewrite str_eqb_same. reflexivity. }
    rewrite AD. cbn [bind].
    assert (DE : (exists a, option_map x_text (lastf (u "descr") (x_kids i)) = Some (Some a) /\ child_text (u "descr") (x_kids i) (Some a))
                 \/ (option_map x_text (lastf (u "descr") (x_kids i)) = None /\ no_child (u "descr") (x_kids i))).
    { destruct (lastf (u "descr") (x_kids i)) as [c|] eqn:L; cbn [option_map].
      - left. destruct (x_text c) as [a|] eqn:X.
        + exists a. split; auto. apply child_text_f. rewrite L. cbn. now rewrite X.
        + destruct ND. apply child_text_f. rewrite L. cbn. now rewrite X.
      - right. split; auto. now apply lastf_none. }
    destruct (starts_with (u "opt") (x_tag i)) eqn:SW.
    - apply starts_with_spec in SW.
      destruct DE as [(a & -> & C)|[-> N]]; cbn [unescape_opt bind]; do 2 eexists; (split; [reflexivity|]);
        left; (split; [exact SW|]); (split; [reflexivity|]); eexists; (split; [|reflexivity]).
      + left. exact C.
      + right. auto.
    - assert (NS : ~ exists n, x_tag i = u "opt" ++ n) by (rewrite <- starts_with_spec; congruence).
      destruct DE as [(a & -> & C)|[-> N]]; cbn [unescape_opt bind]; do 2 eexists; (split; [reflexivity|]);
        right; (split; [exact NS|]); (split; [reflexivity|]); eexists; (split; [|reflexivity]).
      + left. exact C.
      + right. auto.
  Qed.

  Lemma dynamic_or_static i :
    (no_child (u "ipaddr") (x_kids i) \/ child_text (u "ipaddr") (x_kids i) (Some (u "dhcp"))) \/ static i.
  Proof using.
    destruct (lastf (u "ipaddr") (x_kids i)) as [c|] eqn:L.
    - destruct (opt_eqb_spec (x_text c) (Some (u "dhcp"))) as [E|E].
      + left. right. apply child_text_f. rewrite L. cbn. now rewrite E.
      + right. exists (x_text c). split; auto. apply child_text_f. now rewrite L.
    - left. left. now apply lastf_none.
  Qed.
  Lemma child_text_dec tag kids t : child_text tag kids t \/ ~ child_text tag kids t.
  Proof using.
    rewrite child_text_f. destruct (lastf tag kids) as [c|]; cbn [option_map]; [|right; discriminate].
    destruct (opt_eqb_spec (x_text c) t) as [->|N]; [auto|right; congruence].
  Qed.
  Lemma some_child tag kids : (exists d, child_text tag kids d) \/ no_child tag kids.
  Proof using.
    destruct (lastf tag kids) as [c|] eqn:L.
    - left. exists (x_text c). apply child_text_f. now rewrite L.
    - right. now apply lastf_none.
  Qed.

  Lemma alias_err i : child_text (u "descr") (x_kids i) None ->
    forall k, (do alias <- unescape_opt unescape (match option_map x_text (lastf (u "descr") (x_kids i)) with Some v => v | None => k end); Ok alias) = Err TypeError.
  Proof. intros C k. apply child_text_f in C. rewrite C. reflexivity. Qed.

  (** a static address *)
  Lemma pf_iface_static i k alias det descr : static i -> pf_iface i = Ok (alias, det, descr) ->
    iface_init k alias det = Err IndexError.
  Proof.
    intros (a & C & N) H. unfold Pfsense.pf_iface in H.
    rewrite (lookup_iface i (u "ipaddr")), (lookup_iface i (u "descr")) in H by reflexivity. unfold need in H.
    rewrite (lookup_iface i (u "subnet")) in H by reflexivity.
    apply child_text_f in C. rewrite C in H.
    destruct (opt_eqb_spec a (Some (u "dhcp"))); [congruence|].
    destruct (option_map x_text (lastf (u "subnet") (x_kids i))) as [m|]; [|discriminate].
    cbn [bind] in H.
    destruct (starts_with (u "opt") (x_tag i)).
    - destruct (unescape_opt _ _); [|discriminate]. cbn [bind] in H. injection H as <- <- <-. reflexivity.
    - destruct (unescape_opt _ _); [|discriminate]. cbn [bind] in H. injection H as <- <- <-. reflexivity.
  Qed.
  (** no device, or an empty description *)
  Lemma pf_iface_bad i r : pf_iface i = Ok r -> static i \/ loadable i.
  Proof.
    intros H. destruct (dynamic_or_static i) as [D|S]; [right|left; exact S].
    unfold Pfsense.pf_iface in H.
    rewrite (lookup_iface i (u "ipaddr")), (lookup_iface i (u "descr")) in H by reflexivity. unfold need in H.
    rewrite (lookup_iface i (u "if")) in H by reflexivity.
    split; [exact D|]. split.
    - destruct (some_child (u "if") (x_kids i)) as [E|N]; [exact E|]. exfalso.
      apply lastf_none in N. rewrite N in H. cbn [option_map] in H. destruct D as [D|D].
      + apply lastf_none in D. rewrite D in H. cbn [option_map bind] in H. discriminate.
      + apply child_text_f in D. rewrite D in H. cbn [opt_eqb] in H. rewrite str_eqb_same in H. discriminate.
    - intros C. apply child_text_f in C. rewrite C in H. cbn [unescape_opt bind] in H.
      destruct (option_map x_text (lastf (u "ipaddr") (x_kids i))) as [v|];
        [destruct (opt_eqb v (Some (u "dhcp")))|]; 
        repeat match type of H with context [match ?x with Some _ => _ | None => Err KeyError end] => destruct x end;
        cbn [bind] in H; try discriminate; destruct (starts_with (u "opt") (x_tag i)); discriminate.
  Qed.

  Lemma iface_one i k : loadable i -> exists alias det descr o,
    pf_iface i = Ok (alias, det, descr) /\ iface_init k alias det = Ok o /\
    iface_means i o /\ if_alias o = alias /\ if_descr o = Some descr.
  Proof.
    intros L. pose proof L as (_ & (d & If) & _).
    destruct (pf_iface_dynamic i d L If) as (alias & descr & E & M).
    exists alias, (nameif_list d ++ [DDescription descr]), descr, (mkiface alias [] [] d (Some descr) None []).
    split; [exact E|]. split; [apply init_two|]. split; [|split; reflexivity].
    unfold PfSpec.iface_means. cbn [if_nameif if_descr if_alias if_addrs if_groups if_switch if_routes].
    split; [exists d; auto|]. split; [|auto].
    destruct M as [(A & B & a & C & D)|(A & B & a & C & D)]; [left|right]; (split; [exact A|]);
      (split; [congruence|]); exists a; split; auto; congruence.
  Qed.

  (** the whole list *)
  Definition put (s : pstate) (o : interface) : pstate :=
    mkps (ps_net s) (ps_port s) (dset (ps_ifs s) (if_alias o) (if_alias o))
      (dset (ps_map s) (opt_str (if_descr o)) (if_alias o)) (ps_nh s) (ps_ph s).
  Lemma pf_interfaces_ok l : forall k s, (forall i, In i l -> loadable i) ->
    exists objs, pf_interfaces unescape k l s = Ok (objs, fold_left put objs s) /\ Forall2 iface_means l objs.
  Proof.
    induction l as [|i l IH]; intros k s H; [exists []; split; [reflexivity|constructor]|].
    destruct (iface_one i k (H i (or_introl eq_refl))) as (alias & det & descr & o & E1 & E2 & M & E3 & E4).
    destruct (IH (S k) (put s o)) as (objs & E & F); [intros j J; apply H; now right|].
    exists (o :: objs). split; [|now constructor].
    cbn [pf_interfaces]. rewrite E1. cbn [bind]. rewrite E2. cbn [bind].
    unfold put at 1 in E. rewrite E3, E4 in E. cbn [opt_str] in E. rewrite E. reflexivity.
  Qed.
  Lemma pf_interfaces_inv l : forall k s r, pf_interfaces unescape k l s = Ok r -> forall i, In i l -> loadable i.
  Proof.
    induction l as [|j l IH]; intros k s r H i I; [destruct I|].
    cbn [pf_interfaces] in H. destruct (pf_iface j) as [[[alias det] descr]|] eqn:E; [|discriminate]. cbn [bind] in H.
    destruct (iface_init k alias det) as [o|] eqn:Ei; [|discriminate]. cbn [bind] in H.
    destruct (pf_interfaces unescape (S k) l _) as [[objs s']|] eqn:E'; [|discriminate].
    destruct I as [<-|I]; [|eapply IH; eauto].
    destruct (pf_iface_bad _ _ E) as [S|L]; auto. rewrite (pf_iface_static _ k _ _ _ S E) in Ei. discriminate.
  Qed.
  (** loading stops at the first element that cannot be loaded *)
  Lemma pf_interfaces_app l1 : forall l2 k s, (forall i, In i l1 -> loadable i) -> 
    exists objs, Forall2 iface_means l1 objs /\
    pf_interfaces unescape k (l1 ++ l2) s =
      do (o2, s') <- pf_interfaces unescape (k + length l1) l2 (fold_left put objs s); Ok (objs ++ o2, s').
  Proof.
    induction l1 as [|i l IH]; intros l2 k s H.
    - exists []. split; [constructor|]. cbn [app length fold_left]. rewrite Nat.add_0_r.
      destruct (pf_interfaces unescape k l2 s) as [[o2 s']|]; reflexivity.
    - destruct (iface_one i k (H i (or_introl eq_refl))) as (alias & det & descr & o & E1 & E2 & M & E3 & E4).
      destruct (IH l2 (S k) (put s o)) as (objs & F & E); [intros j J; apply H; now right|].
      exists (o :: objs). split; [now constructor|].
      cbn [pf_interfaces app length fold_left]. rewrite E1. cbn [bind]. rewrite E2. cbn [bind].
      unfold put at 1 in E. rewrite E3, E4 in E. cbn [opt_str] in E. rewrite E, <- plus_n_Sm.
      change (S k + length l) with (S (k + length l)).
      destruct (pf_interfaces unescape (S (k + length l)) l2 (fold_left put objs (put s o))) as [[o2 s']|]; reflexivity.
  Qed.

  Lemma put_ifs objs : forall s n, dget (ps_ifs (fold_left put objs s)) n =
    if existsb (fun o => str_eqb (if_alias o) n) objs then Some n else dget (ps_ifs s) n.
  Proof using.
    induction objs as [|o objs IH] using rev_ind; intros s n; [reflexivity|].
    rewrite fold_left_app, existsb_app. cbn [fold_left existsb orb]. rewrite orb_false_r.
    cbn [put ps_ifs]. rewrite dget_dset, IH.
    destruct (str_eqb_spec (if_alias o) n) as [->|N]; [now rewrite orb_true_r|]. now rewrite orb_false_r.
  Qed.
  Lemma put_map objs : forall s n, (forall o, In o objs -> exists d, if_descr o = Some d) ->
    (exists o, last_described objs n o /\ dget (ps_map (fold_left put objs s)) n = Some (if_alias o)) \/
    ((forall o, In o objs -> if_descr o <> Some n) /\ dget (ps_map (fold_left put objs s)) n = dget (ps_map s) n).
  Proof using.
    induction objs as [|o objs IH] using rev_ind; intros s n D.
    - right. split; [intros o []|reflexivity].
    - rewrite fold_left_app. cbn [fold_left put ps_map]. rewrite dget_dset.
      destruct (D o (in_elt _ _ _)) as (d & Ed). rewrite Ed. cbn [opt_str].
      destruct (str_eqb_spec d n) as [->|N].
      + left. exists o. split; auto. exists objs, []. split; [reflexivity|]. split; [exact Ed|intros p []].
      + destruct (IH s n) as [(p & (b & a & -> & P1 & P2) & P3)|(P1 & P2)].
        * intros p I. apply D. apply in_app_iff. auto.
        * left. exists p. split; auto. exists b, (a ++ [o]). split; [now rewrite <- app_assoc|]. split; auto.
          intros q I. apply in_app_iff in I as [I|[<-|[]]]; auto. congruence.
        * right. split; auto. intros p I. apply in_app_iff in I as [I|[<-|[]]]; auto. congruence.
  Qed.
  Lemma put_frame objs : forall s, ps_net (fold_left put objs s) = ps_net s /\ ps_port (fold_left put objs s) = ps_port s /\
    ps_nh (fold_left put objs s) = ps_nh s /\ ps_ph (fold_left put objs s) = ps_ph s.
  Proof using. induction objs as [|o objs IH]; intros s; [repeat split|]. cbn [fold_left]. now destruct (IH (put s o)) as (-> & -> & -> & ->). Qed.
End If.

(** ** Separators *)
Lemma aget_aset {K V} (eqb : K -> K -> bool) (d : list (K * V)) k v k' :
  (forall a b, reflect (a = b) (eqb a b)) -> aget eqb (aset eqb d k v) k' = if eqb k k' then Some v else aget eqb d k'.
Proof.
  intros R. induction d as [|[k0 w] d IH]; cbn [aset aget]; [reflexivity|].
  destruct (R k0 k) as [->|N]; cbn [aget].
  - destruct (eqb k k'); reflexivity.
  - rewrite IH. destruct (R k0 k') as [->|N']; [|reflexivity]. destruct (R k k'); [congruence|reflexivity].
Qed.
Lemma zeqb_reflect a b : reflect (a = b) (Z.eqb a b).
Proof. destruct (Z.eqb_spec a b); constructor; auto. Qed.

Definition sget (d : seps) (id : option pystr) (row : Z) : option (list caption) :=
  match aget opt_eqb d id with Some rows => aget Z.eqb rows row | None => None end.
Definition scaps (d : seps) id row : list caption := match sget d id row with Some l => l | None => [] end.
Lemma sget_add d i r c id row : sget (sep_add d i r c) id row =
  if opt_eqb i id && Z.eqb r row then Some (scaps d i r ++ [c]) else sget d id row.
Proof.
  unfold sep_add, scaps, sget. rewrite aget_aset by apply opt_eqb_spec.
  destruct (opt_eqb_spec i id) as [->|N]; cbn [andb]; [|reflexivity].
  rewrite aget_aset by apply zeqb_reflect. destruct (Z.eqb_spec r row) as [->|N'].
  - destruct (aget opt_eqb d id); reflexivity.
  - destruct (aget opt_eqb d id); reflexivity.
Qed.

Section Sep.
  Context (unescape : pystr -> pystr) (py_int : pystr -> option Z) (s : pstate).
  Notation sep_means := (sep_means unescape py_int s).
  Notation pf_sep := (pf_sep unescape py_int s).

  Lemma pf_sep_ok d e d' : pf_sep d e = Ok d' <-> exists m, sep_means e m /\ d' = sep_add d (fst (fst m)) (snd (fst m)) (snd m).
  Proof.
    unfold Pfsense.pf_sep. cbv zeta. unfold need. rewrite !texts_get.
    assert (G : forall t, match lastf t (x_kids e) with Some c => Some (x_text c) | None => dget [] t end = option_map x_text (lastf t (x_kids e))).
    { intros t. now destruct (lastf t (x_kids e)). }
    rewrite !G. clear G. split.
    - destruct (py_int (skipn 3 (x_tag e))) as [n|] eqn:En; [|discriminate].
      destruct (option_map x_text (lastf (u "if") (x_kids e))) as [i|] eqn:Ei; [|discriminate]. cbn [bind].
      destruct (option_map x_text (lastf (u "row") (x_kids e))) as [[row|]|] eqn:Er; try discriminate. cbn [bind].
      destruct (py_int (skipn 2 row)) as [z|] eqn:Ez; [|discriminate].
      destruct (option_map x_text (lastf (u "color") (x_kids e))) as [color|] eqn:Ec; [|discriminate]. cbn [bind].
      destruct (option_map x_text (lastf (u "text") (x_kids e))) as [[text|]|] eqn:Et; try discriminate. cbn [bind unescape_opt].
      intros [= <-].
      exists (if opt_eqb i (Some (u "floatingrules")) then Some (u "floating") else map_iface s i, z, (color, unescape text)).
      split; [|reflexivity]. exists i, row, color, text. cbn [fst snd].
      split; [eauto|]. split; [now apply child_text_f|]. split; [now apply child_text_f|]. split; [auto|].
      split; [now apply child_text_f|]. split; [now apply child_text_f|]. split; [reflexivity|].
      destruct (opt_eqb_spec i (Some (u "floatingrules"))) as [->|N]; split; intros; try congruence.
      now rewrite map_iface_alias.
    - intros (((id & z) & cap) & (i & row & color & text & (n & En) & Ci & Cr & Ez & Cc & Ct & Ecap & F1 & F2) & ->).
      cbn [fst snd] in *. apply child_text_f in Ci, Cr, Cc, Ct. rewrite En, Ci, Cr, Cc, Ct. cbn [bind]. rewrite Ez.
      cbn [unescape_opt bind]. rewrite Ecap. do 2 f_equal.
      destruct (opt_eqb_spec i (Some (u "floatingrules"))) as [->|N].
      + now rewrite F1.
      + rewrite F2 by auto. now rewrite map_iface_alias.
  Qed.

  (** the dictionary holds exactly the captions of the marks read *)
  Definition holds (d : seps) (ms : list (option pystr * Z * caption)) : Prop :=
    forall id row, exists caps, captions id row ms caps /\ sget d id row = match caps with [] => None | _ => Some caps end.
  Lemma captions_snoc id row ms caps m : captions id row ms caps ->
    captions id row (ms ++ [m]) (if opt_eqb (fst (fst m)) id && Z.eqb (snd (fst m)) row then caps ++ [snd m] else caps).
  Proof using.
    destruct m as [[i r] c]. cbn [fst snd]. induction 1 as [|c' ms cs H IH|i' r' c' ms cs N H IH]; cbn [app].
    - destruct (opt_eqb_spec i id) as [->|N]; cbn [andb].
      + destruct (Z.eqb_spec r row) as [->|N']; cbn [app].
        * apply cap_here, cap_nil.
        * apply cap_other; [congruence|apply cap_nil].
      + apply cap_other; [congruence|apply cap_nil].
    - destruct (opt_eqb i id && Z.eqb r row); cbn [app]; now apply cap_here.
    - apply cap_other; [exact N|exact IH].
  Qed.
  Lemma captions_fun id row ms caps caps' : captions id row ms caps -> captions id row ms caps' -> caps = caps'.
  Proof using.
    intros H. revert caps'. induction H as [|c' ms cs H IH|i' r' c' ms cs N H IH]; intros caps' H'; inversion H'; subst; auto; try congruence.
    - f_equal. auto.
  Qed.
  Lemma holds_add d ms m : holds d ms -> holds (sep_add d (fst (fst m)) (snd (fst m)) (snd m)) (ms ++ [m]).
  Proof using.
    intros H id row. destruct (H id row) as (caps & C & E).
    exists (if opt_eqb (fst (fst m)) id && Z.eqb (snd (fst m)) row then caps ++ [snd m] else caps).
    split; [apply captions_snoc; exact C|]. rewrite sget_add.
    destruct (opt_eqb_spec (fst (fst m)) id) as [Ei|N]; cbn [andb]; [|exact E].
    destruct (Z.eqb_spec (snd (fst m)) row) as [Er|N]; [|exact E].
    unfold scaps. rewrite Ei, Er, E. destruct caps; reflexivity.
  Qed.

  Lemma fold_sep l : forall d ms d', holds d ms -> fold_r pf_sep l d = Ok d' ->
    exists ms', Forall2 sep_means l ms' /\ holds d' (ms ++ ms').
  Proof.
    induction l as [|e l IH]; intros d ms d' H E.
    - injection E as <-. exists []. rewrite app_nil_r. split; [constructor|auto].
    - cbn [fold_r] in E. destruct (pf_sep d e) as [d1|] eqn:E1; [|discriminate]. cbn [bind] in E.
      apply pf_sep_ok in E1 as (m & M & ->).
      destruct (IH _ (ms ++ [m]) _ (holds_add _ _ _ H) E) as (ms' & F & Hd).
      exists (m :: ms'). split; [constructor; auto|]. now rewrite <- app_assoc in Hd.
  Qed.
  Lemma fold_sep_total l : forall d ms, Forall2 sep_means l ms -> exists d', fold_r pf_sep l d = Ok d'.
  Proof.
    induction l as [|e l IH]; intros d ms F; [cbn; eauto|]. inversion F as [|? m ? ms' M F']; subst.
    cbn [fold_r]. assert (E : exists d1, pf_sep d e = Ok d1) by (eexists; apply pf_sep_ok; eauto).
    destruct E as (d1 & ->). cbn [bind]. eapply IH; eauto.
  Qed.
  Lemma fold_nested {A} (f : A -> xml -> result A) kids : forall d,
    fold_r (fun d n => fold_r f (x_kids n) d) kids d = fold_r f (flat_map x_kids kids) d.
  Proof using.
    induction kids as [|k kids IH]; intros d; cbn [fold_r flat_map]; [reflexivity|].
    rewrite fold_r_app. destruct (fold_r f (x_kids k) d); cbn [bind]; auto.
  Qed.
  Lemma sep_means_fun e m m' : sep_means e m -> sep_means e m' -> m = m'.
  Proof.
    intros (i & row & color & text & _ & Ci & Cr & Ez & Cc & Ct & Ecap & F1 & F2)
           (i' & row' & color' & text' & _ & Ci' & Cr' & Ez' & Cc' & Ct' & Ecap' & F1' & F2').
    pose proof (child_text_fun _ _ _ _ Ci Ci') as <-. pose proof (child_text_fun _ _ _ _ Cr Cr') as [= <-].
    pose proof (child_text_fun _ _ _ _ Cc Cc') as <-. pose proof (child_text_fun _ _ _ _ Ct Ct') as [= <-].
    destruct m as [[id z] c], m' as [[id' z'] c']. cbn [fst snd] in *.
    assert (id = id').
    { destruct (opt_eqb_spec i (Some (u "floatingrules"))) as [E|E]; [rewrite F1, F1'|rewrite F2, F2']; auto. }
    congruence.
  Qed.
End Sep.

(** ** The loop over the rules *)
Record run_inv (pre : list (option pystr)) (last : nat) (ifname : option pystr) : Prop := {
  ri_le : last <= length pre;
  ri_lt : pre <> [] -> last < length pre;
  ri_same : forall j, last <= j < length pre -> nth_error pre j = Some ifname;
  ri_diff : forall j, S j = last -> nth_error pre j <> Some ifname }.
Lemma run_same pre last i : run_inv pre last i -> run_inv (pre ++ [i]) last i.
Proof.
  intros [A B C D]. split; rewrite ?app_length; cbn [length].
  - lia.
  - lia.
  - intros j J. destruct (Nat.eq_dec j (length pre)) as [->|N].
    + rewrite nth_error_app2, Nat.sub_diag by lia. reflexivity.
    + rewrite nth_error_app1 by lia. apply C. lia.
  - intros j J. destruct pre as [|x pre]; [cbn in A; lia|].
    rewrite nth_error_app1; [auto|]. specialize (B ltac:(discriminate)). lia.
Qed.
Lemma run_new pre last i i' : run_inv pre last i -> i' <> i -> run_inv (pre ++ [i']) (length pre) i'.
Proof.
  intros [A B C D] N. split; rewrite ?app_length; cbn [length].
  - lia.
  - lia.
  - intros j J. assert (j = length pre) as -> by lia. rewrite nth_error_app2, Nat.sub_diag by lia. reflexivity.
  - intros j J. rewrite nth_error_app1 by lia. destruct pre as [|x pre]; [discriminate|].
    specialize (B ltac:(discriminate)). rewrite (C j) by lia. congruence.
Qed.
Lemma run_inv_index pre last i rest : run_inv (pre ++ [i]) last i ->
  run_index ((pre ++ [i]) ++ rest) (length pre) (length pre - last).
Proof.
  intros [A B C D]. rewrite app_length in *. cbn [length] in *.
  assert (L : last <= length pre). { specialize (B ltac:(intros E; apply app_eq_nil in E as [_ E]; discriminate)). lia. }
  assert (E : nth_error ((pre ++ [i]) ++ rest) (length pre) = Some i).
  { rewrite <- app_assoc. rewrite nth_error_app2, Nat.sub_diag by lia. reflexivity. }
  unfold run_index. rewrite E. split; [lia|]. split; [rewrite !app_length; cbn; lia|]. split.
  - intros j J. rewrite nth_error_app1 by (rewrite app_length; cbn; lia). apply C. lia.
  - intros j J. rewrite nth_error_app1 by (rewrite app_length; cbn; lia). apply D. lia.
Qed.

Lemma attach_ok d ms : holds d ms -> forall l pre last ifname, run_inv (map p_id pre) last ifname ->
  length (attach d (length pre) last ifname l) = length l /\
  forall n r, nth_error l n = Some r -> exists r' k caps,
    nth_error (attach d (length pre) last ifname l) n = Some r' /\ same_but_head r r' /\
    run_index (map p_id (pre ++ l)) (length pre + n) k /\ captions (p_id r) (Z.of_nat k) ms caps /\
    (caps = [] -> p_head r' = p_head r) /\ (caps <> [] -> p_head r' = Some caps).
Proof.
  intros H. induction l as [|x l IH]; intros pre last ifname I.
  - split; [reflexivity|]. intros [|n] r [=].
  - assert (ST : exists last', (if opt_eqb (p_id x) ifname then (last, ifname) else (length pre, p_id x)) = (last', p_id x)
                   /\ run_inv (map p_id pre ++ [p_id x]) last' (p_id x)).
    { destruct (opt_eqb_spec (p_id x) ifname) as [<-|N].
      - exists last. split; auto. now apply run_same.
      - exists (length pre). split; auto. rewrite <- (map_length p_id pre). now apply (run_new _ last ifname). }
    destruct ST as (last' & E & I'). cbn [attach]. rewrite E.
    assert (I2 : run_inv (map p_id (pre ++ [x])) last' (p_id x)) by (rewrite map_app; exact I').
    destruct (IH (pre ++ [x]) last' (p_id x) I2) as (L & R).
    rewrite app_length in L, R. cbn [length] in L, R. rewrite Nat.add_1_r in L, R.
    split; [cbn [length]; now rewrite L|].
    intros [|n] r; cbn [nth_error].
    + intros [= <-]. destruct (H (p_id x) (Z.of_nat (length pre - last'))) as (caps & C & G).
      eexists. exists (length pre - last'), caps. split; [reflexivity|].
      unfold sget in G. rewrite Nat.add_0_r.
      split; [|split; [|split; [exact C|]]].
      * destruct (aget opt_eqb d (p_id x)) as [rows|]; [destruct (aget Z.eqb rows _)|]; repeat split.
      * replace (map p_id (pre ++ x :: l)) with ((map p_id pre ++ [p_id x]) ++ map p_id l)
          by (rewrite map_app, <- app_assoc; reflexivity).
        rewrite <- (map_length p_id pre). now apply run_inv_index.
      * destruct (aget opt_eqb d (p_id x)) as [rows|]; [rewrite G|];
          destruct caps; split; intros; try congruence; try discriminate; reflexivity.
    + intros E'. destruct (R n r E') as (r' & k & caps & X1 & X2 & X3 & X4).
      exists r', k, caps. split; [exact X1|]. split; [exact X2|]. split; [|exact X4].
      rewrite <- app_assoc in X3. cbn [app] in X3. now rewrite <- plus_n_Sm.
Qed.
