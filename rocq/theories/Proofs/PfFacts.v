(** Facts about the pfSense conversion. *)
From Coq Require Import Lia String.
From Verif.Model Require Import Base Ip Hosts Groups Iface Ports Pfsense.
From Verif.Spec Require Import PfSpec.
From Verif.Proofs Require Import GroupOps DictFacts.
Local Open Scope list_scope.

(** ** Lists *)
Lemma last_unique {A} (P : A -> Prop) b1 c1 a1 b2 c2 a2 :
  b1 ++ c1 :: a1 = b2 ++ c2 :: a2 -> P c1 -> P c2 ->
  (forall d, In d a1 -> ~ P d) -> (forall d, In d a2 -> ~ P d) -> b1 = b2 /\ c1 = c2 /\ a1 = a2.
Proof.
  revert b2. induction b1 as [|x b1 IH]; intros [|y b2] E P1 P2 H1 H2; cbn in E.
  - injection E as -> ->. auto.
  - injection E as -> ->. destruct (H1 c2); auto. apply in_elt.
  - injection E as <- <-. destruct (H2 c1); auto. apply in_elt.
  - injection E as <- E. destruct (IH b2 E P1 P2 H1 H2) as (-> & -> & ->). auto.
Qed.
Lemma snoc_cases {A} (l : list A) : l = [] \/ exists l' x, l = l' ++ [x].
Proof. induction l as [|x l _] using rev_ind; eauto. Qed.

Lemma fold_r_snoc {A S} (f : S -> A -> result S) l x s :
  fold_r f (l ++ [x]) s = do s' <- fold_r f l s; f s' x.
Proof.
  revert s. induction l as [|y l IH]; intros s; cbn.
  - destruct (f s x); reflexivity.
  - destruct (f s y); cbn; auto.
Qed.
(** A loop whose iterations succeed or fail independently of the state. *)
Lemma fold_r_ok {A S} (f : S -> A -> result S) (ok : A -> Prop) l s :
  (forall s x, (exists s', f s x = Ok s') <-> ok x) ->
  (exists s', fold_r f l s = Ok s') <-> (forall x, In x l -> ok x).
Proof.
  intros H. revert s. induction l as [|x l IH]; intros s; cbn.
  - split; [intros _ x []|eauto].
  - split.
    + intros (s' & E). destruct (f s x) as [s1|] eqn:F; cbn in E; [|discriminate].
      assert (ok x) by (apply (H s x); eauto).
      assert (forall y, In y l -> ok y) by (apply (IH s1); eauto). intros y [<-|I]; auto.
    + intros G. destruct (proj2 (H s x)) as (s1 & ->); auto. cbn. apply IH. auto.
Qed.

(** ** Children by tag *)
Definition lastf (tag : pystr) (kids : list xml) : option xml :=
  fold_left (fun o c => if str_eqb (x_tag c) tag then Some c else o) kids None.
Lemma lastf_snoc tag kids c : lastf tag (kids ++ [c]) = if str_eqb (x_tag c) tag then Some c else lastf tag kids.
Proof. unfold lastf. rewrite fold_left_app. reflexivity. Qed.
Lemma lastf_some tag kids c : lastf tag kids = Some c <-> last_child tag kids c.
Proof.
  induction kids as [|x kids IH] using rev_ind.
  - split; [discriminate|]. intros (b & a & E & _). destruct b; discriminate.
  - rewrite lastf_snoc. destruct (str_eqb_spec (x_tag x) tag) as [E|N].
    + split.
      * intros [= ->]. exists kids, []. repeat split; auto.
      * intros (b & a & E1 & T & F). f_equal.
        change (kids ++ [x]) with (kids ++ x :: []) in E1.
        apply (last_unique (fun c => x_tag c = tag)) in E1; [tauto|auto|auto|intros d []|auto].
    + rewrite IH. split.
      * intros (b & a & -> & T & F). exists b, (a ++ [x]). rewrite <- app_assoc. repeat split; auto.
        intros d I. apply in_app_iff in I as [I|[<-|[]]]; auto.
      * intros (b & a & E & T & F). destruct (snoc_cases a) as [->|(a' & y & ->)].
        -- apply app_inj_tail in E as [-> ->]. congruence.
        -- rewrite app_comm_cons, app_assoc in E. apply app_inj_tail in E as [-> ->].
           exists b, a'. repeat split; auto. intros d I. apply F. apply in_app_iff. auto.
Qed.
Lemma lastf_none tag kids : lastf tag kids = None <-> no_child tag kids.
Proof.
  unfold no_child. induction kids as [|x kids IH] using rev_ind.
  - split; [intros _ d []|reflexivity].
  - rewrite lastf_snoc. destruct (str_eqb_spec (x_tag x) tag) as [E|N].
    + split; [discriminate|]. intros H. destruct (H x); auto. apply in_elt.
    + rewrite IH. split; intros H d I.
      * apply in_app_iff in I as [I|[<-|[]]]; auto.
      * apply H. apply in_app_iff. auto.
Qed.
Lemma child_text_f tag kids t : child_text tag kids t <-> option_map x_text (lastf tag kids) = Some t.
Proof.
  unfold child_text. split.
  - intros (c & L & <-). apply lastf_some in L. now rewrite L.
  - destruct (lastf tag kids) as [c|] eqn:E; [|discriminate]. cbn. intros [= <-].
    exists c. split; auto. now apply lastf_some.
Qed.

Lemma texts_get kids init k :
  dget (texts kids init) k = match lastf k kids with Some c => Some (x_text c) | None => dget init k end.
Proof.
  unfold texts. induction kids as [|c kids IH] using rev_ind; [reflexivity|].
  rewrite fold_left_app, lastf_snoc. cbn. rewrite dget_dset.
  destruct (str_eqb (x_tag c) k); auto.
Qed.

Lemma opt_eqb_spec a b : reflect (a = b) (opt_eqb a b).
Proof.
  destruct a as [a|], b as [b|]; cbn; try (constructor; congruence).
  destruct (str_eqb_spec a b); constructor; congruence.
Qed.

(** ** Splitting *)
Lemma has_char_spec c s : has_char c s = true <-> In c s.
Proof.
  unfold has_char. rewrite existsb_exists. split.
  - intros (x & I & E). apply N.eqb_eq in E. congruence.
  - intros I. exists c. split; auto. apply N.eqb_refl.
Qed.
Lemma has_char_false c s : has_char c s = false <-> ~ In c s.
Proof. rewrite <- has_char_spec. destruct (has_char c s); intuition congruence. Qed.

Lemma split_free c a : ~ In c a -> split_on c a = [a].
Proof.
  induction a as [|x a IH]; cbn; intros N; [reflexivity|].
  destruct (N.eqb_spec x c) as [->|]; [tauto|]. rewrite IH; tauto.
Qed.
Lemma split_app c a r : ~ In c a -> split_on c (a ++ c :: r) = a :: split_on c r.
Proof.
  induction a as [|x a IH]; cbn; intros N.
  - now rewrite N.eqb_refl.
  - destruct (N.eqb_spec x c) as [->|]; [tauto|]. rewrite IH; tauto.
Qed.
Lemma split_nonempty c s : split_on c s <> [].
Proof. destruct s as [|x s]; cbn; [discriminate|]. destruct (N.eqb x c); [discriminate|]. destruct (split_on c s); discriminate. Qed.
(** the first part, and the rest if there is one *)
Lemma split_inv c s w ws : split_on c s = w :: ws ->
  ~ In c w /\ ((ws = [] /\ s = w) \/ (exists r, s = w ++ c :: r /\ ws = split_on c r)).
Proof.
  revert w ws. induction s as [|x s IH]; cbn; intros w ws H.
  - injection H as <- <-. split; auto.
  - destruct (N.eqb_spec x c) as [->|N].
    + injection H as <- <-. split; [intros []|]. right. exists s. auto.
    + destruct (split_on c s) as [|w' ws'] eqn:E; [destruct (split_nonempty c s E)|].
      injection H as <- <-. destruct (IH w' ws' eq_refl) as (F & G). split.
      * intros [->|I]; [congruence|]. now apply F.
      * destruct G as [[-> ->]|(r & -> & ->)]; [auto|]. right. exists r. auto.
Qed.
Lemma split_two c s a b : split_on c s = [a; b] <-> parts2 c s a b.
Proof.
  unfold parts2. split.
  - intros H. apply split_inv in H as (F & [[[=] _]|(r & -> & E)]).
    symmetry in E. apply split_inv in E as (F' & [[_ ->]|(r' & _ & E')]); auto.
    destruct (split_nonempty c r'); congruence.
  - intros (-> & F & G). rewrite split_app, split_free; auto.
Qed.
Lemma split_commas s l : split_on 44 s = l <-> comma_list s l.
Proof.
  split.
  - revert s. induction l as [|w ws IH]; intros s H; [now apply split_nonempty in H|].
    apply split_inv in H as (F & [[-> ->]|(r & -> & ->)]).
    + now constructor.
    + constructor; auto.
  - induction 1 as [a F|a r l F H IH]; [now apply split_free|]. rewrite split_app; auto. now rewrite IH.
Qed.

Section Facts.
  Context (py_int : pystr -> option Z)
          (ip_addr : pystr -> option addr) (ip_net : pystr -> pystr -> result net).
  Context (s : pstate).
  Notation address_means := (address_means ip_addr ip_net s).
  Notation port_means := (port_means py_int s).
  Notation address_child := (address_child ip_addr ip_net s).
  Notation port_child := (port_child py_int s).
  Notation side_means := (side_means py_int ip_addr ip_net s).
  Notation rule_node := (rule_node py_int ip_addr ip_net s).
  Notation rule_side := (rule_side py_int ip_addr ip_net s).

  Lemma rule_address_ok t h : rule_address ip_addr ip_net s t = Ok h <-> address_means t h.
  Proof.
    unfold rule_address. destruct (aget opt_eqb (ps_net s) t) as [g|] eqn:G.
    - split; [intros [= <-]; now constructor|]. intros H; inversion H; subst; congruence.
    - destruct t as [a|].
      + destruct (has_char c_divide a) eqn:D.
        * apply has_char_spec in D. unfold mk_net. split.
          -- destruct (split_on c_divide a) as [|x [|m [|z [|]]]] eqn:E; try discriminate.
             ++ apply split_two in E. unfold bind. destruct (ip_net x m) as [n|] eqn:En; [|discriminate].
                intros [= <-]. eapply am_net; eauto.
             ++ unfold bind. destruct (ip_net x m); discriminate.
          -- intros H. inversion H as [g G'|a' x m n G' Ea P En|a' v G' Ea F Ev]; subst; try congruence.
             ++ injection Ea as <-. apply split_two in P. change c_divide with 47%N. rewrite P. unfold bind. now rewrite En.
             ++ injection Ea as <-. tauto.
        * apply has_char_false in D. unfold mk_host. split.
          -- destruct (ip_addr a) as [v|] eqn:Ev; [|discriminate]. intros [= <-]. eapply am_host; eauto.
          -- intros H. inversion H as [g G'|a' x m n G' Ea P En|a' v G' Ea F Ev]; subst; try congruence.
             ++ injection Ea as <-. destruct P as (-> & _). destruct D. apply in_elt.
             ++ injection Ea as <-. now rewrite Ev.
      + split; [discriminate|]. intros H; inversion H; congruence.
  Qed.
  Lemma rule_port_ok t p : rule_port py_int s t = Ok p <-> port_means t p.
  Proof.
    unfold rule_port. destruct (aget opt_eqb (ps_port s) t) as [g|] eqn:G.
    - split; [intros [= <-]; now constructor|]. intros H; inversion H; subst; congruence.
    - destruct t as [a|].
      + destruct (has_char c_dash a) eqn:D.
        * apply has_char_spec in D. split.
          -- destruct (split_on c_dash a) as [|x [|m [|z l]]] eqn:E; try discriminate.
             apply split_two in E. intros H. eapply pm_range; eauto.
          -- intros H. inversion H as [g G'|p' x m r G' Ea P En|p' G' Ea F]; subst; try congruence.
             ++ injection Ea as <-. apply split_two in P. change c_dash with 45%N. now rewrite P.
             ++ injection Ea as <-. tauto.
        * apply has_char_false in D. split.
          -- intros [= <-]. now apply pm_single.
          -- intros H. inversion H as [g G'|p' x m r G' Ea P En|p' G' Ea F]; subst; try congruence.
             injection Ea as <-. destruct P as (-> & _). destruct D. apply in_elt.
      + split; [discriminate|]. intros H; inversion H; congruence.
  Qed.

  Lemma address_means_fun t h h' : address_means t h -> address_means t h' -> h = h'.
  Proof. intros A B. apply rule_address_ok in A, B. congruence. Qed.
  Lemma port_means_fun t p p' : port_means t p -> port_means t p' -> p = p'.
  Proof. intros A B. apply rule_port_ok in A, B. congruence. Qed.
  Lemma address_child_fun c h h' : address_child c h -> address_child c h' -> h = h'.
  Proof.
    intros A B. inversion A as [T1|h1 T1 M1|n1 a1 T1 X1 D1]; inversion B as [T2|h2 T2 M2|n2 a2 T2 X2 D2]; subst;
      try reflexivity; try (rewrite T1 in T2; discriminate T2).
    - eapply address_means_fun; eauto.
    - congruence.
  Qed.
  Lemma port_child_fun c p p' : port_child c p -> port_child c p' -> p = p'.
  Proof. intros [p1 T1 M1] [p2 T2 M2]. eapply port_means_fun; eauto. Qed.
  Lemma address_child_tag c h : address_child c h -> x_tag c <> u "port".
  Proof. intros [T|h' T M|n a T X D]; rewrite T; discriminate. Qed.
  Lemma port_child_tag c p : port_child c p -> x_tag c = u "port".
  Proof. now intros [p' T M]. Qed.

  (** One child of source or destination. *)
  Lemma rule_node_ok st c st' : rule_node st c = Ok st' <->
    (exists h, address_child c h /\ st' = (Some h, snd st)) \/ (exists p, port_child c p /\ st' = (fst st, Some p)).
  Proof.
    unfold Pfsense.rule_node.
    destruct (str_eqb_spec (x_tag c) (u "any")) as [T|N1].
    { split.
      - intros [= <-]. left. eexists. split; [now apply ac_any|auto].
      - intros [(h & A & ->)|(p & A & ->)].
        + inversion A as [T'|h' T' M|n a T' X D]; subst; auto; rewrite T in T'; discriminate.
        + apply port_child_tag in A. rewrite T in A. discriminate. }
    destruct (str_eqb_spec (x_tag c) (u "address")) as [T|N2].
    { unfold bind. split.
      - destruct (rule_address ip_addr ip_net s (x_text c)) as [a|] eqn:E; [|discriminate].
        intros [= <-]. left. exists a. split; auto. apply ac_address; auto. now apply rule_address_ok.
      - intros [(h & A & ->)|(p & A & ->)].
        + inversion A as [T'|h' T' M|n a T' X D]; subst; try (rewrite T in T'; discriminate).
          apply rule_address_ok in M. now rewrite M.
        + apply port_child_tag in A. rewrite T in A. discriminate. }
    destruct (str_eqb_spec (x_tag c) (u "port")) as [T|N3].
    { unfold bind. split.
      - destruct (rule_port py_int s (x_text c)) as [a|] eqn:E; [|discriminate].
        intros [= <-]. right. exists a. split; auto. constructor; auto. now apply rule_port_ok.
      - intros [(h & A & ->)|(p & A & ->)].
        + apply address_child_tag in A. congruence.
        + destruct A as [p' T' M]. apply rule_port_ok in M. now rewrite M. }
    destruct (str_eqb_spec (x_tag c) (u "network")) as [T|N4].
    { unfold bind, rule_network. split.
      - destruct (x_text c) as [n|] eqn:X; [|discriminate]. destruct (dget (ps_ifs s) n) as [a|] eqn:D; [|discriminate].
        intros [= <-]. left. eexists. split; [|reflexivity]. eapply ac_network; eauto.
      - intros [(h & A & ->)|(p & A & ->)].
        + inversion A as [T'|h' T' M|n a T' X D]; subst; try (rewrite T in T'; discriminate).
          now rewrite X, D.
        + apply port_child_tag in A. rewrite T in A. discriminate. }
    split; [discriminate|]. intros [(h & A & _)|(p & A & _)].
    - inversion A; congruence.
    - apply port_child_tag in A. congruence.
  Qed.

  Definition good (c : xml) : Prop := (exists h, address_child c h) \/ (exists p, port_child c p).

  Lemma side_fold kids a p : fold_r rule_node kids (None, None) = Ok (a, p) ->
    (forall c, In c kids -> good c) /\
    (match a with
     | Some h => exists before c after, kids = before ++ c :: after /\ address_child c h /\ forall d, In d after -> x_tag d = u "port"
     | None => forall d, In d kids -> x_tag d = u "port" end) /\
    (match p with
     | Some q => exists before c after, kids = before ++ c :: after /\ port_child c q /\ forall d, In d after -> x_tag d <> u "port"
     | None => no_child (u "port") kids end).
  Proof.
    revert a p. induction kids as [|c kids IH] using rev_ind; intros a p H.
    - injection H as <- <-. repeat split; try (intros d []).
    - rewrite fold_r_snoc in H. destruct (fold_r rule_node kids (None, None)) as [[a0 p0]|] eqn:F; cbn [bind] in H; [|discriminate].
      destruct (IH a0 p0 eq_refl) as (G & A & P). apply rule_node_ok in H as [(h & C & [= -> ->])|(q & C & [= -> ->])].
      + split; [|split].
        * intros d I. apply in_app_iff in I as [I|[<-|[]]]; auto. left. eauto.
        * exists kids, c, []. split; [reflexivity|]. split; [exact C|]. intros d [].
        * apply address_child_tag in C as T. destruct p0 as [q|].
          -- destruct P as (b & c' & aft & -> & P1 & P2). exists b, c', (aft ++ [c]).
             rewrite <- app_assoc. split; [reflexivity|split; [exact P1|]]. intros d I. apply in_app_iff in I as [I|[<-|[]]]; auto.
          -- intros d I. apply in_app_iff in I as [I|[<-|[]]]; auto.
      + split; [|split].
        * intros d I. apply in_app_iff in I as [I|[<-|[]]]; auto. right. eauto.
        * apply port_child_tag in C as T. destruct a0 as [h|].
          -- destruct A as (b & c' & aft & -> & P1 & P2). exists b, c', (aft ++ [c]).
             rewrite <- app_assoc. repeat split; auto. intros d I. apply in_app_iff in I as [I|[<-|[]]]; auto.
          -- intros d I. apply in_app_iff in I as [I|[<-|[]]]; auto.
        * exists kids, c, []. split; [reflexivity|]. split; [exact C|]. intros d [].
  Qed.

  Lemma side_means_fun kids n n' : side_means kids n -> side_means kids n' -> n = n'.
  Proof.
    intros (_ & (b & c & a & E & A & F) & P) (_ & (b' & c' & a' & E' & A' & F') & P').
    assert (X : c = c').
    { rewrite E in E'. apply (last_unique (fun d => x_tag d <> u "port")) in E'; [tauto| | | |].
      - eapply address_child_tag; eauto.
      - eapply address_child_tag; eauto.
      - intros d I N. apply N. auto.
      - intros d I N. apply N. auto. }
    subst c'. pose proof (address_child_fun _ _ _ A A') as Hh.
    assert (Hp : pn_port n = pn_port n').
    { destruct P as [(b1 & c1 & a1 & p1 & E1 & C1 & -> & F1)|[N ->]], P' as [(b2 & c2 & a2 & p2 & E2 & C2 & -> & F2)|[N' ->]]; auto.
      - rewrite E1 in E2. apply (last_unique (fun d => x_tag d = u "port")) in E2.
        + destruct E2 as (_ & -> & _). f_equal. eapply port_child_fun; eauto.
        + eapply port_child_tag; eauto.
        + eapply port_child_tag; eauto.
        + auto.
        + auto.
      - exfalso. apply (N' c1); [rewrite E1; apply in_elt|]. eapply port_child_tag; eauto.
      - exfalso. apply (N c2); [rewrite E2; apply in_elt|]. eapply port_child_tag; eauto. }
    destruct n, n'; cbn in *; congruence.
  Qed.

  Lemma rule_side_ok kids n : rule_side kids = Ok n <-> side_means kids n.
  Proof.
    assert (Fw : forall n, rule_side kids = Ok n -> side_means kids n).
    { intros m H. unfold Pfsense.rule_side in H.
      destruct (fold_r rule_node kids (None, None)) as [[a p]|] eqn:F; cbn [bind] in H; [|discriminate].
      destruct a as [h|]; [|discriminate]. injection H as <-.
      apply side_fold in F as (G & A & P). split; [exact G|]. split; [exact A|]. cbn.
      destruct p as [q|]; [left|right; auto].
      destruct P as (b & c & aft & E & P1 & P2). exists b, c, aft, q. auto. }
    split; [apply Fw|]. intros M.
    assert (exists st, fold_r rule_node kids (None, None) = Ok st) as ([a p] & F).
    { apply (fold_r_ok rule_node good); [|apply M].
      intros st c. unfold good. split.
      - intros (st' & H). apply rule_node_ok in H as [(h & A & _)|(q & A & _)]; eauto.
      - intros [(h & A)|(q & A)]; eexists; apply rule_node_ok; [left|right]; eauto. }
    destruct a as [h|].
    - assert (R : rule_side kids = Ok (mkpnode h p)) by (unfold Pfsense.rule_side; rewrite F; reflexivity).
      rewrite R. f_equal. eapply side_means_fun; eauto.
    - exfalso. apply side_fold in F as (_ & A & _). destruct M as (_ & (b & c & aft & E & C & _) & _).
      apply (address_child_tag _ _ C). apply A. rewrite E. apply in_elt.
  Qed.
End Facts.
