(** C76: what a filter prints while it runs. *)
From Coq Require Import NArith List Lia Bool Arith String.
From Verif.Model Require Import Base Ip Hosts Groups Ports AddrStr Rules Caf CafPrint.
From Verif.Spec Require Import AddrSpec FilterSpec AddrTextSpec CafMeanSpec AddrStrSpec CafPrintSpec.
From Verif.Proofs Require Import FilterFacts CafFacts AddrStrFacts.
From Verif.Props Require Import Filter AddrStr.
Import ListNotations.
Local Open Scope list_scope.

Lemma canonical_addr a : valid a -> canonical_text a (addr_str a).
Proof.
  intros V. destruct a as [[|] n]; unfold canonical_text; cbn [a_ver a_val].
  - now apply C75_ipv4_form.
  - destruct (C75_ipv6_form n V) as (vs & L & F & E & C). exists vs. auto.
Qed.
Lemma network_str n : net_wf n -> network_text n (net_str n).
Proof.
  intros W. exists (addr_str (mkaddr (n_ver n) (n_addr n))), (dec_str (n_plen n)).
  split; [apply canonical_addr; unfold valid; cbn; apply W|]. split; [apply dec_str_spec|reflexivity].
Qed.
Lemma leaf_repr_text l : leaf_wf l -> leaf_text l (leaf_repr l).
Proof.
  destruct l; cbn [leaf_wf leaf_repr]; intros W; try constructor.
  - now apply canonical_addr.
  - now apply network_str.
  - apply canonical_addr. tauto.
  - apply canonical_addr. tauto.
Qed.
Lemma listed_join sep l : listed sep l (str_join sep l).
Proof.
  induction l as [|x [|y l] IH]; [constructor..|]. change (str_join sep (x :: y :: l)) with (x ++ sep ++ str_join sep (y :: l)).
  constructor; [discriminate|auto].
Qed.
Lemma map_r_each {A B} (f : A -> result B) (P : A -> B -> Prop) l :
  (forall x, In x l -> exists y, f x = Ok y /\ P x y) -> exists ys, map_r f l = Ok ys /\ Forall2 P l ys.
Proof.
  induction l as [|x l IH]; intros H; [exists []; auto|]. destruct (H x) as (y & E & Py); [now left|].
  destruct IH as (ys & E2 & F); [intros z I; apply H; now right|]. exists (y :: ys). cbn [map_r]. rewrite E. cbn [bind]. rewrite E2. auto.
Qed.

Lemma host_repr_text h rk k : ranked h rk -> forall x, term_wf h x -> (forall g, x = HGrp g -> rk g < k) ->
  exists t, host_repr k h x = Ok t /\ term_text h x t.
Proof.
  intros R. induction k as [|k IH]; intros x W D.
  - destruct x as [l|o|g]; cbn [host_repr]; [| |specialize (D g eq_refl); lia].
    + eexists. split; [reflexivity|]. constructor. apply leaf_repr_text. apply W. constructor.
    + eexists. split; [reflexivity|]. constructor. destruct (o_type o); constructor.
  - destruct x as [l|o|g]; cbn [host_repr].
    + eexists. split; [reflexivity|]. constructor. apply leaf_repr_text. apply W. constructor.
    + eexists. split; [reflexivity|]. constructor. destruct (o_type o); constructor.
    + destruct (map_r_each (host_repr k h) (term_text h) (objs h g)) as (ts & E & F).
      { intros m I. apply IH; [intros l L; apply W; econstructor; eauto|]. intros g' ->. specialize (D g eq_refl). apply R in I. lia. }
      rewrite E. cbn [bind]. eexists. split; [reflexivity|]. econstructor; [exact F|]. apply listed_join.
Qed.

Definition wf_clause (h : heap) (r : rule) : Prop := term_wf h (r_src r) /\ term_wf h (r_dst r).
Lemma rule_repr_text h rk k r : ranked h rk -> wf_clause h r ->
  (forall g, r_src r = HGrp g \/ r_dst r = HGrp g -> rk g < k) -> exists t, rule_repr k h r = Ok t /\ clause_text h r t.
Proof.
  intros R (Ws & Wd) D. destruct (host_repr_text h rk k R (r_src r)) as (s & Es & Ts); [auto|intros g E; apply D; auto|].
  destruct (host_repr_text h rk k R (r_dst r)) as (d & Ed & Td); [auto|intros g E; apply D; auto|].
  unfold rule_repr, node_repr. rewrite Es. cbn [bind]. rewrite Ed. cbn [bind]. eexists. split; [reflexivity|].
  assert (N : or_none (r_id r) (opt_str (r_id r))) by (destruct (r_id r); constructor). pose proof (CT_rule h r _ _ _ N Ts Td) as C.
  match type of C with clause_text _ _ ?a => match goal with |- clause_text _ _ ?b => replace b with a; [exact C|] end end.
  rewrite <- !app_assoc. reflexivity.
Qed.
Lemma caf_repr_text h rk k c : ranked h rk -> (forall r, In r (clauses c) -> wf_clause h r) ->
  (forall r g, In r (clauses c) -> r_src r = HGrp g \/ r_dst r = HGrp g -> rk g < k) -> exists t, caf_repr k h c = Ok t /\ filter_text h c t.
Proof.
  intros R. induction c as [r|b IH|o a IHa b IHb]; cbn [clauses caf_repr]; intros W D.
  - destruct (rule_repr_text h rk k r R) as (t & E & T); [apply W; now left|intros g; apply D; now left|]. rewrite E. cbn [bind]. eexists. split; [reflexivity|]. now constructor.
  - destruct IH as (t & E & T); auto. rewrite E. cbn [bind]. eexists. split; [reflexivity|]. now constructor.
  - destruct IHa as (s & Es & Ts); [intros r I; apply W, in_or_app; auto|intros r g I; apply D, in_or_app; auto|].
    destruct IHb as (t & Et & Tt); [intros r I; apply W, in_or_app; auto|intros r g I; apply D, in_or_app; auto|].
    rewrite Es. cbn [bind]. rewrite Et. cbn [bind]. eexists. split; [reflexivity|]. replace (op_name o) with (operator_name o) by (now destruct o). now constructor.
Qed.

(** Running with output selects what running without selects, or stops while printing
    because terms are nested beyond the recursion limit. *)
Theorem C76_same_result : forall k h get c rules,
  (forall s, snd (caf_run_v k h get c rules) = Ok s -> caf_run k h get c rules = Ok s) /\
  (forall s, caf_run k h get c rules = Ok s ->
     snd (caf_run_v k h get c rules) = Ok s \/ snd (caf_run_v k h get c rules) = Err RecursionError).
Proof.
  intros k h get c rules.
  assert (HR : forall j x e, host_repr j h x = Err e -> e = RecursionError).
  { induction j as [|j IH]; intros [l|o|g] e E; cbn [host_repr] in E; try discriminate; [congruence|].
    destruct (map_r (host_repr j h) (objs h g)) as [ts|e'] eqn:M; [discriminate|]. injection E as <-.
    revert M. generalize (objs h g). induction l as [|x l IHl]; cbn [map_r]; [discriminate|].
    destruct (host_repr j h x) eqn:X; cbn [bind]; [|intros [= <-]; eauto]. destruct (map_r (host_repr j h) l); cbn [bind]; [discriminate|auto]. }
  assert (RR : forall r e, rule_repr k h r = Err e -> e = RecursionError).
  { intros r e. unfold rule_repr, node_repr. destruct (host_repr k h (r_src r)) eqn:A; cbn [bind]; [|intros [= <-]; eauto].
    destruct (host_repr k h (r_dst r)) eqn:B; cbn [bind]; [discriminate|intros [= <-]; eauto]. }
  assert (CR : forall b e, caf_repr k h b = Err e -> e = RecursionError).
  { induction b as [r|b IH|o a IHa b IHb]; cbn [caf_repr]; intros e.
    - destruct (rule_repr k h r) eqn:E; cbn [bind]; [discriminate|intros [= <-]; eauto].
    - destruct (caf_repr k h b) eqn:E; cbn [bind]; [discriminate|intros [= <-]; eauto].
    - destruct (caf_repr k h a) eqn:E; cbn [bind]; [|intros [= <-]; eauto]. destruct (caf_repr k h b) eqn:E2; cbn [bind]; [discriminate|intros [= <-]; eauto]. }
  induction c as [r|b IH|o a [IHa IHa'] b [IHb IHb']]; cbn [caf_run_v caf_run]; [|exact IH|].
  - destruct (rules_filter k h get rules [r]) as [x|e]; [|split; intros s; discriminate].
    destruct (rule_repr k h r) as [t|e] eqn:E; cbn [snd]; split; intros s; try discriminate; auto.
    right. now rewrite (RR _ _ E).
  - destruct (caf_run_v k h get a rules) as [p x]. cbn [snd] in IHa, IHa'. destruct x as [x|e].
    2:{ split; [discriminate|]. cbn [snd]. intros s H. destruct (caf_run k h get a rules) as [y|]; [|discriminate]. destruct (IHa' y eq_refl) as [|Q]; [discriminate|right; exact Q]. }
    rewrite (IHa x eq_refl). cbn [bind]. destruct (caf_run_v k h get b rules) as [q y]. cbn [snd] in IHb, IHb'. destruct y as [y|e].
    2:{ split; [discriminate|]. cbn [snd]. intros s H. destruct (caf_run k h get b rules) as [z|]; [|discriminate]. destruct (IHb' z eq_refl) as [|Q]; [discriminate|right; exact Q]. }
    rewrite (IHb y eq_refl). cbn [bind].
    destruct (caf_repr k h a) as [s|e] eqn:Ea; cbn [bind]; [destruct (caf_repr k h b) as [t|e] eqn:Eb; cbn [bind]|]; cbn [snd].
    + split; intros z H; auto.
    + split; [discriminate|]. intros z _. right. now rewrite (CR _ _ Eb).
    + split; [discriminate|]. intros z _. right. now rewrite (CR _ _ Ea).
Qed.

(** What is printed: for each part of the filter, its text and the number of entries it
    selects; no printing fails, given enough recursion. *)
Theorem C76_report : forall h get c rules, acyclic h ->
  (forall r, In r (clauses c) -> term_wf h (r_src r) /\ term_wf h (r_dst r)) ->
  (forall r x, In r (clauses c) -> In x rules -> comparable_item h r (get x)) ->
  exists limit, forall k, limit <= k ->
    exists p s, caf_run_v k h get c rules = (p, Ok s) /\ NoDup s /\
      (forall x, In x s <-> In x rules /\ denotes (fun r x => selects h r (get x)) c x) /\
      report h (fun r x => selects h r (get x)) rules c p.
Proof.
  intros h get c rules (rk & R) W C. set (sel := fun r x => selects h r (get x)).
  destruct (depth_bound rk (clauses c) (map get rules)) as (l1 & D).
  set (gr := fun x => match x with HGrp g => rk g | _ => 0 end).
  exists (l1 + S (fold_right (fun r a => gr (r_src r) + gr (r_dst r) + a) 0 (clauses c))). intros k K.
  assert (G : forall r g, In r (clauses c) -> r_src r = HGrp g \/ r_dst r = HGrp g -> rk g < k).
  { intros r g I E. assert (gr (r_src r) + gr (r_dst r) < k).
    { eapply Nat.le_lt_trans; [|apply (Nat.lt_le_trans _ (S (fold_right (fun r a => gr (r_src r) + gr (r_dst r) + a) 0 (clauses c)))); [apply Nat.lt_succ_diag_r|lia]].
      clear - I. induction (clauses c) as [|r' l IH]; [destruct I|]. cbn. destruct I as [->|I]; [lia|]. apply IH in I. lia. }
    unfold gr in *. destruct E as [E|E]; rewrite E in *; lia. }
  assert (X : forall c', incl (clauses c') (clauses c) ->
    exists s, caf_run k h get c' rules = Ok s /\ NoDup s /\ forall x, In x s <-> In x rules /\ denotes sel c' x).
  { intros c' I. apply (run_exact k h get sel). intros r x Hr Hx. apply (item_exact h rk R); [apply C; auto|]. apply (D k); [lia|auto|now apply in_map]. }
  assert (Main : forall c', incl (clauses c') (clauses c) -> exists p s, caf_run_v k h get c' rules = (p, Ok s) /\ caf_run k h get c' rules = Ok s /\ report h sel rules c' p).
  { induction c' as [r|b IH|o a IHa b IHb]; intros I.
    - destruct (X (CClause r) I) as (s & E & Nd & M). pose proof E as E0. cbn [caf_run_v]. cbn [caf_run] in E. rewrite E.
      destruct (rule_repr_text h rk k r R) as (t & Et & T); [apply W, I; now left|intros g; apply G, I; now left|]. rewrite Et.
      eexists _, s. split; [reflexivity|]. split; [exact E0|]. apply (RP_clause h sel rules r t (length s)); [exact T|exists s; auto|apply dec_str_spec].
    - destruct (IH I) as (p & s & E & E' & Rp). exists p, s. split; [exact E|]. split; [exact E'|]. now constructor.
    - cbn [clauses] in I. destruct IHa as (p & x & E & Ex & Rp); [intros r Ir; apply I, in_or_app; auto|].
      destruct IHb as (q & y & E' & Ey & Rq); [intros r Ir; apply I, in_or_app; auto|].
      destruct (X (COp o a b) I) as (s & Es & Nd & M). pose proof Es as Es'. cbn [caf_run] in Es'. rewrite Ex in Es'. cbn [bind] in Es'. rewrite Ey in Es'. injection Es' as Es'.
      destruct (caf_repr_text h rk k a R) as (ta & Ea & Ta); [intros r Ir; apply W, I, in_or_app; auto|intros r g Ir; apply G, I, in_or_app; auto|].
      destruct (caf_repr_text h rk k b R) as (tb & Eb & Tb); [intros r Ir; apply W, I, in_or_app; auto|intros r g Ir; apply G, I, in_or_app; auto|].
      cbn [caf_run_v]. rewrite E, E', Ea. cbn [bind]. rewrite Eb. cbn [bind]. rewrite Es'. eexists _, s. split; [reflexivity|]. split; [exact Es|].
      unfold op_lines. replace (op_name o) with (operator_name o) by (now destruct o).
      assert (Q := RP_op h sel rules o a b p q ta tb (length s) (dec_str (N.of_nat (length s))) Rp Rq Ta Tb (ex_intro _ s (conj Nd (conj eq_refl M))) (dec_str_spec _)).
      exact Q. }
  destruct (Main c (incl_refl _)) as (p & s & E & E' & Rp). destruct (X c (incl_refl _)) as (s' & Es & Nd & M). rewrite E' in Es. injection Es as <-.
  exists p, s. auto.
Qed.

(** Filtering a configuration prints the report on its NAT entries. *)
Theorem C76_config : forall h get c rules nats, acyclic h ->
  (forall r, In r (clauses c) -> term_wf h (r_src r) /\ term_wf h (r_dst r)) ->
  (forall r x, In r (clauses c) -> In x (rules ++ concat nats) -> comparable_item h r (get x)) ->
  exists limit, forall k, limit <= k ->
    exists p s, config_filter_v k h get c rules nats = (p, Ok s) /\ config_filter k h get c rules nats = Ok s /\
      report h (fun r x => selects h r (get x)) (concat nats) c p.
Proof.
  intros h get c rules nats A W C. destruct (C76_report h get c (concat nats) A W) as (l1 & H1).
  { intros r x Ir Ix. apply C; [auto|]. apply in_or_app. auto. }
  destruct (C19_run_exact h get c rules A) as (l2 & H2).
  { intros r x Ir Ix. apply C; [auto|]. apply in_or_app. auto. }
  exists (l1 + l2). intros k K. destruct (H1 k) as (p & b & E & _ & _ & Rp); [lia|]. destruct (H2 k) as (a & E2 & _); [lia|].
  pose proof (proj1 (C76_same_result k h get c (concat nats)) b) as S. rewrite E in S. specialize (S eq_refl).
  exists p, (set_op Union (set_op Union [] a) b). unfold config_filter_v, config_filter. rewrite E2, E, S. auto.
Qed.

(** Examples: the filter  ip.dst = 10.0.0.0/8 except [id] ip.src = {10.0.0.1, 2001:db8::1}
    over two rules; and the hypotheses of C76_report hold for it. *)
Definition ex_heap : heap := mkheap (fun _ => mkgroup [] [] []
  [HLeaf (LHost (mkaddr V4 167772161)); HLeaf (LHost (mkaddr V6 42540766411282592856903984951653826561))]) 1.
Definition ex_filter : caf := COp Except
  (CClause (mkrule None (HLeaf LAny) (HLeaf (LNet (mknet V4 167772160 8)))))
  (CClause (mkrule (Some (u "in")) (HGrp 0) (HLeaf LAny))).
Definition ex_get (i : iid) : item :=
  IRule (mkrule (Some (u "in")) (HLeaf (LHost (mkaddr V4 (167772161 + N.of_nat i)))) (HLeaf (LHost (mkaddr V4 167772170)))).
Definition lines (l : list pystr) : pystr := flat_map (fun s => s ++ nl) l.
Example C76_ex1 : caf_run_v 5 ex_heap ex_get ex_filter [0; 1] =
  (lines [u ""; u "cafBlock ACLRule None None None src:ACLNode (NetworkAny) dst:ACLNode (Network 10.0.0.0/8) # []: 2";
          u ""; u "cafBlock ACLRule in None None src:ACLNode (NetworkGroup  (NetworkHost 10.0.0.1, NetworkHost 2001:db8::1) # ) dst:ACLNode (NetworkAny) # []: 1";
          u ""; u "cafOpExcept";
          tab ++ u "{ ACLRule None None None src:ACLNode (NetworkAny) dst:ACLNode (Network 10.0.0.0/8) # [] }";
          tab ++ u "{ ACLRule in None None src:ACLNode (NetworkGroup  (NetworkHost 10.0.0.1, NetworkHost 2001:db8::1) # ) dst:ACLNode (NetworkAny) # [] }: 1"; u ""],
   Ok [1]).
Proof. vm_compute. reflexivity. Qed.
Example C76_ex2 : acyclic ex_heap /\
  (forall r, In r (clauses ex_filter) -> term_wf ex_heap (r_src r) /\ term_wf ex_heap (r_dst r)) /\
  (forall r x, In r (clauses ex_filter) -> In x [0; 1] -> comparable_item ex_heap r (ex_get x)).
Proof.
  assert (W : forall l, leaf_wf l -> term_wf ex_heap (HLeaf l)) by (intros l L l' R; inversion R; subst; exact L).
  assert (G : forall l, reaches ex_heap (HGrp 0) l -> l = LHost (mkaddr V4 167772161) \/ l = LHost (mkaddr V6 42540766411282592856903984951653826561)).
  { intros l R. inversion R as [| |g m l' I R']; subst. destruct I as [<-|[<-|[]]]; inversion R'; auto. }
  assert (H : forall x, In x [0; 1] -> leaf_wf (LHost (mkaddr V4 (167772161 + N.of_nat x)))) by (intros x [<-|[<-|[]]]; reflexivity).
  assert (H2 : leaf_wf (LHost (mkaddr V4 167772170))) by reflexivity.
  split; [exists (fun _ => 0); intros g m [I|[I|[]]]; discriminate I|].
  assert (T : forall r, In r (clauses ex_filter) -> term_wf ex_heap (r_src r) /\ term_wf ex_heap (r_dst r)).
  { intros r [<-|[<-|[]]]; cbn [r_src r_dst]; split; try (apply W; cbn; auto).
    - unfold net_wf; cbn. split; [lia|]. split; [reflexivity|]. exists 10%N. reflexivity.
    - intros l L. destruct (G l L) as [-> | ->]; reflexivity. }
  split; [exact T|].
  assert (NW : forall x, x = HGrp 0 \/ (exists l, x = HLeaf l /\ match l with LWild _ _ => False | _ => True end) -> wildfree ex_heap x).
  { intros x E l R. destruct E as [Ex | (l0 & Ex & E)]; subst x.
    - destruct (G l R); subst l; reflexivity.
    - inversion R; subst. destruct l; try reflexivity. contradiction. }
  assert (Pl : forall a, plain ex_heap (HLeaf (LHost a))).
  { intros a l R. inversion R; subst. reflexivity. }
  intros r x Ir Ix. destruct (T r Ir) as (Ts & Td).
  split; [cbn; auto|]. split; [|split; [|split]].
  - intros y [<-|[]]. split; [exact Ts|]. split; [apply W, H, Ix|]. split; [apply Pl|]. split; [|left; apply NW; right; eexists; split; [reflexivity|exact I]].
    destruct Ir as [<-|[<-|[]]]; cbn [r_src]; apply NW; [right; eexists; split; [reflexivity|exact I]|left; reflexivity].
  - intros y [<-|[]]. split; [exact Td|]. split; [apply W, H2|]. split; [apply Pl|]. split; [|left; apply NW; right; eexists; split; [reflexivity|exact I]].
    destruct Ir as [<-|[<-|[]]]; cbn [r_dst]; apply NW; right; eexists; (split; [reflexivity|exact I]).
  - destruct Ir as [<-|[<-|[]]]; intros s p E (Es & N); [discriminate E|]. injection E as <-. discriminate Es.
  - intros s p E (Es & N). injection E as <-. discriminate Es.
Qed.
Print Assumptions C76_same_result.
Print Assumptions C76_report.
Print Assumptions C76_config.
