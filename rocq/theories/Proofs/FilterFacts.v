(** Selection of rules and NAT objects by clauses and filter expressions. *)
From Coq Require Import Lia.
From Verif.Model Require Import Base Ip Hosts Groups Fnmatch Rules Caf.
From Verif.Spec Require Import AddrSpec GlobSpec FilterSpec.
From Verif.Proofs Require Import AndFacts GlobFacts.

(** ** One term *)
Lemma str_eqb_eq a b : str_eqb a b = true <-> a = b.
Proof.
  revert b. induction a as [|x a IH]; intros [|y b]; cbn; split; try congruence; auto.
  - rewrite andb_true_iff, N.eqb_eq, IH. intros [-> ->]. reflexivity.
  - intros E. injection E as -> ->. rewrite N.eqb_refl. now apply IH.
Qed.

Lemma comparable_no_both h x y : comparable h x y -> no_both_wild h x y.
Proof. intros (_ & _ & _ & W & _) l m Hl Hm. unfold both_wild. now rewrite (W l Hl). Qed.

Lemma leaf_common h l y : common h (HLeaf l) y <-> exists j, reaches h y j /\ lcommon l j.
Proof.
  split.
  - intros (a & A & B). apply matches_reaches in A as (l' & A & Ha). inversion A; subst.
    apply matches_reaches in B as (j & B & Hb). exists j. split; auto. exists a. auto.
  - intros (j & B & a & Ha & Hb). exists a. split; [now constructor|]. apply matches_reaches. eauto.
Qed.

Theorem term_and h rk x y k : ranked h rk -> comparable h x y -> rank rk x + rank rk y + 3 <= k ->
  exists b, and_ k h x y = Ok b /\ (b = true <-> term_selects h x y).
Proof.
  intros R C K. pose proof (comparable_no_both _ _ _ C) as W. destruct C as (Wx & Wy & Py & Fx & V).
  destruct (and_char h rk R k x y W K) as (b & Hb & Hc). exists b. split; auto. rewrite Hc.
  unfold term_selects. split; intros (l & Hl & H); exists l; split; auto.
  - destruct (is_caf l) eqn:Ec.
    + unfold leaf_hits in H. destruct (anylike l) eqn:Ea; [destruct l; discriminate|]. rewrite Ec in H.
      destruct H as (z & Hz & Hit). apply caf_hit_literal in Hit as (m & -> & L); auto.
      destruct l; try discriminate Ec; eauto.
    + assert (G : everything l \/ common h (HLeaf l) y).
      { apply leaf_hits_plain in H as [H|(j & Hj & E)]; auto.
        - left. destruct l; try discriminate H; exact I.
        - right. apply leaf_common. exists j. split; auto. apply leafand_spec in E; auto.
          split; [auto|]. rewrite (Fx l Hl). split; [discriminate|].
          intros Hw. destruct V as [V|V]; [rewrite (V j Hj) in Hw; discriminate|now apply V]. }
      destruct l; try discriminate Ec; exact G.
  - destruct (is_caf l) eqn:Ec.
    + unfold leaf_hits. rewrite Ec. destruct (anylike l) eqn:Ea; [destruct l; discriminate|].
      assert (G : exists m, via_groups h y (HLeaf m) /\ literal_any l m)
        by (destruct l; try discriminate Ec; exact H).
      destruct G as (m & Hm & L). exists (HLeaf m). split; auto. apply caf_hit_literal; eauto.
    + assert (G : everything l \/ common h (HLeaf l) y) by (destruct l; try discriminate Ec; exact H).
      apply leaf_hits_plain; auto. destruct G as [G|G].
      * left. destruct l; try contradiction G; reflexivity.
      * right. apply leaf_common in G as (j & Hj & G). exists j. split; auto. apply leafand_spec; auto.
        split; [auto|]. rewrite (Fx l Hl). split; [discriminate|].
        intros Hw. destruct V as [V|V]; [rewrite (V j Hj) in Hw; discriminate|now apply V].
Qed.

(** ** Ids *)
Lemma rev_head_last {A} (s : list A) x r : rev s = x :: r -> s = rev r ++ [x].
Proof. intros E. rewrite <- (rev_involutive s), E. reflexivity. Qed.

Lemma slashed_between s : slashed s = true <-> between_slashes s.
Proof.
  unfold slashed, between_slashes. destruct s as [|a s].
  - split; [discriminate|]. intros [[s H] _]. discriminate H.
  - destruct (rev (a :: s)) as [|b r] eqn:E.
    { apply (f_equal (@length N)) in E. rewrite rev_length in E. discriminate E. }
    apply rev_head_last in E. rewrite andb_true_iff, !N.eqb_eq. split.
    + intros [-> ->]. split; [now exists s|]. exists (rev r). exact E.
    + intros [[s1 H1] [s2 H2]]. injection H1 as -> _. split; [reflexivity|].
      rewrite E in H2. now apply app_inj_tail in H2.
Qed.

Lemma between_inner s : between_slashes s -> inner s <> [] -> wrapped s (inner s).
Proof.
  intros [[s1 H1] [s2 H2]]. subst s. unfold inner. cbn [tl]. intros N.
  destruct (exists_last (l := s1)) as (r & x & ->). { intros ->. now apply N. }
  rewrite removelast_last in *. rewrite app_comm_cons in H2. apply app_inj_tail in H2 as [<- ->].
  split; auto.
Qed.
Lemma wrapped_inner s p : wrapped s p -> between_slashes s /\ inner s = p.
Proof.
  intros [-> N]. split; [split; [now exists (p ++ [slash])|now exists (slash :: p)]|].
  unfold inner. cbn [tl]. apply removelast_last.
Qed.

Lemma id_selects_inv a b : id_selects (Some a) (Some b) -> a <> [] -> b <> [] ->
  (exists p, wrapped a p /\ glob p b) \/ (~ is_wrapped a /\ a = b) \/
  (~ between_slashes a /\ exists p, wrapped b p /\ glob p a).
Proof.
  intros H Na Nb. inversion H as [? ? Ab|? ? Ab|? p ? W ? G|?|? ? p Nc ? W G]; subst; eauto 6.
  - destruct Ab; congruence.
  - destruct Ab; congruence.
Qed.

Theorem ids_exact c r : id_regular c -> id_regular r ->
  exists b, ids_and c r = Ok b /\ (b = true <-> id_selects c r).
Proof.
  intros Rc Rr. unfold ids_and.
  destruct c as [[|c0 c]|].
  { cbn [truthy]. exists true. split; auto. split; auto. intros _. apply IS_no_clause. now right. }
  2:{ cbn [truthy]. exists true. split; auto. split; auto. intros _. apply IS_no_clause. now left. }
  destruct r as [[|r0 r]|].
  { cbn [truthy]. exists true. split; auto. split; auto. intros _. apply IS_no_rule. now right. }
  2:{ cbn [truthy]. exists true. split; auto. split; auto. intros _. apply IS_no_rule. now left. }
  cbn [truthy]. set (a := c0 :: c) in *. set (b := r0 :: r) in *.
  assert (Na : a <> []) by discriminate. assert (Nb : b <> []) by discriminate.
  assert (LIT : (~ is_wrapped a) -> (~ between_slashes a -> ~ is_wrapped b) ->
            exists z, Ok (str_eqb a b) = Ok z /\ (z = true <-> id_selects (Some a) (Some b))).
  { intros H1 H2. eexists. split; [reflexivity|]. rewrite str_eqb_eq. split.
    - intros E. rewrite <- E. now apply IS_equal.
    - intros H. destruct (id_selects_inv _ _ H Na Nb) as [(p & W & G)|[[_ E]|(Nc & p & W & G)]]; auto.
      + exfalso. apply H1. now exists p.
      + exfalso. apply (H2 Nc). now exists p. }
  destruct (slashed a) eqn:Sa.
  - apply slashed_between in Sa. destruct (inner a) as [|i0 i] eqn:Ei.
    + destruct b eqn:Eb; [congruence|]. rewrite <- Eb in *. apply LIT.
      * intros [p W]. apply wrapped_inner in W as W'. destruct W' as [_ W']. destruct W as [_ Np]. congruence.
      * intros H. now destruct H.
    + assert (W : wrapped a (inner a)) by (apply between_inner; [auto|congruence]).
      destruct (fnmatchcase_glob b (inner a)) as (z & Hz & Hc). { apply (Rc a); auto. }
      unfold b at 1. cbn match. rewrite Ei in Hz. exists z. split; [exact Hz|]. rewrite Hc. split.
      * intros G. now apply (IS_pattern a (inner a) b).
      * intros H. destruct (id_selects_inv _ _ H Na Nb) as [(p & W2 & G)|[[Nw _]|(Nc & p & W2 & G)]].
        -- apply wrapped_inner in W2 as [_ <-]. exact G.
        -- exfalso. apply Nw. now exists (inner a).
        -- now destruct Nc.
  - assert (Sa' : ~ between_slashes a) by (rewrite <- slashed_between; congruence).
    assert (Wa : ~ is_wrapped a) by (intros [p W]; apply wrapped_inner in W as [? _]; auto).
    destruct (slashed b) eqn:Sb.
    + apply slashed_between in Sb. destruct (inner b) as [|i0 i] eqn:Ei.
      * unfold a at 1. cbn match. apply LIT; auto. intros _ [p W]. apply wrapped_inner in W as W'.
        destruct W' as [_ W']. destruct W as [_ Np]. congruence.
      * assert (W : wrapped b (inner b)) by (apply between_inner; [auto|congruence]).
        destruct (fnmatchcase_glob a (inner b)) as (z & Hz & Hc). { apply (Rr b); auto. }
        unfold a at 1. cbn match. rewrite Ei in Hz. exists z. split; [exact Hz|]. rewrite Hc. split.
        -- intros G. now apply (IS_rule_pattern a b (inner b)).
        -- intros H. destruct (id_selects_inv _ _ H Na Nb) as [(p & W2 & G)|[[_ E]|(Nc & p & W2 & G)]].
           ++ exfalso. apply Wa. now exists p.
           ++ exfalso. apply Wa. rewrite E. now exists (inner b).
           ++ apply wrapped_inner in W2 as [_ <-]. exact G.
    + apply LIT; auto. intros _ [p W]. apply wrapped_inner in W as [W _].
      apply slashed_between in W. congruence.
Qed.

(** ** Rules and NAT objects *)
Lemma and_r_char (a b : result bool) (P Q : Prop) x y :
  a = Ok x -> (x = true <-> P) -> b = Ok y -> (y = true <-> Q) ->
  exists z, and_r a b = Ok z /\ (z = true <-> P /\ Q).
Proof.
  intros -> Hx -> Hy. destruct x; cbn.
  - exists y. split; auto. rewrite Hy. split; [|tauto]. intros q. split; auto. now apply Hx.
  - exists false. split; auto. split; [discriminate|]. intros [p _]. now apply Hx.
Qed.

Section Sel.
  Variables (h : heap) (rk : gid -> nat).
  Hypothesis R : ranked h rk.

  Theorem rule_exact k (c r : rule) : comparable_item h c (IRule r) -> deep_enough rk c (IRule r) k ->
    exists b, rule_and k h c (IRule r) = Ok b /\ (b = true <-> selects_rule h c r).
  Proof.
    intros (_ & Cs & Cd & Rc & Rr) (Ks & Kd). cbn [rule_and].
    destruct (ids_exact _ _ Rc Rr) as (b & -> & Hb). cbn [bind].
    destruct (term_and h rk (r_src c) (r_src r) k R) as (x & Hx & Ex).
    { apply Cs. now left. } { apply Ks. now left. }
    destruct (term_and h rk (r_dst c) (r_dst r) k R) as (y & Hy & Ey).
    { apply Cd. now left. } { apply Kd. now left. }
    unfold selects_rule. destruct b.
    - destruct (and_r_char _ _ _ _ _ _ Hx Ex Hy Ey) as (z & Hz & Ez). exists z. split; auto.
      rewrite Ez. intuition.
    - exists false. split; auto. split; [discriminate|]. intros (H & _). now apply Hb.
  Qed.

  Lemma side_exact k (c : rule) s : resolved_side s ->
    (forall y, In y (side_srcs s) -> comparable h (r_src c) y /\ rank rk (r_src c) + rank rk y + 3 <= k) ->
    (forall y, In y (side_dsts s) -> comparable h (r_dst c) y /\ rank rk (r_dst c) + rank rk y + 3 <= k) ->
    exists b, nat_side_and k h s c = Ok b /\
      (b = true <-> exists x, s = Some x /\ selects_side h c x).
  Proof.
    intros (n & -> & Rs & Rd) Cs Cd. cbn [nat_side_and side_srcs side_dsts] in *.
    assert (Q : forall P : Prop, (exists x, Some n = Some x /\ P) <-> P).
    { intros P. split; [now intros (x & _ & H)|]. intros H. now exists n. }
    assert (E : (exists x, Some n = Some x /\ selects_side h c x) <-> selects_side h c n).
    { split; [now intros (x & E & H); injection E as <-|]. intros H. now exists n. }
    setoid_rewrite E. clear E Q. unfold selects_side.
    assert (NE : forall m x, missing m -> ~ endpoint m x).
    { intros m x [->| ->] H; inversion H. }
    assert (One : forall x y, endpoint (Some (NHost x)) y -> y = x) by (now inversion 1).
    destruct (ns_src n) as [[| |x]|] eqn:Es; try (now elim Rs); destruct (ns_dst n) as [[| |y]|] eqn:Ed; try (now elim Rd);
      cbn [node_of bind node_host] in *.
    all: try (exists false; split; [reflexivity|]; split; [discriminate|];
      intros (_ & _ & [[z H]|[z H]]); inversion H; fail).
    - destruct (Cd y) as [Cy Ky]; [now left|]. destruct (term_and h rk _ y k R Cy Ky) as (b & Hb & Eb).
      exists b. split; auto. rewrite Eb. split.
      + intros H. split; [|split]; [now inversion 1|intros z Hz; now rewrite (One _ _ Hz)|right; exists y; constructor].
      + intros (_ & H & _). apply H. constructor.
    - destruct (Cs x) as [Cx Kx]; [now left|]. destruct (term_and h rk _ x k R Cx Kx) as (b & Hb & Eb).
      exists b. split; auto. rewrite Eb. split.
      + intros H. split; [|split]; [intros z Hz; now rewrite (One _ _ Hz)|now inversion 1|left; exists x; constructor].
      + intros (H & _). apply H. constructor.
    - destruct (Cs x) as [Cx Kx]; [now left|]. destruct (term_and h rk _ x k R Cx Kx) as (b & Hb & Eb).
      destruct (Cd y) as [Cy Ky]; [now left|]. destruct (term_and h rk _ y k R Cy Ky) as (b' & Hb' & Eb').
      destruct (and_r_char _ _ _ _ _ _ Hb Eb Hb' Eb') as (z & Hz & Ez). exists z. split; auto. rewrite Ez. split.
      + intros [H1 H2]. split; [|split]; [intros w Hw; now rewrite (One _ _ Hw)|intros w Hw; now rewrite (One _ _ Hw)|left; exists x; constructor].
      + intros (H1 & H2 & _). split; [apply H1|apply H2]; constructor.
    - destruct (Cs x) as [Cx Kx]; [now left|]. destruct (term_and h rk _ x k R Cx Kx) as (b & Hb & Eb).
      exists b. split; auto. rewrite Eb. split.
      + intros H. split; [|split]; [intros z Hz; now rewrite (One _ _ Hz)|now inversion 1|left; exists x; constructor].
      + intros (H & _). apply H. constructor.
    - destruct (Cd y) as [Cy Ky]; [now left|]. destruct (term_and h rk _ y k R Cy Ky) as (b & Hb & Eb).
      exists b. split; auto. rewrite Eb. split.
      + intros H. split; [|split]; [now inversion 1|intros z Hz; now rewrite (One _ _ Hz)|right; exists y; constructor].
      + intros (_ & H & _). apply H. constructor.
  Qed.

  Theorem nat_exact k (c : rule) (n : natobj) : comparable_item h c (INat n) -> deep_enough rk c (INat n) k ->
    exists b, rule_and k h c (INat n) = Ok b /\ (b = true <-> selects_nat h c n).
  Proof.
    intros ((Rr & Rm) & Cs & Cd & _) (Ks & Kd). cbn [rule_and]. unfold nat_and.
    cbn [item_srcs item_dsts] in *.
    destruct (side_exact k c (nat_real n) Rr) as (b & Hb & Eb).
    { intros y H. split; [apply Cs|apply Ks]; apply in_or_app; auto. }
    { intros y H. split; [apply Cd|apply Kd]; apply in_or_app; auto. }
    destruct (side_exact k c (nat_mapped n) Rm) as (b' & Hb' & Eb').
    { intros y H. split; [apply Cs|apply Ks]; apply in_or_app; auto. }
    { intros y H. split; [apply Cd|apply Kd]; apply in_or_app; auto. }
    cbn [any_r]. rewrite Hb, Hb'. unfold selects_nat. destruct b.
    - exists true. split; auto. split; auto. intros _. left. now apply Eb.
    - destruct b'.
      + exists true. split; auto. split; auto. intros _. right. now apply Eb'.
      + exists false. split; auto. split; [discriminate|]. intros [H|H]; [now apply Eb|now apply Eb'].
  Qed.

  Theorem item_exact k (c : rule) (i : item) : comparable_item h c i -> deep_enough rk c i k ->
    exists b, rule_and k h c i = Ok b /\ (b = true <-> selects h c i).
  Proof. destruct i; [apply rule_exact|apply nat_exact]. Qed.
End Sel.

(** ** Sets *)
Lemma set_add_In x s y : In y (set_add x s) <-> y = x \/ In y s.
Proof.
  unfold set_add. destruct (existsb (Nat.eqb x) s) eqn:E.
  - apply existsb_exists in E as (z & Hz & E). apply Nat.eqb_eq in E. subst z.
    split; auto. intros [->|H]; auto.
  - rewrite in_app_iff. cbn. intuition.
Qed.
Lemma set_add_NoDup x s : NoDup s -> NoDup (set_add x s).
Proof.
  intros N. unfold set_add. destruct (existsb (Nat.eqb x) s) eqn:E; auto.
  assert (H : ~ In x s).
  { intros H. assert (existsb (Nat.eqb x) s = true); [|congruence].
    apply existsb_exists. exists x. split; auto. apply Nat.eqb_refl. }
  clear E. induction N as [|y s Hy N IH]; cbn; [constructor; [auto|constructor]|].
  constructor.
  - rewrite in_app_iff. cbn. intros [A|[A|[]]]; [auto|]. subst. apply H. now left.
  - apply IH. intros A. apply H. now right.
Qed.
Lemma mem_In x s : mem x s = true <-> In x s.
Proof.
  unfold mem. rewrite existsb_exists. split.
  - intros (y & H & E). apply Nat.eqb_eq in E. now subst.
  - intros H. exists x. split; auto. apply Nat.eqb_refl.
Qed.
Lemma union_In b : forall a y, In y (fold_left (fun s x => set_add x s) b a) <-> In y a \/ In y b.
Proof.
  induction b as [|x b IH]; intros a y; cbn [fold_left].
  - cbn. tauto.
  - rewrite IH, set_add_In. cbn. intuition.
Qed.
Lemma union_NoDup b : forall a, NoDup a -> NoDup (fold_left (fun s x => set_add x s) b a).
Proof. induction b as [|x b IH]; intros a N; cbn; auto. apply IH. now apply set_add_NoDup. Qed.

Definition op_spec (o : cafop) (P Q : Prop) : Prop :=
  match o with Union => P \/ Q | Intersect => P /\ Q | Except => P /\ ~ Q end.
Lemma set_op_In o a b y : In y (set_op o a b) <-> op_spec o (In y a) (In y b).
Proof.
  destruct o; cbn [set_op op_spec].
  - apply union_In.
  - rewrite filter_In, mem_In. tauto.
  - rewrite filter_In, negb_true_iff. rewrite <- (mem_In y b). destruct (mem y b); intuition congruence.
Qed.
Lemma set_op_NoDup o a b : NoDup a -> NoDup (set_op o a b).
Proof.
  intros N. destruct o; cbn [set_op]; [now apply union_NoDup|now apply NoDup_filter|now apply NoDup_filter].
Qed.

(** ** Running filters *)
Section Run.
  Variables (k : nat) (h : heap) (get : iid -> item) (sel : rule -> iid -> Prop).

  Lemma filter_exact r : forall rules,
    (forall x, In x rules -> exists b, rule_and k h r (get x) = Ok b /\ (b = true <-> sel r x)) ->
    exists s, rules_filter k h get rules [r] = Ok s /\ NoDup s /\ forall x, In x s <-> In x rules /\ sel r x.
  Proof.
    unfold rules_filter.
    assert (G : forall rules s0, NoDup s0 ->
      (forall x, In x rules -> exists b, rule_and k h r (get x) = Ok b /\ (b = true <-> sel r x)) ->
      exists s, fold_r (fun s acl => do hit <- any_r (fun i => rule_and k h i (get acl)) [r];
                                    Ok (if hit then set_add acl s else s)) rules s0 = Ok s /\
        NoDup s /\ forall x, In x s <-> In x s0 \/ (In x rules /\ sel r x)).
    { induction rules as [|x rules IH]; intros s0 N H; cbn [fold_r].
      - exists s0. split; auto. split; auto. intros x. cbn. tauto.
      - destruct (H x) as (b & Hb & Eb); [now left|]. cbn [any_r]. rewrite Hb.
        replace (match b with true => Ok true | false => Ok false end) with (@Ok bool b) by (destruct b; auto).
        cbn [bind]. destruct (IH (if b then set_add x s0 else s0)) as (s & Hs & Ns & Is).
        { destruct b; auto. now apply set_add_NoDup. } { intros y Hy. apply H. now right. }
        exists s. split; auto. split; auto. intros y. rewrite Is. destruct b.
        + rewrite set_add_In. cbn. split; [|intros [A|[[A|A] B]]; auto].
          intros [[-> |A]|[A B]]; auto. right. split; auto. now apply Eb.
        + cbn. split; [intros [A|[A B]]; auto|]. intros [A|[[->|A] B]]; auto.
          exfalso. apply Eb in B. discriminate B. }
    intros rules H. destruct (G rules [] (NoDup_nil _) H) as (s & Hs & Ns & Is).
    exists s. split; auto. split; auto. intros x. rewrite Is. cbn. tauto.
  Qed.

  Theorem run_exact c : forall rules,
    (forall r x, In r (clauses c) -> In x rules -> exists b, rule_and k h r (get x) = Ok b /\ (b = true <-> sel r x)) ->
    exists s, caf_run k h get c rules = Ok s /\ NoDup s /\ forall x, In x s <-> In x rules /\ denotes sel c x.
  Proof.
    induction c as [r|b IH|o a IHa b IHb]; intros rules H; cbn [caf_run denotes clauses] in *.
    - apply filter_exact. intros x Hx. apply H; auto. now left.
    - now apply IH.
    - destruct (IHa rules) as (s & Hs & Ns & Is). { intros r x Hr. apply H. apply in_or_app. now left. }
      destruct (IHb rules) as (t & Ht & Nt & It). { intros r x Hr. apply H. apply in_or_app. now right. }
      rewrite Hs, Ht. cbn [bind]. exists (set_op o s t). split; auto. split; [now apply set_op_NoDup|].
      intros x. rewrite set_op_In. destruct o; cbn [op_spec denotes]; rewrite Is, It; try tauto.
  Qed.
End Run.

Lemma denotes_ext {A} (s s' : rule -> A -> Prop) c x :
  (forall r, In r (clauses c) -> (s r x <-> s' r x)) -> denotes s c x <-> denotes s' c x.
Proof.
  induction c as [r|b IH|o a IHa b IHb]; intros H; cbn [denotes clauses] in *.
  - apply H. now left.
  - auto.
  - assert (Ha : denotes s a x <-> denotes s' a x) by (apply IHa; intros; apply H, in_or_app; auto).
    assert (Hb : denotes s b x <-> denotes s' b x) by (apply IHb; intros; apply H, in_or_app; auto).
    destruct o; tauto.
Qed.

(** Without any condition: the result is a duplicate-free part of the given rules. *)
Lemma run_subset k h get c : forall rules s, caf_run k h get c rules = Ok s -> NoDup s /\ incl s rules.
Proof.
  induction c as [r|b IH|o a IHa b IHb]; intros rules s; cbn [caf_run].
  - unfold rules_filter.
    assert (G : forall rules l s0, incl l rules -> NoDup s0 /\ incl s0 rules ->
      fold_r (fun s acl => do hit <- any_r (fun i => rule_and k h i (get acl)) [r];
              Ok (if hit then set_add acl s else s)) l s0 = Ok s -> NoDup s /\ incl s rules).
    { clear rules. intros rules l. induction l as [|x l IH]; intros s0 Il Hs; cbn [fold_r].
      - intros E; injection E as <-. exact Hs.
      - destruct (any_r _ [r]) as [[]|e]; cbn [bind]; [| |discriminate].
        + apply IH; [intros z Hz; apply Il; now right|]. destruct Hs as [Hn Hi]. split; [now apply set_add_NoDup|].
          intros z Hz. apply set_add_In in Hz as [->|Hz]; auto. apply Il. now left.
        + apply IH; auto. intros z Hz; apply Il; now right. }
    apply G; [apply incl_refl|]. split; [constructor|intros z []].
  - apply IH.
  - destruct (caf_run k h get a rules) as [x|] eqn:Ea; [|discriminate]. cbn [bind].
    destruct (caf_run k h get b rules) as [y|] eqn:Eb; [|discriminate]. cbn [bind].
    intros E; injection E as <-. destruct (IHa _ _ Ea) as [N I], (IHb _ _ Eb) as [N' I'].
    split; [now apply set_op_NoDup|]. intros z Hz. apply set_op_In in Hz. destruct o; cbn in Hz; intuition.
Qed.
