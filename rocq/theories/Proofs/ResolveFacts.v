(** Facts about resolve. *)
From Coq Require Import Lia Permutation String.
From Verif.Model Require Import Base Iface Resolve.
From Verif.Spec Require Import ResolveSpec.
From Verif.Proofs Require Import GroupOps.
Local Open Scope list_scope.

Lemma elem_eqb_spec a b : reflect (a = b) (elem_eqb a b).
Proof.
  destruct a as [|s|i], b as [|t|j]; cbn; try (constructor; congruence).
  - destruct (str_eqb_spec s t); constructor; congruence.
  - destruct (Nat.eqb_spec i j); constructor; congruence.
Qed.
Lemma smem_spec e l : smem e l = true <-> In e l.
Proof.
  unfold smem. rewrite existsb_exists. split.
  - intros (x & I & E). destruct (elem_eqb_spec e x); congruence.
  - intros I. exists e. split; auto. destruct (elem_eqb_spec e e); congruence.
Qed.
Lemma smem_false e l : smem e l = false <-> ~ In e l.
Proof. rewrite <- smem_spec. destruct (smem e l); intuition congruence. Qed.
Lemma sadd_in x e l : In x (sadd e l) <-> x = e \/ In x l.
Proof.
  unfold sadd. destruct (smem e l) eqn:E.
  - apply smem_spec in E. intuition congruence.
  - rewrite in_app_iff. cbn. intuition congruence.
Qed.
Lemma sadd_fresh e l : smem e l = false -> sadd e l = l ++ [e].
Proof. unfold sadd. now intros ->. Qed.

Lemma radds_cur x l s : In x (cur (radds l s)) <-> In x l \/ In x (cur s).
Proof.
  unfold radds. revert s. induction l as [|e l IH]; cbn; intros s; [tauto|].
  rewrite IH. cbn. rewrite sadd_in. intuition congruence.
Qed.
Lemma radd_cur x e s : In x (cur (radd e s)) <-> x = e \/ In x (cur s).
Proof. cbn. apply sadd_in. Qed.
Lemma runion_cur x l s : In x (cur (runion l s)) <-> In x l \/ In x (cur s).
Proof.
  cbn. generalize (cur s). induction l as [|e l IH]; cbn; intros r; [tauto|].
  rewrite IH, sadd_in. intuition congruence.
Qed.

(** The caller's set: only grows, and what it gains is in the current set. *)
Definition arg_ok (s s' : rstate) : Prop :=
  (forall x, In x (arg s) -> In x (arg s')) /\
  ((forall x, In x (arg s) -> In x (cur s)) -> (forall x, In x (arg s') -> In x (cur s'))).
Lemma arg_refl s : arg_ok s s. Proof. split; auto. Qed.
Lemma arg_trans s1 s2 s3 : arg_ok s1 s2 -> arg_ok s2 s3 -> arg_ok s1 s3.
Proof. intros [A B] [C D]. split; auto. Qed.
Lemma arg_radd e s : arg_ok s (radd e s).
Proof.
  split; cbn.
  - intros x I. destruct (shared s); [apply sadd_in|]; auto.
  - intros H x. destruct (shared s); rewrite ?sadd_in; intuition.
Qed.
Lemma arg_radds l s : arg_ok s (radds l s).
Proof.
  unfold radds. revert s. induction l as [|e l IH]; cbn; intros s; [apply arg_refl|].
  eapply arg_trans; [apply arg_radd|apply IH].
Qed.
Lemma arg_runion l s : arg_ok s (runion l s).
Proof. split; [auto|]. intros H x I. apply runion_cur. auto. Qed.
Lemma radds_same l s : shared s = true -> arg s = cur s ->
  shared (radds l s) = true /\ arg (radds l s) = cur (radds l s).
Proof.
  unfold radds. revert s. induction l as [|e l IH]; cbn; intros s S E; auto.
  apply IH; cbn; auto. now rewrite S, E.
Qed.

Section R.
  Context (st : store) (bound : pystr -> bool).

  (** What a selected thing contributes at once. *)
  Definition direct (e y : elem) : Prop :=
    exists i, e = EObj i /\
      ((exists r, st_kind st i = KRule r /\ rule_attr st r y) \/
       (exists a b, st_kind st i = KNat (Some a) b /\ side_attr a y) \/
       (exists a b, st_kind st i = KNat a (Some b) /\ side_attr b y)).

  Lemma rule_adds r s s' : resolve_rule st bound r s = (s', None) ->
    forall y, In y (cur s') <-> rule_attr st r y \/ In y (cur s).
  Proof.
    unfold resolve_rule. destruct (proto_name st (rr_protocol r)) as [n|] eqn:P; [|discriminate].
    set (s0 := radds _ s).
    set (s1 := if is_icmp n then _ else _). intros H.
    assert (E : s' = radds (rr_times r) s1).
    { destruct (rr_id r) as [i|]; [destruct (bound i)|]; congruence. }
    clear H. subst s'. intros y. rewrite radds_cur.
    assert (H0 : In y (cur s0) <-> y = rr_protocol r \/ y = rr_shost r \/ y = rr_sport r \/ y = rr_dport r \/
       y = rr_dhost r \/ y = id_elem (rr_id r) \/ In y (cur s)).
    { unfold s0. rewrite radds_cur. cbn. intuition congruence. }
    assert (H1 : In y (cur s1) <-> (y = rr_icmp r /\ rr_icmp r <> ENone /\ (n = Some (u "icmp") \/ n = Some (u "icmp6"))) \/ In y (cur s0)).
    { unfold s1, is_icmp. destruct n as [n|]; [|intuition congruence]. destruct (str_eqb_spec n (u "icmp")) as [->|N1]; cbn [orb].
      - destruct (rr_icmp r) eqn:Ei; [intuition congruence|rewrite radd_cur..]; intuition congruence.
      - destruct (str_eqb_spec n (u "icmp6")) as [->|N2].
        + destruct (rr_icmp r) eqn:Ei; [intuition congruence|rewrite radd_cur..]; intuition congruence.
        + intuition congruence. }
    rewrite H1, H0. unfold proto_name in P. destruct (rr_protocol r) as [|?|j] eqn:Pr; try discriminate.
    split.
    - intros [T|[(-> & N & C)|[->|[->|[->|[->|[->|[->|I]]]]]]]]; auto; left.
      + now apply ra_time.
      + destruct C as [-> | ->]; eapply ra_icmp; eauto.
      + rewrite <- Pr. apply ra_protocol.
      + apply ra_shost.
      + apply ra_sport.
      + apply ra_dport.
      + apply ra_dhost.
      + unfold id_elem. destruct (rr_id r) as [x|] eqn:Ix; [apply (ra_id st r x Ix)|apply (ra_noid st r Ix)].
    - intros [A|I]; [|tauto]. destruct A as [| | | | |x Hx|Hx|i0 n0 A1 A2 A3 A4|t T]; auto 10.
      + rewrite Hx. cbn. auto 10.
      + rewrite Hx. cbn. auto 10.
      + rewrite Pr in A1. injection A1 as <-. rewrite P in A2. injection A2 as ->. destruct A3 as [-> | ->]; auto 10.
  Qed.

  Lemma side_in d y : In y (side_adds d) <-> side_attr d y.
  Proof.
    unfold side_adds. rewrite !in_app_iff. split.
    - intros [I|[I|I]].
      + destruct (rs_src d) eqn:E; [|destruct I]. destruct I as [->|[]]. now apply sa_src.
      + destruct (rs_dst d) eqn:E; [|destruct I]. destruct I as [->|[]]. now apply sa_dst.
      + destruct I as [<-|[<-|[]]]; [apply sa_iface|apply sa_service].
    - intros [e E|e E| |]; try rewrite E; cbn; auto 10.
  Qed.
  Lemma nat_adds a b s s' : resolve_nat a b s = (s', None) ->
    exists a' b', a = Some a' /\ b = Some b' /\
      forall y, In y (cur s') <-> (side_attr a' y \/ side_attr b' y) \/ In y (cur s).
  Proof.
    unfold resolve_nat. destruct a as [a|]; [|discriminate]. destruct b as [b|]; [|discriminate].
    intros [= <-]. exists a, b. repeat split; auto; rewrite !radds_cur, !side_in in *; tauto.
  Qed.

  Lemma phase1_cur l s s' : phase1 st bound l s = (s', None) ->
    forall y, In y (cur s') <-> (exists e, In e l /\ direct e y) \/ In y (cur s).
  Proof.
    revert s. induction l as [|e l IH]; cbn; intros s H y.
    - injection H as <-. split; auto. intros [(? & [] & _)|]; auto.
    - match type of H with context [let '(_, _) := ?m in _] => destruct m as [s1 x] eqn:E end.
      destruct x; [discriminate|]. rewrite (IH _ H y).
      assert (G : In y (cur s1) <-> direct e y \/ In y (cur s)).
      { destruct e as [|t|i].
        1,2: injection E as <-; split; auto; intros [(i & [=] & _)|]; auto.
        destruct (st_kind st i) as [r|a b|c m|t|c|f|] eqn:K.
        - rewrite (rule_adds _ _ _ E y). split; intros [A|A]; auto; left.
          + exists i. split; auto. left. eauto.
          + destruct A as (i' & [= <-] & [(r' & K' & A)|[(a & b & K' & _)|(a & b & K' & _)]]); congruence.
        - apply nat_adds in E as (a' & b' & -> & -> & E). rewrite E. split; intros [A|A]; auto; left.
          + exists i. split; auto. right. destruct A; [left|right]; eauto.
          + destruct A as (i' & [= <-] & [(r' & K' & A)|[(a & b & K' & A)|(a & b & K' & A)]]); rewrite K in K'; try discriminate.
            * injection K' as <- _. auto.
            * injection K' as _ <-. auto.
        - injection E as <-. split; auto. intros [(i' & [= <-] & [(r' & K' & A)|[(a & b & K' & A)|(a & b & K' & A)]])|]; auto; congruence.
        - injection E as <-. split; auto. intros [(i' & [= <-] & [(r' & K' & A)|[(a & b & K' & A)|(a & b & K' & A)]])|]; auto; congruence.
        - injection E as <-. split; auto. intros [(i' & [= <-] & [(r' & K' & A)|[(a & b & K' & A)|(a & b & K' & A)]])|]; auto; congruence.
        - injection E as <-. split; auto. intros [(i' & [= <-] & [(r' & K' & A)|[(a & b & K' & A)|(a & b & K' & A)]])|]; auto; congruence.
        - injection E as <-. split; auto. intros [(i' & [= <-] & [(r' & K' & A)|[(a & b & K' & A)|(a & b & K' & A)]])|]; auto; congruence. }
      rewrite G. split.
      + intros [(e' & I & D)|[D|I]]; eauto.
      + intros [(e' & [->|I] & D)|I]; eauto.
  Qed.

  (** Which exception the first loop raises. *)
  Definition bound_rule (e : elem) : Prop :=
    exists i r a, e = EObj i /\ st_kind st i = KRule r /\ rr_id r = Some a /\ bound a = true.
  Lemma phase1_exn l s : well_formed st l ->
    (snd (phase1 st bound l s) = None /\ (forall e, In e l -> ~ bound_rule e)) \/
    (snd (phase1 st bound l s) = Some TypeError /\ exists e, In e l /\ bound_rule e).
  Proof.
    revert s. induction l as [|e l IH]; intros s W; [left; cbn; auto|].
    assert (W' : well_formed st l) by (intros i I; apply W; now right).
    cbn [phase1].
    match goal with |- context [let '(_, _) := ?m in _] => destruct m as [s1 x] eqn:E end.
    assert (G : (x = None /\ ~ bound_rule e) \/ (x = Some TypeError /\ bound_rule e)).
    { unfold bound_rule. destruct e as [|t|i].
      1,2: injection E as _ <-; left; split; auto; intros (i & r & a & [=] & _).
      destruct (W i (or_introl eq_refl)) as [W1 W2].
      destruct (st_kind st i) as [r|a b|c m|t|c|f|] eqn:K.
      - destruct (W1 r eq_refl) as (j & n & P & N). unfold resolve_rule in E.
        rewrite P in E. cbn [proto_name] in E. rewrite N in E.
        destruct (rr_id r) as [a|] eqn:I; [destruct (bound a) eqn:B|]; injection E as _ <-.
        + right. split; auto. exists i, r, a. auto.
        + left. split; auto. intros (i' & r' & a' & [= <-] & K' & I' & B'). rewrite K in K'. injection K' as <-. congruence.
        + left. split; auto. intros (i' & r' & a' & [= <-] & K' & I' & B'). rewrite K in K'. injection K' as <-. congruence.
      - destruct (W2 a b eq_refl) as [A B]. unfold resolve_nat in E.
        destruct a as [a|]; [|congruence]. destruct b as [b|]; [|congruence]. injection E as _ <-.
        left. split; auto. intros (i' & r' & a' & [= <-] & K' & _). congruence.
      - injection E as _ <-. left. split; auto. intros (i' & r' & a' & [= <-] & K' & _). congruence.
      - injection E as _ <-. left. split; auto. intros (i' & r' & a' & [= <-] & K' & _). congruence.
      - injection E as _ <-. left. split; auto. intros (i' & r' & a' & [= <-] & K' & _). congruence.
      - injection E as _ <-. left. split; auto. intros (i' & r' & a' & [= <-] & K' & _). congruence.
      - injection E as _ <-. left. split; auto. intros (i' & r' & a' & [= <-] & K' & _). congruence. }
    destruct G as [[-> G]|[-> G]].
    - destruct (IH s1 W') as [[H1 H2]|[H1 (e' & I & H2)]].
      + left. split; auto. intros e' [<-|I]; auto.
      + right. split; auto. exists e'. split; auto. now right.
    - right. split; auto. exists e. split; auto. now left.
  Qed.

  Lemma phase1_arg l s s' x : phase1 st bound l s = (s', x) ->
    shared s = true -> arg s = cur s -> arg s' = cur s' /\ shared s' = true.
  Proof.
    revert s. induction l as [|e l IH]; cbn; intros s H S E; [injection H as <- <-; auto|].
    match type of H with context [let '(_, _) := ?m in _] => destruct m as [s1 x1] eqn:Es end.
    assert (G : shared s1 = true /\ arg s1 = cur s1).
    { destruct e as [|t|i]; try (injection Es as <- _; auto; fail).
      destruct (st_kind st i); try (injection Es as <- _; auto; fail).
      - unfold resolve_rule in Es.
        assert (Q := radds_same [rr_protocol r; rr_shost r; rr_sport r; rr_dport r; rr_dhost r; id_elem (rr_id r)] s S E).
        set (s0 := radds _ s) in *. destruct (proto_name st (rr_protocol r)) as [n|].
        + assert (Q1 : forall s2, (s2 = s0 \/ s2 = radds [rr_icmp r] s0) -> shared s2 = true /\ arg s2 = cur s2).
          { intros s2 [->| ->]; auto. apply radds_same; tauto. }
          set (s2 := if is_icmp n then _ else _) in Es.
          assert (Q2 : shared s2 = true /\ arg s2 = cur s2).
          { apply Q1. unfold s2. destruct (is_icmp n); auto. destruct (rr_icmp r); auto. }
          assert (s1 = radds (rr_times r) s2) as ->.
          { destruct (rr_id r) as [a|]; [destruct (bound a)|]; congruence. }
          apply radds_same; tauto.
        + injection Es as <- _. auto.
      - unfold resolve_nat in Es. destruct real as [a|]; [|injection Es as <- _; auto].
        assert (Q := radds_same (side_adds a) s S E).
        destruct mapped as [b|]; injection Es as <- _; auto. apply radds_same; tauto. }
    destruct x1; [injection H as <- _; tauto|]. eapply IH; [exact H|tauto..].
  Qed.

  Section Loop.
    Context (start : list elem).
    Notation reach := (reachable st start).

    Definition inv (s : rstate) (d : list elem) : Prop :=
      (forall e, In e (cur s) -> reach e) /\
      (forall i, In (EObj i) d -> forall e, edge st i e -> In e (cur s)) /\
      NoDup d /\ (forall e, In e d -> reach e).

    Lemma nodup_snoc {A} (l : list A) x : NoDup l -> ~ In x l -> NoDup (l ++ [x]).
    Proof.
      intros N I. apply NoDup_rev in N. rewrite <- (rev_involutive (l ++ [x])). apply NoDup_rev.
      rewrite rev_app_distr. cbn. constructor; auto. now rewrite <- in_rev.
    Qed.

    (** one element that is examined and adds exactly the elements it leads to *)
    Lemma inv_step s s' d e :
      inv s d -> reach e -> smem e d = false ->
      (forall x, In x (cur s) -> In x (cur s')) ->
      (forall x, In x (cur s') -> In x (cur s) \/ exists i, e = EObj i /\ edge st i x) ->
      (forall i x, e = EObj i -> edge st i x -> In x (cur s')) ->
      inv s' (sadd e d).
    Proof.
      intros (I1 & I2 & I3 & I4) R F M A C. rewrite sadd_fresh; auto. apply smem_false in F.
      repeat split.
      - intros x X. destruct (A x X) as [X'|(i & -> & X')]; auto. eapply re_edge; eauto.
      - intros i X x Ex. apply in_app_iff in X as [X|[X|[]]]; eauto.
      - now apply nodup_snoc.
      - intros x X. apply in_app_iff in X as [X|[<-|[]]]; auto.
    Qed.

    Lemma pass_inv l : forall s d s' d' b,
      pass st l s d = (s', d', b) -> inv s d -> (forall e, In e l -> reach e) ->
      inv s' d' /\ (forall e, In e (cur s) -> In e (cur s')) /\
      arg_ok s s' /\
      (if b then (length d < length d')%nat
       else (length d <= length d')%nat /\ (forall e, In e d \/ In e l -> In e d') /\
            (forall e, In e (cur s') -> In e (cur s) \/ e = EStr (u "NAT"))).
    Proof.
      induction l as [|e l IH]; intros s d s' d' b H I R; cbn [pass In] in *.
      - injection H as <- <- <-. split; [auto|]. split; [auto|]. split; [apply arg_refl|]. split; [lia|]. split; auto. intros e [|[]]; auto.
      - destruct (smem e d) eqn:F.
        + destruct (IH _ _ _ _ _ H I ltac:(auto)) as (A & B & Ar & C). split; [auto|]. split; [auto|]. split; [auto|].
          destruct b; auto. destruct C as (C1 & C2 & C3). repeat split; auto.
          intros x [X|[<-|X]]; auto. apply C2. left. now apply smem_spec.
        + assert (Lf : length (sadd e d) = S (length d)).
          { rewrite sadd_fresh; auto. rewrite app_length. cbn. lia. }
          assert (Re : reach e) by auto.
          (* the common end of the branches that go on *)
          assert (Go : forall s1, inv s1 (sadd e d) -> arg_ok s s1 ->
                    (forall x, In x (cur s) -> In x (cur s1)) ->
                    (forall x, In x (cur s1) -> In x (cur s) \/ x = EStr (u "NAT")) ->
                    pass st l s1 (sadd e d) = (s', d', b) ->
                    inv s' d' /\ (forall e, In e (cur s) -> In e (cur s')) /\ arg_ok s s' /\
                    (if b then (length d < length d')%nat
                     else (length d <= length d')%nat /\ (forall x, In x d \/ e = x \/ In x l -> In x d') /\
                          (forall e, In e (cur s') -> In e (cur s) \/ e = EStr (u "NAT")))).
          { intros s1 I1 Ar1 M1 M2 H1. destruct (IH _ _ _ _ _ H1 I1 ltac:(auto)) as (A & B & Ar & C).
            split; [auto|]. split; [auto|]. split; [eapply arg_trans; eauto|].
            destruct b; [lia|]. destruct C as (C1 & C2 & C3). split; [lia|]. split.
            - intros x [X|[->|X]]; apply C2; rewrite sadd_in; auto.
            - intros x X. destruct (C3 x X); auto. }
          (* and of those that break *)
          assert (Br : forall s1, inv s1 (sadd e d) -> arg_ok s s1 -> (forall x, In x (cur s) -> In x (cur s1)) ->
                    (s1, sadd e d, true) = (s', d', b) ->
                    inv s' d' /\ (forall e, In e (cur s) -> In e (cur s')) /\ arg_ok s s' /\
                    (if b then (length d < length d')%nat
                     else (length d <= length d')%nat /\ (forall x, In x d \/ e = x \/ In x l -> In x d') /\
                          (forall e, In e (cur s') -> In e (cur s) \/ e = EStr (u "NAT")))).
          { intros s1 I1 Ar1 M1 [= <- <- <-]. split; [auto|]. split; [auto|]. split; [auto|]. lia. }
          destruct e as [|t|i].
          1,2: apply Go in H; auto using arg_refl; apply (inv_step s); auto; [intros i x [=]].
          destruct (st_kind st i) as [r|a b'|c m|t|c|f|] eqn:K.
          * apply Go in H; auto using arg_refl. apply (inv_step s); auto.
            intros i' x [= <-] Ed. inversion Ed; congruence.
          * apply Go in H; auto using arg_radd.
            -- apply (inv_step s); auto.
               ++ intros x X. apply radd_cur. auto.
               ++ intros x X. apply radd_cur in X as [->|X]; auto. right. exists i. split; auto. eapply ed_nat; eauto.
               ++ intros i' x [= <-] Ed. apply radd_cur. inversion Ed; rewrite K in *; try discriminate. auto.
            -- intros x X. apply radd_cur. auto.
            -- intros x X. apply radd_cur in X as [->|X]; auto.
          * apply Br in H; auto.
            -- apply (inv_step s); auto.
               ++ intros x X. apply runion_cur. right. apply radd_cur. auto.
               ++ intros x X. rewrite runion_cur, radd_cur in X. destruct X as [X|[->|X]]; auto; right; exists i; split; auto.
                  ** eapply ed_member; eauto.
                  ** eapply ed_group; eauto.
               ++ intros i' x [= <-] Ed. rewrite runion_cur, radd_cur. inversion Ed as [c' m' e' K' X| | | | | | |]; rewrite K in *; try discriminate.
                  ** injection K' as -> ->. auto.
                  ** match goal with H : KGroup _ _ = KGroup _ _ |- _ => injection H as -> -> end. auto.
            -- eapply arg_trans; [apply arg_radd|apply arg_runion].
            -- intros x X. apply runion_cur. right. apply radd_cur. auto.
          * apply Br in H; auto.
            -- apply (inv_step s); auto.
               ++ intros x X. destruct t; auto. apply radds_cur. auto.
               ++ intros x X. destruct t as [t|]; auto. apply radds_cur in X as [[X|[X|[]]]|X]; [subst x|subst x|]; auto; right; exists i; split; auto.
                  ** now apply ed_target.
                  ** eapply ed_names; eauto.
               ++ intros i' x [= <-] Ed. inversion Ed; rewrite K in *; try discriminate;
                    match goal with H : KAddr _ = KAddr _ |- _ => injection H as -> end; apply radds_cur; cbn; auto.
            -- destruct t; [apply arg_radds|apply arg_refl].
            -- intros x X. destruct t; auto. apply radds_cur. auto.
          * apply Br in H; auto using arg_radd.
            -- apply (inv_step s); auto.
               ++ intros x X. apply radd_cur. auto.
               ++ intros x X. apply radd_cur in X as [->|X]; auto. right. exists i. split; auto. now apply ed_named.
               ++ intros i' x [= <-] Ed. apply radd_cur. inversion Ed; rewrite K in *; try discriminate.
                  match goal with H : KNamed _ = KNamed _ |- _ => injection H as -> end. auto.
            -- intros x X. apply radd_cur. auto.
          * apply Br in H; auto using arg_radds.
            -- apply (inv_step s); auto.
               ++ intros x X. apply radds_cur. auto.
               ++ intros x X. apply radds_cur in X as [[X|[X|[]]]|X]; [subst x|subst x|]; auto; right; exists i; split; auto.
                  ** now apply ed_iface.
                  ** eapply ed_interface; eauto.
               ++ intros i' x [= <-] Ed. apply radds_cur. inversion Ed; rewrite K in *; try discriminate;
                    match goal with H : KAccess _ = KAccess _ |- _ => injection H as -> end; cbn; auto.
            -- intros x X. apply radds_cur. auto.
          * apply Go in H; auto using arg_refl. apply (inv_step s); auto.
            intros i' x [= <-] Ed. inversion Ed; congruence.
    Qed.

    Context (order : nat -> list elem -> list elem).
    Hypothesis order_perm : forall k l, Permutation (order k l) l.

    Lemma closure_spec U :
      (forall e, reach e -> In e U) ->
      forall fuel k s d, inv s d -> (length U - length d < fuel)%nat ->
      exists s', closure st order fuel k s d = (s', None) /\
        (forall e, In e (cur s) -> In e (cur s')) /\ arg_ok s s' /\
        (forall e, In e (cur s') -> reach e) /\
        (forall i, In (EObj i) (cur s') -> forall e, edge st i e -> In e (cur s')).
    Proof.
      intros HU. induction fuel as [|fuel IH]; intros k s d I L; [lia|]. cbn [closure].
      destruct (pass st (order k (cur s)) s d) as [[s1 d1] b] eqn:P.
      assert (Rl : forall e, In e (order k (cur s)) -> reach e).
      { intros e X. apply (Permutation_in _ (order_perm k _)) in X. destruct I as (I0 & _). auto. }
      destruct (pass_inv _ _ _ _ _ _ P I Rl) as (I1 & M & A & C).
      destruct b.
      - cbv iota in C. assert (Ld : (length d1 <= length U)%nat).
        { apply NoDup_incl_length; [apply I1|]. intros e X. apply HU, I1, X. }
        destruct (IH (S k) s1 d1 I1 ltac:(lia)) as (s' & E & M' & A' & R' & C').
        exists s'. rewrite E. repeat split; auto; destruct (arg_trans _ _ _ A A'); auto.
      - exists s1. destruct C as (_ & C2 & C3). split; [auto|]. split; [auto|]. split; [auto|]. split; [apply I1|].
        intros i X e Ed. destruct (C3 _ X) as [X'|X']; [|discriminate].
        assert (Dn : In (EObj i) d1).
        { apply C2. right. apply (Permutation_in _ (Permutation_sym (order_perm k _))). auto. }
        destruct I1 as (_ & I2 & _). eauto.
    Qed.
  End Loop.
End R.
