(** C24, C25: resolve. *)
From Coq Require Import String Lia Permutation.
From Verif.Model Require Import Base Iface Config Resolve.
From Verif.Spec Require Import ResolveSpec.
From Verif.Proofs Require Import GroupOps ResolveFacts.
From Verif.Props Require Import Ifaces.
Local Open Scope list_scope.

(** Any iteration order of the sets. *)
Definition any_order (order : nat -> list elem -> list elem) : Prop := forall k l, Permutation (order k l) l.

(** No selected rule belongs to an access list that an interface names. *)
Definition no_bound_rule (st : store) (bound : pystr -> bool) (r : list elem) : Prop :=
  forall i ru a, In (EObj i) r -> st_kind st i = KRule ru -> rr_id ru = Some a -> bound a = false.

Section C24.
  Context (st : store) (bound : pystr -> bool).

  Lemma resolve_main order r U fuel :
    any_order order -> well_formed st r -> no_bound_rule st bound r ->
    (forall e, reachable st r e -> In e U) -> (length U < fuel)%nat ->
    exists res after, resolve st bound order fuel r = (after, Ok res) /\
      (forall e, In e res <-> reachable st r e) /\
      (forall e, In e after -> In e res) /\
      (forall e, (exists x, In x r /\ direct st x e) \/ In e r -> In e after).
  Proof.
    intros O W B HU L. unfold resolve.
    assert (P0 := O 0%nat r).
    destruct (phase1 st bound (order 0%nat r) (mkrs r r true)) as [s x] eqn:P.
    assert (W0 : well_formed st (order 0%nat r)).
    { intros i I. apply W. eapply Permutation_in; eauto. }
    destruct (phase1_exn st bound (order 0%nat r) (mkrs r r true) W0) as [[X _]|[_ (e & I & i & ru & a & -> & K & A & Bd)]].
    2:{ rewrite (B i ru a) in Bd; auto; [discriminate|]. eapply Permutation_in; eauto. }
    rewrite P in X. cbn in X. subst x.
    pose proof (phase1_cur _ _ _ _ _ P) as C. cbn [cur] in C.
    destruct (phase1_arg _ _ _ _ _ _ P eq_refl eq_refl) as [Ar Sh].
    assert (C' : forall y, In y (cur s) <-> (exists e, In e r /\ direct st e y) \/ In y r).
    { intros y. rewrite C. split; (intros [(e & I & D)|I]; [left; exists e; split; auto|auto]);
        [eapply Permutation_in; eauto|eapply Permutation_in; [apply Permutation_sym; eauto|auto]]. }
    assert (R0 : forall y, In y (cur s) -> reachable st r y).
    { intros y I. apply C' in I as [(e & I & i & -> & [(ru & K & A)|[(a & b & K & A)|(a & b & K & A)]])|I].
      - eapply re_rule; eauto.
      - eapply re_real; eauto.
      - eapply re_mapped; eauto.
      - now apply re_start. }
    assert (I0 : inv st r s []).
    { split; [auto|]. split; [intros i []|]. split; [constructor|intros e []]. }
    destruct (closure_spec st r order O U HU fuel 1 s [] I0 ltac:(cbn; lia)) as (s' & E & M & [A1 A2] & R & Cl).
    rewrite E. exists (cur s'), (arg s'). split; [reflexivity|]. repeat split.
    - apply R.
    - intros H. induction H as [e I|i ru e I K A|i a b e I K A|i a b e I K A|i e H IH Ed].
      + apply M, C'. auto.
      + apply M, C'. left. exists (EObj i). split; auto. exists i. split; auto. left. eauto.
      + apply M, C'. left. exists (EObj i). split; auto. exists i. split; auto. right. left. eauto.
      + apply M, C'. left. exists (EObj i). split; auto. exists i. split; auto. right. right. eauto.
      + eapply Cl; eauto.
    - apply A2. rewrite Ar. auto.
    - intros e H. apply A1. rewrite Ar. now apply C'.
  Qed.

  (** On every object graph, cyclic or not, in which finitely many things are reachable,
      resolve terminates and returns exactly the reachable ones, whatever order the sets
      are iterated in. *)
  Theorem C24_least_closure r U :
    well_formed st r -> no_bound_rule st bound r ->
    (forall e, reachable st r e -> In e U) ->
    exists n, forall order fuel, any_order order -> (n <= fuel)%nat ->
      exists res after, resolve st bound order fuel r = (after, Ok res) /\
        (forall e, In e res <-> reachable st r e).
  Proof.
    intros W B HU. exists (S (length U)). intros order fuel O L.
    destruct (resolve_main order r U fuel O W B HU ltac:(lia)) as (res & after & E & H & _). eauto.
  Qed.

  (** The result does not depend on the iteration order. *)
  Theorem C24_order_independent r U order1 order2 :
    any_order order1 -> any_order order2 -> well_formed st r -> no_bound_rule st bound r ->
    (forall e, reachable st r e -> In e U) ->
    forall fuel, (length U < fuel)%nat ->
    exists res1 res2 after1 after2,
      resolve st bound order1 fuel r = (after1, Ok res1) /\
      resolve st bound order2 fuel r = (after2, Ok res2) /\ (forall e, In e res1 <-> In e res2).
  Proof.
    intros O1 O2 W B HU fuel L.
    destruct (resolve_main order1 r U fuel O1 W B HU L) as (res1 & a1 & E1 & H1 & _).
    destruct (resolve_main order2 r U fuel O2 W B HU L) as (res2 & a2 & E2 & H2 & _).
    exists res1, res2, a1, a2. split; [auto|]. split; [auto|]. intros e. rewrite H1, H2. tauto.
  Qed.

  (** The selection that is passed in is itself changed: afterwards it contains at least
      what its rules and NAT objects mention, and nothing outside the result. *)
  Theorem C24_argument_changed r U order :
    any_order order -> well_formed st r -> no_bound_rule st bound r ->
    (forall e, reachable st r e -> In e U) ->
    forall fuel, (length U < fuel)%nat ->
    exists res after, resolve st bound order fuel r = (after, Ok res) /\
      (forall e, In e r -> In e after) /\
      (forall i ru e, In (EObj i) r -> st_kind st i = KRule ru -> rule_attr st ru e -> In e after) /\
      (forall e, In e after -> In e res).
  Proof.
    intros O W B HU fuel L.
    destruct (resolve_main order r U fuel O W B HU L) as (res & after & E & H & H1 & H2).
    exists res, after. repeat split; auto.
    intros i ru e I K A. apply H2. left. exists (EObj i). split; auto. exists i. split; auto. left. eauto.
  Qed.
End C24.

Section C25.
  Context (st : store).

  (** A selection with a rule of a bound access list makes resolve raise TypeError; without
      one it never raises. *)
  Theorem C25_bound_acl_fails bound r U order fuel :
    any_order order -> well_formed st r ->
    (forall e, reachable st r e -> In e U) -> (length U < fuel)%nat ->
    (exists i ru a, In (EObj i) r /\ st_kind st i = KRule ru /\ rr_id ru = Some a /\ bound a = true) <->
    snd (resolve st bound order fuel r) = Err TypeError.
  Proof.
    intros O W HU L. split.
    - intros (i & ru & a & I & K & A & B). unfold resolve.
      assert (W0 : well_formed st (order 0%nat r)).
      { intros j J. apply W. eapply Permutation_in; [apply O|exact J]. }
      destruct (phase1_exn st bound (order 0%nat r) (mkrs r r true) W0) as [[X Y]|[X _]].
      + destruct (Y (EObj i)); [|exists i, ru, a; auto].
        eapply Permutation_in; [apply Permutation_sym, O|exact I].
      + destruct (phase1 st bound (order 0%nat r) (mkrs r r true)) as [s x]. cbn in X. subst x. reflexivity.
    - intros F.
      assert (D : (exists e, In e r /\ bound_rule st bound e) \/ no_bound_rule st bound r).
      { destruct (phase1_exn st bound r (mkrs r r true) W) as [[_ Y]|[_ (e & I & Y)]]; [right|left; eauto].
        intros i ru a I K A. destruct (bound a) eqn:B; auto. destruct (Y (EObj i) I). exists i, ru, a. auto. }
      destruct D as [(e & I & i & ru & a & -> & K & A & B)|D]; [exists i, ru, a; auto|].
      destruct (resolve_main st bound order r U fuel O W D HU L) as (res & after & E & _).
      rewrite E in F. discriminate.
  Qed.

  Theorem C25_otherwise_succeeds bound r U order fuel :
    any_order order -> well_formed st r -> no_bound_rule st bound r ->
    (forall e, reachable st r e -> In e U) -> (length U < fuel)%nat ->
    exists res, snd (resolve st bound order fuel r) = Ok res.
  Proof.
    intros O W B HU L. destruct (resolve_main st bound order r U fuel O W B HU L) as (res & after & E & _).
    exists res. now rewrite E.
  Qed.

  (** In a configuration: the bound access lists are those named by an access-group line
      inside an interface block (as IOS writes them).  A separate access-group line, as ASA
      writes them, does not count. *)
  Theorem C25_bound_in_configuration ifs items r U order fuel :
    any_order order -> well_formed st r -> NoDup (iface_ids items) ->
    (forall e, reachable st r e -> In e U) -> (length U < fuel)%nat ->
    let bound := dmem (c_agroups (build ifs items)) in
    (exists i ru a v, In (EObj i) r /\ st_kind st i = KRule ru /\ rr_id ru = Some a /\
       In v (inner_bindings ifs items) /\ ag_name v = a) <->
    snd (resolve st bound order fuel r) = Err TypeError.
  Proof.
    intros O W N HU L bound. rewrite <- (C25_bound_acl_fails bound r U order fuel O W HU L).
    split.
    - intros (i & ru & a & v & I & K & A & V & E). exists i, ru, a. repeat split; auto.
      apply (C32_index ifs items N a). eauto.
    - intros (i & ru & a & I & K & A & B). apply (C32_index ifs items N a) in B as (v & V & E).
      exists i, ru, a, v. auto.
  Qed.
End C25.

(** Witness: rule 0 mentions group 1; groups 1 and 2 contain each other (cyclic); 2 also
    contains host 3, which was written with the name object 4. *)
Definition ex_st : store := mkstore
  (fun i => match i with
            | 0 => KRule (mkrrule (Some (u "acl")) (EObj 5) (EObj 1) ENone (EObj 6) ENone ENone [])
            | 1 => KGroup (u "NetworkGroup") [EObj 2]
            | 2 => KGroup (u "NetworkGroup") [EObj 1; EObj 3]
            | 3 => KAddr (Some (EObj 4))
            | _ => KOther end%nat)
  (fun i => match i with 5 => Some (Some (u "tcp")) | _ => None end%nat).
Definition ex_all : list elem :=
  [EObj 0; EObj 1; EObj 2; EObj 3; EObj 4; EObj 5; EObj 6; ENone; EStr (u "acl"); EStr (u "NetworkGroup"); EStr (u "Names")]%nat.
Example ex_finite : forall e, reachable ex_st [EObj 0%nat] e -> In e ex_all.
Proof.
  intros e H. induction H as [e [<-|[]]|i r e [[= <-]|[]] K A|i a b e [[= <-]|[]] K A|i a b e [[= <-]|[]] K A|i e H IH Ed].
  - cbn; auto.
  - cbn in K. injection K as <-. destruct A as [| | | | |x Hx|Hx|i0 n0 A1 A2 A3 A4|t T]; cbn in *; auto 20; try congruence; try tauto.
    injection Hx as <-. auto 20.
  - discriminate.
  - discriminate.
  - unfold ex_all in IH. cbn [In] in IH.
    destruct IH as [[=<-]|[[=<-]|[[=<-]|[[=<-]|[[=<-]|[[=<-]|[[=<-]|IH]]]]]]];
      try (destruct Ed as [c m e K X|c m K|t K|t K|c K|f K|f K|a b K]; cbn in K; try discriminate K;
           injection K; intros; subst; cbn in *; intuition (subst; auto 20)).
    destruct IH as [[=]|[[=]|[[=]|[[=]|[]]]]].
Qed.
Example ex_wf : well_formed ex_st [EObj 0%nat] /\ no_bound_rule ex_st (fun _ => false) [EObj 0%nat].
Proof.
  split; [|intros i ru a _ _ _; reflexivity].
  intros i [[= <-]|[]]. split; [|discriminate]. cbn. intros r [= <-]. cbn. eauto.
Qed.
Example ex_run : snd (resolve ex_st (fun _ => false) (fun _ l => rev l) 20 [EObj 0%nat]) =
  Ok [EObj 0; EObj 5; EObj 1; ENone; EObj 6; EStr (u "acl"); EStr (u "NetworkGroup"); EObj 2; EObj 3; EObj 4; EStr (u "Names")]%nat.
Proof. reflexivity. Qed.
Example ex_typeerror : snd (resolve ex_st (str_eqb (u "acl")) (fun _ l => rev l) 20 [EObj 0%nat]) = Err TypeError.
Proof. reflexivity. Qed.

Print Assumptions C24_least_closure.
Print Assumptions C24_order_independent.
Print Assumptions C24_argument_changed.
Print Assumptions C25_bound_acl_fails.
Print Assumptions C25_otherwise_succeeds.
Print Assumptions C25_bound_in_configuration.
