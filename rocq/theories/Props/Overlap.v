(** C01-C04, C16: the overlap operator [&] on address terms. *)
From Verif.Model Require Import Base Ip Hosts.
From Verif.Spec Require Import AddrSpec.
From Verif.Proofs Require Import IpFacts WildFacts AndFacts.
Local Open Scope N_scope.

(** ** C01: [x & y] is True exactly when some address is matched by both. *)
Theorem C01_overlap_exact : forall h x y,
  acyclic h -> term_wf h x -> term_wf h y -> plain h x -> plain h y ->
  wild_ok h x y -> inhabited h y ->
  exists limit, forall k, (limit <= k)%nat ->
    exists b, and_ k h x y = Ok b /\ (b = true <-> common h x y).
Proof. exact overlap_exact. Qed.
Print Assumptions C01_overlap_exact.

(** Without the inhabitation premise, the exact result: additionally True when the
    left side contains any / an interface (whatever the right side). *)
Theorem C01_overlap_exact_general : forall h rk x y k,
  ranked h rk -> term_wf h x -> term_wf h y -> plain h x -> plain h y -> wild_ok h x y ->
  (rank rk x + rank rk y + 3 <= k)%nat ->
  exists b, and_ k h x y = Ok b /\
    (b = true <-> common h x y \/ exists l, reaches h x l /\ anylike l = true).
Proof. exact and_exact. Qed.
Print Assumptions C01_overlap_exact_general.

(** ** C02: symmetry. *)
Theorem C02_symmetric : forall h x y k,
  acyclic h -> term_wf h x -> term_wf h y -> plain h x -> plain h y ->
  wild_ok h x y -> inhabited h x -> inhabited h y ->
  (exists limit, forall k, (limit <= k)%nat -> and_ k h x y = and_ k h y x) /\
  (forall b b', and_ k h x y = Ok b -> and_ k h y x = Ok b' -> b = b').
Proof. exact overlap_sym. Qed.
Print Assumptions C02_symmetric.

(** The answers differ exactly when one side is empty and the other contains any. *)
Theorem C02_asymmetry_characterised : forall h rk x y k,
  ranked h rk -> term_wf h x -> term_wf h y -> plain h x -> plain h y -> wild_ok h x y ->
  (rank rk x + rank rk y + 3 <= k)%nat ->
  and_ k h x y <> and_ k h y x <->
  (has_anylike h x /\ ~ inhabited h y \/ has_anylike h y /\ ~ inhabited h x).
Proof. exact overlap_asym. Qed.
Print Assumptions C02_asymmetry_characterised.

Definition empty_group_heap : heap := mkheap (fun _ => mkgroup [] [] [] []) 1.

Theorem C02_unconditional_refuted :
  exists h x y, acyclic h /\
    (forall k, (2 <= k)%nat -> and_ k h x y = Ok true /\ and_ k h y x = Ok false).
Proof.
  exists empty_group_heap, (HLeaf LAny), (HGrp 0). split.
  - exists (fun _ => 0%nat). intros g m [].
  - intros [|[|k]] H; try (inversion H; fail); [|split; reflexivity].
    exfalso. inversion H. inversion H1.
Qed.
Print Assumptions C02_unconditional_refuted.

(** ** C03: bounded recursion depth, for all terms (including ANY terms and empty
    groups), unless both sides contain a wildcard. *)
Theorem C03_terminates : forall h rk x y k,
  ranked h rk -> wildfree h x \/ wildfree h y ->
  (rank rk x + rank rk y + 3 <= k)%nat -> exists b, and_ k h x y = Ok b.
Proof. exact overlap_total. Qed.
Print Assumptions C03_terminates.

Theorem C03_result_independent_of_limit : forall k k' h x y b b',
  and_ k h x y = Ok b -> and_ k' h x y = Ok b' -> b = b'.
Proof.
  intros k k' h x y b b' H H'.
  apply (and_mono _ (k + k')%nat) in H; [|apply Nat.le_add_r].
  apply (and_mono _ (k + k')%nat) in H'; [congruence|rewrite Nat.add_comm; apply Nat.le_add_r].
Qed.
Print Assumptions C03_result_independent_of_limit.

Theorem C03_wildcard_wildcard_refuted : forall k h a w a' w',
  and_ k h (HLeaf (LWild a w)) (HLeaf (LWild a' w')) = Err RecursionError.
Proof. exact wild_wild_diverges. Qed.
Print Assumptions C03_wildcard_wildcard_refuted.

(** ** C04: wildcards are bitwise exact against IPv4 hosts and networks. *)
Theorem C04_wildcard_host : forall k h a w b,
  a_ver b = V4 -> valid b ->
  exists r, and_ (S k) h (HLeaf (LWild a w)) (HLeaf (LHost b)) = Ok r /\
    (r = true <->
     forall i, N.testbit (a_val w) i = false -> N.testbit (a_val b) i = N.testbit (a_val a) i).
Proof.
  intros k h a w b E V. eexists. split; [reflexivity|].
  rewrite wild_host_iff by auto. unfold in_wild. tauto.
Qed.
Print Assumptions C04_wildcard_host.

Theorem C04_wildcard_network : forall k h a w n,
  a_ver a = V4 -> valid a -> net_wf n -> n_ver n = V4 ->
  exists r, and_ (S k) h (HLeaf (LWild a w)) (HLeaf (LNet n)) = Ok r /\
    (r = true <-> exists x, in_net n x /\ in_wild a w x).
Proof.
  intros k h a w n E V W En. eexists. split; [reflexivity|]. now apply wild_net_iff.
Qed.
Print Assumptions C04_wildcard_network.

(** IPv6: wildcard 10.0.0.0/0.255.255.255 "overlaps" the IPv6 host ::a00:1 although
    a wildcard matches IPv4 addresses only. *)
Theorem C04_ipv6_refuted : forall k h, exists a w b,
  leaf_wf (LWild a w) /\ valid b /\ a_ver b = V6 /\
  and_ (S k) h (HLeaf (LWild a w)) (HLeaf (LHost b)) = Ok true /\
  ~ (exists x, leaf_matches (LWild a w) x /\ leaf_matches (LHost b) x).
Proof.
  intros k h. exists (mkaddr V4 (10 * 2 ^ 24)), (mkaddr V4 (2 ^ 24 - 1)), (mkaddr V6 (10 * 2 ^ 24 + 1)).
  split; [repeat split|]. split; [reflexivity|]. split; [reflexivity|]. split; [reflexivity|].
  intros (x & (E & _) & Hb). simpl in Hb. subst x. discriminate E.
Qed.
Print Assumptions C04_ipv6_refuted.

(** ** C16: the caf terms ANY, ANY4, ANY6. *)
Theorem C16_ANY_exact : forall h rk l y k,
  ranked h rk -> is_caf l = true -> (rank rk y + 1 <= k)%nat ->
  exists b, and_ k h (HLeaf l) y = Ok b /\
    (b = true <-> exists m, via_groups h y (HLeaf m) /\ literal_any l m).
Proof. exact caf_exact. Qed.
Print Assumptions C16_ANY_exact.

(** ** The premises are met by a concrete configuration: nested, shared groups, an
    object, IPv4 and IPv6 members.
      g0 = { 10.0.0.0/8, ::1 }   g1 = { g0, object{10.1.2.3, 192.168.0.0/16}, g0, any4 } *)
Definition ex_heap : heap :=
  mkheap (fun g => match g with
    | 0%nat => mkgroup (u "g0") [] [] [HLeaf (LNet (mknet V4 (10 * 2 ^ 24) 8)); HLeaf (LHost (mkaddr V6 1))]
    | 1%nat => mkgroup (u "g1") [] []
        [HGrp 0;
         HObj (mkobj (u "o") [] (Some (u "host"))
            [LHost (mkaddr V4 167838211); LNet (mknet V4 3232235520 16)]);
         HGrp 0; HLeaf LAny4]
    | _ => mkgroup [] [] [] []
    end) 2.

Ltac enum_reaches :=
  repeat match goal with
  | H : False |- _ => destruct H
  | H : _ \/ _ |- _ => destruct H as [H|H]; subst
  | H : In _ _ |- _ => cbn in H
  | H : reaches _ _ _ |- _ => inversion H; clear H; subst
  end.

Lemma ex_ranked : ranked ex_heap (fun g => g).
Proof.
  intros g m H. destruct g as [|[|g]]; cbn in H.
  - repeat (destruct H as [H|H]; [discriminate H|]); destruct H.
  - destruct H as [H|[H|[H|[H|H]]]]; try discriminate H; try (injection H as <-; constructor); destruct H.
  - destruct H.
Qed.

Example ex_premises :
  acyclic ex_heap /\ term_wf ex_heap (HGrp 1) /\ term_wf ex_heap (HGrp 0) /\
  plain ex_heap (HGrp 1) /\ plain ex_heap (HGrp 0) /\ wild_ok ex_heap (HGrp 1) (HGrp 0) /\
  inhabited ex_heap (HGrp 0) /\ inhabited ex_heap (HGrp 1) /\
  common ex_heap (HGrp 1) (HGrp 0).
Proof.
  assert (M0 : matches ex_heap (HGrp 0) (mkaddr V6 1)).
  { eapply M_grp; [right; left; reflexivity|]. now constructor. }
  assert (M1 : matches ex_heap (HGrp 1) (mkaddr V6 1)).
  { eapply M_grp; [left; reflexivity|]. exact M0. }
  split; [exists (fun g => g); apply ex_ranked|].
  split; [|split; [|split; [|split; [|split]]]].
  - intros l H. enum_reaches; cbn; auto; repeat split; try discriminate; try reflexivity.
    all: try (exists 40960; reflexivity). all: try (exists 10; reflexivity). exists 49320; reflexivity.
  - intros l H. enum_reaches; cbn; auto; repeat split; try discriminate; try reflexivity.
    exists 10; reflexivity.
  - intros l H. enum_reaches; reflexivity.
  - intros l H. enum_reaches; reflexivity.
  - split; left; intros l H; enum_reaches; reflexivity.
  - split; [|split]; [exists (mkaddr V6 1)|exists (mkaddr V6 1)|exists (mkaddr V6 1)]; auto.
Qed.

Example ex_overlap_runs :
  and_ 10 ex_heap (HGrp 1) (HGrp 0) = Ok true /\
  and_ 10 ex_heap (HGrp 0) (HLeaf (LNet (mknet V4 (11 * 2 ^ 24) 8))) = Ok false /\
  and_ 10 ex_heap (HLeaf LCafAny4) (HGrp 1) = Ok true /\
  and_ 10 ex_heap (HLeaf LCafAny4) (HGrp 0) = Ok false.
Proof. repeat split; vm_compute; reflexivity. Qed.
