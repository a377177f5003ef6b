(** Wildcards: the integer formulas of NetworkWildcard.__and__ are bitwise agreement. *)
From Coq Require Import Lia ZifyBool ZifyNat ZifyN.
From Verif.Model Require Import Base Ip Hosts.
From Verif.Spec Require Import AddrSpec.
From Verif.Proofs Require Import IpFacts.
Local Open Scope N_scope.

Lemma ldiff_eq_bits x y w :
  N.ldiff x w = N.ldiff y w <->
  (forall i, N.testbit w i = false -> N.testbit x i = N.testbit y i).
Proof.
  split.
  - intros H i Hi. apply (f_equal (fun z => N.testbit z i)) in H.
    rewrite !N.ldiff_spec, Hi in H. simpl in H. now rewrite !andb_true_r in H.
  - intros H. apply N.bits_inj. intro i. rewrite !N.ldiff_spec.
    destruct (N.testbit w i) eqn:E; [now rewrite !andb_false_r|]. now rewrite (H i E).
Qed.

Lemma wild_host_iff a w x : a_ver x = V4 -> valid x ->
  wild_host a w x = true <-> in_wild a w x.
Proof.
  intros E V. unfold wild_host, in_wild. rewrite N.eqb_eq, ldiff_eq_bits. tauto.
Qed.

Lemma div_eq_bits x y k :
  x / 2 ^ k = y / 2 ^ k <-> (forall i, k <= i -> N.testbit x i = N.testbit y i).
Proof.
  rewrite <- !N.shiftr_div_pow2. split.
  - intros H i Hi. apply (f_equal (fun z => N.testbit z (i - k))) in H.
    rewrite !N.shiftr_spec' in H. now replace (i - k + k) with i in H by lia.
  - intros H. apply N.bits_inj. intro i. rewrite !N.shiftr_spec'. apply H. lia.
Qed.

Lemma in_net_bits n x : net_wf n -> a_ver x = n_ver n ->
  in_net n x <->
  (forall i, bits (n_ver n) - n_plen n <= i -> N.testbit (a_val x) i = N.testbit (n_addr n) i).
Proof.
  intros (Hp & Ha & [q Hq]) E. rewrite <- div_eq_bits. unfold in_net.
  set (k := bits (n_ver n) - n_plen n) in *. pose proof (pow2_pos k) as P.
  rewrite Hq, N.div_mul by lia.
  pose proof (N.div_mod (a_val x) (2^k) ltac:(lia)) as D.
  pose proof (N.mod_lt (a_val x) (2^k) ltac:(lia)) as M.
  split.
  - intros [_ R]. nia.
  - intros F. split; auto. rewrite F in D. nia.
Qed.

Lemma net_low_bits n i : net_wf n -> i < bits (n_ver n) - n_plen n -> N.testbit (n_addr n) i = false.
Proof.
  intros (Hp & Ha & [q Hq]) L. rewrite Hq, <- N.shiftl_mul_pow2. now apply N.shiftl_spec_low.
Qed.

Lemma wild_net_iff a w n : net_wf n -> n_ver n = V4 -> valid a -> a_ver a = V4 ->
  wild_net a w n = true <-> exists x, in_net n x /\ in_wild a w x.
Proof.
  intros W V Va Ea. unfold wild_net. rewrite N.eqb_eq, ldiff_eq_bits.
  set (k := bits (n_ver n) - n_plen n) in *.
  assert (B : bits (n_ver n) = 32) by (now rewrite V).
  assert (Hp : n_plen n <= bits (n_ver n)) by apply W.
  unfold valid in Va. rewrite Ea in Va. simpl in Va.
  split.
  - intros H.
    set (x := N.lor (n_addr n) (N.land (a_val a) (N.ones k))).
    assert (Hhi : forall i, k <= i -> N.testbit x i = N.testbit (n_addr n) i).
    { intros i Hi. unfold x. rewrite N.lor_spec, N.land_spec, N.ones_spec_high by auto.
      now rewrite andb_false_r, orb_false_r. }
    assert (Hlo : forall i, i < k -> N.testbit x i = N.testbit (a_val a) i).
    { intros i Hi. unfold x. rewrite N.lor_spec, N.land_spec, N.ones_spec_low by auto.
      rewrite net_low_bits by auto. now rewrite andb_true_r. }
    assert (In : in_net n (mkaddr V4 x)).
    { apply in_net_bits; simpl; auto. }
    exists (mkaddr V4 x). split; auto. split; [reflexivity|]. split; [eapply in_net_valid; eauto|].
    simpl. intros i Hw. destruct (N.lt_ge_cases i k) as [L|L]; [now apply Hlo|].
    rewrite Hhi by auto. rewrite (H i Hw). rewrite N.land_spec. unfold netmask.
    rewrite netmask_bits by auto. fold k. destruct (N.leb_spec k i); [|lia]. simpl.
    destruct (N.ltb_spec i (bits (n_ver n))) as [L2|L2]; [now rewrite andb_true_r|].
    rewrite andb_false_r. symmetry. eapply lt_pow2_bits_high; eauto. lia.
  - intros (x & Hn & (Ex & Vx & Hx)) i Hw.
    assert (a_ver x = n_ver n) as E by congruence.
    rewrite (in_net_bits n x W E) in Hn. fold k in Hn.
    rewrite N.land_spec. unfold netmask. rewrite netmask_bits by auto. fold k.
    destruct (N.leb_spec k i) as [L|L]; simpl.
    + rewrite <- Hn by auto. rewrite (Hx i Hw).
      destruct (N.ltb_spec i (bits (n_ver n))) as [L2|L2]; [now rewrite andb_true_r|].
      rewrite andb_false_r. eapply lt_pow2_bits_high; eauto. lia.
    + rewrite andb_false_r. now apply net_low_bits.
Qed.

Lemma wild_inhabited a w : leaf_wf (LWild a w) -> in_wild a w a.
Proof. intros (E & V & _). split; auto. Qed.
