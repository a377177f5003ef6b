(** Netmask recognition (C06), IOS wildcards (C07), wildcard enumeration (C05). *)
From Coq Require Import Lia ZifyBool ZifyNat ZifyN.
From Verif.Model Require Import Base Ip Hosts.
From Verif.Spec Require Import AddrSpec.
From Verif.Proofs Require Import LoopFacts IpFacts WildFacts.
Local Open Scope N_scope.

(** ** Trailing zeros *)
Lemma odd_part x : 0 < x -> exists t q, x = (2 * q + 1) * 2 ^ t.
Proof.
  induction x as [x IH] using (well_founded_induction N.lt_wf_0). intros P.
  destruct (N.even x) eqn:E.
  - apply N.even_spec in E. destruct E as [y ->].
    destruct (IH y) as (t & q & ->); [lia|lia|].
    exists (t + 1), q. rewrite N.pow_add_r. lia.
  - exists 0, (x / 2). assert (N.odd x = true) by (rewrite <- N.negb_even, E; auto).
    apply N.odd_spec in H. destruct H as [y ->].
    replace ((2 * y + 1) / 2) with y; [change (2 ^ 0) with 1; lia|].
    apply (N.div_unique _ 2 y 1); lia.
Qed.

Lemma ldiff_pred q t : N.ldiff ((2 * q + 1) * 2 ^ t - 1) ((2 * q + 1) * 2 ^ t) = N.ones t.
Proof.
  pose proof (pow2_pos t) as P.
  apply N.bits_inj. intro i. rewrite N.ldiff_spec.
  destruct (N.lt_ge_cases i t) as [L|L].
  - rewrite (N.ones_spec_low t i) by auto.
    rewrite <- (N.shiftl_mul_pow2 (2*q+1) t), N.shiftl_spec_low by auto. rewrite N.shiftl_mul_pow2.
    replace ((2 * q + 1) * 2 ^ t - 1) with (2 * q * 2 ^ t + (2 ^ t - 1)) by nia.
    rewrite <- lor_mul_ones, N.lor_spec, (N.ones_spec_low t i) by auto.
    now rewrite orb_true_r.
  - rewrite (N.ones_spec_high t i) by auto.
    replace ((2 * q + 1) * 2 ^ t - 1) with (2 * q * 2 ^ t + (2 ^ t - 1)) by nia.
    rewrite <- lor_mul_ones, N.lor_spec, (N.ones_spec_high t i) by auto.
    rewrite orb_false_r, <- !N.shiftl_mul_pow2, !N.shiftl_spec_high by lia.
    destruct (N.eq_dec i t) as [->|Ne].
    + rewrite N.sub_diag, N.testbit_even_0. reflexivity.
    + replace (i - t) with (N.succ (i - t - 1)) by lia.
      rewrite N.testbit_even_succ, N.testbit_odd_succ by lia. apply andb_negb_r.
Qed.

Lemma size_ones t : N.size (N.ones t) = t.
Proof.
  destruct (N.eq_dec t 0) as [->|Nz]; [reflexivity|].
  rewrite N.size_log2.
  - rewrite N.ones_equiv. rewrite N.log2_pred_pow2 by lia. lia.
  - rewrite N.ones_equiv. pose proof (N.pow_gt_lin_r 2 t). lia.
Qed.

(** [count_righthand_zero_bits]: the exponent of the largest power of two dividing. *)
Lemma crzb_spec x B : 0 < x -> exists t q,
  x = (2 * q + 1) * 2 ^ t /\ count_righthand_zero_bits x B = N.min B t.
Proof.
  intros P. destruct (odd_part x P) as (t & q & E). exists t, q. split; auto.
  unfold count_righthand_zero_bits. destruct (N.eqb_spec x 0); [lia|].
  rewrite E, ldiff_pred, size_ones. reflexivity.
Qed.

Lemma crzb_le x B : count_righthand_zero_bits x B <= B.
Proof. unfold count_righthand_zero_bits. destruct (x =? 0); lia. Qed.

Lemma crzb_divide x B k : k <= count_righthand_zero_bits x B -> (2 ^ k | x).
Proof.
  intros L. destruct (N.eq_dec x 0) as [->|Nz]; [apply N.divide_0_r|].
  destruct (crzb_spec x B) as (t & q & -> & E); [lia|]. rewrite E in L.
  exists ((2 * q + 1) * 2 ^ (t - k)). rewrite <- N.mul_assoc, <- N.pow_add_r.
  do 2 f_equal. lia.
Qed.

(** ** Netmask shapes *)
Lemma netmask_value v p : p <= bits v ->
  ip_int_from_prefix v p = 2 ^ bits v - 2 ^ (bits v - p).
Proof.
  intros H.
  assert (E : ip_int_from_prefix v p = (2 ^ p - 1) * 2 ^ (bits v - p)).
  { replace (2 ^ p - 1) with (N.ones p) by (rewrite N.ones_equiv, N.pred_sub; reflexivity).
    rewrite <- N.shiftl_mul_pow2. apply N.bits_inj. intro i. rewrite netmask_bits by auto.
    destruct (N.leb_spec (bits v - p) i) as [L|L]; simpl.
    - rewrite N.shiftl_spec_high by lia. destruct (N.ltb_spec i (bits v)).
      + rewrite N.ones_spec_low by lia. reflexivity.
      + rewrite N.ones_spec_high by lia. reflexivity.
    - now rewrite N.shiftl_spec_low. }
  rewrite E. rewrite N.mul_sub_distr_r, <- N.pow_add_r. f_equal; [f_equal|]; lia.
Qed.

Definition nm (v : ver) (p : N) : N := 2 ^ bits v - 2 ^ (bits v - p).

Lemma pow_split v p : p <= bits v -> 2 ^ bits v = 2 ^ p * 2 ^ (bits v - p).
Proof. intros H. rewrite <- N.pow_add_r. f_equal. lia. Qed.

Lemma prefix_from_ip_int_iff v q p : q < 2 ^ bits v ->
  prefix_from_ip_int v q = Some p <-> p <= bits v /\ q = nm v p.
Proof.
  intros Q. unfold prefix_from_ip_int, nm.
  destruct (N.eq_dec q 0) as [->|Nz].
  { unfold count_righthand_zero_bits. simpl (0 =? 0). cbv iota.
    rewrite N.sub_diag, N.shiftr_0_l. simpl. split.
    - intros [= <-]. split; [lia|]. rewrite N.sub_0_r. lia.
    - intros [Hp E]. f_equal.
      assert (2 ^ bits v <= 2 ^ (bits v - p)) as L by lia.
      apply N.pow_le_mono_r_iff in L; lia. }
  destruct (crzb_spec q (bits v)) as (t & r & E & C); [lia|]. rewrite C.
  assert (T : t < bits v).
  { destruct (N.lt_ge_cases t (bits v)) as [L|L]; auto.
    apply (N.pow_le_mono_r 2) in L; [|lia]. nia. }
  rewrite N.min_r by lia.
  rewrite E at 1. rewrite N.shiftr_div_pow2, N.div_mul by (apply N.pow_nonzero; lia).
  rewrite N.shiftl_1_l.
  destruct (N.eqb_spec (2 * r + 1) (2 ^ (bits v - t) - 1)) as [F|F].
  - assert (Eq : q = 2 ^ bits v - 2 ^ t).
    { rewrite E, F. pose proof (pow_split v (bits v - t) ltac:(lia)) as S.
      replace (bits v - (bits v - t)) with t in S by lia. rewrite S.
      rewrite N.mul_sub_distr_r. lia. }
    split.
    + intros [= <-]. split; [lia|]. replace (bits v - (bits v - t)) with t by lia. auto.
    + intros [Hp Ep]. f_equal. rewrite Eq in Ep.
      pose proof (N.pow_lt_mono_r 2 t (bits v) ltac:(lia) T).
      pose proof (N.pow_le_mono_r 2 (bits v - p) (bits v) ltac:(lia) ltac:(lia)).
      assert (2 ^ t = 2 ^ (bits v - p)) as G by lia.
      apply N.pow_inj_r in G; lia.
  - split; [discriminate|]. intros [Hp Ep]. exfalso. apply F.
    assert (p <> 0).
    { intros ->. rewrite N.sub_0_r in Ep. lia. }
    assert (q = (2 * (2 ^ (p - 1) - 1) + 1) * 2 ^ (bits v - p)) as E2.
    { rewrite Ep, (pow_split v p Hp).
      assert (2 ^ p = 2 * 2 ^ (p - 1)) as P2.
      { rewrite <- N.pow_succ_r'. f_equal. lia. }
      rewrite P2. pose proof (pow2_pos (p - 1)). pose proof (pow2_pos (bits v - p)). nia. }
    (* uniqueness of the odd part *)
    assert (t = bits v - p) as Ht.
    { rewrite E2 in E. clear - E. set (s := 2 ^ (p-1) - 1) in *. clearbody s.
      set (w := bits v - p) in *. clearbody w.
      destruct (N.lt_trichotomy t w) as [L|[L|L]]; auto; exfalso.
      - replace w with (t + (1 + (w - t - 1))) in E by lia.
        rewrite !N.pow_add_r in E. change (2 ^ 1) with 2 in E.
        pose proof (pow2_pos t).
        assert ((2 * s + 1) * (2 * 2 ^ (w - t - 1)) = 2 * r + 1) by nia. lia.
      - replace t with (w + (1 + (t - w - 1))) in E by lia.
        rewrite !N.pow_add_r in E. change (2 ^ 1) with 2 in E.
        pose proof (pow2_pos w).
        assert ((2 * r + 1) * (2 * 2 ^ (t - w - 1)) = 2 * s + 1) by nia. lia. }
    subst t. rewrite E2 in E.
    assert (2 * (2 ^ (p - 1) - 1) + 1 = 2 * r + 1) as E3.
    { pose proof (pow2_pos (bits v - p)). nia. }
    rewrite <- E3. replace (bits v - (bits v - p)) with p by lia.
    assert (2 ^ p = 2 * 2 ^ (p - 1)) as P2.
    { rewrite <- N.pow_succ_r'. f_equal. lia. }
    pose proof (pow2_pos (p - 1)). lia.
Qed.

Lemma prefix_from_ip_int_none v q : q < 2 ^ bits v ->
  prefix_from_ip_int v q = None <-> ~ exists p, p <= bits v /\ q = nm v p.
Proof.
  intros Q. split.
  - intros H (p & Hp). apply (prefix_from_ip_int_iff v q p Q) in Hp. congruence.
  - intros H. destruct (prefix_from_ip_int v q) as [p|] eqn:E; auto.
    exfalso. apply H. exists p. now apply prefix_from_ip_int_iff.
Qed.

Lemma lxor_all_ones v q : q < 2 ^ bits v -> N.lxor q (all_ones v) = 2 ^ bits v - 1 - q.
Proof.
  intros Q.
  replace (2 ^ bits v - 1) with (N.ones (bits v)) by (rewrite N.ones_equiv, N.pred_sub; reflexivity).
  assert (L : N.ldiff q (N.ones (bits v)) = 0).
  { apply N.bits_inj. intro i. rewrite N.ldiff_spec, N.bits_0.
    destruct (N.lt_ge_cases i (bits v)).
    - rewrite N.ones_spec_low by auto. apply andb_false_r.
    - rewrite (lt_pow2_bits_high q (bits v) i) by auto. reflexivity. }
  rewrite N.sub_nocarry_ldiff by exact L. unfold all_ones.
  apply N.bits_inj. intro i. rewrite N.lxor_spec, N.ldiff_spec.
  destruct (N.lt_ge_cases i (bits v)).
  - rewrite N.ones_spec_low by auto. destruct (N.testbit q i); reflexivity.
  - rewrite N.ones_spec_high by auto. rewrite (lt_pow2_bits_high q (bits v) i) by auto. reflexivity.
Qed.

(** ** Network(address, mask) *)
Lemma make_netmask_le v m p : mask_in_range m ->
  make_netmask v m = Some p -> p <= bits v.
Proof.
  destruct m as [n|q]; simpl; intros Hq.
  - destruct (N.leb_spec n (bits v)); congruence.
  - destruct v; [|discriminate].
    destruct (prefix_from_ip_int V4 q) eqn:E.
    + intros [= <-]. apply prefix_from_ip_int_iff in E; auto. tauto.
    + intros H. apply prefix_from_ip_int_iff in H; [tauto|].
      rewrite lxor_all_ones by auto. simpl. lia.
Qed.

Lemma ip_network_wf strict a m n : valid a ->
  mask_in_range m ->
  ip_network strict a m = Ok n ->
  net_wf n /\ n_ver n = a_ver a /\ make_netmask (a_ver a) m = Some (n_plen n) /\
  n_addr n = a_val a / 2 ^ (bits (a_ver a) - n_plen n) * 2 ^ (bits (a_ver a) - n_plen n).
Proof.
  intros V Hm. unfold ip_network. destruct (make_netmask (a_ver a) m) as [p|] eqn:E; [|discriminate].
  pose proof (make_netmask_le _ _ _ Hm E) as Hp.
  rewrite land_mask by auto.
  assert (K : a_val a / 2 ^ (bits (a_ver a) - p) * 2 ^ (bits (a_ver a) - p) <= a_val a).
  { pose proof (N.mul_div_le (a_val a) (2 ^ (bits (a_ver a) - p))
      ltac:(apply N.pow_nonzero; lia)). lia. }
  destruct (N.eqb_spec (a_val a / 2 ^ (bits (a_ver a) - p) * 2 ^ (bits (a_ver a) - p)) (a_val a)) as [F|F].
  - intros [= <-]. simpl. repeat split; auto. exists (a_val a / 2 ^ (bits (a_ver a) - p)); auto.
  - destruct strict; [discriminate|]. intros [= <-]. simpl. repeat split; auto.
    + eapply N.le_lt_trans; [exact K|exact V].
    + exists (a_val a / 2 ^ (bits (a_ver a) - p)); auto.
Qed.

(** Rebuilding a network that has no host bits gives the same network. *)
Lemma ip_network_aligned strict n : net_wf n ->
  ip_network strict (mkaddr (n_ver n) (n_addr n)) (MaskLen (n_plen n)) = Ok n.
Proof.
  intros (Hp & Ha & [q Hq]). unfold ip_network. simpl.
  destruct (N.leb_spec (n_plen n) (bits (n_ver n))); [|lia].
  rewrite land_mask by auto. rewrite Hq at 1 2.
  rewrite N.div_mul by (apply N.pow_nonzero; lia). rewrite <- Hq, N.eqb_refl. destruct n; reflexivity.
Qed.

(** ** C06 *)
Lemma make_netmask_denotes v m p : mask_in_range m ->
  make_netmask v m = Some p <-> mask_denotes v m p.
Proof.
  destruct m as [n|q]; simpl; intros Hq.
  - destruct (N.leb_spec n (bits v)); split.
    + intros [= <-]. auto.
    + intros [-> _]; auto.
    + discriminate.
    + intros [-> ?]; lia.
  - destruct v; [|split; [discriminate|intros [? _]; discriminate]].
    unfold netmask_shape, hostmask_shape.
    pose proof (prefix_from_ip_int_iff V4 q) as A. unfold nm in A. simpl bits in A.
    pose proof (lxor_all_ones V4 q Hq) as X. simpl bits in X.
    destruct (prefix_from_ip_int V4 q) as [p'|] eqn:E.
    + pose proof (proj1 (A p' Hq) eq_refl) as Hp'. split.
      * intros [= <-]. split; auto.
      * intros [_ [Hp|[_ N]]]; [now apply A|]. exfalso. apply N. exists p'. auto.
    + rewrite prefix_from_ip_int_iff by (rewrite X; simpl; lia).
      rewrite X. unfold nm. simpl bits.
      assert (Nn : ~ exists p', p' <= 32 /\ q = 2 ^ 32 - 2 ^ (32 - p')).
      { intros (p' & Hp'). apply (A p' Hq) in Hp'. congruence. }
      assert (P32 : 2 ^ 32 = 4294967296) by reflexivity.
      pose proof (pow2_pos (32 - p)) as Pp.
      split.
      * intros [Hp H]. split; auto. right. split; [|exact Nn]. split; auto.
        pose proof (N.pow_le_mono_r 2 (32 - p) 32 ltac:(lia) ltac:(lia)). lia.
      * intros [_ [H|[[Hp H] _]]]; [exfalso; eauto|]. split; auto.
        pose proof (N.pow_le_mono_r 2 (32 - p) 32 ltac:(lia) ltac:(lia)). lia.
Qed.

Lemma masked_agrees n a x : net_wf n -> n_ver n = a_ver a ->
  n_addr n = a_val a / 2 ^ (bits (a_ver a) - n_plen n) * 2 ^ (bits (a_ver a) - n_plen n) ->
  in_net n x <-> agrees_leading a (n_plen n) x.
Proof.
  intros W E H. split.
  - intros Hx. pose proof (in_net_valid n x W Hx) as V. pose proof (proj1 Hx) as Ex.
    split; [congruence|]. split; auto.
    rewrite (in_net_bits n x W Ex) in Hx. rewrite E in Hx.
    intros i Hi. rewrite Hx by auto. revert i Hi. apply div_eq_bits. rewrite H.
    now rewrite N.div_mul by (apply N.pow_nonzero; lia).
  - intros (Ev & V & Hb). rewrite in_net_bits by (auto; congruence). rewrite E.
    intros i Hi. rewrite Hb by auto. revert i Hi. apply div_eq_bits. rewrite H.
    now rewrite N.div_mul by (apply N.pow_nonzero; lia).
Qed.

Lemma mk_Network_char a m : valid a -> mask_in_range m ->
  (forall p, mask_denotes (a_ver a) m p ->
     exists n, mk_Network a m = Ok (LNet n) /\ net_wf n /\ n_plen n = p /\
       forall x, leaf_matches (LNet n) x <-> agrees_leading a p x) /\
  ((~ exists p, mask_denotes (a_ver a) m p) -> mk_Network a m = Err ValueError).
Proof.
  intros V M. unfold mk_Network. split.
  - intros p D. apply make_netmask_denotes in D; auto.
    assert (exists n, ip_network false a m = Ok n) as [n Hn].
    { unfold ip_network. rewrite D. destruct (_ =? _); eauto. }
    rewrite Hn. simpl. exists n.
    destruct (ip_network_wf false a m n V) as (W & Ev & Em & Ea); auto.
    assert (n_plen n = p) by congruence. subst p.
    split; auto. split; auto. split; auto. intros x. now apply masked_agrees.
  - intros H. unfold ip_network. destruct (make_netmask (a_ver a) m) as [p|] eqn:E; auto.
    exfalso. apply H. exists p. now apply make_netmask_denotes.
Qed.

(** ** C07 *)
Lemma hostmask_bits q p i : hostmask_shape q p -> N.testbit q i = (i <? 32 - p).
Proof.
  intros [Hp ->].
  replace (2 ^ (32 - p) - 1) with (N.ones (32 - p)) by (rewrite N.ones_equiv, N.pred_sub; reflexivity).
  destruct (N.ltb_spec i (32 - p)); [now rewrite N.ones_spec_low|now rewrite N.ones_spec_high].
Qed.

Lemma matches_leaf_iff h l x : matches h (HLeaf l) x <-> leaf_matches l x.
Proof. split; [inversion 1; auto|now constructor]. Qed.

Lemma ios_host_good h a w x : a_ver a = V4 -> valid a -> a_ver w = V4 -> valid w ->
  (~ exists p, netmask_shape (a_val w) p) ->
  matches h (ios_host (IWildcard a w)) x <-> in_wild a w x.
Proof.
  intros Ea Va Ew Vw N. unfold ios_host.
  assert (M : mask_in_range (MaskQuad (a_val w))).
  { unfold valid in Vw. rewrite Ew in Vw. exact Vw. }
  destruct (mk_Network_char a (MaskQuad (a_val w)) Va M) as [H1 H2].
  destruct (mk_Network a (MaskQuad (a_val w))) as [l|e] eqn:E.
  - unfold mk_Network in E. destruct (ip_network false a (MaskQuad (a_val w))) as [n|] eqn:En; [|discriminate].
    destruct (ip_network_wf _ _ _ _ Va M En) as (_ & _ & Em & _).
    apply make_netmask_denotes in Em as D; auto.
    destruct (H1 _ D) as (n' & [= Hl] & _ & _ & Hx). subst l.
    rewrite matches_leaf_iff, Hx. destruct D as (_ & [D|[D _]]); [exfalso; eauto|].
    unfold agrees_leading, in_wild. rewrite Ea. simpl bits.
    split; intros (P & Q & R); (split; [auto|split; [auto|]]); intros i Hi; apply R.
    + rewrite (hostmask_bits _ _ i D) in Hi. lia.
    + rewrite (hostmask_bits _ _ i D). lia.
  - rewrite matches_leaf_iff. reflexivity.
Qed.

Lemma ios_host_netmask h a w p x : a_ver a = V4 -> valid a -> a_ver w = V4 -> valid w ->
  netmask_shape (a_val w) p ->
  matches h (ios_host (IWildcard a w)) x <-> agrees_leading a p x.
Proof.
  intros Ea Va Ew Vw Hp. unfold ios_host.
  assert (M : mask_in_range (MaskQuad (a_val w))).
  { unfold valid in Vw. rewrite Ew in Vw. exact Vw. }
  destruct (mk_Network_char a (MaskQuad (a_val w)) Va M) as [H1 _].
  destruct (H1 p) as (n & -> & _ & _ & Hx). { split; auto. }
  now rewrite matches_leaf_iff, Hx.
Qed.

Lemma netmask_shape_bits q p i : netmask_shape q p -> N.testbit q i = (32 - p <=? i) && (i <? 32).
Proof.
  intros [Hp ->]. pose proof (netmask_value V4 p Hp) as E. simpl bits in E. rewrite <- E.
  rewrite netmask_bits by auto. reflexivity.
Qed.

(** The address differing in the last bit separates the two readings. *)
Lemma ios_host_exact h a w : a_ver a = V4 -> valid a -> a_ver w = V4 -> valid w ->
  (forall x, matches h (ios_host (IWildcard a w)) x <-> in_wild a w x) <->
  ~ exists p, netmask_shape (a_val w) p.
Proof.
  intros Ea Va Ew Vw. split; [|intros N x; now apply ios_host_good].
  intros H (p & Hp).
  set (x := mkaddr V4 (N.lxor (a_val a) 1)).
  assert (Hb : forall i, N.testbit (a_val x) i = xorb (N.testbit (a_val a) i) (i =? 0)).
  { intros i. unfold x; simpl. rewrite N.lxor_spec.
    destruct i as [|[]]; reflexivity. }
  assert (Vx : valid x).
  { unfold valid; simpl. apply bits_high_lt_pow2. intros i Hi. change (N.lxor (a_val a) 1) with (a_val x).
    rewrite Hb. unfold valid in Va. rewrite Ea in Va. simpl in Va.
    rewrite (lt_pow2_bits_high _ 32 i) by auto. destruct (N.eqb_spec i 0); [lia|reflexivity]. }
  specialize (H x). rewrite (ios_host_netmask h a w p x) in H by auto.
  pose proof (proj1 Hp) as Lp.
  destruct (N.eq_dec p 32) as [->|Np].
  - (* all wild: x is wild-matched but not equal to a *)
    assert (in_wild a w x) as W.
    { split; auto. split; auto. intros i Hi. rewrite (netmask_shape_bits _ _ i Hp) in Hi.
      assert (32 <= i) by lia. rewrite Hb. destruct (N.eqb_spec i 0); [lia|now rewrite xorb_false_r]. }
    apply H in W. destruct W as (_ & _ & W). specialize (W 0). rewrite Hb in W.
    rewrite Ea in W. specialize (W ltac:(simpl; lia)). simpl in W. destruct (N.testbit (a_val a) 0); discriminate.
  - assert (agrees_leading a p x) as L.
    { split; [now rewrite Ea|]. split; auto. rewrite Ea. simpl bits. intros i Hi. rewrite Hb.
      destruct (N.eqb_spec i 0); [lia|now rewrite xorb_false_r]. }
    apply H in L. destruct L as (_ & _ & L). specialize (L 0). rewrite (netmask_shape_bits _ _ 0 Hp) in L.
    rewrite Hb in L. assert ((32 - p <=? 0) && (0 <? 32) = false) by lia.
    specialize (L H0). simpl in L. destruct (N.testbit (a_val a) 0); discriminate.
Qed.

(** ** C05 *)
Definition wa_target (a w : addr) (x : N) : Prop :=
  x < 2 ^ 32 /\ N.ldiff x (a_val w) = N.ldiff (a_val a) (a_val w).

Definition item_v4 (i : ipobj) : Prop :=
  match i with IAddr a => a_ver a = V4 | INet n => n_ver n = V4 /\ net_wf n end.

Definition wa_inv (a w : addr) (st : wa_state) : Prop :=
  let '(todo, l) := st in
  (forall a0 w0, In (a0, w0) todo ->
     a0 < 2 ^ 32 /\ w0 < 2 ^ 32 /\ N.land a0 w0 = 0 /\ In (IAddr (mkaddr V4 a0)) l /\
     (forall x, N.ldiff x w0 = a0 -> wa_target a w x)) /\
  (forall i, In i l -> item_v4 i /\ forall x, item_matches i x -> wa_target a w (a_val x)) /\
  (forall x, wa_target a w x -> covers l (mkaddr V4 x) \/
     exists a0 w0, In (a0, w0) todo /\ N.ldiff x w0 = a0).

Fixpoint wa_mu_todo (l : list (N * N)) : N :=
  match l with [] => 0 | (_, w) :: l' => 2 * w + 1 + wa_mu_todo l' end.
Definition wa_mu (st : wa_state) : N := wa_mu_todo (fst st) + 1.

Lemma wa_mu_app l l' : wa_mu_todo (l ++ l') = wa_mu_todo l + wa_mu_todo l'.
Proof. induction l as [|[x y] l IH]; simpl; auto. rewrite IH. lia. Qed.

Lemma ldiff_pow2 x b : N.testbit x b = true -> N.ldiff x (N.shiftl 1 b) = x - 2 ^ b.
Proof.
  intros H. rewrite N.shiftl_1_l. symmetry. apply N.sub_nocarry_ldiff.
  apply N.bits_inj. intro i. rewrite N.ldiff_spec, N.bits_0, N.pow2_bits_eqb.
  destruct (N.eqb_spec b i) as [->|]; [now rewrite H|reflexivity].
Qed.

Lemma covers_cons i l x : covers l x -> covers (i :: l) x.
Proof. intros (j & Hj & M). exists j. simpl; auto. Qed.

Lemma wa_step a w st : wa_inv a w st ->
  (exists l, wa_body st = Ok (SDone l) /\ wa_inv a w ([], l)) \/
  (exists st', wa_body st = Ok (SMore st') /\ wa_inv a w st' /\ wa_mu st' < wa_mu st).
Proof.
  destruct st as [todo l]. intros (HT & HL & HC).
  destruct todo as [|[a0 w0] rest].
  { left. exists l. split; [reflexivity|]. split; [exact HT|split; [exact HL|exact HC]]. }
  right. destruct (HT a0 w0 (or_introl eq_refl)) as (Ha & Hw & Hz & Hin & Hsub).
  assert (HT' : forall x y, In (x, y) rest -> x < 2 ^ 32 /\ y < 2 ^ 32 /\ N.land x y = 0 /\
     In (IAddr (mkaddr V4 x)) l /\ (forall z, N.ldiff z y = x -> wa_target a w z)).
  { intros x y Hxy. apply HT. simpl; auto. }
  unfold wa_body. destruct (N.ltb_spec 0 w0) as [Pw|Pw].
  2:{ (* w0 = 0 *)
    assert (w0 = 0) by lia. subst w0. exists (rest, l). split; [reflexivity|]. split.
    - split; [exact HT'|split; [exact HL|]].
      intros x Hx. destruct (HC x Hx) as [C|(b & y & [E|E] & D)]; auto.
      + injection E as <- <-. rewrite N.ldiff_0_r in D. subst x. left.
        exists (IAddr (mkaddr V4 a0)). split; auto. reflexivity.
      + right. eauto.
    - unfold wa_mu; simpl. lia. }
  set (b := N.log2 w0).
  assert (Hb : N.testbit w0 b = true) by (apply N.bit_log2; lia).
  destruct (N.log2_spec w0 Pw) as [Lo Hi]. fold b in Lo, Hi. rewrite <- N.add_1_r in Hi.
  assert (B32 : b < 32).
  { destruct (N.lt_ge_cases b 32) as [L|L]; auto. apply (N.pow_le_mono_r 2) in L; lia. }
  assert (Hab : N.testbit a0 b = false).
  { pose proof (f_equal (fun z => N.testbit z b) Hz) as F. cbv beta in F.
    rewrite N.land_spec, Hb, N.bits_0, andb_true_r in F. exact F. }
  destruct (N.eqb_spec w0 (2 ^ (b + 1) - 1)) as [Ec|Ec].
  - (* contiguous *)
    assert (w0 = N.ones (b + 1)) as Eo by (rewrite Ec, N.ones_equiv, N.pred_sub; reflexivity).
    assert (W : net_wf (mknet V4 a0 (31 - b))).
    { split; [simpl; lia|]. split; [exact Ha|]. simpl. replace (32 - (31 - b)) with (b + 1) by lia.
      exists (a0 / 2 ^ (b + 1)).
      assert (a0 mod 2 ^ (b + 1) = 0) as M by (rewrite <- N.land_ones, <- Eo; auto).
      pose proof (N.div_mod a0 (2 ^ (b + 1)) ltac:(apply N.pow_nonzero; lia)). lia. }
    pose proof (ip_network_aligned true _ W) as Hn. simpl in Hn. simpl n_plen in Hn.
    exists (rest, INet (mknet V4 a0 (31 - b)) :: l). split.
    { change (N.log2 w0) with b. rewrite Hn. reflexivity. }
    assert (In_iff : forall x, in_net (mknet V4 a0 (31 - b)) (mkaddr V4 x) <-> N.ldiff x w0 = a0).
    { intros x. rewrite in_net_bits by auto. simpl. replace (32 - (31 - b)) with (b + 1) by lia.
      rewrite Eo in *. split.
      - intros H. apply N.bits_inj. intro i. rewrite N.ldiff_spec.
        destruct (N.lt_ge_cases i (b + 1)) as [L|L].
        + rewrite N.ones_spec_low by auto. rewrite andb_false_r.
          pose proof (f_equal (fun z => N.testbit z i) Hz) as F. cbv beta in F.
          rewrite N.land_spec, N.ones_spec_low, N.bits_0, andb_true_r in F by auto. auto.
        + rewrite N.ones_spec_high by auto. rewrite andb_true_r. auto.
      - intros H i L. rewrite <- H, N.ldiff_spec, N.ones_spec_high by auto. now rewrite andb_true_r. }
    split.
    + split; [|split].
      * intros y z Hyz. destruct (HT' _ _ Hyz) as (P1 & P2 & P3 & P4 & P5).
        split; auto. split; auto. split; auto. split; auto. simpl; auto.
      * intros i [<-|Hi']; [|now apply HL]. split; [simpl; auto|].
        intros [vx x] Hx. assert (vx = V4) by (apply Hx). subst vx. apply In_iff in Hx. now apply Hsub.
      * intros x Hx. destruct (HC x Hx) as [C|(y & z & [E|E] & D)].
        -- left. now apply covers_cons.
        -- injection E as <- <-. left. exists (INet (mknet V4 a0 (31 - b))). split; [simpl; auto|].
           now apply In_iff.
        -- right. eauto.
    + unfold wa_mu; simpl. lia.
  - (* split on the top bit *)
    set (a1 := N.lor a0 (N.shiftl 1 b)). set (w1 := N.ldiff w0 (N.shiftl 1 b)).
    assert (Ew1 : w1 = w0 - 2 ^ b) by (now apply ldiff_pow2).
    assert (Hlt : w1 < 2 ^ b). { rewrite N.pow_add_r in Hi. change (2^1) with 2 in Hi. lia. }
    pose proof (pow2_pos b) as Pb.
    assert (Ba1 : forall i, N.testbit a1 i = N.testbit a0 i || (b =? i)).
    { intros i. unfold a1. now rewrite N.lor_spec, N.shiftl_1_l, N.pow2_bits_eqb. }
    assert (Bw1 : forall i, N.testbit w1 i = N.testbit w0 i && negb (b =? i)).
    { intros i. unfold w1. now rewrite N.ldiff_spec, N.shiftl_1_l, N.pow2_bits_eqb. }
    destruct (N.eqb_spec w0 w1) as [X|_]; [lia|]. rewrite andb_false_r. simpl negb. cbv iota.
    eexists. split; [reflexivity|].
    assert (a1lt : a1 < 2 ^ 32).
    { apply bits_high_lt_pow2. intros i L. rewrite Ba1, (lt_pow2_bits_high a0 32 i) by auto.
      destruct (N.eqb_spec b i); [lia|reflexivity]. }
    assert (Hbits : forall i, N.testbit a0 i && N.testbit w0 i = false).
    { intros i. rewrite <- N.land_spec, Hz. apply N.bits_0. }
    assert (D0 : forall x, N.ldiff x w1 = a0 -> N.ldiff x w0 = a0).
    { intros x D. apply N.bits_inj. intro i. pose proof (f_equal (fun z => N.testbit z i) D) as F.
      cbv beta in F. rewrite N.ldiff_spec, Bw1 in F. rewrite N.ldiff_spec.
      destruct (N.eqb_spec b i) as [Eb|Nb]; [rewrite <- Eb in *; clear Eb|]; simpl in F; rewrite ?andb_true_r, ?andb_false_r in F.
      - rewrite Hb, Hab. now rewrite andb_false_r.
      - exact F. }
    assert (D1 : forall x, N.ldiff x w1 = a1 -> N.ldiff x w0 = a0).
    { intros x D. apply N.bits_inj. intro i. pose proof (f_equal (fun z => N.testbit z i) D) as F.
      cbv beta in F. rewrite N.ldiff_spec, Bw1, Ba1 in F. rewrite N.ldiff_spec.
      destruct (N.eqb_spec b i) as [Eb|Nb]; [rewrite <- Eb in *; clear Eb|].
      - rewrite Hb, Hab. now rewrite andb_false_r.
      - simpl in F. now rewrite andb_true_r, orb_false_r in F. }
    assert (D2 : forall x, N.ldiff x w0 = a0 -> N.ldiff x w1 = a0 \/ N.ldiff x w1 = a1).
    { intros x D. destruct (N.testbit x b) eqn:Tx; [right|left];
        apply N.bits_inj; intro i; pose proof (f_equal (fun z => N.testbit z i) D) as F;
        cbv beta in F; rewrite N.ldiff_spec in F; rewrite N.ldiff_spec, Bw1, ?Ba1;
        (destruct (N.eqb_spec b i) as [Eb|Nb]; [rewrite <- Eb in *; clear Eb|]); simpl;
        rewrite ?Tx, ?Hab, ?andb_true_r, ?andb_false_r, ?orb_false_r, ?orb_true_r; auto. }
    assert (L0 : N.land a0 w1 = 0).
    { apply N.bits_inj. intro i. rewrite N.land_spec, Bw1, N.bits_0, andb_assoc, Hbits. reflexivity. }
    assert (L1 : N.land a1 w1 = 0).
    { apply N.bits_inj. intro i. rewrite N.land_spec, Bw1, Ba1, N.bits_0.
      destruct (N.eqb_spec b i) as [Eb|Nb]; [rewrite <- Eb in *; clear Eb|]; simpl; [now rewrite !andb_false_r|].
      rewrite orb_false_r, andb_true_r. apply Hbits. }
    assert (S0 : forall x, N.ldiff x w1 = a0 -> wa_target a w x) by auto.
    assert (S1 : forall x, N.ldiff x w1 = a1 -> wa_target a w x) by auto.
    split.
    + split; [|split].
      * intros y z Hyz. apply in_app_or in Hyz. destruct Hyz as [Hyz|[E|[]]].
        -- apply in_app_or in Hyz. destruct Hyz as [Hyz|[E|[]]].
           ++ destruct (HT' _ _ Hyz) as (P1 & P2 & P3 & P4 & P5).
              split; auto. split; auto. split; auto. split; auto. simpl; auto.
           ++ injection E as <- <-. split; auto. split; [lia|]. split; auto. split; auto. simpl; auto.
        -- injection E as <- <-. split; auto. split; [lia|]. split; auto. split; auto. simpl; auto.
      * intros i [<-|[<-|Hi']]; [| |now apply HL].
        -- split; [reflexivity|]. intros x ->. simpl. apply S1.
           apply N.bits_inj. intro i. rewrite N.ldiff_spec.
           pose proof (f_equal (fun z => N.testbit z i) L1) as F. cbv beta in F.
           rewrite N.land_spec, N.bits_0 in F. destruct (N.testbit a1 i), (N.testbit w1 i); auto; discriminate.
        -- split; [reflexivity|]. intros x ->. simpl. apply S0.
           apply N.bits_inj. intro i. rewrite N.ldiff_spec.
           pose proof (f_equal (fun z => N.testbit z i) L0) as F. cbv beta in F.
           rewrite N.land_spec, N.bits_0 in F. destruct (N.testbit a0 i), (N.testbit w1 i); auto; discriminate.
      * intros x Hx. destruct (HC x Hx) as [C|(y & z & [E|E] & D)].
        -- left. now do 2 apply covers_cons.
        -- injection E as <- <-. right. destruct (D2 x D) as [D'|D'].
           ++ exists a0, w1. split; auto. apply in_or_app. left. apply in_or_app. right. simpl; auto.
           ++ exists a1, w1. split; auto. apply in_or_app. right. simpl; auto.
        -- right. exists y, z. split; auto. apply in_or_app. left. apply in_or_app. auto.
    + unfold wa_mu; simpl. rewrite !wa_mu_app. simpl. lia.
Qed.

Lemma wild_addresses_exact a w : a_ver a = V4 -> valid a -> a_ver w = V4 -> valid w ->
  exists l, wild_addresses a w = Ok l /\
    (forall i, In i l -> item_v4 i) /\ (forall x, covers l x <-> in_wild a w x).
Proof.
  intros Ea Va Ew Vw. unfold valid in *. rewrite Ea in Va. rewrite Ew in Vw. simpl in Va, Vw.
  unfold wild_addresses. set (start := N.ldiff (a_val a) (a_val w)).
  assert (Hs : N.ldiff start (a_val w) = start).
  { unfold start. apply N.bits_inj. intro i. rewrite !N.ldiff_spec. now destruct (N.testbit (a_val w) i), (N.testbit (a_val a) i). }
  rewrite Hs, N.eqb_refl.
  assert (Ls : start < 2 ^ 32).
  { apply bits_high_lt_pow2. intros i L. unfold start. rewrite N.ldiff_spec.
    now rewrite (lt_pow2_bits_high (a_val a) 32 i). }
  destruct (run_loop_total wa_body (wa_inv a w) (fun l => wa_inv a w ([], l)) wa_mu (wa_step a w) 34
              ([(start, a_val w)], [IAddr (mkaddr V4 start)])) as (l & Hl & I).
  - split; [|split].
    + intros a0 w0 [E|[]]. injection E as <- <-. split; auto. split; auto. split.
      { apply N.bits_inj. intro i. unfold start. rewrite N.land_spec, N.ldiff_spec, N.bits_0.
        now destruct (N.testbit (a_val w) i), (N.testbit (a_val a) i). }
      split; [simpl; auto|]. intros x D. split; auto.
      apply bits_high_lt_pow2. intros i L. pose proof (f_equal (fun z => N.testbit z i) D) as F.
      cbv beta in F. unfold start in F. rewrite !N.ldiff_spec in F.
      rewrite (lt_pow2_bits_high (a_val a) 32 i), (lt_pow2_bits_high (a_val w) 32 i) in F by auto.
      now rewrite andb_true_r in F.
    + intros i [<-|[]]. split; [reflexivity|]. intros x ->. split; simpl; auto.
    + intros x [Lx D]. right. exists start, (a_val w). split; [simpl; auto|exact D].
  - unfold wa_mu; simpl. change (2 ^ N.of_nat 34) with 17179869184. change (2 ^ 32) with 4294967296 in *. lia.
  - exists l. split; auto. destruct I as (_ & HL & HC). split; [intros i Hi; now apply HL|].
    intros x. split.
    + intros (i & Hi & M). destruct (HL i Hi) as [V4i T]. destruct (T x M) as [Lx D].
      assert (Ex : a_ver x = V4).
      { destruct i as [y|n]; simpl in *; [congruence|]. destruct M. destruct V4i. congruence. }
      split; auto. split; [unfold valid; now rewrite Ex|]. now apply ldiff_eq_bits.
    + intros (Ex & Vx & D). apply ldiff_eq_bits in D. unfold valid in Vx. rewrite Ex in Vx.
      destruct x as [vx x]. simpl in Ex. subst vx. destruct (HC x) as [C|(? & ? & [] & _)]; auto.
      split; auto.
Qed.
