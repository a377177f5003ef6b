(** Arithmetic of netmasks: masking is rounding down to a multiple of 2^k. *)
From Coq Require Import Lia ZifyBool ZifyNat ZifyN.
From Verif.Model Require Import Base Ip Hosts.
From Verif.Spec Require Import AddrSpec.
Local Open Scope N_scope.

Arguments N.add : simpl never.
Arguments N.sub : simpl never.
Arguments N.mul : simpl never.
Arguments N.pow : simpl never.

Lemma ver_eqb_spec a b : reflect (a = b) (ver_eqb a b).
Proof. destruct a, b; constructor; congruence. Qed.

Lemma ver_eqb_refl v : ver_eqb v v = true.
Proof. destruct v; reflexivity. Qed.

Lemma ver_eqb_sym a b : ver_eqb a b = ver_eqb b a.
Proof. destruct a, b; reflexivity. Qed.

Lemma addr_eqb_spec a b : reflect (a = b) (addr_eqb a b).
Proof.
  unfold addr_eqb. destruct a as [va xa], b as [vb xb]; simpl.
  destruct (N.eqb_spec xa xb), (ver_eqb_spec va vb); constructor; congruence.
Qed.

Lemma pow2_pos n : 0 < 2 ^ n.
Proof. apply N.neq_0_lt_0, N.pow_nonzero. lia. Qed.

Lemma shiftr_ones B p : p <= B -> N.shiftr (N.ones B) p = N.ones (B - p).
Proof.
  intros H. apply N.bits_inj. intro i. rewrite N.shiftr_spec'.
  destruct (N.lt_ge_cases i (B - p)).
  - rewrite !N.ones_spec_low; auto; lia.
  - rewrite !N.ones_spec_high; auto; lia.
Qed.

(** Bits of the netmask: ones from B-p up to B. *)
Lemma netmask_bits v p i : p <= bits v ->
  N.testbit (ip_int_from_prefix v p) i = (bits v - p <=? i) && (i <? bits v).
Proof.
  intros H. unfold ip_int_from_prefix, all_ones. rewrite N.lxor_spec, shiftr_ones by auto.
  destruct (N.lt_ge_cases i (bits v)) as [Hb|Hb], (N.lt_ge_cases i (bits v - p)) as [Hc|Hc];
    rewrite ?(N.ones_spec_low (bits v)), ?(N.ones_spec_high (bits v)),
            ?(N.ones_spec_low (bits v - p)), ?(N.ones_spec_high (bits v - p)) by lia;
    destruct (N.leb_spec (bits v - p) i), (N.ltb_spec i (bits v)); try reflexivity; lia.
Qed.

Lemma lt_pow2_bits_high a n i : a < 2 ^ n -> n <= i -> N.testbit a i = false.
Proof.
  intros H Hi. destruct (N.eq_dec a 0) as [->|Hz]; [apply N.bits_0|].
  apply N.bits_above_log2. apply N.log2_lt_pow2 in H; lia.
Qed.

Lemma bits_high_lt_pow2 a n : (forall i, n <= i -> N.testbit a i = false) -> a < 2 ^ n.
Proof.
  intros H. destruct (N.eq_dec a 0) as [->|Hz]; [apply pow2_pos|].
  apply N.log2_lt_pow2; [lia|].
  destruct (N.lt_ge_cases (N.log2 a) n) as [L|L]; [auto|].
  apply H in L. rewrite N.bit_log2 in L by auto. discriminate.
Qed.

Lemma land_mask v p x : p <= bits v -> x < 2 ^ bits v ->
  N.land x (ip_int_from_prefix v p) = x / 2 ^ (bits v - p) * 2 ^ (bits v - p).
Proof.
  intros Hp Hx. rewrite <- N.shiftr_div_pow2, <- N.shiftl_mul_pow2, <- N.ldiff_ones_r.
  apply N.bits_inj. intro i. rewrite N.land_spec, netmask_bits, N.ldiff_spec by auto.
  destruct (N.lt_ge_cases i (bits v - p)) as [L|L].
  - rewrite N.ones_spec_low by auto. destruct (N.leb_spec (bits v - p) i); [lia|].
    simpl. now rewrite !andb_false_r.
  - rewrite N.ones_spec_high by auto. destruct (N.leb_spec (bits v - p) i); [|lia].
    destruct (N.ltb_spec i (bits v)); simpl; rewrite ?andb_true_r, ?andb_false_r; auto.
    symmetry. eapply lt_pow2_bits_high; eauto.
Qed.

Lemma hostmask_ones n : n_plen n <= bits (n_ver n) ->
  hostmask n = N.ones (bits (n_ver n) - n_plen n).
Proof.
  intros H. unfold hostmask, netmask, all_ones. apply N.bits_inj. intro i.
  rewrite N.lxor_spec, netmask_bits by auto.
  destruct (N.lt_ge_cases i (bits (n_ver n) - n_plen n)) as [L|L].
  - rewrite !N.ones_spec_low by lia. destruct (N.leb_spec (bits (n_ver n) - n_plen n) i); [lia|reflexivity].
  - rewrite (N.ones_spec_high (_ - _)) by lia.
    destruct (N.leb_spec (bits (n_ver n) - n_plen n) i); [|lia]. simpl.
    destruct (N.ltb_spec i (bits (n_ver n))).
    + rewrite N.ones_spec_low by auto. reflexivity.
    + rewrite N.ones_spec_high by auto. reflexivity.
Qed.

Definition nsize (n : net) : N := 2 ^ (bits (n_ver n) - n_plen n).

Lemma nsize_pos n : 0 < nsize n.
Proof. apply pow2_pos. Qed.

Lemma lor_mul_ones q k : N.lor (q * 2 ^ k) (N.ones k) = q * 2 ^ k + (2 ^ k - 1).
Proof.
  rewrite <- N.shiftl_mul_pow2.
  replace (2 ^ k - 1) with (N.ones k) by (rewrite N.ones_equiv, N.pred_sub; reflexivity).
  symmetry.
  rewrite <- N.lxor_lor, <- N.add_nocarry_lxor; auto.
  all: apply N.bits_inj; intro i; rewrite N.land_spec, N.bits_0;
    destruct (N.lt_ge_cases i k);
    [rewrite N.shiftl_spec_low by auto; reflexivity
    |rewrite N.ones_spec_high by auto; now rewrite andb_false_r].
Qed.

Lemma broadcast_eq n : net_wf n -> broadcast n = n_addr n + (nsize n - 1).
Proof.
  intros (Hp & Ha & [q Hq]). unfold broadcast. rewrite hostmask_ones by auto.
  unfold nsize. rewrite Hq. apply lor_mul_ones.
Qed.

Lemma net_end_le n : net_wf n -> n_addr n + nsize n <= 2 ^ bits (n_ver n).
Proof.
  intros (Hp & Ha & [q Hq]). unfold nsize in *.
  replace (2 ^ bits (n_ver n)) with (2 ^ n_plen n * 2 ^ (bits (n_ver n) - n_plen n)) in *
    by (rewrite <- N.pow_add_r; f_equal; lia).
  rewrite Hq in *. pose proof (pow2_pos (bits (n_ver n) - n_plen n)).
  assert (q < 2 ^ n_plen n) by nia. nia.
Qed.

Lemma in_net_valid n x : net_wf n -> in_net n x -> valid x.
Proof.
  intros W [E H]. unfold valid. rewrite E. pose proof (net_end_le n W). unfold nsize in *. lia.
Qed.

(** [__contains__] is membership in the interval. *)
Lemma net_contains_iff n x : net_wf n -> valid x ->
  in_net n x <-> net_contains n x = true.
Proof.
  intros W V. pose proof W as (Hp & Ha & [q Hq]). unfold net_contains, in_net, netmask.
  destruct (ver_eqb_spec (n_ver n) (a_ver x)) as [E|E]; [|split; [intros [? _]; congruence|discriminate]].
  unfold valid in V. rewrite <- E in V. rewrite land_mask by auto.
  set (k := bits (n_ver n) - n_plen n) in *. pose proof (pow2_pos k) as P.
  pose proof (N.div_mod (a_val x) (2^k) ltac:(lia)) as D.
  pose proof (N.mod_lt (a_val x) (2^k) ltac:(lia)) as M.
  rewrite N.eqb_eq. split.
  - intros [_ [L U]]. rewrite Hq in *.
    assert (a_val x / 2 ^ k = q) by nia. congruence.
  - intros F. split; [congruence|]. lia.
Qed.

Lemma net_contains_spec n x : net_wf n -> valid x ->
  reflect (in_net n x) (net_contains n x).
Proof. intros W V. apply iff_reflect, net_contains_iff; auto. Qed.

Lemma net_addr_valid n : net_wf n -> valid (mkaddr (n_ver n) (n_addr n)).
Proof. intros (Hp & Ha & _). exact Ha. Qed.

Lemma broadcast_valid n : net_wf n -> valid (mkaddr (n_ver n) (broadcast n)).
Proof.
  intros W. unfold valid; simpl. rewrite broadcast_eq by auto.
  pose proof (net_end_le n W). pose proof (nsize_pos n). lia.
Qed.

Lemma in_net_first n : net_wf n -> in_net n (mkaddr (n_ver n) (n_addr n)).
Proof. intros W. split; simpl; auto. pose proof (nsize_pos n). unfold nsize in *. lia. Qed.

Lemma in_net_last n : net_wf n -> in_net n (mkaddr (n_ver n) (broadcast n)).
Proof.
  intros W. split; simpl; auto. rewrite broadcast_eq by auto.
  pose proof (nsize_pos n). unfold nsize in *. lia.
Qed.

(** [overlaps] is non-empty intersection. *)
Lemma overlaps_spec n m : net_wf n -> net_wf m ->
  reflect (exists x, in_net n x /\ in_net m x) (overlaps n m).
Proof.
  intros Wn Wm. unfold overlaps.
  destruct (net_contains_spec m (mkaddr (n_ver n) (n_addr n))) as [H1|H1];
    auto using net_addr_valid, broadcast_valid; simpl.
  { constructor. eexists; split; [apply in_net_first|]; auto. }
  destruct (net_contains_spec m (mkaddr (n_ver n) (broadcast n))) as [H2|H2];
    auto using net_addr_valid, broadcast_valid; simpl.
  { constructor. eexists; split; [apply in_net_last|]; auto. }
  destruct (net_contains_spec n (mkaddr (n_ver m) (n_addr m))) as [H3|H3];
    auto using net_addr_valid, broadcast_valid; simpl.
  { constructor. eexists; split; [|apply in_net_first]; auto. }
  destruct (net_contains_spec n (mkaddr (n_ver m) (broadcast m))) as [H4|H4];
    auto using net_addr_valid, broadcast_valid; simpl.
  { constructor. eexists; split; [|apply in_net_last]; auto. }
  constructor. intros (x & [E1 R1] & [E2 R2]).
  assert (V : n_ver n = n_ver m) by congruence.
  unfold in_net in *; simpl in *. rewrite V in *.
  destruct (N.le_gt_cases (n_addr n) (n_addr m)).
  - apply H3. split; auto. lia.
  - apply H1. split; auto. lia.
Qed.
