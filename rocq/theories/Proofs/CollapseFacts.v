(** ipaddress.collapse_addresses: same coverage, canonical result (C09). *)
From Coq Require Import Lia ZifyBool ZifyNat ZifyN Permutation Sorted.
From Verif.Model Require Import Base Ip Hosts.
From Verif.Spec Require Import AddrSpec.
From Verif.Proofs Require Import LoopFacts IpFacts WildFacts MaskFacts SortFacts SummarizeFacts.
Local Open Scope N_scope.

Lemma in_net_iff n x : in_net n x <-> a_ver x = n_ver n /\ n_addr n <= a_val x < n_addr n + nsize n.
Proof. reflexivity. Qed.

Lemma nsize_split a b : n_ver a = n_ver b -> n_plen b <= n_plen a -> n_plen a <= bits (n_ver a) ->
  nsize b = 2 ^ (n_plen a - n_plen b) * nsize a.
Proof. intros E L B. unfold nsize. rewrite <- N.pow_add_r. f_equal. rewrite <- E. lia. Qed.

Lemma wf_mul n : net_wf n -> exists q, n_addr n = q * nsize n.
Proof. intros (_ & _ & [q Hq]). exists q. exact Hq. Qed.

(** Two aligned blocks that share an address are nested. *)
Lemma nested_addr a b x : net_wf a -> net_wf b -> n_plen b <= n_plen a -> in_net a x -> in_net b x ->
  n_addr b <= n_addr a /\ n_addr a + nsize a <= n_addr b + nsize b /\ n_ver a = n_ver b.
Proof.
  intros Wa Wb L Ia Ib. destruct Ia as [Va Ia], Ib as [Vb Ib]. fold (nsize a) in Ia. fold (nsize b) in Ib.
  assert (E : n_ver a = n_ver b) by congruence.
  destruct (wf_mul a Wa) as [qa Ha]. destruct (wf_mul b Wb) as [qb Hb].
  pose proof (nsize_split a b E L (proj1 Wa)) as Hs. pose proof (nsize_pos a) as Pa.
  set (k := 2 ^ (n_plen a - n_plen b)) in *. set (s := nsize a) in *.
  assert (qb * k <= qa).
  { apply N.lt_succ_r. apply (N.mul_lt_mono_pos_r s); [auto|]. nia. }
  assert (qa < qb * k + k).
  { apply (N.mul_lt_mono_pos_r s); [auto|]. nia. }
  rewrite Ha, Hb, Hs. split; [|split; auto]; nia.
Qed.

Lemma nested a b x : net_wf a -> net_wf b -> n_plen b <= n_plen a -> in_net a x -> in_net b x ->
  forall y, in_net a y -> in_net b y.
Proof.
  intros Wa Wb L Ia Ib y [V R]. destruct (nested_addr a b x Wa Wb L Ia Ib) as (H1 & H2 & E).
  fold (nsize a) in R. split; [congruence|]. fold (nsize b). lia.
Qed.

Lemma nsize_inj a b : n_ver a = n_ver b -> net_wf a -> net_wf b -> nsize a = nsize b -> n_plen a = n_plen b.
Proof.
  intros E (Pa & _) (Pb & _) H. unfold nsize in H. apply N.pow_inj_r in H; [|lia]. rewrite <- E in *. lia.
Qed.

Lemma net_ext a b : n_ver a = n_ver b -> n_addr a = n_addr b -> n_plen a = n_plen b -> a = b.
Proof. destruct a, b; simpl; congruence. Qed.

Lemma block_eq a b x : net_wf a -> net_wf b -> n_plen a = n_plen b -> in_net a x -> in_net b x -> a = b.
Proof.
  intros Wa Wb E Ia Ib.
  destruct (nested_addr a b x Wa Wb ltac:(lia) Ia Ib) as (H1 & H2 & V).
  destruct (nested_addr b a x Wb Wa ltac:(lia) Ib Ia) as (H3 & H4 & _).
  apply net_ext; auto. lia.
Qed.

Lemma net_ext_in a b : net_wf a -> net_wf b -> (forall x, in_net a x <-> in_net b x) -> a = b.
Proof.
  intros Wa Wb H.
  pose proof (in_net_first a Wa) as Fa. pose proof (in_net_first b Wb) as Fb.
  pose proof (in_net_last a Wa) as La. pose proof (in_net_last b Wb) as Lb.
  apply H in Fa, La. apply H in Fb, Lb. rewrite in_net_iff in *. simpl in *.
  rewrite !broadcast_eq in * by auto. pose proof (nsize_pos a). pose proof (nsize_pos b).
  assert (n_ver a = n_ver b) by tauto. assert (nsize a = nsize b) by lia.
  apply net_ext; auto; [lia|]. now apply nsize_inj.
Qed.

Lemma netmask_mono a b : n_ver a = n_ver b -> net_wf a -> net_wf b -> netmask a <= netmask b ->
  n_plen a <= n_plen b.
Proof.
  intros E (Pa & _) (Pb & _) H. unfold netmask in H. rewrite !netmask_value in H by auto.
  rewrite <- E in *.
  destruct (N.le_gt_cases (n_plen a) (n_plen b)) as [|G]; auto. exfalso.
  assert (2 ^ (bits (n_ver a) - n_plen a) < 2 ^ (bits (n_ver a) - n_plen b)) by (apply N.pow_lt_mono_r; lia).
  assert (2 ^ (bits (n_ver a) - n_plen b) <= 2 ^ bits (n_ver a)) by (apply N.pow_le_mono_r; lia). lia.
Qed.

Lemma net_eqb_spec a b : net_wf a -> net_wf b -> reflect (a = b) (net_eqb a b).
Proof.
  intros Wa Wb. unfold net_eqb.
  destruct (ver_eqb_spec (n_ver a) (n_ver b)) as [E|E]; [|constructor; congruence].
  destruct (N.eqb_spec (n_addr a) (n_addr b)) as [Ea|Ea]; [|constructor; congruence].
  destruct (N.eqb_spec (netmask a) (netmask b)) as [Em|Em]; constructor; [|congruence].
  apply net_ext; auto. apply N.le_antisymm; apply netmask_mono; auto; lia.
Qed.

(** ** Supernet *)
Lemma supernet_ver n : n_ver (supernet n) = n_ver n.
Proof. unfold supernet. destruct (n_plen n =? 0); reflexivity. Qed.

Lemma supernet_pos n : net_wf n -> 0 < n_plen n ->
  net_wf (supernet n) /\ n_plen (supernet n) = n_plen n - 1 /\
  (forall x, in_net n x -> in_net (supernet n) x).
Proof.
  intros W P. pose proof W as (Pl & Lt & _). unfold supernet.
  destruct (N.eqb_spec (n_plen n) 0) as [|_]; [lia|].
  assert (M : N.land (n_addr n) (N.shiftl (netmask n) 1) =
              n_addr n / 2 ^ (bits (n_ver n) - (n_plen n - 1)) * 2 ^ (bits (n_ver n) - (n_plen n - 1))).
  { rewrite <- land_mask by (auto; lia). apply N.bits_inj. intro i.
    rewrite !N.land_spec. destruct (N.eq_dec i 0) as [->|Nz].
    - rewrite N.shiftl_spec_low by lia. rewrite netmask_bits by lia.
      destruct (N.leb_spec (bits (n_ver n) - (n_plen n - 1)) 0); [lia|]. reflexivity.
    - rewrite N.shiftl_spec_high' by lia. unfold netmask. rewrite !netmask_bits by lia.
      destruct (N.lt_ge_cases i (bits (n_ver n))) as [C|C].
      + f_equal. lia.
      + rewrite (lt_pow2_bits_high _ _ _ Lt C). reflexivity. }
  rewrite M. clear M. set (v := n_ver n) in *. set (S := 2 ^ (bits v - (n_plen n - 1))).
  assert (HS : S = 2 * nsize n).
  { unfold S, nsize. fold v. rewrite <- N.pow_succ_r'. f_equal. lia. }
  pose proof (nsize_pos n) as Ps. destruct (wf_mul n W) as [q Hq].
  pose proof (N.div_mod (n_addr n) S ltac:(lia)) as D. pose proof (N.mod_lt (n_addr n) S ltac:(lia)) as Mo.
  assert (R : n_addr n / S * S <= n_addr n) by (rewrite N.mul_comm; apply N.mul_div_le; lia).
  split; [|split].
  - split; [simpl; lia|]. split; [simpl; lia|]. simpl. exists (n_addr n / S). reflexivity.
  - reflexivity.
  - intros x [V I]. split; [exact V|]. simpl. fold (nsize n) in I. fold S.
    assert (n_addr n mod S + nsize n <= S); [|nia].
    assert (Dv : exists r, n_addr n mod S = r * nsize n).
    { exists (q - 2 * (n_addr n / S)). rewrite N.mul_sub_distr_r. rewrite <- Hq.
      rewrite N.mod_eq by lia. rewrite HS at 1. f_equal. nia. }
    destruct Dv as [r Hr]. rewrite Hr, HS in Mo. rewrite Hr, HS. assert (r < 2); nia.
Qed.

Lemma supernet_zero n : n_plen n = 0 -> supernet n = n.
Proof. intros E. unfold supernet. rewrite E. reflexivity. Qed.

Lemma supernet_wf n : net_wf n -> net_wf (supernet n).
Proof.
  intros W. destruct (N.eq_dec (n_plen n) 0) as [E|E].
  - now rewrite supernet_zero.
  - apply supernet_pos; auto. lia.
Qed.

Lemma in_supernet n x : net_wf n -> in_net n x -> in_net (supernet n) x.
Proof.
  intros W I. destruct (N.eq_dec (n_plen n) 0) as [E|E].
  - now rewrite supernet_zero.
  - apply supernet_pos; auto. lia.
Qed.

(** Half of a block. *)
Lemma halves s x : net_wf s -> n_plen s < bits (n_ver s) ->
  let l := mknet (n_ver s) (n_addr s) (n_plen s + 1) in
  let r := mknet (n_ver s) (n_addr s + nsize s / 2) (n_plen s + 1) in
  net_wf l /\ net_wf r /\ l <> r /\ nsize l = nsize r /\ nsize s = 2 * nsize l /\
  n_addr r = n_addr s + nsize l /\ (in_net s x <-> in_net l x \/ in_net r x).
Proof.
  intros W L l r. pose proof W as (Pl & Lt & _). destruct (wf_mul s W) as [q Hq].
  assert (Hs : nsize s = 2 * nsize l).
  { unfold nsize, l. simpl. rewrite <- N.pow_succ_r'. f_equal. lia. }
  assert (Hr : nsize l = nsize r) by reflexivity.
  assert (Ha : n_addr r = n_addr s + nsize l).
  { unfold r. simpl. rewrite Hs. f_equal. rewrite N.mul_comm. apply N.div_mul. lia. }
  pose proof (nsize_pos l) as P. pose proof (net_end_le s W) as Le.
  assert (Wl : net_wf l).
  { split; [simpl; lia|]. split; [exact Lt|]. exists (2 * q). fold (nsize l). simpl. nia. }
  assert (Wr : net_wf r).
  { split; [simpl; lia|]. split; [rewrite Ha; change (n_ver r) with (n_ver s); lia|]. exists (2 * q + 1). fold (nsize r). rewrite Ha, <- Hr. nia. }
  split; [exact Wl|]. split; [exact Wr|].
  split; [|split; [exact Hr|]; split; [exact Hs|]; split; [exact Ha|]].
  - intros E. assert (n_addr l = n_addr r) by congruence. simpl in *. lia.
  - rewrite !in_net_iff. change (n_ver l) with (n_ver s). change (n_ver r) with (n_ver s).
    change (n_addr l) with (n_addr s). rewrite <- Hr, Ha, Hs. split.
    + intros [E R]. destruct (N.lt_ge_cases (a_val x) (n_addr s + nsize l)); [left|right]; (split; [exact E|lia]).
    + intros [[E R]|[E R]]; (split; [exact E|lia]).
Qed.

Lemma supernet_of_half a s x : net_wf a -> net_wf s -> n_plen a = n_plen s + 1 -> in_net a x -> in_net s x ->
  supernet a = s.
Proof.
  intros Wa Ws E Ia Is. destruct (supernet_pos a Wa ltac:(lia)) as (W & P & I).
  apply (block_eq _ _ x); auto. lia.
Qed.

(** Merging two different networks with the same supernet loses nothing and adds nothing. *)
Lemma super_union a b : net_wf a -> net_wf b -> a <> b -> supernet a = supernet b ->
  forall x, in_net (supernet a) x <-> in_net a x \/ in_net b x.
Proof.
  intros Wa Wb Ne E x.
  assert (V : n_ver a = n_ver b) by (rewrite <- (supernet_ver a), E; apply supernet_ver).
  split.
  2:{ intros [I|I]; [now apply in_supernet|]. rewrite E. now apply in_supernet. }
  intros I.
  destruct (N.eq_dec (n_plen a) 0) as [Za|Za]; [rewrite supernet_zero in I by auto; auto|].
  destruct (N.eq_dec (n_plen b) 0) as [Zb|Zb]; [rewrite E, supernet_zero in I by auto; auto|].
  destruct (supernet_pos a Wa ltac:(lia)) as (Ws & Pa & Ia).
  destruct (supernet_pos b Wb ltac:(lia)) as (_ & Pb & Ib).
  rewrite <- E in Ib, Pb. set (s := supernet a) in *.
  assert (Vs : n_ver s = n_ver a) by apply supernet_ver.
  assert (Ls : n_plen s < bits (n_ver s)) by (rewrite Vs; destruct Wa; lia).
  destruct (halves s x Ws Ls) as (Wl & Wr & Nlr & _ & _ & _ & H).
  set (l := mknet (n_ver s) (n_addr s) (n_plen s + 1)) in *.
  set (r := mknet (n_ver s) (n_addr s + nsize s / 2) (n_plen s + 1)) in *.
  assert (half : forall c, net_wf c -> n_plen c = n_plen s + 1 -> (forall x, in_net c x -> in_net s x) -> c = l \/ c = r).
  { intros c Wc Pc Ic. pose proof (in_net_first c Wc) as F. pose proof (Ic _ F) as Fs.
    destruct (halves s (mkaddr (n_ver c) (n_addr c)) Ws Ls) as (_ & _ & _ & _ & _ & _ & Hc).
    apply Hc in Fs. fold l r in Fs. destruct Fs as [Fs|Fs]; [left|right]; eapply block_eq; eauto; simpl; lia. }
  apply H in I.
  destruct (half a Wa ltac:(lia) Ia) as [Ea|Ea], (half b Wb ltac:(lia) Ib) as [Eb|Eb];
    try (exfalso; congruence); rewrite Ea, Eb; tauto.
Qed.

(** ** The dictionary *)
Definition keys (d : subnets) := map fst d.
Definition vals (d : subnets) := map snd d.

Lemma sub_get_none d k : Forall net_wf (keys d) -> net_wf k -> sub_get d k = None <-> ~ In k (keys d).
Proof.
  intros F W. induction d as [|[k' v] d IH]; simpl; [tauto|]. inversion F; subst.
  destruct (net_eqb_spec k' k) as [->|Ne]; auto.
  - split; [discriminate|tauto].
  - rewrite IH by auto. split; [intros H [?|?]; congruence|tauto].
Qed.

Lemma sub_get_some d k e : Forall net_wf (keys d) -> net_wf k -> sub_get d k = Some e ->
  exists d1 d2, d = d1 ++ (k, e) :: d2 /\ sub_del d k = d1 ++ d2.
Proof.
  intros F W. induction d as [|[k' v] d IH]; simpl; [discriminate|]. inversion F; subst.
  destruct (net_eqb_spec k' k) as [->|Ne]; auto.
  - intros H. injection H as <-. exists [], d. auto.
  - intros H. destruct (IH ltac:(auto) H) as (d1 & d2 & -> & ->). exists ((k', v) :: d1), d2. auto.
Qed.

Record minv (tm : list net) (d : subnets) : Prop := {
  mi_tm : Forall net_wf tm;
  mi_d : Forall (fun kv => net_wf (snd kv) /\ fst kv = supernet (snd kv)) d;
  mi_nd : NoDup (keys d) }.

Lemma minv_keys tm d : minv tm d -> Forall net_wf (keys d).
Proof.
  intros [_ H _]. unfold keys. rewrite Forall_map. eapply Forall_impl; [|exact H].
  intros [k v] [W E]. simpl in *. rewrite E. now apply supernet_wf.
Qed.

Definition mcov (tm : list net) (d : subnets) (x : addr) : Prop := net_covers tm x \/ net_covers (vals d) x.

Lemma net_covers_cons n l x : net_covers (n :: l) x <-> in_net n x \/ net_covers l x.
Proof.
  split.
  - intros (m & [<-|H] & I); [now left|right; exists m; auto].
  - intros [I|(m & H & I)]; [exists n; split; [now left|auto]|exists m; split; [now right|auto]].
Qed.

Lemma net_covers_app l l' x : net_covers (l ++ l') x <-> net_covers l x \/ net_covers l' x.
Proof.
  induction l as [|n l IH]; simpl.
  - split; [auto|intros [(m & [] & _)|H]; auto].
  - rewrite !net_covers_cons, IH. tauto.
Qed.

Lemma net_covers_incl l l' x : (forall n, In n l -> In n l') -> net_covers l x -> net_covers l' x.
Proof. intros H (n & Hn & I). exists n. auto. Qed.

Lemma merge_loop_ok fuel tm d : minv tm d -> (2 * List.length tm + List.length d < fuel)%nat ->
  exists d', merge_loop fuel tm d = Ok d' /\ minv [] d' /\
    forall x, net_covers (vals d') x <-> mcov tm d x.
Proof.
  revert tm d. induction fuel as [|fuel IH]; intros tm d I L; [lia|].
  destruct tm as [|n rest]; cbn [merge_loop].
  - exists d. split; auto. split; auto. intros x. unfold mcov. split; auto. intros [(m & [] & _)|H]; auto.
  - pose proof (minv_keys _ _ I) as Wk. destruct I as [Tm D Nd]. inversion Tm as [|? ? Wn Wr]; subst.
    pose proof (supernet_wf n Wn) as Ws. cbn [List.length] in L.
    destruct (sub_get d (supernet n)) as [e|] eqn:G.
    + destruct (sub_get_some _ _ _ Wk Ws G) as (d1 & d2 & -> & Hdel).
      apply Forall_app in D. destruct D as [D1 D2]. inversion D2 as [|? ? [We Ee] D3]; subst. simpl in We, Ee.
      destruct (net_eqb_spec e n We Wn) as [->|Ne]; cbn [negb].
      * destruct (IH rest (d1 ++ (supernet n, n) :: d2)) as (d' & R & I' & C).
        { constructor; auto. apply Forall_app. split; auto. }
        { rewrite app_length in *. simpl in *. lia. }
        exists d'. split; auto. split; auto. intros x. rewrite C. unfold mcov. rewrite net_covers_cons.
        split; [tauto|]. intros [[H|H]|H]; auto. right. exists n. split; auto.
        unfold vals. rewrite map_app. apply in_or_app. right. now left.
      * rewrite Hdel. destruct (IH (supernet n :: rest) (d1 ++ d2)) as (d' & R & I' & C).
        { constructor; auto.
          - apply Forall_app. split; auto.
          - unfold keys in *. rewrite map_app in *. simpl in Nd. now apply NoDup_remove_1 in Nd. }
        { rewrite app_length in *. simpl in *. lia. }
        exists d'. split; auto. split; auto. intros x. rewrite C. unfold mcov, vals. rewrite !map_app. simpl.
        rewrite !net_covers_cons, !net_covers_app, !net_covers_cons.
        rewrite (super_union n e Wn We ltac:(congruence) Ee x). tauto.
    + apply sub_get_none in G; auto. destruct (IH rest (d ++ [(supernet n, n)])) as (d' & R & I' & C).
      { constructor; auto.
        - apply Forall_app. split; auto.
        - unfold keys. rewrite map_app. simpl. apply NoDup_rev in Nd.
          rewrite <- (rev_involutive (map fst d ++ [supernet n])). apply NoDup_rev.
          rewrite rev_app_distr. simpl. constructor; auto. intros H. apply in_rev in H. auto. }
      { rewrite app_length. simpl. lia. }
      exists d'. split; auto. split; auto. intros x. rewrite C. unfold mcov, vals. rewrite map_app. simpl.
      rewrite net_covers_app, !net_covers_cons. split; [|tauto].
      intros [H|[H|[H|(m & [] & _)]]]; auto.
Qed.

(** ** Sorting and skipping *)
Lemma net_le_total x y : le net_ltb x y \/ le net_ltb y x.
Proof.
  unfold le, net_ltb.
  destruct (N.eqb_spec (n_addr y) (n_addr x)), (N.eqb_spec (n_addr x) (n_addr y)); simpl; try lia.
  destruct (N.eqb_spec (netmask y) (netmask x)), (N.eqb_spec (netmask x) (netmask y)); simpl; try lia.
Qed.

Lemma net_le_spec x y : le net_ltb x y <->
  n_addr x < n_addr y \/ (n_addr x = n_addr y /\ netmask x <= netmask y).
Proof.
  unfold le, net_ltb.
  destruct (N.eqb_spec (n_addr y) (n_addr x)); simpl; [|lia].
  destruct (N.eqb_spec (netmask y) (netmask x)); simpl; lia.
Qed.

Lemma net_le_trans x y z : le net_ltb x y -> le net_ltb y z -> le net_ltb x z.
Proof. rewrite !net_le_spec. lia. Qed.

Lemma skip_step v m n : net_wf m -> net_wf n -> n_ver m = v -> n_ver n = v -> le net_ltb m n ->
  if broadcast n <=? broadcast m then (forall x, in_net n x -> in_net m x) else net_before m n.
Proof.
  intros Wm Wn Vm Vn L. rewrite !broadcast_eq by auto. pose proof (nsize_pos n). pose proof (nsize_pos m).
  apply net_le_spec in L.
  destruct (N.leb_spec (n_addr n + (nsize n - 1)) (n_addr m + (nsize m - 1))) as [C|C].
  - intros x. rewrite !in_net_iff. intros [V I]. split; [congruence|]. lia.
  - split; [congruence|]. fold (nsize m).
    destruct (N.le_gt_cases (n_addr m + nsize m) (n_addr n)) as [|G]; auto. exfalso.
    assert (Im : in_net m (mkaddr v (n_addr n))) by (rewrite in_net_iff; simpl; split; [congruence|lia]).
    assert (In_ : in_net n (mkaddr v (n_addr n))) by (rewrite in_net_iff; simpl; split; [congruence|lia]).
    destruct (N.le_ge_cases (n_plen m) (n_plen n)) as [P|P].
    + destruct (nested_addr n m _ Wn Wm P In_ Im). lia.
    + destruct (nested_addr m n _ Wm Wn P Im In_) as (A1 & A2 & _).
      destruct L as [L|[L1 L2]]; [lia|]. apply netmask_mono in L2; auto; [|congruence].
      assert (n_plen m = n_plen n) by lia. assert (nsize m = nsize n) by (unfold nsize; congruence). lia.
Qed.

Lemma skip_incl m l n : In n (skip_subsumed m l) -> In n l.
Proof.
  revert m. induction l as [|k l IH]; simpl; intros m H; auto.
  destruct m as [m|].
  - destruct (broadcast k <=? broadcast m); [right; eauto|]. destruct H as [<-|H]; [now left|right; eauto].
  - destruct H as [<-|H]; [now left|right; eauto].
Qed.

Lemma skip_ok v l m : net_wf m -> n_ver m = v -> Forall net_wf l -> Forall (fun n => n_ver n = v) l ->
  StronglySorted (le net_ltb) (m :: l) ->
  increasing (m :: skip_subsumed (Some m) l) /\
  forall x, net_covers (m :: skip_subsumed (Some m) l) x <-> net_covers (m :: l) x.
Proof.
  revert m. induction l as [|n l IH]; intros m Wm Vm W V S.
  - simpl. split; [repeat constructor|tauto].
  - inversion W as [|? ? Wn W']; subst. inversion V as [|? ? Vn V']; subst.
    inversion S as [|? ? S' F]; subst. inversion F as [|? ? L F']; subst.
    cbn [skip_subsumed]. pose proof (skip_step _ m n Wm Wn eq_refl Vn L) as K.
    destruct (broadcast n <=? broadcast m).
    + destruct (IH m) as [I C]; auto.
      { inversion S'; subst. constructor; auto. }
      split; auto. intros x. rewrite C. rewrite !net_covers_cons. specialize (K x). tauto.
    + destruct (IH n) as [I C]; auto.
      split.
      * constructor; [exact I|]. constructor; [exact K|]. inversion I as [|? ? I' F'']; subst.
        eapply Forall_impl; [|exact F'']. intros k [Vk Bk]. destruct K as [K1 K2]. split; [congruence|].
        pose proof (nsize_pos n). unfold nsize in *. lia.
      * intros x. specialize (C x). rewrite !net_covers_cons in *. tauto.
Qed.

(** ** The canonical form is unique *)
Lemma increasing_disjoint l a b x : increasing l -> In a l -> In b l -> in_net a x -> in_net b x -> a = b.
Proof.
  induction 1 as [|n l S IH F]; intros Ia Ib Xa Xb; [destruct Ia|].
  rewrite Forall_forall in F. rewrite in_net_iff in *.
  destruct Ia as [<-|Ia], Ib as [<-|Ib]; auto.
  - destruct (F _ Ib) as [_ B]. fold (nsize n) in B. lia.
  - destruct (F _ Ia) as [_ B]. fold (nsize n) in B. lia.
Qed.

Lemma canonical_block L B : canonical L -> net_wf B -> (forall x, in_net B x -> net_covers L x) ->
  exists n, In n L /\ forall x, in_net B x -> in_net n x.
Proof.
  intros (WL & Inc & NoM). rewrite Forall_forall in WL.
  remember (N.to_nat (bits (n_ver B) - n_plen B)) as k eqn:Hk. revert B Hk.
  induction k as [|k IH]; intros B Hk WB C.
  - pose proof (in_net_first B WB) as F. destruct (C _ F) as (n & Hn & In_).
    exists n. split; auto. eapply nested; eauto. destruct In_ as [Vn _]. simpl in Vn.
    destruct (WL n Hn) as [Pn _]. rewrite <- Vn in Pn. lia.
  - assert (LB : n_plen B < bits (n_ver B)) by lia.
    destruct (halves B (mkaddr (n_ver B) (n_addr B)) WB LB) as (Wl & Wr & Nlr & _ & _ & _ & _).
    set (l := mknet (n_ver B) (n_addr B) (n_plen B + 1)) in *.
    set (r := mknet (n_ver B) (n_addr B + nsize B / 2) (n_plen B + 1)) in *.
    assert (H : forall x, in_net B x <-> in_net l x \/ in_net r x) by (intros x; apply (halves B x WB LB)).
    destruct (IH l) as (n0 & Hn0 & I0); [simpl; lia|auto|intros x Hx; apply C, H; auto|].
    destruct (IH r) as (n1 & Hn1 & I1); [simpl; lia|auto|intros x Hx; apply C, H; auto|].
    pose proof (in_net_first l Wl) as Fl. pose proof (in_net_first r Wr) as Fr.
    assert (BIG : forall h n, net_wf h -> n_plen h = n_plen B + 1 -> In n L ->
       in_net h (mkaddr (n_ver h) (n_addr h)) -> in_net B (mkaddr (n_ver h) (n_addr h)) ->
       in_net n (mkaddr (n_ver h) (n_addr h)) -> (forall x, in_net h x -> in_net n x) ->
       n = h \/ (forall x, in_net B x -> in_net n x)).
    { intros h n Wh Ph Hn Fh FB Fn In_. pose proof (WL n Hn) as Wn.
      destruct (N.le_gt_cases (n_plen n) (n_plen B)) as [P|P].
      - right. eapply nested; eauto.
      - left. apply net_ext_in; auto. intros x. split; auto. revert x. eapply nested; eauto. lia. }
    destruct (BIG l n0) as [E0|?]; auto; [apply H; auto| |exists n0; auto].
    destruct (BIG r n1) as [E1|?]; auto; [apply H; auto| |exists n1; auto].
    subst n0 n1. exfalso. apply (NoM l r); auto. exists B. split; auto.
Qed.

Lemma increasing_same l1 l2 : Forall net_wf l1 -> Forall net_wf l2 -> increasing l1 -> increasing l2 ->
  (forall n, In n l1 <-> In n l2) -> l1 = l2.
Proof.
  revert l2. induction l1 as [|a l1 IH]; intros l2 W1 W2 S1 S2 H.
  - destruct l2 as [|b l2]; auto. exfalso. apply (H b). now left.
  - destruct l2 as [|b l2]; [exfalso; apply (H a); now left|].
    inversion S1 as [|? ? S1' F1]; inversion S2 as [|? ? S2' F2]; subst.
    inversion W1; inversion W2; subst.
    rewrite Forall_forall in F1, F2. pose proof (nsize_pos a). pose proof (nsize_pos b).
    assert (a = b).
    { destruct (proj1 (H a) (or_introl eq_refl)) as [|Ha]; [auto|].
      destruct (proj2 (H b) (or_introl eq_refl)) as [|Hb]; [auto|].
      apply F2 in Ha. apply F1 in Hb. destruct Ha as [_ Ha], Hb as [_ Hb]. fold (nsize a) in Hb. fold (nsize b) in Ha. lia. }
    subst b. f_equal. apply IH; auto.
    assert (Na : forall l, (forall y, In y l -> net_before a y) -> ~ In a l).
    { intros l F I. apply F in I. destruct I as [_ I]. fold (nsize a) in I. lia. }
    intros n. specialize (H n). simpl in H. split; intros I.
    + destruct (proj1 H (or_intror I)) as [<-|]; auto. exfalso. exact (Na _ F1 I).
    + destruct (proj2 H (or_intror I)) as [<-|]; auto. exfalso. exact (Na _ F2 I).
Qed.

Lemma canonical_elem l1 l2 n : canonical l1 -> canonical l2 -> (forall x, net_covers l1 x <-> net_covers l2 x) ->
  In n l1 -> In n l2.
Proof.
  intros C1 C2 H Hn. pose proof C1 as (W1 & S1 & _). pose proof C2 as (W2 & S2 & _).
  rewrite Forall_forall in W1, W2. pose proof (W1 n Hn) as Wn.
  destruct (canonical_block l2 n C2 Wn) as (m & Hm & Im).
  { intros x Hx. apply H. exists n. auto. }
  pose proof (W2 m Hm) as Wm. destruct (canonical_block l1 m C1 Wm) as (n' & Hn' & In').
  { intros x Hx. apply H. exists m. auto. }
  pose proof (in_net_first n Wn) as F. assert (n = n') as <- by (eapply (increasing_disjoint l1); eauto).
  assert (E : n = m) by (apply net_ext_in; auto; intros x; split; auto). rewrite E. exact Hm.
Qed.

Lemma canonical_unique l1 l2 : canonical l1 -> canonical l2 -> (forall x, net_covers l1 x <-> net_covers l2 x) ->
  l1 = l2.
Proof.
  intros C1 C2 H. pose proof C1 as (W1 & S1 & _). pose proof C2 as (W2 & S2 & _).
  apply increasing_same; auto. intros n. split; apply canonical_elem; auto. intros x. now rewrite H.
Qed.

(** ** No two networks of the result can be merged *)
Lemma mergeable_super v a b : net_wf a -> net_wf b -> n_ver a = v -> n_ver b = v -> net_before a b -> mergeable a b ->
  supernet a = supernet b.
Proof.
  intros Wa Wb Va Vb [_ B] (s & Ws & H). fold (nsize a) in B.
  pose proof (nsize_pos a) as Pa. pose proof (nsize_pos b) as Pb. pose proof (nsize_pos s) as Ps.
  assert (Vs : n_ver s = v).
  { pose proof (proj2 (H _) (or_introl (in_net_first a Wa))) as [E _]. simpl in E. congruence. }
  assert (P : forall y, n_addr s <= y < n_addr s + nsize s <->
     n_addr a <= y < n_addr a + nsize a \/ n_addr b <= y < n_addr b + nsize b).
  { intros y. specialize (H (mkaddr v y)). rewrite !in_net_iff in H. cbn [a_ver a_val] in H. rewrite Va, Vb, Vs in H.
    pose proof (eq_refl v) as T. tauto. }
  assert (Es : n_addr s = n_addr a).
  { pose proof (P (n_addr s)). pose proof (P (n_addr a)). lia. }
  assert (Eb : n_addr b = n_addr a + nsize a).
  { pose proof (P (n_addr a + nsize a)). pose proof (P (n_addr b)). lia. }
  assert (Sz : nsize s = nsize a + nsize b).
  { pose proof (P (n_addr b + nsize b)). pose proof (P (n_addr b + nsize b - 1)). lia. }
  destruct Wa as (La & Wa'), Wb as (Lb & Wb'), Ws as (Ls & Ws'). 
  assert (Wa : net_wf a) by (split; auto). assert (Wb : net_wf b) by (split; auto). assert (Ws : net_wf s) by (split; auto).
  unfold nsize in Sz. rewrite Va, Vb, Vs in *.
  assert (Q : forall p q, p <= bits v -> q <= bits v -> 2 ^ (bits v - p) < 2 ^ (bits v - q) -> q < p).
  { intros p q Hp Hq L. destruct (N.le_gt_cases p q); auto. exfalso.
    assert (2 ^ (bits v - q) <= 2 ^ (bits v - p)) by (apply N.pow_le_mono_r; lia). lia. }
  pose proof (pow2_pos (bits v - n_plen a)). pose proof (pow2_pos (bits v - n_plen b)).
  assert (n_plen s < n_plen a) by (apply Q; auto; lia). assert (n_plen s < n_plen b) by (apply Q; auto; lia).
  assert (D : forall p, n_plen s < p -> p <= bits v -> 2 * 2 ^ (bits v - p) <= 2 ^ (bits v - n_plen s) /\
      (2 * 2 ^ (bits v - p) = 2 ^ (bits v - n_plen s) -> p = n_plen s + 1)).
  { intros p Hp Hb. rewrite <- N.pow_succ_r'. split; [apply N.pow_le_mono_r; lia|].
    intros E. apply N.pow_inj_r in E; lia. }
  destruct (D (n_plen a)) as [Da Da']; auto. destruct (D (n_plen b)) as [Db Db']; auto.
  transitivity s; [|symmetry].
  - apply (supernet_of_half a s (mkaddr v (n_addr a))); auto.
    + apply Da'. lia.
    + rewrite in_net_iff. cbn [a_ver a_val]. split; [congruence|lia].
    + rewrite in_net_iff. cbn [a_ver a_val]. split; [congruence|]. lia.
  - apply (supernet_of_half b s (mkaddr v (n_addr b))); auto.
    + apply Db'. lia.
    + rewrite in_net_iff. cbn [a_ver a_val]. split; [congruence|lia].
    + rewrite in_net_iff. cbn [a_ver a_val]. split; [congruence|]. apply P. right. lia.
Qed.

Lemma mergeable_sym a b : mergeable a b -> mergeable b a.
Proof. intros (s & W & H). exists s. split; auto. intros x. rewrite H. tauto. Qed.

Lemma increasing_order l a b : increasing l -> In a l -> In b l -> a = b \/ net_before a b \/ net_before b a.
Proof.
  induction 1 as [|n l S IH F]; intros Ia Ib; [destruct Ia|]. rewrite Forall_forall in F.
  destruct Ia as [<-|Ia], Ib as [<-|Ib]; auto.
Qed.

Lemma NoDup_vals d a b : NoDup (keys d) -> Forall (fun kv => fst kv = supernet (snd kv)) d ->
  In a (vals d) -> In b (vals d) -> supernet a = supernet b -> a = b.
Proof.
  induction d as [|[k v] d IH]; simpl; intros Nd F Ia Ib E; [destruct Ia|].
  inversion Nd as [|? ? Nk Nd']; subst. inversion F as [|? ? Hk F']; subst. simpl in Hk.
  assert (G : forall c, In c (vals d) -> In (supernet c) (keys d)).
  { intros c Hc. unfold vals in Hc. apply in_map_iff in Hc. destruct Hc as ([k' v'] & <- & Hc).
    rewrite Forall_forall in F'. pose proof (F' _ Hc) as Ek. simpl in *. rewrite <- Ek.
    unfold keys. apply in_map_iff. exists (k', v'). auto. }
  destruct Ia as [<-|Ia], Ib as [<-|Ib]; auto.
  - exfalso. apply Nk. rewrite Hk, E. auto.
  - exfalso. apply Nk. rewrite Hk, <- E. auto.
Qed.

Lemma same_version_iff v l : Forall (fun n => n_ver n = v) l -> same_version l = true.
Proof.
  destruct l as [|n l]; auto. intros F. inversion F; subst. simpl. apply forallb_forall.
  intros m Hm. rewrite Forall_forall in *. match goal with H : forall x, In x l -> _ |- _ => rewrite (H m Hm) end.
  apply ver_eqb_refl.
Qed.

Lemma collapse_internal_ok v l : Forall net_wf l -> Forall (fun n => n_ver n = v) l ->
  exists out, collapse_internal l = Ok out /\ canonical out /\ Forall (fun n => n_ver n = v) out /\
    forall x, net_covers out x <-> net_covers l x.
Proof.
  intros W V. unfold collapse_internal.
  destruct (merge_loop_ok (2 * List.length l + 1) (rev l) []) as (d & R & I & C).
  { constructor; [|constructor|constructor]. apply Forall_rev. auto. }
  { rewrite rev_length. simpl. lia. }
  rewrite R. cbn [bind]. fold (vals d).
  assert (C' : forall x, net_covers (vals d) x <-> net_covers l x).
  { intros x. rewrite C. unfold mcov. split.
    - intros [H|(m & [] & _)]. eapply net_covers_incl; [|exact H]. intros n. now rewrite <- in_rev.
    - intros H. left. eapply net_covers_incl; [|exact H]. intros n. now rewrite <- in_rev. }
  destruct I as [_ D Nd].
  assert (Wd : Forall net_wf (vals d)).
  { unfold vals. rewrite Forall_map. eapply Forall_impl; [|exact D]. intros kv K; apply K. }
  assert (Vd : Forall (fun n => n_ver n = v) (vals d)).
  { apply Forall_forall. intros n Hn. rewrite Forall_forall in Wd, V.
    destruct (proj1 (C' (mkaddr (n_ver n) (n_addr n)))) as (m & Hm & [E _]).
    { exists n. split; auto. apply in_net_first. auto. }
    simpl in E. rewrite E. auto. }
  rewrite (same_version_iff v) by auto.
  set (s := sorted net_ltb (vals d)).
  assert (Ss : StronglySorted (le net_ltb) s) by (apply sorted_sorted; [exact net_le_total|exact net_le_trans]).
  assert (Pm : Permutation (vals d) s) by apply sorted_perm.
  assert (Hin : forall n, In n s <-> In n (vals d)).
  { intros n. split; apply Permutation_in; [apply Permutation_sym|]; auto. }
  assert (Wss : Forall net_wf s) by (rewrite Forall_forall in *; intros n; rewrite Hin; auto).
  assert (Vs : Forall (fun n => n_ver n = v) s) by (rewrite Forall_forall in *; intros n; rewrite Hin; auto).
  assert (Cs : forall x, net_covers s x <-> net_covers l x).
  { intros x. rewrite <- C'. split; apply net_covers_incl; intros n; apply Hin. }
  exists (skip_subsumed None s). split; auto.
  assert (K : increasing (skip_subsumed None s) /\ forall x, net_covers (skip_subsumed None s) x <-> net_covers s x).
  { clear -Wss Vs Ss. clearbody s. destruct s as [|m s]; cbn [skip_subsumed].
    - split; [constructor|tauto].
    - inversion Wss; inversion Vs; subst. eapply skip_ok; eauto. }
  destruct K as [Inc Cov].
  assert (Sub : forall n, In n (skip_subsumed None s) -> In n s) by (intros n; apply skip_incl).
  rewrite Forall_forall in Wss, Vs.
  split; [split; [|split]|split].
  - apply Forall_forall. auto.
  - exact Inc.
  - intros a b Ia Ib Ne M. apply Ne.
    apply (NoDup_vals d); auto; [|now apply Hin, Sub|now apply Hin, Sub|].
    + eapply Forall_impl; [|exact D]. intros kv K; apply K.
    + destruct (increasing_order _ _ _ Inc Ia Ib) as [E|[B|B]]; [congruence| |symmetry];
        apply (mergeable_super v); auto. now apply mergeable_sym.
  - apply Forall_forall. auto.
  - intros x. rewrite Cov. apply Cs.
Qed.

Lemma collapse_internal_mixed l a b : Forall net_wf l -> In a l -> In b l -> n_ver a <> n_ver b ->
  collapse_internal l = Err TypeError.
Proof.
  intros W Ia Ib Ne. unfold collapse_internal.
  destruct (merge_loop_ok (2 * List.length l + 1) (rev l) []) as (d & R & I & C).
  { constructor; [|constructor|constructor]. apply Forall_rev. auto. }
  { rewrite rev_length. simpl. lia. }
  rewrite R. cbn [bind]. fold (vals d).
  assert (G : forall n, In n l -> exists m, In m (vals d) /\ n_ver m = n_ver n).
  { intros n Hn. rewrite Forall_forall in W.
    destruct (proj2 (C (mkaddr (n_ver n) (n_addr n)))) as (m & Hm & [E _]).
    - left. exists n. split; [now apply -> in_rev|]. apply in_net_first; auto.
    - exists m. simpl in E. auto. }
  destruct (G a Ia) as (ma & Ha & Ea), (G b Ib) as (mb & Hb & Eb).
  destruct (same_version (vals d)) eqn:S; auto. exfalso.
  destruct (vals d) as [|n0 r]; [destruct Ha|]. simpl in S. rewrite forallb_forall in S.
  assert (K : forall m, In m (n0 :: r) -> n_ver m = n_ver n0).
  { intros m [<-|Hm]; auto. apply S in Hm. destruct (ver_eqb_spec (n_ver n0) (n_ver m)); congruence. }
  apply K in Ha, Hb. congruence.
Qed.

(** ** Address ranges *)
Lemma find_ranges_ok it : forall first last, first <= last -> StronglySorted N.lt (last :: it) ->
  (forall f l, In (f, l) (find_ranges first last it) -> f <= l /\ (l = last \/ In l it)) /\
  forall y, (exists f l, In (f, l) (find_ranges first last it) /\ f <= y <= l) <->
            first <= y <= last \/ In y it.
Proof.
  induction it as [|ip it IH]; intros first last L S; cbn [find_ranges].
  - split.
    + intros f l [E|[]]. injection E as <- <-. auto.
    + intros y. split.
      * intros (f & l & [E|[]] & R). injection E as <- <-. auto.
      * intros [R|[]]. exists first, last. simpl; auto.
  - inversion S as [|? ? S' F]; subst. inversion F as [|? ? Lt F']; subst.
    destruct (N.eqb_spec ip (last + 1)) as [E|E]; cbn [negb].
    + destruct (IH first ip) as [A B]; [lia|auto|]. split.
      * intros f l H. apply A in H. destruct H as [H [->|H0]]; simpl; auto.
      * intros y. rewrite B. simpl. split; [intros [R|R]; auto|intros [R|[R|R]]; auto; left; lia].
        destruct (N.eq_dec y ip) as [->|]; auto. left. lia.
    + destruct (IH ip ip) as [A B]; [lia|auto|]. split.
      * intros f l [H|H]; [injection H as <- <-; auto|]. apply A in H. destruct H as [H [->|H0]]; simpl; auto.
      * intros y. specialize (B y). split.
        -- intros (f & l & [H|H] & R); [injection H as <- <-; auto|]. right.
           destruct (proj1 B) as [R'|R']; [exists f, l; auto|left; lia|right; auto].
        -- intros [R|[R|R]]; [exists first, last; simpl; auto| |].
           ++ destruct (proj2 B) as (f & l & H & Q); [left; lia|]. exists f, l. simpl; auto.
           ++ destruct (proj2 B) as (f & l & H & Q); [right; auto|]. exists f, l. simpl; auto.
Qed.

Lemma find_address_range_ok s : StronglySorted N.lt s ->
  (forall f l, In (f, l) (find_address_range s) -> f <= l /\ In l s) /\
  forall y, (exists f l, In (f, l) (find_address_range s) /\ f <= y <= l) <-> In y s.
Proof.
  destruct s as [|x s]; intros S; simpl.
  - split; [tauto|]. intros y. split; [intros (f & l & [] & _)|tauto].
  - destruct (find_ranges_ok s x x ltac:(lia) S) as [A B]. split.
    + intros f l H. apply A in H. destruct H as [H [->|H']]; auto.
    + intros y. rewrite B. split; [intros [R|R]; auto; left; lia|intros [->|R]; auto; left; lia].
Qed.

Lemma summarize_all v rs : (forall f l, In (f, l) rs -> f <= l /\ l < 2 ^ bits v) ->
  exists addrs, map_r (fun '(f, l) => summarize_address_range (mkaddr v f) (mkaddr v l)) rs = Ok addrs /\
    Forall net_wf (List.concat addrs) /\ Forall (fun n => n_ver n = v) (List.concat addrs) /\
    forall x, net_covers (List.concat addrs) x <->
      a_ver x = v /\ exists f l, In (f, l) rs /\ f <= a_val x <= l.
Proof.
  induction rs as [|[f l] rs IH]; intros H; cbn [map_r].
  - exists []. split; auto. repeat split; try constructor; intros; simpl in *;
      firstorder.
  - destruct (H f l) as [L U]; [now left|].
    destruct (summarize_ok v f l L U) as (out & -> & T). cbn [bind].
    destruct IH as (addrs & -> & W & V & C); [intros; apply H; now right|]. cbn [bind].
    exists (out :: addrs). split; auto. cbn [List.concat].
    destruct (tiles_wf _ _ _ _ T) as [Wo Vo]. split; [apply Forall_app; auto|]. split; [apply Forall_app; auto|].
    intros x. rewrite net_covers_app, C, (tiles_covers _ _ _ _ T x). split.
    + intros [[E R]|[E (f' & l' & I & R)]]; (split; [exact E|]).
      * exists f, l. split; [now left|lia].
      * exists f', l'. split; [now right|auto].
    + intros [E (f' & l' & [I|I] & R)].
      * injection I as <- <-. left. split; auto. lia.
      * right. split; auto. exists f', l'. auto.
Qed.

(** ** Splitting *)
Definition item_wf (i : ipobj) : Prop := match i with IAddr a => valid a | INet n => net_wf n end.
Definition item_ver (i : ipobj) : ver := match i with IAddr a => a_ver a | INet n => n_ver n end.

Lemma covers_cons_iff i l x : covers (i :: l) x <-> item_matches i x \/ covers l x.
Proof.
  split.
  - intros (j & [<-|H] & M); [now left|right; exists j; auto].
  - intros [M|(j & H & M)]; [exists i; split; [now left|auto]|exists j; split; [now right|auto]].
Qed.

Lemma single_host n x : net_wf n -> n_plen n = bits (n_ver n) ->
  in_net n x <-> x = mkaddr (n_ver n) (n_addr n).
Proof.
  intros W E. unfold in_net. rewrite E, N.sub_diag. simpl. destruct x as [v y]. simpl. split.
  - intros [-> R]. f_equal. lia.
  - intros H. injection H as -> ->. split; auto. lia.
Qed.

Lemma split_ok v l : Forall item_wf l -> Forall (fun i => item_ver i = v) l -> forall ips nets,
  Forall valid ips -> Forall (fun a => a_ver a = v) ips -> Forall net_wf nets -> Forall (fun n => n_ver n = v) nets ->
  exists ips' nets', collapse_split l ips nets = Ok (ips', nets') /\
    Forall valid ips' /\ Forall (fun a => a_ver a = v) ips' /\ Forall net_wf nets' /\ Forall (fun n => n_ver n = v) nets' /\
    forall x, In x ips' \/ net_covers nets' x <-> In x ips \/ net_covers nets x \/ covers l x.
Proof.
  intros W V. induction l as [|i l IH]; intros ips nets Wi Vi Wn Vn; cbn [collapse_split].
  - exists (rev ips), (rev nets). split; auto. repeat (split; [now apply Forall_rev|]).
    intros x. rewrite <- in_rev.
    assert (net_covers (rev nets) x <-> net_covers nets x) as ->.
    { split; apply net_covers_incl; intros n; now rewrite <- in_rev. }
    split; [tauto|]. intros [H|[H|(j & [] & _)]]; auto.
  - inversion W as [|? ? Wx W']; inversion V as [|? ? Vx V']; subst. specialize (IH W' V').
    assert (P : forall a, valid a -> a_ver a = item_ver i -> (forall x, item_matches i x <-> x = a) ->
      exists ips' nets', collapse_split l (a :: ips) nets = Ok (ips', nets') /\
      Forall valid ips' /\ Forall (fun a => a_ver a = item_ver i) ips' /\ Forall net_wf nets' /\
      Forall (fun n => n_ver n = item_ver i) nets' /\
      forall x, In x ips' \/ net_covers nets' x <-> In x ips \/ net_covers nets x \/ covers (i :: l) x).
    { intros a Va Ea Ma. destruct (IH (a :: ips) nets) as (ips' & nets' & E & A1 & A2 & A3 & A4 & A5); auto.
      exists ips', nets'. repeat (split; [assumption|]). intros x. rewrite A5, covers_cons_iff, Ma. simpl.
      intuition congruence. }
    assert (Hd : forall a, a_ver a = item_ver i -> match ips with
        | [] => true | a' :: _ => ver_eqb (a_ver a') (a_ver a) end = true).
    { intros a Ea. destruct ips as [|a' ips0]; auto. inversion Vi; subst.
      match goal with H : a_ver a' = _ |- _ => rewrite H, Ea end. apply ver_eqb_refl. }
    destruct i as [a|n]; cbn [item_ver item_wf item_matches] in *.
    + specialize (Hd a eq_refl). assert (Pa := P a Wx eq_refl (fun x => iff_refl _)).
      destruct ips as [|a' ips0]; [exact Pa|]. rewrite Hd. exact Pa.
    + destruct (N.eqb_spec (n_plen n) (bits (n_ver n))) as [Eb|Eb].
      * specialize (Hd (mkaddr (n_ver n) (n_addr n)) eq_refl). cbn [a_ver] in *.
        assert (Pa := P (mkaddr (n_ver n) (n_addr n)) (net_addr_valid n Wx) eq_refl (fun x => single_host n x Wx Eb)).
        destruct ips as [|a' ips0]; [exact Pa|]. rewrite Hd. exact Pa.
      * assert (Pn : exists ips' nets', collapse_split l ips (n :: nets) = Ok (ips', nets') /\
          Forall valid ips' /\ Forall (fun a => a_ver a = n_ver n) ips' /\ Forall net_wf nets' /\
          Forall (fun m => n_ver m = n_ver n) nets' /\
          forall x, In x ips' \/ net_covers nets' x <-> In x ips \/ net_covers nets x \/ covers (INet n :: l) x).
        { destruct (IH ips (n :: nets)) as (ips' & nets' & E & A1 & A2 & A3 & A4 & A5); auto.
          exists ips', nets'. repeat (split; [assumption|]). intros x.
          rewrite A5, covers_cons_iff, net_covers_cons. simpl. tauto. }
        destruct nets as [|n' nets0]; [exact Pn|]. inversion Vn; subst.
        match goal with H : n_ver n' = _ |- _ => rewrite H end. rewrite ver_eqb_refl. exact Pn.
Qed.

Theorem collapse_ok v l : Forall item_wf l -> Forall (fun i => item_ver i = v) l ->
  exists out, collapse_addresses l = Ok out /\ canonical out /\ Forall (fun n => n_ver n = v) out /\
    forall x, net_covers out x <-> covers l x.
Proof.
  intros W V. unfold collapse_addresses.
  destruct (split_ok v l W V [] []) as (ips & nets & -> & A1 & A2 & A3 & A4 & A5); auto. cbn [bind].
  assert (A6 : forall x, covers l x <-> In x ips \/ net_covers nets x).
  { intros x. rewrite A5. simpl. split; [tauto|]. intros [[]|[(m & [] & _)|H]]; auto. }
  destruct ips as [|a0 ips].
  - destruct (collapse_internal_ok v nets A3 A4) as (out & -> & Cn & Vo & C). exists out.
    split; [reflexivity|]. split; [exact Cn|]. split; [exact Vo|]. intros x. rewrite C, A6. simpl. tauto.
  - set (L := a0 :: ips) in *. assert (a_ver a0 = v) as Ev by (inversion A2; auto). rewrite Ev.
    set (s := sorted_set (map a_val L)). pose proof (sorted_set_strict (map a_val L)) as Ss. fold s in Ss.
    assert (Is : forall y, In y s <-> exists a, In a L /\ a_val a = y).
    { intros y. unfold s. rewrite sorted_set_in, in_map_iff. firstorder. }
    destruct (find_address_range_ok s Ss) as [R1 R2].
    rewrite Forall_forall in A1, A2.
    destruct (summarize_all v (find_address_range s)) as (addrs & -> & Wa & Va & Ca).
    { intros f k H. apply R1 in H. destruct H as [H I]. split; auto. apply Is in I. destruct I as (a & Ha & <-).
      pose proof (A1 a Ha) as K. unfold valid in K. rewrite (A2 a Ha) in K. exact K. }
    cbn [bind].
    destruct (collapse_internal_ok v (List.concat addrs ++ nets)) as (out & -> & Cn & Vo & C).
    { apply Forall_app; auto. } { apply Forall_app; auto. }
    exists out. split; [reflexivity|]. split; [exact Cn|]. split; [exact Vo|].
    intros x. rewrite C, net_covers_app, Ca, R2, Is, A6.
    assert (a_ver x = v /\ (exists a, In a L /\ a_val a = a_val x) <-> In x L) as ->; [|tauto].
    split.
    + intros [Ex (a & Ha & Ea)]. assert (a = x) as <-; auto. destruct a, x. simpl in *. f_equal; auto.
      pose proof (A2 _ Ha). simpl in *. congruence.
    + intros H. split; [auto|exists x; auto].
Qed.

(** Mixed versions. *)
Lemma split_gen l : forall ips nets, Forall item_wf l ->
  Forall valid ips -> Forall net_wf nets ->
  (forall a b, In a ips -> In b ips -> a_ver a = a_ver b) ->
  (forall a b, In a nets -> In b nets -> n_ver a = n_ver b) ->
  collapse_split l ips nets = Err TypeError \/
  exists ips' nets', collapse_split l ips nets = Ok (ips', nets') /\ Forall valid ips' /\ Forall net_wf nets' /\
    (forall a b, In a ips' -> In b ips' -> a_ver a = a_ver b) /\
    (forall a b, In a nets' -> In b nets' -> n_ver a = n_ver b) /\
    (forall a, In a ips -> In a ips') /\ (forall a, In a nets -> In a nets') /\
    forall i, In i l -> (exists a, In a ips' /\ a_ver a = item_ver i) \/ (exists n, In n nets' /\ n_ver n = item_ver i).
Proof.
  induction l as [|i l IH]; intros ips nets W Wi Wn Ui Un; cbn [collapse_split].
  - right. exists (rev ips), (rev nets). split; auto. repeat (split; [now apply Forall_rev|]).
    split; [intros a b; rewrite <- !in_rev; auto|]. split; [intros a b; rewrite <- !in_rev; auto|].
    split; [intros a; now rewrite <- in_rev|]. split; [intros a; now rewrite <- in_rev|]. intros i [].
  - inversion W as [|? ? Wx W']; subst.
    assert (P : forall a, valid a -> a_ver a = item_ver i ->
       let r := match ips with
         | [] => collapse_split l (a :: ips) nets
         | a' :: _ => if negb (ver_eqb (a_ver a') (a_ver a)) then Err TypeError else collapse_split l (a :: ips) nets
         end in
       r = Err TypeError \/ exists ips' nets', r = Ok (ips', nets') /\ Forall valid ips' /\ Forall net_wf nets' /\
    (forall a b, In a ips' -> In b ips' -> a_ver a = a_ver b) /\
    (forall a b, In a nets' -> In b nets' -> n_ver a = n_ver b) /\
    (forall a, In a ips -> In a ips') /\ (forall a, In a nets -> In a nets') /\
    forall j, In j (i :: l) -> (exists a, In a ips' /\ a_ver a = item_ver j) \/ (exists n, In n nets' /\ n_ver n = item_ver j)).
    { intros a Va Ea.
      assert (Q : (forall b, In b ips -> a_ver b = a_ver a) ->
        let r := collapse_split l (a :: ips) nets in
        r = Err TypeError \/ exists ips' nets', r = Ok (ips', nets') /\ Forall valid ips' /\ Forall net_wf nets' /\
        (forall a b, In a ips' -> In b ips' -> a_ver a = a_ver b) /\
        (forall a b, In a nets' -> In b nets' -> n_ver a = n_ver b) /\
        (forall a, In a ips -> In a ips') /\ (forall a, In a nets -> In a nets') /\
        forall j, In j (i :: l) -> (exists a, In a ips' /\ a_ver a = item_ver j) \/ (exists n, In n nets' /\ n_ver n = item_ver j)).
      { intros U. destruct (IH (a :: ips) nets) as [E|(ips' & nets' & E & B1 & B2 & B3 & B4 & B5 & B6 & B7)]; auto.
        { intros c d [<-|Hc] [<-|Hd]; auto. symmetry. auto. }
        right. exists ips', nets'. split; [exact E|]. repeat (split; [assumption|]).
        split; [intros c Hc; apply B5; now right|]. split; [assumption|].
        intros j [<-|Hj]; auto. left. exists a. split; auto. apply B5. now left. }
      destruct ips as [|a' ips0]; [apply Q; intros b []|].
      destruct (ver_eqb_spec (a_ver a') (a_ver a)) as [Ev|Ev]; [|left; reflexivity].
      apply Q. intros b Hb. rewrite <- Ev. apply Ui; [auto|now left]. }
    destruct i as [a|n]; [apply (P a); auto|].
    destruct (N.eqb_spec (n_plen n) (bits (n_ver n))) as [Eb|Eb].
    + apply (P (mkaddr (n_ver n) (n_addr n))); auto. apply net_addr_valid. exact Wx.
    + assert (Q : (forall b, In b nets -> n_ver b = n_ver n) ->
        let r := collapse_split l ips (n :: nets) in
        r = Err TypeError \/ exists ips' nets', r = Ok (ips', nets') /\ Forall valid ips' /\ Forall net_wf nets' /\
        (forall a b, In a ips' -> In b ips' -> a_ver a = a_ver b) /\
        (forall a b, In a nets' -> In b nets' -> n_ver a = n_ver b) /\
        (forall a, In a ips -> In a ips') /\ (forall a, In a nets -> In a nets') /\
        forall j, In j (INet n :: l) -> (exists a, In a ips' /\ a_ver a = item_ver j) \/ (exists n, In n nets' /\ n_ver n = item_ver j)).
      { intros U. destruct (IH ips (n :: nets)) as [E|(ips' & nets' & E & B1 & B2 & B3 & B4 & B5 & B6 & B7)]; auto.
        { intros c d [<-|Hc] [<-|Hd]; auto. symmetry. auto. }
        right. exists ips', nets'. split; [exact E|]. repeat (split; [assumption|]).
        split; [intros c Hc; apply B6; now right|].
        intros j [<-|Hj]; auto. right. exists n. split; auto. apply B6. now left. }
      destruct nets as [|n' nets0]; [apply Q; intros b []|].
      destruct (ver_eqb_spec (n_ver n') (n_ver n)) as [Ev|Ev]; [|left; reflexivity].
      apply Q. intros b Hb. rewrite <- Ev. apply Un; [auto|now left].
Qed.

Theorem collapse_mixed l i j : Forall item_wf l -> In i l -> In j l -> item_ver i <> item_ver j ->
  collapse_addresses l = Err TypeError.
Proof.
  intros W Ii Ij Ne. unfold collapse_addresses.
  destruct (split_gen l [] [] W) as [E|(ips & nets & E & B1 & B2 & B3 & B4 & _ & _ & B7)];
    auto; try (intros ? ? []); rewrite E; [reflexivity|]. cbn [bind].
  assert (M : (exists a n, In a ips /\ In n nets /\ a_ver a <> n_ver n)).
  { destruct (B7 i Ii) as [(a & Ha & Ea)|(n & Hn & En)], (B7 j Ij) as [(b & Hb & Eb)|(m & Hm & Em)].
    - exfalso. apply Ne. rewrite <- Ea, <- Eb. auto.
    - exists a, m. repeat split; auto. congruence.
    - exists b, n. repeat split; auto. congruence.
    - exfalso. apply Ne. rewrite <- En, <- Em. auto. }
  destruct M as (a & n & Ha & Hn & D).
  destruct ips as [|a0 ips]; [destruct Ha|]. set (L := a0 :: ips) in *.
  set (v := a_ver a0). set (s := sorted_set (map a_val L)).
  pose proof (sorted_set_strict (map a_val L)) as Ss. fold s in Ss.
  assert (Is : forall y, In y s <-> exists a, In a L /\ a_val a = y).
  { intros y. unfold s. rewrite sorted_set_in, in_map_iff. firstorder. }
  destruct (find_address_range_ok s Ss) as [R1 R2].
  assert (Uv : forall b, In b L -> a_ver b = v) by (intros b Hb; apply B3; auto; now left).
  rewrite Forall_forall in B1.
  destruct (summarize_all v (find_address_range s)) as (addrs & -> & Wa & Va & Ca).
  { intros f k H. apply R1 in H. destruct H as [H I]. split; auto. apply Is in I. destruct I as (c & Hc & <-).
    pose proof (B1 c Hc) as K. unfold valid in K. rewrite (Uv c Hc) in K. exact K. }
  cbn [bind].
  destruct (proj2 (Ca a)) as (m & Hm & [Em _]).
  { split; [auto|]. apply R2, Is. exists a. auto. }
  apply (collapse_internal_mixed _ m n).
  - apply Forall_app. auto.
  - apply in_or_app. auto.
  - apply in_or_app. auto.
  - congruence.
Qed.
