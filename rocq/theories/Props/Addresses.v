(** C05-C08: wildcards, netmasks and address ranges. *)
From Coq Require Import Lia.
From Verif.Model Require Import Base Ip Hosts.
From Verif.Spec Require Import AddrSpec.
From Verif.Proofs Require Import IpFacts WildFacts AndFacts MaskFacts SummarizeFacts CollapseFacts.
Local Open Scope N_scope.

(** ** C05: enumerating a wildcard terminates, raises nothing, and yields IPv4
    addresses and (well-formed) IPv4 networks covering exactly the matching addresses. *)
Theorem C05_wildcard_enumeration : forall a w,
  a_ver a = V4 -> valid a -> a_ver w = V4 -> valid w ->
  exists l, wild_addresses a w = Ok l /\
    (forall i, In i l -> match i with
                         | IAddr b => a_ver b = V4
                         | INet n => n_ver n = V4 /\ net_wf n
                         end) /\
    (forall x, covers l x <->
       a_ver x = V4 /\ valid x /\
       forall i, N.testbit (a_val w) i = false -> N.testbit (a_val x) i = N.testbit (a_val a) i).
Proof.
  intros a w Ha Va Hw Vw.
  destruct (wild_addresses_exact a w Ha Va Hw Vw) as (l & E & I & C).
  exists l. split; [exact E|]. split; [exact I|]. exact C.
Qed.
Print Assumptions C05_wildcard_enumeration.

(** ** C06: netmask interpretation, both IP versions, prefix lengths and dotted masks. *)
Theorem C06_netmask : forall a m,
  valid a -> mask_in_range m ->
  (forall p, mask_denotes (a_ver a) m p ->
     exists n, mk_Network a m = Ok (LNet n) /\ net_wf n /\ n_plen n = p /\
       forall x, leaf_matches (LNet n) x <-> agrees_leading a p x) /\
  ((~ exists p, mask_denotes (a_ver a) m p) -> mk_Network a m = Err ValueError).
Proof. exact mk_Network_char. Qed.
Print Assumptions C06_netmask.

(** The mask determines the prefix length: the two readings never conflict. *)
Theorem C06_mask_unambiguous : forall v m p p',
  mask_denotes v m p -> mask_denotes v m p' -> p = p'.
Proof.
  intros v [n|q] p p' H H'; cbn in *; [lia|].
  destruct H as (_ & H), H' as (_ & H').
  assert (A : forall a b, netmask_shape q a -> netmask_shape q b -> a = b).
  { intros a b (La & Ea) (Lb & Eb).
    assert (E : 2 ^ (32 - a) = 2 ^ (32 - b)).
    { assert (2 ^ (32 - a) <= 2 ^ 32) by (apply N.pow_le_mono_r; lia).
      assert (2 ^ (32 - b) <= 2 ^ 32) by (apply N.pow_le_mono_r; lia). lia. }
    apply N.pow_inj_r in E; lia. }
  assert (B : forall a b, hostmask_shape q a -> hostmask_shape q b -> a = b).
  { intros a b (La & Ea) (Lb & Eb).
    assert (E : 2 ^ (32 - a) = 2 ^ (32 - b)).
    { assert (0 < 2 ^ (32 - a)) by (apply N.neq_0_lt_0, N.pow_nonzero; lia).
      assert (0 < 2 ^ (32 - b)) by (apply N.neq_0_lt_0, N.pow_nonzero; lia). lia. }
    apply N.pow_inj_r in E; lia. }
  destruct H as [H|(H & N)], H' as [H'|(H' & N')]; auto;
    exfalso; [apply N'|apply N]; eauto.
Qed.
Print Assumptions C06_mask_unambiguous.

(** ** C07: an IOS pair of address and wildcard is read correctly exactly when the
    wildcard does not have the shape of a netmask. *)
Theorem C07_ios_pair_exact_iff : forall h a w,
  a_ver a = V4 -> valid a -> a_ver w = V4 -> valid w ->
  (forall x, matches h (ios_host (IWildcard a w)) x <-> in_wild a w x) <->
  ~ exists p, netmask_shape (a_val w) p.
Proof. exact ios_host_exact. Qed.
Print Assumptions C07_ios_pair_exact_iff.

(** Otherwise the wildcard is taken as the netmask itself. *)
Theorem C07_ios_pair_netmask : forall h a w p x,
  a_ver a = V4 -> valid a -> a_ver w = V4 -> valid w -> netmask_shape (a_val w) p ->
  matches h (ios_host (IWildcard a w)) x <-> agrees_leading a p x.
Proof. exact ios_host_netmask. Qed.
Print Assumptions C07_ios_pair_netmask.

(** The host form "address 0.0.0.0" therefore matches every IPv4 address. *)
Theorem C07_host_wildcard_refuted : forall h a x,
  a_ver a = V4 -> valid a -> a_ver x = V4 -> valid x ->
  matches h (ios_host (IWildcard a (mkaddr V4 0))) x /\
  (in_wild a (mkaddr V4 0) x <-> x = a).
Proof.
  intros h a x Ha Va Hx Vx. split.
  - apply (ios_host_netmask h a (mkaddr V4 0) 0 x); auto; [reflexivity|now split|].
    split; [congruence|]. split; [exact Vx|]. rewrite Ha. intros i Hi. change (32 <= i) in Hi.
    unfold valid in *. rewrite Ha in Va. rewrite Hx in Vx. cbn in Va, Vx.
    assert (T : forall n, n < 2 ^ 32 -> N.testbit n i = false).
    { intros n Hn. destruct (N.eq_dec n 0) as [->|Z]; [apply N.bits_0|].
      apply N.bits_above_log2. apply N.lt_le_trans with 32; [|exact Hi].
      apply (proj1 (N.log2_lt_pow2 n 32 ltac:(lia))). exact Hn. }
    rewrite (T (a_val x)), (T (a_val a)) by (cbn in *; auto). reflexivity.
  - split; [|intros ->; repeat split; auto].
    intros (_ & _ & B). destruct a as [va na], x as [vx nx]. cbn in *. subst.
    f_equal. apply N.bits_inj. intros i. apply B. exact (N.bits_0 i).
Qed.
Print Assumptions C07_host_wildcard_refuted.

(** ** C08: range objects. *)
Theorem C08_range_exact : forall name descr s e,
  valid s -> valid e -> a_ver s = a_ver e -> a_val s <= a_val e ->
  exists nets,
    mk_NetworkObject name descr (ARange s e) =
      Ok (mkobj name descr (Some (u "range")) (map LNet nets)) /\
    Forall net_wf nets /\ increasing nets /\
    forall x, net_covers nets x <-> a_ver x = a_ver s /\ a_val s <= a_val x <= a_val e.
Proof. exact range_object. Qed.
Print Assumptions C08_range_exact.

Theorem C08_range_rejected : forall name descr s e,
  (a_ver s <> a_ver e -> mk_NetworkObject name descr (ARange s e) = Err TypeError) /\
  (a_ver s = a_ver e -> a_val e < a_val s ->
   mk_NetworkObject name descr (ARange s e) = Err ValueError).
Proof. exact range_object_err. Qed.
Print Assumptions C08_range_rejected.

(** As an address term, the object matches exactly the range. *)
Theorem C08_range_term : forall h name descr s e,
  valid s -> valid e -> a_ver s = a_ver e -> a_val s <= a_val e ->
  exists o, mk_NetworkObject name descr (ARange s e) = Ok o /\ o_name o = name /\
    forall x, matches h (HObj o) x <-> a_ver x = a_ver s /\ a_val s <= a_val x <= a_val e.
Proof.
  intros h name descr s e Vs Ve Ev L.
  destruct (range_object name descr s e Vs Ve Ev L) as (nets & E & _ & _ & C).
  eexists. split; [exact E|]. split; [reflexivity|]. intros x. rewrite <- C.
  split.
  - intros M. inversion M; subst. cbn in *.
    match goal with H : In _ (map LNet nets) |- _ => apply in_map_iff in H; destruct H as (n & <- & I) end.
    exists n. split; auto.
  - intros (n & I & M). econstructor; [apply in_map, I|exact M].
Qed.
Print Assumptions C08_range_term.

(** ** Concrete cases. *)
Example C05_case :   (* 10.0.0.1 with wildcard 0.0.1.2 : four addresses *)
  exists l, wild_addresses (mkaddr V4 167772161) (mkaddr V4 258) = Ok l /\
    forall v, In v [167772161; 167772163; 167772417; 167772419] -> covers l (mkaddr V4 v).
Proof.
  destruct (C05_wildcard_enumeration (mkaddr V4 167772161) (mkaddr V4 258)) as (l & E & _ & C);
    try reflexivity.
  exists l. split; [exact E|]. intros v Hv. apply C. split; [reflexivity|].
  destruct Hv as [<-|[<-|[<-|[<-|[]]]]];
    (split; [reflexivity|]); cbn [a_val]; apply ldiff_eq_bits; reflexivity.
Qed.
Example C06_case :
  mask_denotes V4 (MaskQuad 4294901760) 16 /\ mask_denotes V4 (MaskQuad 255) 24 /\
  mask_denotes V6 (MaskLen 64) 64 /\
  mk_Network (mkaddr V4 167838211) (MaskQuad 4294901760) = Ok (LNet (mknet V4 167837696 16)) /\
  mk_Network (mkaddr V4 167838211) (MaskQuad 4294901761) = Err ValueError.
Proof.
  assert (forall p, p <= 32 -> 255 <> 2 ^ 32 - 2 ^ (32 - p)).
  { intros p Hp E.
    assert (D : exists k, 32 - p = k /\ k <= 32) by (exists (32 - p); split; [reflexivity|lia]). destruct D as (k & Ek & Hk). rewrite Ek in E.
    assert (2 ^ k <= 2 ^ 31 \/ k = 32) as [Hlt|Heq]; [| |rewrite Heq in E; discriminate E].
    { destruct (N.eq_dec k 32); [auto|]. left. apply N.pow_le_mono_r; lia. }
    change (2 ^ 31) with 2147483648 in *. change (2 ^ 32) with 4294967296 in *. lia.
    }
  repeat split; try reflexivity; try (cbn; lia).
  - left. split; [lia|reflexivity].
  - right. split; [split; [lia|reflexivity]|]. intros (p & L & E). now apply (H p).
Qed.
Example C08_case : forall n d,   (* 10.0.0.1 - 10.0.0.4 : /32 /31 /32 *)
  mk_NetworkObject n d (ARange (mkaddr V4 167772161) (mkaddr V4 167772164)) =
  Ok (mkobj n d (Some (u "range"))
     [LNet (mknet V4 167772161 32); LNet (mknet V4 167772162 31); LNet (mknet V4 167772164 32)]).
Proof. reflexivity. Qed.
