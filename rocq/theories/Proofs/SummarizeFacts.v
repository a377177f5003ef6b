(** summarize_address_range tiles the range (C08). *)
From Coq Require Import Lia ZifyBool ZifyNat ZifyN Permutation Sorted.
From Verif.Model Require Import Base Ip Hosts.
From Verif.Spec Require Import AddrSpec.
From Verif.Proofs Require Import LoopFacts IpFacts WildFacts MaskFacts SortFacts.
Local Open Scope N_scope.

(** [l] tiles the half-open interval from [a] to [b]. *)
Fixpoint tiles (v : ver) (a : N) (l : list net) (b : N) : Prop :=
  match l with
  | [] => a = b
  | n :: l' => net_wf n /\ n_ver n = v /\ n_addr n = a /\ tiles v (a + nsize n) l' b
  end.

Lemma tiles_le v a l b : tiles v a l b -> a <= b.
Proof.
  revert a. induction l as [|n l IH]; simpl; intros a H; [lia|].
  destruct H as (_ & _ & _ & H). apply IH in H. pose proof (nsize_pos n). lia.
Qed.

Lemma tiles_snoc v a l b n c : tiles v a l b -> net_wf n -> n_ver n = v -> n_addr n = b ->
  b + nsize n = c -> tiles v a (l ++ [n]) c.
Proof.
  revert a. induction l as [|m l IH]; simpl; intros a H W E A C.
  - subst a. auto.
  - destruct H as (Wm & Em & Am & H). repeat split; auto; apply Wm.
Qed.

Lemma tiles_wf v a l b : tiles v a l b -> Forall net_wf l /\ Forall (fun n => n_ver n = v) l.
Proof.
  revert a. induction l as [|n l IH]; simpl; intros a H; [split; constructor|].
  destruct H as (W & E & _ & H). destruct (IH _ H). split; constructor; auto.
Qed.

Lemma tiles_covers v a l b : tiles v a l b ->
  forall x, net_covers l x <-> a_ver x = v /\ a <= a_val x < b.
Proof.
  revert a. induction l as [|n l IH]; simpl; intros a H x.
  - subst. split; [intros (n & [] & _)|lia].
  - destruct H as (W & E & A & H). pose proof (tiles_le _ _ _ _ H) as L.
    specialize (IH _ H x). pose proof (nsize_pos n) as P. unfold nsize in *. split.
    + intros (m & [<-|Hm] & I).
      * destruct I as [I1 I2]. split; [congruence|lia].
      * assert (net_covers l x) as C by (exists m; auto). apply IH in C.
        destruct C as [I1 I2]. split; [exact I1|lia].
    + intros [V R]. destruct (N.lt_ge_cases (a_val x) (a + 2 ^ (bits (n_ver n) - n_plen n))) as [C|C].
      * exists n. split; [now left|]. split; [congruence|lia].
      * assert (net_covers l x) as (m & Hm & I) by (apply IH; split; [exact V|lia]).
        exists m. split; [now right|exact I].
Qed.

Lemma tiles_from v a l b n : tiles v a l b -> In n l -> a <= n_addr n.
Proof.
  revert a. induction l as [|m l IH]; simpl; intros a H I; [tauto|].
  destruct H as (_ & _ & A & H). destruct I as [<-|I]; [lia|].
  apply (IH _ H) in I. lia.
Qed.

Lemma tiles_increasing v a l b : tiles v a l b -> increasing l.
Proof.
  revert a. induction l as [|n l IH]; simpl; intros a H; [constructor|].
  destruct H as (W & E & A & H). constructor; [eapply IH; eauto|].
  apply Forall_forall. intros m Hm. pose proof (tiles_from _ _ _ _ _ H Hm).
  pose proof (tiles_wf _ _ _ _ H) as [_ V]. rewrite Forall_forall in V. unfold net_before, nsize in *.
  split; [rewrite (V m Hm); auto|lia].
Qed.

Lemma summarize_nbits_facts v first last : first <= last ->
  let nb := summarize_nbits v first last in
  nb <= bits v /\ (2 ^ nb | first) /\ first + 2 ^ nb <= last + 1.
Proof.
  intros L nb. unfold nb, summarize_nbits.
  set (c := count_righthand_zero_bits first (bits v)). set (len := last - first + 1).
  split; [pose proof (crzb_le first (bits v)); lia|]. split.
  - eapply crzb_divide. apply N.le_min_l.
  - assert (N.size len = N.succ (N.log2 len)) as E by (apply N.size_log2; lia).
    rewrite E. replace (N.succ (N.log2 len) - 1) with (N.log2 len) by lia.
    assert (2 ^ N.min c (N.log2 len) <= 2 ^ N.log2 len) as P by (apply N.pow_le_mono_r; lia).
    pose proof (N.log2_spec len ltac:(lia)). lia.
Qed.

Lemma summarize_ok v first last : first <= last -> last < 2 ^ bits v ->
  exists out, summarize_address_range (mkaddr v first) (mkaddr v last) = Ok out /\
              tiles v first out (last + 1).
Proof.
  intros L U. unfold summarize_address_range. simpl. rewrite ver_eqb_refl. simpl.
  destruct (N.ltb_spec last first); [lia|].
  apply (run_loop_total (summarize_body v last)
          (fun '(out, f) => tiles v first out f /\ f <= last + 1)
          (fun out => tiles v first out (last + 1))
          (fun '(out, f) => last + 2 - f)).
  - intros [out f] [T Lf]. unfold summarize_body.
    destruct (N.leb_spec f last) as [C|C].
    + destruct (summarize_nbits_facts v f last C) as (Nb & D & R).
      set (nb := summarize_nbits v f last) in *. rewrite N.shiftl_1_l.
      pose proof (pow2_pos nb) as P.
      assert (W : net_wf (mknet v f (bits v - nb))).
      { split; [simpl; lia|]. simpl. split; [lia|]. replace (bits v - (bits v - nb)) with nb by lia. auto. }
      assert (T' : tiles v first (out ++ [mknet v f (bits v - nb)]) (f + 2 ^ nb)).
      { eapply tiles_snoc; eauto. unfold nsize; simpl. do 2 f_equal. lia. }
      destruct (N.eqb_spec (f + 2 ^ nb - 1) (all_ones v)) as [E|E].
      * left. eexists. split; [reflexivity|].
        assert (f + 2 ^ nb = last + 1) as <-; auto.
        unfold all_ones in E. rewrite N.ones_equiv, N.pred_sub in E. lia.
      * right. eexists. split; [reflexivity|]. split; [split; auto|]. lia.
    + left. exists out. split; auto. replace (last + 1) with f by lia. auto.
  - split; [reflexivity|]. simpl. lia.
  - change (N.of_nat 129) with 129.
    assert (2 ^ bits v <= 2 ^ 128) by (apply N.pow_le_mono_r; destruct v; simpl; lia).
    change (2 ^ 129) with (2 * 2 ^ 128). change (2 ^ 128) with 340282366920938463463374607431768211456 in *. lia.
Qed.

(** Rebuilding the emitted networks through the Network constructor. *)
Lemma rebuild_nets l : Forall net_wf l ->
  map_r (fun n => mk_Network (mkaddr (n_ver n) (n_addr n)) (MaskLen (n_plen n))) l = Ok (map LNet l).
Proof.
  induction 1 as [|n l W F IH]; auto. cbn [map_r map].
  unfold mk_Network at 1. rewrite ip_network_aligned by auto. cbn [bind].
  rewrite IH. reflexivity.
Qed.

Lemma range_object name descr s e : valid s -> valid e -> a_ver s = a_ver e -> a_val s <= a_val e ->
  exists nets, mk_NetworkObject name descr (ARange s e) =
      Ok (mkobj name descr (Some (u "range")) (map LNet nets)) /\
    Forall net_wf nets /\ increasing nets /\
    forall x, net_covers nets x <-> a_ver x = a_ver s /\ a_val s <= a_val x <= a_val e.
Proof.
  intros Vs Ve E L. destruct s as [v s], e as [v' e]. simpl in *. subst v'. unfold valid in *; simpl in *.
  destruct (summarize_ok v s e L Ve) as (out & Ho & T). rewrite Ho.
  cbn [bind]. destruct (tiles_wf _ _ _ _ T) as [W _]. rewrite rebuild_nets by auto. cbn [bind].
  exists out. split; auto. split; auto. split; [eapply tiles_increasing; eauto|].
  intros x. rewrite (tiles_covers _ _ _ _ T x). split; intros [P Q]; split; auto; lia.
Qed.

Lemma range_object_err name descr s e :
  (a_ver s <> a_ver e -> mk_NetworkObject name descr (ARange s e) = Err TypeError) /\
  (a_ver s = a_ver e -> a_val e < a_val s ->
   mk_NetworkObject name descr (ARange s e) = Err ValueError).
Proof.
  split.
  - intros H. simpl. unfold summarize_address_range. destruct (ver_eqb_spec (a_ver s) (a_ver e)); [congruence|reflexivity].
  - intros H L. simpl. unfold summarize_address_range. rewrite H, ver_eqb_refl. simpl.
    destruct (N.ltb_spec (a_val e) (a_val s)); [reflexivity|lia].
Qed.
