(** Expansion of groups (C11-C13). *)
From Coq Require Import Lia Permutation Sorted.
From Verif.Model Require Import Base Ip Hosts Groups.
From Verif.Spec Require Import AddrSpec GroupSpec.

Scheme flat_ind2 := Induction for flat Sort Prop
with flats_ind2 := Induction for flats Sort Prop.
Combined Scheme flat_mutind from flat_ind2, flats_ind2.

Section Generic.
  Context {X : Type} (sub : X -> option gid).

  Lemma expand_r_cons h k x l :
    expand_r sub h (S k) (x :: l) =
    (do a <- (match sub x with Some g => expand_r sub h k (objs h g) | None => Ok [x] end);
     do b <- expand_r sub h (S k) l; Ok (a ++ b)).
  Proof. reflexivity. Qed.

  Lemma expand_r_ok h rk fuel : granked sub h rk -> forall l n,
    (forall x g, In x l -> sub x = Some g -> rk g < n) -> n < fuel ->
    exists ls, expand_r sub h fuel l = Ok ls /\ flats sub (fun x => [x]) h l ls.
  Proof.
    intros R. induction fuel as [|k IH]; intros l n Hl Hn; [lia|].
    induction l as [|x l IHl].
    - exists []. split; [reflexivity|constructor].
    - rewrite expand_r_cons.
      destruct IHl as (b & Eb & Fb); [intros y g Hy; apply Hl; now right|]. rewrite Eb.
      destruct (sub x) as [g|] eqn:Es.
      + pose proof (Hl x g (or_introl eq_refl) Es) as L.
        destruct (IH (objs h g) (rk g)) as (a & Ea & Fa); [intros y g' Hy Hs; eapply R; eauto|lia|].
        rewrite Ea. cbn [bind]. exists (a ++ b). split; auto. constructor; auto. econstructor; eauto.
      + cbn [bind]. exists ([x] ++ b). split; auto. constructor; auto.
        apply (F_elem sub (fun x => [x]) h x Es).
  Qed.

  Lemma expand_r_flats h fuel : forall l ls, expand_r sub h fuel l = Ok ls -> flats sub (fun x => [x]) h l ls.
  Proof.
    induction fuel as [|k IH]; intros l; [discriminate|].
    induction l as [|x l IHl]; intros ls.
    - intros H. injection H as <-. constructor.
    - rewrite expand_r_cons. destruct (sub x) as [g|] eqn:Es.
      + destruct (expand_r sub h k (objs h g)) as [a|] eqn:Ea; [|discriminate]. cbn [bind].
        destruct (expand_r sub h (S k) l) as [b|] eqn:Eb; [|discriminate]. cbn [bind].
        intros H. injection H as <-. constructor; auto. econstructor; eauto.
      + cbn [bind]. destruct (expand_r sub h (S k) l) as [b|] eqn:Eb; [|discriminate]. cbn [bind].
        intros H. injection H as <-. change (x :: b) with ([x] ++ b). constructor; auto.
        apply (F_elem sub (fun x => [x]) h x Es).
  Qed.

  (** Flattening with leaves [f]. *)
  Section Leaves.
    Variable f : X -> list X.

    Lemma flat_det h :
      (forall x l, flat sub f h x l -> forall l', flat sub f h x l' -> l = l') /\
      (forall xs l, flats sub f h xs l -> forall l', flats sub f h xs l' -> l = l').
    Proof.
      apply flat_mutind.
      - intros x E l' H. inversion H; subst; congruence.
      - intros x g l E F IH l' H. inversion H; subst; [congruence|]. replace g0 with g in * by congruence. auto.
      - intros l' H. inversion H; auto.
      - intros x xs l ls F IH Fs IHs l' H. inversion H; subst. f_equal; auto.
    Qed.

    Lemma flats_app h a b la lb : flats sub f h a la -> flats sub f h b lb -> flats sub f h (a ++ b) (la ++ lb).
    Proof.
      induction 1 as [|x xs l ls F Fs IH]; intros Hb; simpl; auto.
      rewrite <- app_assoc. constructor; auto.
    Qed.

    Lemma flat_post h :
      (forall x l, flat sub (fun x => [x]) h x l -> flat sub f h x (flat_map f l)) /\
      (forall xs l, flats sub (fun x => [x]) h xs l -> flats sub f h xs (flat_map f l)).
    Proof.
      apply flat_mutind.
      - intros x E. simpl. rewrite app_nil_r. constructor; auto.
      - intros x g l E F IH. econstructor; eauto.
      - constructor.
      - intros x xs l ls F IH Fs IHs. rewrite flat_map_app. constructor; auto.
    Qed.

    (** Elements produced by flattening. *)
    Lemma flat_elems h :
      (forall x l, flat sub f h x l -> forall y, In y l -> exists e, sub e = None /\ In y (f e)) /\
      (forall xs l, flats sub f h xs l -> forall y, In y l -> exists e, sub e = None /\ In y (f e)).
    Proof.
      apply flat_mutind.
      - intros x E y Hy. exists x. auto.
      - intros x g l E F IH. auto.
      - intros y [].
      - intros x xs l ls F IH Fs IHs y Hy. apply in_app_or in Hy. destruct Hy; auto.
    Qed.

    (** Fixed points of the leaf function: nothing left to expand. *)
    Hypothesis fix_post : forall e y, sub e = None -> In y (f e) -> sub y = None /\ f y = [y].

    Lemma flats_stable h l : (forall y, In y l -> sub y = None /\ f y = [y]) -> flats sub f h l l.
    Proof.
      induction l as [|x l IH]; intros H; [constructor|].
      destruct (H x (or_introl eq_refl)) as [E1 E2].
      change (x :: l) with ([x] ++ l) at 2. constructor; [|apply IH; intros; apply H; now right].
      rewrite <- E2. constructor; auto.
    Qed.

    Lemma flats_result_stable h xs l : flats sub f h xs l -> forall y, In y l -> sub y = None /\ f y = [y].
    Proof. intros F y Hy. destruct (proj2 (flat_elems h) _ _ F y Hy) as (e & E & I). eauto. Qed.

    (** Replacing one group by its flattening changes no flattening. *)
    Lemma flat_update h h' g lg : flats sub f h (objs h g) lg ->
      (forall g', objs h' g' = if Nat.eqb g' g then lg else objs h g') ->
      (forall x l, flat sub f h x l -> flat sub f h' x l) /\
      (forall xs l, flats sub f h xs l -> flats sub f h' xs l).
    Proof.
      intros Fg Ho. apply flat_mutind.
      - intros x E. constructor; auto.
      - intros x g' l E F IH. econstructor; eauto. rewrite Ho. destruct (Nat.eqb_spec g' g) as [->|]; auto.
        replace l with lg by (eapply (proj2 (flat_det h)); eauto).
        apply flats_stable. eapply flats_result_stable; eauto.
      - constructor.
      - intros x xs l ls F IH Fs IHs. constructor; auto.
    Qed.
  End Leaves.

  Lemma expand_r_stable h l k : (forall y, In y l -> sub y = None) -> expand_r sub h (S k) l = Ok l.
  Proof.
    induction l as [|x l IH]; intros H; [reflexivity|]. rewrite expand_r_cons, (H x (or_introl eq_refl)).
    cbn [bind]. rewrite IH by (intros; apply H; now right). reflexivity.
  Qed.
End Generic.

Lemma objs_set {X} (h : gheap X) g l g' : objs (set_objs h g l) g' = if Nat.eqb g' g then l else objs h g'.
Proof. unfold objs, set_objs, h_set. simpl. destruct (Nat.eqb g' g); reflexivity. Qed.

Lemma objs_set_same {X} (h : gheap X) g l : objs (set_objs h g l) g = l.
Proof. rewrite objs_set, Nat.eqb_refl. reflexivity. Qed.

Lemma get_set_other {X} (h : gheap X) g l g' : g' <> g -> h_get (set_objs h g l) g' = h_get h g'.
Proof. intros N. unfold set_objs, h_set. simpl. destruct (Nat.eqb_spec g' g); congruence. Qed.

Lemma get_set_same {X} (h : gheap X) g l :
  h_get (set_objs h g l) g = mkgroup (g_name (h_get h g)) (g_descr (h_get h g)) (g_proto (h_get h g)) l.
Proof. unfold set_objs, h_set. simpl. rewrite Nat.eqb_refl. reflexivity. Qed.

Definition good_kind {X} (K : gkind X) : Prop :=
  forall e y, k_sub K e = None -> In y (k_post K e) -> k_sub K y = None /\ k_post K y = [y].

Lemma net_kind_good : good_kind net_kind.
Proof.
  intros [l|o|g] y E H; simpl in *; try discriminate.
  - destruct H as [<-|[]]. auto.
  - apply in_map_iff in H. destruct H as (l & <- & _). auto.
Qed.
Lemma port_kind_good : good_kind port_kind.
Proof. intros e y E [<-|[]]. auto. Qed.
Lemma service_kind_good : good_kind service_kind.
Proof. intros [s|n d s|g] y E H; simpl in *; try discriminate; destruct H as [<-|[]]; auto. Qed.
Lemma proto_kind_good : good_kind proto_kind.
Proof. intros e y E [<-|[]]. auto. Qed.
Lemma icmp_kind_good : good_kind icmp_kind.
Proof. intros e y E [<-|[]]. auto. Qed.

Section Kind.
  Context {X : Type} (K : gkind X).
  Hypothesis GK : good_kind K.

  (** [expand(insitu=True)] *)
  Lemma expand_in_ok h rk fuel g : granked (k_sub K) h rk -> rk g < fuel ->
    exists h' l, expand_in K fuel h g = Ok h' /\ flattened K h g l /\
      h_get h' g = mkgroup (g_name (h_get h g)) (g_descr (h_get h g)) (g_proto (h_get h g)) l /\
      (forall g', g' <> g -> h_get h' g' = h_get h g') /\ h_next h' = h_next h /\
      (forall y, In y l -> k_sub K y = None /\ k_post K y = [y]).
  Proof.
    intros R L.
    destruct (expand_r_ok (k_sub K) h rk fuel R (objs h g) (rk g)) as (l & E & F); auto.
    { intros x g' Hx Hs. eapply R; eauto. }
    unfold expand_in. rewrite E. cbn [bind].
    pose proof (proj2 (flat_post (k_sub K) (k_post K) h) _ _ F) as F'.
    eexists _, (flat_map (k_post K) l). split; [reflexivity|]. split; [exact F'|].
    split; [rewrite get_set_same, !get_set_same, objs_set_same; reflexivity|].
    split; [intros g' N; rewrite !get_set_other by auto; reflexivity|]. split; [reflexivity|].
    eapply flats_result_stable; eauto.
  Qed.

  Lemma granked_update h h' rk g l : granked (k_sub K) h rk ->
    (forall y, In y l -> k_sub K y = None) ->
    (forall g', objs h' g' = if Nat.eqb g' g then l else objs h g') -> granked (k_sub K) h' rk.
  Proof.
    intros R S Ho g' x g'' Hx Hs. rewrite Ho in Hx. destruct (Nat.eqb g' g); [rewrite S in Hs; auto; discriminate|].
    eapply R; eauto.
  Qed.

  (** [ACLConfig.expand] on the groups of one class *)
  Lemma expand_all_ok h rk fuel gs : granked (k_sub K) h rk -> (forall g, In g gs -> rk g < fuel) ->
    exists h', expand_all K fuel h gs = Ok h' /\ granked (k_sub K) h' rk /\ h_next h' = h_next h /\
      (forall g, In g gs -> exists l, flattened K h g l /\
         h_get h' g = mkgroup (g_name (h_get h g)) (g_descr (h_get h g)) (g_proto (h_get h g)) l) /\
      (forall g, ~ In g gs -> h_get h' g = h_get h g) /\
      (forall x l, flat (k_sub K) (k_post K) h x l -> flat (k_sub K) (k_post K) h' x l).
  Proof.
    unfold expand_all. revert h. induction gs as [|g gs IH]; intros h R L; cbn [fold_r].
    - exists h. split; auto. split; auto. split; auto. split; [intros g []|]. auto.
    - destruct (expand_in_ok h rk fuel g R) as (h1 & l & E & F & G1 & G2 & Nx & Sb); [apply L; now left|].
      rewrite E. cbn [bind].
      assert (Ho : forall g', objs h1 g' = if Nat.eqb g' g then l else objs h g').
      { intros g'. unfold objs. destruct (Nat.eqb_spec g' g) as [->|N]; [now rewrite G1|now rewrite G2]. }
      assert (R1 : granked (k_sub K) h1 rk) by (eapply granked_update; eauto; intros; apply Sb; auto).
      destruct (flat_update (k_sub K) (k_post K) GK h h1 g l F Ho) as [U1 U2].
      destruct (IH h1 R1) as (h2 & E2 & R2 & Nx2 & A & B & C); [intros; apply L; now right|].
      exists h2. split; auto. split; auto. split; [congruence|].
      assert (Fl : forall g', exists l', flattened K h g' l').
      { intros g'. destruct (expand_r_ok (k_sub K) h rk (S (rk g')) R (objs h g') (rk g')) as (l' & _ & Fl);
          [intros x g'' Hx Hs; eapply R; eauto|lia|].
        exists (flat_map (k_post K) l'). apply (proj2 (flat_post (k_sub K) (k_post K) h)); auto. }
      assert (Fl1 : forall g' l', flattened K h g' l' -> flattened K h1 g' l').
      { intros g' l' H. unfold flattened. rewrite Ho. destruct (Nat.eqb_spec g' g) as [->|]; [|apply U2; auto].
        replace l' with l by (eapply (proj2 (flat_det (k_sub K) (k_post K) h)); eauto).
        apply flats_stable; auto. }
      split; [|split].
      + intros g' [<-|Hg'].
        * destruct (in_dec Nat.eq_dec g gs) as [I|I].
          -- destruct (A g I) as (l' & Fl' & Hl'). exists l. split; auto. rewrite Hl', G1. simpl. f_equal.
             eapply (proj2 (flat_det (k_sub K) (k_post K) h1)); [exact Fl'|]. apply Fl1. exact F.
          -- exists l. split; auto. rewrite B by auto. exact G1.
        * destruct (A g' Hg') as (l' & Fl' & Hl'). destruct (Fl g') as (l0 & F0). exists l0. split; auto.
          rewrite Hl'. replace l' with l0.
          2:{ eapply (proj2 (flat_det (k_sub K) (k_post K) h1)); [apply Fl1; exact F0|exact Fl']. }
          destruct (Nat.eq_dec g' g) as [->|N]; [rewrite G1; reflexivity|rewrite G2; auto].
      + intros g' N. rewrite B by (intro; apply N; now right). apply G2. intros ->. apply N. now left.
      + auto.
  Qed.

  (** Fresh group *)
  Definition closed (h : gheap X) : Prop :=
    forall g x g', g < h_next h -> In x (objs h g) -> k_sub K x = Some g' -> g' < h_next h.

  Lemma expand_r_frame h h' n : closed h -> n = h_next h -> (forall g, g < n -> objs h' g = objs h g) ->
    forall fuel l, (forall x g, In x l -> k_sub K x = Some g -> g < n) ->
    expand_r (k_sub K) h' fuel l = expand_r (k_sub K) h fuel l.
  Proof.
    intros C -> S. induction fuel as [|k IH]; intros l H; [reflexivity|].
    induction l as [|x l IHl]; [reflexivity|]. rewrite !expand_r_cons.
    rewrite IHl by (intros; eapply H; [right|]; eauto).
    destruct (k_sub K x) as [g|] eqn:E; [|reflexivity].
    assert (g < h_next h) by (eapply H; [left|]; eauto). rewrite S by auto.
    rewrite IH; [reflexivity|]. intros y g' Hy Hs. eapply C; eauto.
  Qed.

  Lemma expand_new_ok h rk fuel g : closed h -> g < h_next h -> granked (k_sub K) h rk -> rk g < fuel ->
    exists h' o l, expand_new K fuel h g = Ok (h', o) /\ flattened K h g l /\ o = h_next h /\
      h_get h' o = mkgroup (g_name (h_get h g)) (g_descr (h_get h g)) [] l /\ h_next h' = S (h_next h) /\
      (forall g', g' <> o -> h_get h' g' = h_get h g') /\
      (forall y, In y l -> k_sub K y = None /\ k_post K y = [y]).
  Proof.
    intros C Lg R L. unfold expand_new, h_alloc. cbn [fst snd].
    set (h0 := {| h_get := _; h_next := _ |}).
    assert (S0 : forall g', g' <> h_next h -> h_get h0 g' = h_get h g').
    { intros g' N. unfold h0. simpl. destruct (Nat.eqb_spec g' (h_next h)); congruence. }
    assert (O0 : forall g', g' < h_next h -> objs h0 g' = objs h g').
    { intros g' N. unfold objs. rewrite S0; auto. lia. }
    rewrite (expand_r_frame h h0 (h_next h) C eq_refl O0) by
      (intros x g' Hx Hs; rewrite O0 in Hx by auto; eapply C; eauto).
    rewrite O0 by auto.
    destruct (expand_r_ok (k_sub K) h rk fuel R (objs h g) (rk g)) as (l & E & F); auto.
    { intros x g' Hx Hs. eapply R; eauto. }
    rewrite E. cbn [bind]. unfold expand_in. rewrite !objs_set_same.
    assert (Sl : forall y, In y l -> k_sub K y = None).
    { intros y Hy. destruct (proj2 (flat_elems (k_sub K) (fun x => [x]) h) _ _ F y Hy) as (e & Ee & [<-|[]]). auto. }
    destruct fuel as [|k]; [lia|]. rewrite expand_r_stable by auto. cbn [bind].
    rewrite !objs_set_same.
    pose proof (proj2 (flat_post (k_sub K) (k_post K) h) _ _ F) as F'.
    assert (Id : flat_map (k_post K) (flat_map (k_post K) l) = flat_map (k_post K) l).
    { pose proof (flats_result_stable (k_sub K) (k_post K) GK h _ _ F') as St. revert St.
      generalize (flat_map (k_post K) l). clear. intros l. induction l as [|x l IH]; intros St; auto.
      simpl. destruct (St x (or_introl eq_refl)) as [_ ->]. simpl. f_equal. apply IH. intros; apply St; now right. }
    rewrite Id. eexists _, _, (flat_map (k_post K) l). split; [reflexivity|]. split; [exact F'|].
    split; [reflexivity|]. split.
    { rewrite !get_set_same. unfold h0. simpl. rewrite Nat.eqb_refl. reflexivity. }
    split; [reflexivity|]. split.
    { intros g' N. rewrite !get_set_other by auto. apply S0; auto. }
    eapply flats_result_stable; eauto.
  Qed.

  Lemma port_expand_new_ok h rk fuel g : (forall x, k_post K x = [x]) ->
    closed h -> g < h_next h -> granked (k_sub K) h rk -> rk g < fuel ->
    exists h' o l, port_expand_new K fuel h g = Ok (h', o) /\ flattened K h g l /\ o = h_next h /\
      h_get h' o = mkgroup (g_name (h_get h g)) (g_descr (h_get h g)) (g_proto (h_get h g)) l /\
      h_next h' = S (h_next h) /\
      (forall g', g' <> o -> h_get h' g' = h_get h g') /\
      (forall y, In y l -> k_sub K y = None).
  Proof.
    intros Pid C Lg R L. unfold port_expand_new, h_alloc. cbn [fst snd].
    set (h0 := {| h_get := _; h_next := _ |}).
    assert (S0 : forall g', g' <> h_next h -> h_get h0 g' = h_get h g').
    { intros g' N. unfold h0. simpl. destruct (Nat.eqb_spec g' (h_next h)); congruence. }
    assert (O0 : forall g', g' < h_next h -> objs h0 g' = objs h g').
    { intros g' N. unfold objs. rewrite S0; auto. lia. }
    rewrite (expand_r_frame h h0 (h_next h) C eq_refl O0) by
      (intros x g' Hx Hs; rewrite O0 in Hx by auto; eapply C; eauto).
    rewrite O0 by auto.
    destruct (expand_r_ok (k_sub K) h rk fuel R (objs h g) (rk g)) as (l & E & F); auto.
    { intros x g' Hx Hs. eapply R; eauto. }
    rewrite E. cbn [bind].
    assert (F' : flattened K h g l).
    { pose proof (proj2 (flat_post (k_sub K) (k_post K) h) _ _ F) as F'.
      replace l with (flat_map (k_post K) l); auto. clear -Pid. induction l as [|x l IH]; auto. simpl.
      rewrite Pid, IH. reflexivity. }
    eexists _, _, l. split; [reflexivity|]. split; [exact F'|]. split; [reflexivity|]. split.
    { rewrite get_set_same. unfold h0. simpl. rewrite Nat.eqb_refl. reflexivity. }
    split; [reflexivity|]. split.
    { intros g' N. rewrite get_set_other by auto. apply S0; auto. }
    intros y Hy. destruct (proj2 (flat_elems (k_sub K) (fun x => [x]) h) _ _ F y Hy) as (e & Ee & [<-|[]]). auto.
  Qed.
End Kind.

(** ** Network groups: leaves and addresses *)
Lemma flat_reaches h :
  (forall x l, flat (k_sub net_kind) (k_post net_kind) h x l ->
     forall y, In y l <-> exists lf, y = HLeaf lf /\ reaches h x lf) /\
  (forall xs l, flats (k_sub net_kind) (k_post net_kind) h xs l ->
     forall y, In y l <-> exists x lf, In x xs /\ y = HLeaf lf /\ reaches h x lf).
Proof.
  apply flat_mutind.
  - intros [lf|o|g] E y; simpl in *; try discriminate.
    + split.
      * intros [<-|[]]. exists lf. split; auto. constructor.
      * intros (l' & -> & R). inversion R; subst. auto.
    + rewrite in_map_iff. split.
      * intros (l & <- & I). exists l. split; auto. now constructor.
      * intros (l' & -> & R). inversion R; subst. eauto.
  - intros x g l E F IH y. destruct x as [|?|g']; try discriminate. simpl in E. injection E as ->.
    rewrite IH. split.
    + intros (x & lf & Hx & -> & R). exists lf. split; auto. econstructor; eauto.
    + intros (lf & -> & R). inversion R; subst. eauto.
  - intros y. split; [intros []|intros (x & lf & [] & _)].
  - intros x xs l ls F IH Fs IHs y. rewrite in_app_iff, IH, IHs. split.
    + intros [(lf & -> & R)|(x' & lf & Hx & -> & R)]; [exists x, lf|exists x', lf]; simpl; auto.
    + intros (x' & lf & [<-|Hx] & -> & R); [left|right]; eauto.
Qed.

Lemma reaches_update h h' g l : flattened net_kind h g l ->
  (forall g', objs h' g' = if Nat.eqb g' g then l else objs h g') ->
  forall x lf, reaches h x lf <-> reaches h' x lf.
Proof.
  intros F Ho x lf.
  assert (Hg : forall lf, In (HLeaf lf) l <-> reaches h (HGrp g) lf).
  { intros k. rewrite (proj2 (flat_reaches h) _ _ F). split.
    - intros (x' & k' & Hx & E & R). injection E as <-. econstructor; eauto.
    - intros R. inversion R; subst. eauto. }
  split; intros R.
  - induction R as [k|o k I|g' m k I R IH].
    + constructor.
    + now constructor.
    + destruct (Nat.eq_dec g' g) as [->|N].
      * apply (R_grp h' g (HLeaf k)); [|constructor]. rewrite Ho, Nat.eqb_refl. apply Hg. econstructor; eauto.
      * econstructor; [|exact IH]. rewrite Ho. destruct (Nat.eqb_spec g' g); congruence.
  - induction R as [k|o k I|g' m k I R IH].
    + constructor.
    + now constructor.
    + rewrite Ho in I. destruct (Nat.eqb_spec g' g) as [->|N].
      * pose proof I as I'. apply (proj2 (flat_reaches h) _ _ F) in I'. destruct I' as (x' & lf & _ & -> & _).
        inversion R; subst. apply Hg. exact I.
      * econstructor; eauto.
Qed.

Lemma matches_reaches h x a : matches h x a <-> exists lf, reaches h x lf /\ leaf_matches lf a.
Proof.
  split.
  - induction 1 as [l y M|o l y I M|g m y I M IH].
    + exists l. split; auto. constructor.
    + exists l. split; auto. now constructor.
    + destruct IH as (l & R & L). exists l. split; auto. econstructor; eauto.
  - intros (lf & R & M). induction R.
    + now constructor.
    + econstructor; eauto.
    + econstructor; eauto.
Qed.

Lemma matches_ext h h' : (forall x lf, reaches h x lf <-> reaches h' x lf) ->
  forall x a, matches h x a <-> matches h' x a.
Proof.
  intros H x a. rewrite !matches_reaches. split; intros (lf & R & M); exists lf; split; auto; apply H; auto.
Qed.

Lemma expand_all_reaches h h' :
  (forall x l, flat (k_sub net_kind) (k_post net_kind) h x l -> flat (k_sub net_kind) (k_post net_kind) h' x l) ->
  (exists rk, granked (k_sub net_kind) h rk) ->
  forall x lf, reaches h x lf <-> reaches h' x lf.
Proof.
  intros U (rk & R) x lf.
  assert (Ex : exists l, flat (k_sub net_kind) (k_post net_kind) h x l).
  { destruct x as [k|o|g].
    - eexists. apply (F_elem (k_sub net_kind) (k_post net_kind) h (HLeaf k)). reflexivity.
    - eexists. apply (F_elem (k_sub net_kind) (k_post net_kind) h (HObj o)). reflexivity.
    - destruct (expand_r_ok (k_sub net_kind) h rk (S (rk g)) R (objs h g) (rk g)) as (l & _ & F);
        [intros y g'' Hx Hs; eapply R; eauto|lia|].
      exists (flat_map (k_post net_kind) l). apply (F_grp _ _ h (HGrp g) g); [reflexivity|].
      apply (proj2 (flat_post (k_sub net_kind) (k_post net_kind) h)). exact F. }
  destruct Ex as (l & F). pose proof (U _ _ F) as F'.
  pose proof (proj1 (flat_reaches h) _ _ F (HLeaf lf)) as A.
  pose proof (proj1 (flat_reaches h') _ _ F' (HLeaf lf)) as B.
  split; intros Rr.
  - destruct (proj1 B) as (k & E & Rk); [apply A; eauto|]. injection E as <-. exact Rk.
  - destruct (proj1 A) as (k & E & Rk); [apply B; eauto|]. injection E as <-. exact Rk.
Qed.

Lemma granked_ranked h rk : granked (k_sub net_kind) h rk <-> ranked h rk.
Proof.
  split.
  - intros R g m H. eapply R; eauto.
  - intros R g x g' H E. destruct x; try discriminate. simpl in E. injection E as ->. apply R. exact H.
Qed.
