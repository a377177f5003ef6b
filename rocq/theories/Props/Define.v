(** C42: group graphs built by definitions are acyclic. *)
From Coq Require Import Lia String.
From Verif.Model Require Import Base Ip Hosts Groups Iface Define.
From Verif.Spec Require Import AddrSpec GroupSpec.
From Verif.Proofs Require Import GroupOps DictFacts PfFacts.
From Verif.Props Require Import Expand.
Local Open Scope list_scope.

(** What a written member stands for when the names mean [t]. *)
Definition stands_for {X} (mk : gid -> X) (t : dict gid) (m : member X) (x : X) : Prop :=
  match m with Lit y => x = y | Ref n => exists g, dget t n = Some g /\ x = mk g end.
(** The elements written in a definition are not groups themselves. *)
Definition plain {X} (sub : X -> option gid) (d : gdef X) : Prop :=
  forall x, In (Lit x) (gd_members d) -> sub x = None.
Definition plain_any (d : anydef) : Prop :=
  match d with
  | DNet d => plain host_sub d | DPort d => plain port_sub d | DService d => plain service_sub d
  | DProto d => plain proto_sub d | DIcmp d => plain icmp_sub d
  end.

Section G.
  Context {X : Type} (mk : gid -> X) (allowed : X -> bool) (sub : X -> option gid).
  Notation define := (define mk allowed).

  Lemma read_ok t l ms : map_r (read_member mk t) l = Ok ms -> Forall2 (stands_for mk t) l ms.
  Proof using.
    clear. revert ms. induction l as [|m l IH]; intros ms H; cbn [map_r] in H.
    - injection H as <-. constructor.
    - destruct (read_member mk t m) as [x|] eqn:E; [|discriminate]. cbn [bind] in H.
      destruct (map_r (read_member mk t) l) as [xs|]; [|discriminate]. injection H as <-.
      constructor; auto. destruct m as [y|n]; cbn in *; [congruence|].
      destruct (dget t n) as [g|]; [|discriminate]. exists g. split; congruence.
  Qed.
  Lemma adds_ok g ms : forall h h', fold_r (fun h x => group_add allowed h g x) ms h = Ok h' ->
    h_next h' = h_next h /\ (forall g', g' <> g -> h_get h' g' = h_get h g') /\
    same_header (h_get h g) (h_get h' g) /\ objs h' g = objs h g ++ ms /\ (forall x, In x ms -> allowed x = true).
  Proof using.
    clear. induction ms as [|x ms IH]; intros h h' H; cbn [fold_r] in H.
    - injection H as <-. rewrite app_nil_r. split; [reflexivity|]. split; [auto|]. split; [repeat split|]. split; [reflexivity|intros x []].
    - unfold group_add at 1 in H. destruct (allowed x) eqn:A; [|discriminate]. cbn [bind] in H.
      apply IH in H as (N & O & (Hn & Hd & Hp) & Ob & Al). split; [|split; [|split; [|split]]].
      + rewrite N. reflexivity.
      + intros g' D. rewrite O by auto. cbn. apply Nat.eqb_neq in D. now rewrite D.
      + cbn in Hn, Hd, Hp. rewrite Nat.eqb_refl in *. cbn in *. unfold same_header. auto.
      + rewrite Ob. unfold objs at 1. cbn. rewrite Nat.eqb_refl. cbn. now rewrite <- app_assoc.
      + intros y [<-|I]; auto.
  Qed.

  (** One definition: a new group, found under its name, with exactly the members
      written, references meaning what the names meant before; nothing else changes. *)
  Lemma define_ok t h d t' h' : define (t, h) d = Ok (t', h') ->
    exists g, g = h_next h /\ h_next h' = S g /\
      (forall n, dget t' n = if str_eqb (gd_name d) n then Some g else dget t n) /\
      Forall2 (stands_for mk t) (gd_members d) (objs h' g) /\
      (forall x, In x (objs h' g) -> allowed x = true) /\
      g_name (h_get h' g) = gd_name d /\ g_descr (h_get h' g) = gd_descr d /\ g_proto (h_get h' g) = gd_proto d /\
      (forall g', g' <> g -> h_get h' g' = h_get h g').
  Proof.
    unfold Define.define. intros H.
    destruct (map_r (read_member mk t) (gd_members d)) as [ms|] eqn:E; [|discriminate]. cbn [bind h_alloc] in H.
    destruct (fold_r _ ms _) as [h1|] eqn:F; [|discriminate]. cbn [bind] in H. injection H as <- <-.
    apply adds_ok in F as (N & O & (Hn & Hd & Hp) & Ob & Al). cbn in *. rewrite Nat.eqb_refl in *. cbn in *.
    exists (h_next h). split; [reflexivity|]. split; [exact N|]. split; [intros n; apply dget_dset|].
    unfold objs in Ob at 2. cbn in Ob. rewrite Nat.eqb_refl in Ob. cbn in Ob. rewrite Ob.
    split; [now apply read_ok|]. split; [exact Al|]. split; [congruence|]. split; [congruence|]. split; [congruence|].
    intros g' D. rewrite O by auto. apply Nat.eqb_neq in D. now rewrite D.
  Qed.

  (** It succeeds exactly if all references are known and all elements acceptable. *)
  Lemma adds_total g ms : (forall x, In x ms -> allowed x = true) -> forall h, exists h', fold_r (fun h x => group_add allowed h g x) ms h = Ok h'.
  Proof using.
    clear. induction ms as [|x ms IH]; intros A h; cbn [fold_r]; [eauto|].
    unfold group_add at 1. rewrite A by now left. cbn [bind]. apply IH. intros y I. apply A. now right.
  Qed.
  Lemma define_total t h d : 
    (forall n, In (Ref n) (gd_members d) -> exists g, dget t n = Some g /\ allowed (mk g) = true) ->
    (forall x, In (Lit x) (gd_members d) -> allowed x = true) ->
    exists w, define (t, h) d = Ok w.
  Proof.
    intros R L. unfold Define.define.
    assert (M : exists ms, map_r (read_member mk t) (gd_members d) = Ok ms /\ forall x, In x ms -> allowed x = true).
    { induction (gd_members d) as [|m l IH]; [exists []; split; [reflexivity|intros x []]|].
      destruct IH as (ms & E & A); [intros n I; apply R; now right|intros x I; apply L; now right|].
      cbn [map_r]. destruct m as [x|n]; cbn [read_member].
      - cbn [bind]. rewrite E. cbn [bind]. exists (x :: ms). split; [reflexivity|]. intros y [<-|I]; auto. apply L. now left.
      - destruct (R n (or_introl eq_refl)) as (g & G & Ag). rewrite G. cbn [bind]. rewrite E. cbn [bind].
        exists (mk g :: ms). split; [reflexivity|]. intros y [<-|I]; auto. }
    destruct M as (ms & -> & A). cbn [bind h_alloc].
    destruct (adds_total (h_next h) ms A (mkheap (fun g' => if Nat.eqb g' (h_next h) then mkgroup (gd_name d) (gd_descr d) (gd_proto d) [] else h_get h g') (S (h_next h)))) as (h' & ->).
    cbn [bind]. eauto.
  Qed.
  Lemma define_unknown t h d n : In (Ref n) (gd_members d) -> dget t n = None -> define (t, h) d = Err AssertionError.
  Proof.
    intros I N. unfold Define.define.
    assert (E : map_r (read_member mk t) (gd_members d) = Err AssertionError).
    { induction (gd_members d) as [|m l IH]; [destruct I|]. cbn [map_r]. destruct I as [->|I].
      - cbn [read_member]. rewrite N. reflexivity.
      - rewrite (IH I). destruct m as [x|n']; cbn [read_member bind]; [reflexivity|].
        destruct (dget t n'); reflexivity. }
    now rewrite E.
  Qed.

  (** Invariant: groups refer to older groups only. *)
  Context (sub_mk : forall g, sub (mk g) = Some g).
  Definition older (w : gworld X) : Prop :=
    (forall n g, dget (fst w) n = Some g -> g < h_next (snd w)) /\
    (forall g x g', In x (objs (snd w) g) -> sub x = Some g' -> g' < g /\ g < h_next (snd w)).
  Lemma older_init : older gworld_init.
  Proof using. clear. split; [intros n g [=]|]. intros g x g' []. Qed.
  Lemma older_define w d w' : older w -> plain sub d -> define w d = Ok w' ->
    older w' /\ h_next (snd w') = S (h_next (snd w)).
  Proof.
    intros (T & O) P H. destruct w as [t h], w' as [t' h']. cbn [fst snd] in *.
    apply define_ok in H as (g & -> & N & Tn & M & _ & _ & _ & _ & Fr). split; [|exact N]. split; cbn [fst snd].
    - intros n g E. rewrite Tn in E. rewrite N. destruct (str_eqb (gd_name d) n).
      + injection E as <-. lia.
      + apply T in E. lia.
    - intros g x g' I S. destruct (Nat.eq_dec g (h_next h)) as [->|D].
      + split; [|lia].
        assert (E : exists m, In m (gd_members d) /\ stands_for mk t m x).
        { clear - M I. induction M as [|m y l l' Hm M IH]; [destruct I|]. destruct I as [<-|I].
          - exists m. split; [now left|auto].
          - destruct (IH I) as (m' & I' & H'). exists m'. split; [now right|auto]. }
        destruct E as ([y|n] & Im & St); cbn in St.
        * subst y. rewrite (P x Im) in S. discriminate.
        * destruct St as (g0 & G0 & ->). rewrite sub_mk in S. injection S as <-. eapply T; eauto.
      + unfold objs in I. rewrite Fr in I by auto. destruct (O g x g' I S). lia.
  Qed.
  Lemma older_depth w n : older w -> h_next (snd w) <= n -> depth_below sub (snd w) (S n).
  Proof using.
    clear. intros (T & O) L. exists (fun g => if g <? h_next (snd w) then g else 0). split.
    - intros g x g' I S. destruct (O g x g' I S) as (A & B).
      destruct (Nat.ltb_spec g (h_next (snd w))); destruct (Nat.ltb_spec g' (h_next (snd w))); lia.
    - intros g. destruct (Nat.ltb_spec g (h_next (snd w))); lia.
  Qed.
End G.

(** C42: a definition as an effect on names and groups, for each class: the name then
    stands for a new group with exactly the written members, where a reference - also one
    to the name being defined - means what that name meant before; all other names and
    all existing groups are unchanged. *)
Theorem C42_definition : forall X (mk : gid -> X) allowed t h d t' h', 
  define mk allowed (t, h) d = Ok (t', h') ->
  exists g, g = h_next h /\ h_next h' = S g /\
    (forall n, dget t' n = if str_eqb (gd_name d) n then Some g else dget t n) /\
    Forall2 (stands_for mk t) (gd_members d) (objs h' g) /\
    g_name (h_get h' g) = gd_name d /\ g_descr (h_get h' g) = gd_descr d /\ g_proto (h_get h' g) = gd_proto d /\
    (forall g', g' <> g -> h_get h' g' = h_get h g').
Proof.
  intros X mk allowed t h d t' h' H. apply define_ok in H as (g & A & B & C & D & _ & E). exists g. auto.
Qed.
(** An unknown reference (such as a first definition that refers to itself) is refused. *)
Theorem C42_unknown_reference : forall X (mk : gid -> X) allowed t h d n,
  In (Ref n) (gd_members d) -> dget t n = None -> define mk allowed (t, h) d = Err AssertionError.
Proof. intros. eapply define_unknown; eauto. Qed.

(** C42: after any sequence of definitions the nesting of groups is bounded. *)
Lemma world_older l : forall w w' n, Forall plain_any l -> define_all w l = Ok w' ->
  older host_sub (w_net w) /\ older port_sub (w_port w) /\ older service_sub (w_service w) /\
  older proto_sub (w_proto w) /\ older icmp_sub (w_icmp w) ->
  h_next (snd (w_net w)) <= n /\ h_next (snd (w_port w)) <= n /\ h_next (snd (w_service w)) <= n /\
  h_next (snd (w_proto w)) <= n /\ h_next (snd (w_icmp w)) <= n ->
  (older host_sub (w_net w') /\ older port_sub (w_port w') /\ older service_sub (w_service w') /\
  older proto_sub (w_proto w') /\ older icmp_sub (w_icmp w')) /\
  h_next (snd (w_net w')) <= n + length l /\ h_next (snd (w_port w')) <= n + length l /\
  h_next (snd (w_service w')) <= n + length l /\ h_next (snd (w_proto w')) <= n + length l /\
  h_next (snd (w_icmp w')) <= n + length l.
Proof.
  induction l as [|d l IH]; intros w w' n P H O B.
  - injection H as <-. cbn [length]. rewrite Nat.add_0_r. auto.
  - unfold define_all in H. cbn [fold_r] in H. destruct (define_any w d) as [w1|] eqn:E; [|discriminate]. cbn [bind] in H.
    apply Forall_cons_iff in P as (Pd & P). destruct O as (O1 & O2 & O3 & O4 & O5).
    assert (W : (older host_sub (w_net w1) /\ older port_sub (w_port w1) /\ older service_sub (w_service w1) /\
      older proto_sub (w_proto w1) /\ older icmp_sub (w_icmp w1)) /\
      h_next (snd (w_net w1)) <= S n /\ h_next (snd (w_port w1)) <= S n /\ h_next (snd (w_service w1)) <= S n /\
      h_next (snd (w_proto w1)) <= S n /\ h_next (snd (w_icmp w1)) <= S n).
    { destruct d as [d|d|d|d|d]; cbn [define_any plain_any] in E, Pd;
        match type of E with (do x <- ?m; _) = _ => destruct m as [x|] eqn:D; [|discriminate] end;
        cbn [bind] in E; injection E as <-; cbn [w_net w_port w_service w_proto w_icmp].
      - destruct (older_define HGrp net_allowed host_sub (fun g => eq_refl) _ _ _ ltac:(eassumption) Pd D) as (D1 & D2). repeat match goal with |- _ /\ _ => split end; first [assumption|lia].
      - destruct (older_define PGrp any_allowed port_sub (fun g => eq_refl) _ _ _ ltac:(eassumption) Pd D) as (D1 & D2). repeat match goal with |- _ /\ _ => split end; first [assumption|lia].
      - destruct (older_define SGrp any_allowed service_sub (fun g => eq_refl) _ _ _ ltac:(eassumption) Pd D) as (D1 & D2). repeat match goal with |- _ /\ _ => split end; first [assumption|lia].
      - destruct (older_define PrGrp any_allowed proto_sub (fun g => eq_refl) _ _ _ ltac:(eassumption) Pd D) as (D1 & D2). repeat match goal with |- _ /\ _ => split end; first [assumption|lia].
      - destruct (older_define IcGrp any_allowed icmp_sub (fun g => eq_refl) _ _ _ ltac:(eassumption) Pd D) as (D1 & D2). repeat match goal with |- _ /\ _ => split end; first [assumption|lia]. }
    destruct W as (W1 & W2). specialize (IH w1 w' (S n) P H W1 W2). cbn [length]. rewrite <- plus_n_Sm. exact IH.
Qed.
Theorem C42_acyclic : forall l w, Forall plain_any l -> define_all world_init l = Ok w ->
  groups_depth_below (groups_of w) (S (length l)).
Proof.
  intros l w P H.
  destruct (world_older l world_init w 0 P H) as ((O1 & O2 & O3 & O4 & O5) & B1 & B2 & B3 & B4 & B5).
  - repeat match goal with |- _ /\ _ => split end; apply older_init.
  - cbn. lia.
  - unfold groups_depth_below, groups_of. cbn [gs_network gs_port gs_service gs_protocol gs_icmp].
    repeat split; apply older_depth; auto; lia.
Qed.
(** Hence expanding the configuration terminates normally. *)
Theorem C42_expand_terminates : forall l w t, Forall plain_any l -> define_all world_init l = Ok w ->
  exists s', config_expand (S (length l)) t (groups_of w) = Ok s' /\ config_expanded t (groups_of w) s'.
Proof.
  intros l w t P H. destruct (C13_config_expand t (groups_of w) (S (length l)) (C42_acyclic l w P H)) as (s' & A & B & _). eauto.
Qed.

(** ** Witness: A is defined, redefined in terms of itself, and used by B. *)
Definition w_defs : list anydef :=
  [DNet (mkgdef (u "A") [] [] [Lit (HLeaf LAny4)]);
   DNet (mkgdef (u "A") [] [] [Ref (u "A"); Lit (HLeaf LAny6)]);
   DNet (mkgdef (u "B") [] [] [Ref (u "A")])].
Example C42_witness : Forall plain_any w_defs /\
  match define_all world_init w_defs with
  | Ok w => dget (fst (w_net w)) (u "A") = Some 1 /\ dget (fst (w_net w)) (u "B") = Some 2 /\
            objs (snd (w_net w)) 1 = [HGrp 0; HLeaf LAny6] /\ objs (snd (w_net w)) 2 = [HGrp 1]
  | Err _ => False end /\
  define_all world_init [DNet (mkgdef (u "A") [] [] [Ref (u "A")])] = Err AssertionError.
Proof.
  split; [|split; vm_compute; repeat split].
  unfold w_defs. repeat (apply Forall_cons; [intros x I; cbn in I; repeat (destruct I as [I|I]; [first [discriminate|injection I as <-; reflexivity]|]); destruct I|]). apply Forall_nil.
Qed.
