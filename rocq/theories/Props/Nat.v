(** C30, C31, C47, C51: NAT lines. *)
From Coq Require Import Lia.
From Verif.Model Require Import Base Ip Hosts Groups Rules Caf Nat.
From Verif.Spec Require Import AddrSpec FilterSpec NatSpec.
From Verif.Proofs Require FilterFacts MaskFacts.

Lemma given_port p : given p = true <-> port_given p.
Proof.
  unfold port_given. destruct p as [[q|[|c s]]|]; cbn; split; try discriminate; intros H.
  - exists (NPort q). split; congruence.
  - reflexivity.
  - destruct H as (q & E & N). congruence.
  - exists (NText (c :: s)). split; congruence.
  - reflexivity.
  - destruct H as (q & E & _). discriminate.
Qed.
Lemma given_port_false p : given p = false <-> ~ port_given p.
Proof. rewrite <- given_port. destruct (given p); split; congruence. Qed.

Lemma shown_ifname i : shown i (ifname (nat_interface i)).
Proof.
  destruct i as [[a [[|c n]|]]|]; cbn; constructor; auto; discriminate.
Qed.

(** ** C47: manual NAT is built as written. *)
Theorem C47_manual_nat : forall a n, nat_action a = Ok (Some n) ->
  exists ri mi real mapped,
    na_iface a = Some (ri, mi) /\ nat_real n = Some real /\ nat_mapped n = Some mapped /\
    shown ri (ns_iface real) /\ shown mi (ns_iface mapped) /\
    (exists x, ns_src real = Some (NHost x) /\ real_is (fst (na_src a)) x) /\
    (exists x, ns_src mapped = Some (NHost x) /\ mapped_is (ns_iface mapped) (snd (na_src a)) x) /\
    match na_dst a with
    | None => ns_dst real = None /\ ns_dst mapped = None
    | Some (m, r) => ns_dst real = Some (NHost r) /\
        exists x, ns_dst mapped = Some (NHost x) /\ mapped_is (ns_iface mapped) m x
    end /\
    services_of (na_static a) (na_service a) (ns_service real) (ns_service mapped).
Proof.
  intros a n. unfold nat_action. destruct (na_iface a) as [[ri mi]|]; [|discriminate].
  destruct (nat_services (na_static a) (na_service a)) as [[rsv msv]|] eqn:Sv; [|discriminate]. cbn [bind].
  destruct (nat_opts_of (na_options a) None []) as [descr opts].
  intros E. injection E as <-.
  assert (V : services_of (na_static a) (na_service a) rsv msv).
  { unfold nat_services in Sv. destruct (na_service a) as [[s2 s4]|].
    - destruct (na_static a).
      + destruct (given (nv_src s2)) eqn:G1, (given (nv_dst s2)) eqn:G2, (given (nv_src s4)) eqn:G3, (given (nv_dst s4)) eqn:G4;
          cbn in Sv; try discriminate Sv; injection Sv as <- <-;
          [apply SV_source|apply SV_dest]; auto; split;
          first [now apply given_port|now apply given_port_false].
      + injection Sv as <- <-. now constructor.
    - injection Sv as <- <-. constructor. }
  assert (MI : forall i m, exists x, resolve_iface i (nat_mapped_node m) = NHost x /\ mapped_is i m x).
  { intros i [x| |]; cbn; eexists; (split; [reflexivity|constructor]). }
  do 4 eexists. split; [reflexivity|]. split; [reflexivity|]. split; [reflexivity|].
  cbn [ns_iface ns_src ns_dst ns_service option_map].
  split; [apply shown_ifname|]. split; [apply shown_ifname|].
  split; [eexists; split; [reflexivity|destruct (fst (na_src a)); constructor]|].
  split; [destruct (MI (ifname (nat_interface mi)) (snd (na_src a))) as (x & -> & ?); eauto|].
  split; [|exact V].
  destruct (na_dst a) as [[m r]|]; cbn [option_map]; [|auto].
  split; [reflexivity|]. destruct (MI (ifname (nat_interface mi)) m) as (x & -> & ?); eauto.
Qed.
Print Assumptions C47_manual_nat.

(** A static NAT whose services are not both source-only or both destination-only is
    refused; nothing else is. *)
Theorem C47_manual_nat_refused : forall a,
  (exists n, nat_action a = Ok n) \/
  (nat_action a = Err AttributeError /\ na_static a = true /\
   forall r m, ~ services_of true (na_service a) r m).
Proof.
  intros a. unfold nat_action. destruct (na_iface a) as [[ri mi]|]; [|left; eauto].
  destruct (nat_services (na_static a) (na_service a)) as [[rsv msv]|e] eqn:Sv; cbn [bind].
  - left. destruct (nat_opts_of (na_options a) None []). eauto.
  - right. unfold nat_services in Sv. destruct (na_service a) as [[s2 s4]|]; [|discriminate].
    destruct (na_static a); [|discriminate].
    destruct (given (nv_src s2)) eqn:G1, (given (nv_dst s2)) eqn:G2, (given (nv_src s4)) eqn:G3, (given (nv_dst s4)) eqn:G4;
      cbn in Sv; try discriminate Sv; injection Sv as <-; (split; [auto|split; [auto|]]);
      intros r m H;
      (inversion H as [|? ? _ [A1 A2] [B1 B2]|? ? _ [A1 A2] [B1 B2]|? ? X]; subst; [| |discriminate X]);
      apply given_port in G1 || apply given_port_false in G1;
      apply given_port in G2 || apply given_port_false in G2;
      apply given_port in G3 || apply given_port_false in G3;
      apply given_port in G4 || apply given_port_false in G4; tauto.
Qed.
Print Assumptions C47_manual_nat_refused.

(** The options: the flags written and after-auto if a position was given, each once. *)
Theorem C47_options : forall a n, nat_action a = Ok (Some n) ->
  forall k, In k (nat_opts n) <->
    In (OFlag k) (na_options a) \/ (na_pos a = true /\ k = u "after-auto").
Proof.
  intros a n. unfold nat_action. destruct (na_iface a) as [[ri mi]|]; [|discriminate].
  destruct (nat_services (na_static a) (na_service a)) as [[rsv msv]|]; [|discriminate]. cbn [bind].
  destruct (nat_opts_of (na_options a) None []) as [descr opts] eqn:O.
  intros E. injection E as <-. cbn [nat_opts].
  assert (A : forall k k' l, In k (opt_add k' l) <-> k = k' \/ In k l).
  { intros k k' l. unfold opt_add. destruct (existsb (str_eqb k') l) eqn:X.
    - apply existsb_exists in X as (z & Hz & Ez). apply FilterFacts.str_eqb_eq in Ez. subst z.
      intuition congruence.
    - rewrite in_app_iff. cbn. intuition. }
  assert (G : forall l d o d' o', nat_opts_of l d o = (d', o') -> forall k, In k o' <-> In (OFlag k) l \/ In k o).
  { induction l as [|[t|f] l IH]; intros d o d' o' H k; cbn [nat_opts_of] in H.
    - injection H as <- <-. cbn. tauto.
    - rewrite (IH _ _ _ _ H). cbn. intuition congruence.
    - rewrite (IH _ _ _ _ H), A. cbn. intuition congruence. }
  intros k. specialize (G _ _ _ _ _ O k). cbn in G.
  destruct (na_pos a); [rewrite A|]; rewrite G; intuition congruence.
Qed.
Print Assumptions C47_options.

Theorem C47_options_once : forall a n, nat_action a = Ok (Some n) -> NoDup (nat_opts n).
Proof.
  intros a n. unfold nat_action. destruct (na_iface a) as [[ri mi]|]; [|discriminate].
  destruct (nat_services (na_static a) (na_service a)) as [[rsv msv]|]; [|discriminate]. cbn [bind].
  destruct (nat_opts_of (na_options a) None []) as [descr opts] eqn:O.
  intros E. injection E as <-. cbn [nat_opts].
  assert (A : forall k l, NoDup l -> NoDup (opt_add k l)).
  { intros k l N. unfold opt_add. destruct (existsb (str_eqb k) l) eqn:X; [auto|].
    apply (NoDup_Add (a := k) (l := l)); [replace (l ++ [k]) with (l ++ k :: []) by reflexivity; rewrite <- (app_nil_r l) at 1; apply Add_app|].
    split; [auto|]. intros I. assert (existsb (str_eqb k) l = true); [|congruence]. apply existsb_exists. exists k. split; [auto|now apply FilterFacts.str_eqb_eq]. }
  assert (G : forall l d o d' o', nat_opts_of l d o = (d', o') -> NoDup o -> NoDup o').
  { induction l as [|[t|f] l IH]; intros d o d' o' H N; cbn [nat_opts_of] in H; [congruence|eauto|eauto]. }
  specialize (G _ _ _ _ _ O (NoDup_nil _)). destruct (na_pos a); auto.
Qed.
Print Assumptions C47_options_once.

(** The kind of translation and the description, which is the last one written. *)
Theorem C47_kind_and_description : forall a n, nat_action a = Ok (Some n) ->
  nat_type n = Some (if na_static a then u "static" else u "dynamic") /\
  forall t, nat_descr n = Some t <->
    exists l1 l2, na_options a = l1 ++ ODescription t :: l2 /\ forall t', ~ In (ODescription t') l2.
Proof.
  intros a n. unfold nat_action. destruct (na_iface a) as [[ri mi]|]; [|discriminate].
  destruct (nat_services (na_static a) (na_service a)) as [[rsv msv]|]; [|discriminate]. cbn [bind].
  destruct (nat_opts_of (na_options a) None []) as [descr opts] eqn:O.
  intros E. injection E as <-. split; [reflexivity|]. cbn [nat_descr].
  assert (G : forall l d o d' o', nat_opts_of l d o = (d', o') -> forall t, d' = Some t <->
     (exists l1 l2, l = l1 ++ ODescription t :: l2 /\ forall t', ~ In (ODescription t') l2) \/
     (d = Some t /\ forall t', ~ In (ODescription t') l)).
  { induction l as [|x l IH]; intros d o d' o' H t.
    - cbn in H. injection H as <- <-. split; [intros ->; right; auto|intros [(l1 & l2 & E & _)|[? _]]; [destruct l1; discriminate|auto]].
    - destruct x as [t0|f]; cbn [nat_opts_of] in H; rewrite (IH _ _ _ _ H); clear IH H; split.
      + intros [(l1 & l2 & -> & N)|([= ->] & N)]; left; [exists (ODescription t0 :: l1), l2|exists [], l]; auto.
      + intros [(l1 & l2 & E & N)|(_ & N)]; [|destruct (N t0); now left]. destruct l1 as [|y l1]; cbn in E; [injection E as <- <-; right; auto|injection E as _ ->; left; eauto].
      + intros [(l1 & l2 & -> & N)|(-> & N)]; [left; exists (OFlag f :: l1), l2; auto|right; split; [auto|]]. intros t' [[=]|I]; eapply N; eauto.
      + intros [(l1 & l2 & E & N)|(-> & N)]; [left|right; split; [auto|intros t' I; apply (N t'); now right]].
        destruct l1 as [|y l1]; cbn in E; [discriminate|]. injection E as _ ->. eauto. }
  intros t. rewrite (G _ _ _ _ _ O). split; [intros [?|[? _]]; [auto|discriminate]|auto].
Qed.
Print Assumptions C47_kind_and_description.

(** Every NAT built is of the kind C22 is about. *)
Theorem C47_resolved : forall a n, nat_action a = Ok (Some n) -> resolved (INat n).
Proof.
  intros a n H. destruct (C47_manual_nat a n H) as (ri & mi & r & m & _ & Er & Em & _ & _ & (x & Ex & _) & (y & Ey & _) & D & _).
  assert (D' : ns_dst r <> Some NIfaceName /\ ns_dst m <> Some NIfaceName).
  { destruct (na_dst a) as [[? ?]|]; [destruct D as (Dr & z & Dm & _)|destruct D as (Dr & Dm)]; rewrite Dr, Dm; split; discriminate. }
  destruct D' as [D1 D2]. split; eexists; (split; [eassumption|split; [|assumption]]); unfold resolved_node; congruence.
Qed.
Print Assumptions C47_resolved.

(** ** C31: object NAT with ports keeps the real port on both sides and loses the mapped one. *)
Theorem C31_object_nat_ports : forall a n proto real mapped,
  on_service a = Some (OSPorts proto real mapped) -> network_object_nat a = Ok n ->
  exists r m, nat_real n = Some r /\ nat_mapped n = Some m /\
    ns_service r = Some (mknatsvc proto None (Some (NText real))) /\
    ns_service m = Some (mknatsvc proto None (Some (NText real))).
Proof.
  intros a n proto real mapped S. unfold network_object_nat.
  destruct (network_nat_mapped (on_mapped a)); [|discriminate]. cbn [bind]. rewrite S.
  intros E. injection E as <-. do 2 eexists. repeat split.
Qed.
Print Assumptions C31_object_nat_ports.
Theorem C31_mapped_port_lost : forall i st m o proto real mapped mapped',
  network_object_nat (mkobjnat i st m (Some (OSPorts proto real mapped)) o) =
  network_object_nat (mkobjnat i st m (Some (OSPorts proto real mapped')) o).
Proof. reflexivity. Qed.
Print Assumptions C31_mapped_port_lost.
Example C31_instance : exists n,
  network_object_nat (mkobjnat (None, None) true OMIface (Some (OSPorts (u "tcp") (u "80") (u "8080"))) []) = Ok n.
Proof. eexists. reflexivity. Qed.

(** ** C30: object NAT given apart from the object *)
Theorem C30_nat_line_alone : forall t name descr a t' p n, network_object_def t name descr (BNat a) = Ok (t', p, n) ->
  (forall h x, ~ matches h (HObj p) x) /\
  (forall q, t name = Some q -> t' name = Some q) /\
  exists n' r, n = Some n' /\ nat_real n' = Some r /\ ns_src r = Some (NHost (HObj p)) /\
    (** whatever the clause: the real source is selected only by a clause source holding any *)
    forall h c, selects_side h c r -> exists l, reaches h (r_src c) l /\ everything l.
Proof.
  intros t name descr a t' p n. unfold network_object_def.
  destruct (network_object_nat a) as [n0|] eqn:N; [|discriminate]. cbn [bind mk_NetworkObject].
  intros E. injection E as <- <- <-.
  assert (M : forall h x, ~ matches h (HObj (mkobj name descr (Some (u "nat")) [])) x).
  { intros h x H. inversion H; subst. cbn in *. contradiction. }
  split; [exact M|]. split.
  { intros q Hq. rewrite Hq. exact Hq. }
  unfold network_object_nat in N. destruct (network_nat_mapped (on_mapped a)); [|discriminate N]. cbn [bind] in N.
  injection N as <-. cbn [option_map set_real_src nat_real].
  do 2 eexists. split; [reflexivity|]. split; [reflexivity|]. split; [reflexivity|].
  intros h c (S & _ & _). specialize (S _ (EP _)). destruct S as (l & Hl & H). exists l. split; auto.
  assert (V : forall m, ~ via_groups h (HObj (mkobj name descr (Some (u "nat")) [])) (HLeaf m)).
  { intros m V. inversion V. }
  destruct l; try (destruct H as [H|(b & _ & H)]; [exact H|exfalso; eapply M; eauto]);
    destruct H as (m & H & _); exfalso; eapply V; eauto.
Qed.
Print Assumptions C30_nat_line_alone.

(** In contrast, given with the object the real source is the object with its addresses. *)
Theorem C30_nat_with_object : forall t name descr args a t' p n,
  network_object_def t name descr (BArgs args (Some a)) = Ok (t', p, n) ->
  mk_NetworkObject name descr args = Ok p /\
  exists n' r, n = Some n' /\ nat_real n' = Some r /\ ns_src r = Some (NHost (HObj p)).
Proof.
  intros t name descr args a t' p n. unfold network_object_def.
  destruct (network_object_nat a) as [n0|] eqn:N; [|discriminate]. cbn [bind].
  destruct (mk_NetworkObject name descr args) as [q|]; [|discriminate]. cbn [bind].
  intros E. injection E as <- <- <-. split; [reflexivity|].
  unfold network_object_nat in N. destruct (network_nat_mapped (on_mapped a)); [|discriminate N]. cbn [bind] in N.
  injection N as <-. cbn. do 2 eexists. repeat split.
Qed.
Print Assumptions C30_nat_with_object.

(** ** C51: object NAT is built as written. *)
Theorem C51_object_nat : forall t name descr b t' p n, network_object_def t name descr b = Ok (t', p, Some n) ->
  (forall a x m, nat_line b = Some a -> on_mapped a = OMAddr x m -> valid x) ->
  exists a r m, nat_line b = Some a /\ nat_real n = Some r /\ nat_mapped n = Some m /\
    shown (fst (on_iface a)) (ns_iface r) /\ shown (snd (on_iface a)) (ns_iface m) /\
    ns_src r = Some (NHost (HObj p)) /\ ns_dst r = Some (NHost (HLeaf LAny)) /\
    (exists x, ns_src m = Some (NHost x) /\ objmapped_is (ns_iface m) (on_mapped a) x) /\
    ns_dst m = Some (NHost (HLeaf LAny)) /\
    nat_type n = Some (if on_static a then u "static" else u "dynamic") /\ nat_descr n = None /\
    (forall k, In k (nat_opts n) <-> k = u "auto" \/ (k = u "dns" /\ on_service a = Some OSDns) \/ In k (on_options a)) /\
    match on_service a with
    | Some (OSPorts proto real _) =>      (* the real port on both sides, see C31 *)
        ns_service r = Some (mknatsvc proto None (Some (NText real))) /\ ns_service m = ns_service r
    | _ => ns_service r = None /\ ns_service m = None
    end.
Proof.
  intros t name descr b t' p n H V.
  assert (exists a, nat_line b = Some a /\ exists n0, network_object_nat a = Ok n0 /\ n = set_real_src n0 p) as (a & La & n0 & N & ->).
  { unfold network_object_def in H. destruct b as [args [a|]|a].
    2:{ cbn [bind] in H. destruct (mk_NetworkObject name descr args); discriminate. }
    all: destruct (network_object_nat a) as [n0|] eqn:N; [|discriminate]; cbn [bind] in H.
    all: destruct (mk_NetworkObject name descr _) as [q|]; [|discriminate]; cbn [bind option_map] in H.
    all: injection H as _ <- <-; exists a; split; [reflexivity|]; exists n0; auto. }
  clear H. specialize (V a). unfold network_object_nat in N.
  destruct (network_nat_mapped (on_mapped a)) as [node|] eqn:M; [|discriminate]. cbn [bind] in N. injection N as <-.
  cbn [set_real_src nat_real nat_mapped nat_type nat_descr nat_opts ns_iface ns_dst ns_service].
  exists a. do 2 eexists. split; [exact La|]. split; [reflexivity|]. split; [reflexivity|]. cbn [ns_iface ns_src ns_dst ns_service].
  split; [apply shown_ifname|]. split; [apply shown_ifname|]. split; [reflexivity|]. split; [reflexivity|]. split.
  { destruct (on_mapped a) as [x|x [q|]|]; cbn [network_nat_mapped] in M.
    - injection M as <-. eexists. split; [reflexivity|constructor].
    - specialize (V x (Some q) La eq_refl). destruct (MaskFacts.mk_Network_char x (MaskLen q) V I) as (C & F).
      destruct (N.leb_spec q (bits (a_ver x))) as [L|L].
      + destruct (C q) as (l & E & _ & _ & Ml); [now split|]. rewrite E in M. injection M as <-. eexists. split; [reflexivity|now constructor].
      + rewrite F in M; [discriminate|]. intros (q' & -> & L'). lia.
    - injection M as <-. eexists. split; [reflexivity|constructor].
    - injection M as <-. eexists. split; [reflexivity|constructor]. }
  split; [reflexivity|]. split; [reflexivity|]. split; [reflexivity|]. split.
  - assert (A : forall k k' l, In k (opt_add k' l) <-> k = k' \/ In k l).
    { intros k k' l. unfold opt_add. destruct (existsb (str_eqb k') l) eqn:X.
      - apply existsb_exists in X as (z & Hz & Ez). apply FilterFacts.str_eqb_eq in Ez. subst z. intuition congruence.
      - rewrite in_app_iff. cbn. intuition. }
    assert (G : forall l o k, In k (fold_left (fun l k => opt_add k l) l o) <-> In k l \/ In k o).
    { induction l as [|x l IH]; intros o k; cbn [fold_left]; [cbn; tauto|]. rewrite IH, A. cbn. intuition congruence. }
    intros k. rewrite G. destruct (on_service a) as [[|]|]; cbn; intuition congruence.
  - destruct (on_service a) as [[|]|]; auto.
Qed.
Print Assumptions C51_object_nat.

(** Both object NAT forms are of the kind C22 is about. *)
Theorem C30_resolved : forall t name descr b t' p n, network_object_def t name descr b = Ok (t', p, Some n) ->
  resolved (INat n).
Proof.
  intros t name descr b t' p n. unfold network_object_def.
  destruct b as [args [a|]|a].
  2:{ cbn [bind]. destruct (mk_NetworkObject name descr args); discriminate. }
  all: destruct (network_object_nat a) as [n0|] eqn:N; [|discriminate]; cbn [bind].
  all: destruct (mk_NetworkObject name descr _) as [q|]; [|discriminate]; cbn [bind option_map].
  all: intros E; injection E as _ _ <-; unfold network_object_nat in N;
    destruct (network_nat_mapped (on_mapped a)) as [nd|]; [|discriminate N]; cbn [bind] in N;
    injection N as <-; split; eexists; (split; [reflexivity|]); cbn; split; try discriminate;
    unfold resolved_node; destruct nd; discriminate.
Qed.
Print Assumptions C30_resolved.

(** The two-step definition: object network srv / host 10.0.0.1, then object network srv
    / nat (inside,outside) static 1.2.3.4.  The NAT object does not match a filter for
    10.0.0.1, although the object does. *)
Definition srv : pystr := u "srv".
Definition srv_host : addr := mkaddr V4 167772161%N.
Definition srv_nat : objnat_ast := mkobjnat (None, None) true (OMAddr (mkaddr V4 16909060%N) None) None [].
Definition no_heap : heap := mkheap (fun _ => mkgroup [] [] [] []) 0.
Example C30_instance : exists t p t' p' n c,
  network_object_def (fun _ => None) srv [] (BArgs (AHost srv_host) None) = Ok (t, p, None) /\
  network_object_def t srv [] (BNat srv_nat) = Ok (t', p', Some n) /\
  c = mkrule None (HLeaf (LHost srv_host)) (HLeaf LAny) /\
  t' srv = Some p /\ rule_and 10 no_heap c (IRule (mkrule None (HObj p) (HLeaf LAny))) = Ok true /\
  rule_and 10 no_heap c (INat n) = Ok false.
Proof. do 6 eexists. repeat split. Qed.
Example C51_instance : exists t p n,
  network_object_def (fun _ => None) srv [] (BNat (mkobjnat (Some (mkifnames (u "e0") (Some (u "in"))), None) false
      (OMAddr (mkaddr V4 16909060%N) (Some 24%N)) (Some OSDns) [u "no-proxy-arp"])) = Ok (t, p, Some n) /\
  nat_opts n = [u "auto"; u "dns"; u "no-proxy-arp"] /\
  match nat_mapped n with Some m => ns_src m = Some (NHost (HLeaf (LNet (mknet V4 16909056 24)))) | None => False end.
Proof. do 3 eexists. split; [reflexivity|]. split; vm_compute; reflexivity. Qed.
