(** C11-C13: expanding groups. *)
From Coq Require Import Lia Permutation.
From Verif.Model Require Import Base Ip Hosts Groups.
From Verif.Spec Require Import AddrSpec GroupSpec.
From Verif.Proofs Require Import GroupFacts.

Lemma in_place_of_kind {X} (K : gkind X) sub leafs : good_kind K ->
  (forall x, k_sub K x = sub x) -> (forall x, k_post K x = leafs x) ->
  k_sub K = sub -> k_post K = leafs -> expands_in_place sub leafs (expand_in K).
Proof.
  intros GK _ _ <- <- h rk limit g R L.
  destruct (expand_in_ok K GK h rk limit g R L) as (h' & l & E & F & G & O & Nx & Sb).
  assert (Ol : objs h' g = l) by (unfold objs; now rewrite G).
  exists h'. split; [exact E|]. split; [unfold flattening; now rewrite Ol|].
  split; [now rewrite Ol|]. split; [rewrite G; repeat split|]. split; [exact O|]. split; [exact Nx|].
  destruct limit as [|k]; [lia|].
  unfold expand_in at 1. rewrite Ol, expand_r_stable by (intros; now apply Sb). cbn [bind].
  eexists. split; [reflexivity|]. intros g'. rewrite objs_set_same.
  destruct (Nat.eq_dec g' g) as [->|N]; [|now rewrite !get_set_other].
  rewrite !get_set_same, G. cbn.
  assert (Fl : flat_map (k_post K) l = l); [|now rewrite Fl].
  clear -Sb. induction l as [|x l IH]; [reflexivity|]. cbn.
  rewrite (proj2 (Sb x (or_introl eq_refl))), IH; [reflexivity|]. intros; apply Sb; now right.
Qed.

Lemma new_of_kind {X} (K : gkind X) : good_kind K ->
  expands_to_new (k_sub K) (k_post K) (expand_new K).
Proof.
  intros GK h rk limit g C Lg R L.
  destruct (expand_new_ok K GK h rk limit g C Lg R L) as (h' & o & l & E & F & -> & G & Nx & O & Sb).
  exists h', (h_next h). split; [exact E|]. split; [lia|].
  split; [unfold flattening, objs; rewrite G; exact F|]. rewrite G. auto.
Qed.

(** ** C11: [expand()] in place, for all five classes of groups. *)
Theorem C11_expand_flattens :
  expands_in_place host_sub host_leafs (expand_in net_kind) /\
  expands_in_place service_sub service_leafs (expand_in service_kind) /\
  expands_in_place port_sub itself (expand_in port_kind) /\
  expands_in_place proto_sub itself (expand_in proto_kind) /\
  expands_in_place icmp_sub itself (expand_in icmp_kind).
Proof.
  repeat split; apply in_place_of_kind; try reflexivity;
    [apply net_kind_good|apply service_kind_good|apply port_kind_good|apply proto_kind_good|apply icmp_kind_good].
Qed.
Print Assumptions C11_expand_flattens.

(** The flattening is unique: there is only one possible result. *)
Theorem C11_flattening_unique : forall X (sub : X -> option gid) leafs h g l l',
  flattening sub leafs h g l -> flattening sub leafs h g l' -> l = l'.
Proof. intros X sub leafs h g l l' F F'. eapply (proj2 (flat_det sub leafs h)); eassumption. Qed.
Print Assumptions C11_flattening_unique.

(** Every address term anywhere in the configuration matches the same addresses as before. *)
Theorem C11_expand_preserves_addresses : forall h rk limit g,
  ranked h rk -> rk g < limit ->
  exists h', expand_in net_kind limit h g = Ok h' /\
    forall x a, matches h x a <-> matches h' x a.
Proof.
  intros h rk limit g R L. apply granked_ranked in R.
  destruct (expand_in_ok net_kind net_kind_good h rk limit g R L) as (h' & l & E & F & G & O & _).
  exists h'. split; [exact E|]. apply matches_ext. eapply reaches_update; [exact F|].
  intros g'. unfold objs. destruct (Nat.eqb_spec g' g) as [->|N]; [now rewrite G|now rewrite O].
Qed.
Print Assumptions C11_expand_preserves_addresses.

(** ** C12: [expand(insitu=False)]. *)
Theorem C12_expand_new :
  expands_to_new host_sub host_leafs (expand_new net_kind) /\
  expands_to_new service_sub service_leafs (expand_new service_kind) /\
  expands_to_new port_sub itself (port_expand_new port_kind) /\
  expands_to_new proto_sub itself (expand_new proto_kind) /\
  expands_to_new icmp_sub itself (expand_new icmp_kind).
Proof.
  split; [exact (new_of_kind net_kind net_kind_good)|].
  split; [exact (new_of_kind service_kind service_kind_good)|].
  split; [|split; [exact (new_of_kind proto_kind proto_kind_good)|exact (new_of_kind icmp_kind icmp_kind_good)]].
  intros h rk limit g C Lg R L.
  destruct (port_expand_new_ok port_kind h rk limit g (fun _ => eq_refl) C Lg R L)
    as (h' & o & l & E & F & -> & G & Nx & O & Sb).
  exists h', (h_next h). split; [exact E|]. split; [lia|].
  split; [unfold flattening, objs; rewrite G; exact F|]. rewrite G. auto.
Qed.
Print Assumptions C12_expand_new.

(** ** C13: expanding a whole configuration. *)

(** Outcome for one class: registered groups hold the flattening of what they held
    before, everything else is untouched. *)
Definition class_expanded {X} (sub : X -> option gid) (leafs : X -> list X)
    (registered : list gid) (h h' : gheap X) : Prop :=
  forall g,
    (In g registered -> flattening sub leafs h g (objs h' g) /\ same_header (h_get h g) (h_get h' g)) /\
    (~ In g registered -> h_get h' g = h_get h g).

Definition config_expanded (t : gtables) (s s' : groups) : Prop :=
  class_expanded host_sub host_leafs (gt_network t) (gs_network s) (gs_network s') /\
  class_expanded port_sub itself (gt_port t) (gs_port s) (gs_port s') /\
  class_expanded service_sub service_leafs (gt_service t) (gs_service s) (gs_service s') /\
  class_expanded proto_sub itself (gt_protocol t) (gs_protocol s) (gs_protocol s') /\
  class_expanded icmp_sub itself (gt_icmp t) (gs_icmp s) (gs_icmp s').

(** All nesting depths (along any path of group references) are below [limit]. *)
Definition depth_below {X} (sub : X -> option gid) (h : gheap X) (limit : nat) : Prop :=
  exists rk, granked sub h rk /\ forall g, rk g < limit.
Definition groups_depth_below (s : groups) (limit : nat) : Prop :=
  depth_below host_sub (gs_network s) limit /\ depth_below port_sub (gs_port s) limit /\
  depth_below service_sub (gs_service s) limit /\ depth_below proto_sub (gs_protocol s) limit /\
  depth_below icmp_sub (gs_icmp s) limit.

Lemma class_of_kind {X} (K : gkind X) h limit gs : good_kind K ->
  depth_below (k_sub K) h limit ->
  exists h', expand_all K limit h gs = Ok h' /\ class_expanded (k_sub K) (k_post K) gs h h' /\
    (forall x l, flat (k_sub K) (k_post K) h x l -> flat (k_sub K) (k_post K) h' x l).
Proof.
  intros GK (rk & R & L).
  destruct (expand_all_ok K GK h rk limit gs R (fun g _ => L g)) as (h' & E & _ & _ & I & O & U).
  exists h'. split; [exact E|]. split; [|exact U]. intros g. split; [|apply O].
  intros Hg. destruct (I g Hg) as (l & F & G). unfold flattening, objs. rewrite G.
  split; [exact F|repeat split].
Qed.

Theorem C13_config_expand : forall t s limit,
  groups_depth_below s limit ->
  exists s', config_expand limit t s = Ok s' /\ config_expanded t s s' /\
    forall x a, matches (gs_network s) x a <-> matches (gs_network s') x a.
Proof.
  intros t s limit (R1 & R2 & R3 & R4 & R5). unfold config_expand.
  destruct (class_of_kind net_kind _ limit (gt_network t) net_kind_good R1) as (n & E1 & H1 & U).
  destruct (class_of_kind port_kind _ limit (gt_port t) port_kind_good R2) as (p & E2 & H2 & _).
  destruct (class_of_kind service_kind _ limit (gt_service t) service_kind_good R3) as (sv & E3 & H3 & _).
  destruct (class_of_kind proto_kind _ limit (gt_protocol t) proto_kind_good R4) as (pr & E4 & H4 & _).
  destruct (class_of_kind icmp_kind _ limit (gt_icmp t) icmp_kind_good R5) as (ic & E5 & H5 & _).
  rewrite E1. cbn [bind]. rewrite E2. cbn [bind]. rewrite E3. cbn [bind]. rewrite E4. cbn [bind].
  rewrite E5. cbn [bind]. eexists. split; [reflexivity|]. split; [exact (conj H1 (conj H2 (conj H3 (conj H4 H5))))|].
  apply matches_ext. apply expand_all_reaches; [exact U|]. destruct R1 as (rk & R1 & _). exists rk. exact R1.
Qed.
Print Assumptions C13_config_expand.

(** Consequently the registration order is irrelevant: any two tables registering the
    same groups lead to the same configuration. *)
Theorem C13_order_independent : forall t t' s limit s1 s2,
  groups_depth_below s limit ->
  (forall g, (In g (gt_network t) <-> In g (gt_network t')) /\ (In g (gt_port t) <-> In g (gt_port t')) /\
     (In g (gt_service t) <-> In g (gt_service t')) /\ (In g (gt_protocol t) <-> In g (gt_protocol t')) /\
     (In g (gt_icmp t) <-> In g (gt_icmp t'))) ->
  config_expand limit t s = Ok s1 -> config_expand limit t' s = Ok s2 ->
  forall g, h_get (gs_network s1) g = h_get (gs_network s2) g /\ h_get (gs_port s1) g = h_get (gs_port s2) g /\
    h_get (gs_service s1) g = h_get (gs_service s2) g /\ h_get (gs_protocol s1) g = h_get (gs_protocol s2) g /\
    h_get (gs_icmp s1) g = h_get (gs_icmp s2) g.
Proof.
  intros t t' s limit s1 s2 R T E1 E2 g.
  destruct (C13_config_expand t s limit R) as (s1' & F1 & C1 & _).
  destruct (C13_config_expand t' s limit R) as (s2' & F2 & C2 & _).
  rewrite E1 in F1. injection F1 as <-. rewrite E2 in F2. injection F2 as <-.
  assert (A : forall X (sub : X -> option gid) leafs gs gs' h h1 h2,
    class_expanded sub leafs gs h h1 -> class_expanded sub leafs gs' h h2 -> (In g gs <-> In g gs') ->
    h_get h1 g = h_get h2 g).
  { intros X sub leafs gs gs' h h1 h2 A1 A2 I. destruct (A1 g) as (B1 & B1'), (A2 g) as (B2 & B2').
    destruct (in_dec Nat.eq_dec g gs) as [Y|N].
    - destruct (B1 Y) as (X1 & N1 & D1 & P1), (B2 (proj1 I Y)) as (X2 & N2 & D2 & P2).
      assert (Q : objs h1 g = objs h2 g) by (eapply C11_flattening_unique; eassumption).
      unfold objs in Q. destruct (h_get h1 g), (h_get h2 g). cbn in *. congruence.
    - rewrite B1', B2' by tauto. reflexivity. }
  destruct C1 as (X1 & X2 & X3 & X4 & X5), C2 as (Y1 & Y2 & Y3 & Y4 & Y5), (T g) as (T1 & T2 & T3 & T4 & T5).
  repeat split; [apply (A _ _ _ _ _ _ _ _ X1 Y1 T1)|apply (A _ _ _ _ _ _ _ _ X2 Y2 T2)
    |apply (A _ _ _ _ _ _ _ _ X3 Y3 T3)|apply (A _ _ _ _ _ _ _ _ X4 Y4 T4)|apply (A _ _ _ _ _ _ _ _ X5 Y5 T5)].
Qed.
Print Assumptions C13_order_independent.

(** ** A concrete graph: a shared group below two levels of nesting, and an object.
    g0 = {10.0.0.1}, g1 = {g0, object{10.0.0.2}}, g2 = {g1, g0}. *)
Definition ex_graph : heap :=
  mkheap (fun g => match g with
    | 0 => mkgroup (u "g0") [] [] [HLeaf (LHost (mkaddr V4 167772161))]
    | 1 => mkgroup (u "g1") [] [] [HGrp 0; HObj (mkobj (u "o") [] (Some (u "host")) [LHost (mkaddr V4 167772162)])]
    | 2 => mkgroup (u "g2") (u "d") [] [HGrp 1; HGrp 0]
    | _ => mkgroup [] [] [] []
    end) 3.
Example ex_graph_ranked : granked host_sub ex_graph (fun g => g) /\ closed_heap host_sub ex_graph.
Proof.
  split.
  - intros [|[|[|g]]] x g' H S; cbn in H; repeat (destruct H as [<-|H]); try destruct H; try discriminate S;
      injection S as <-; lia.
  - intros [|[|[|g]]] x g' _ H S; cbn in H; repeat (destruct H as [<-|H]); try destruct H; try discriminate S;
      injection S as <-; cbn; lia.
Qed.
Example ex_graph_expands :
  (exists h', expand_in net_kind 3 ex_graph 2 = Ok h' /\
     objs h' 2 = [HLeaf (LHost (mkaddr V4 167772161)); HLeaf (LHost (mkaddr V4 167772162));
                  HLeaf (LHost (mkaddr V4 167772161))] /\ objs h' 1 = objs ex_graph 1) /\
  (exists h', expand_new net_kind 3 ex_graph 2 = Ok (h', 3) /\ objs h' 2 = objs ex_graph 2 /\
     objs h' 3 = [HLeaf (LHost (mkaddr V4 167772161)); HLeaf (LHost (mkaddr V4 167772162));
                  HLeaf (LHost (mkaddr V4 167772161))]).
Proof. split; eexists; repeat split; vm_compute; reflexivity. Qed.
