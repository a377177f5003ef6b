(** C57: a whole ASA/FWSM configuration as text.
    A text is accepted exactly if it is a sequence of commands of Spec/FileTextSpec.v, each
    written with the names defined before it; the commands read are those written
    (C57_reads, C57_complete), and a text has one reading (C57_unique). *)
From Coq Require Import Lia String.
From Verif.Model Require Import Base Ip Hosts Groups Rules Nat Iface Peg Ids AddrText Ports AclText Define GroupText ObjText LineText NatText FileText.
From Verif.Spec Require Import AddrSpec AddrTextSpec RefSpec CafMeanSpec CafTextSpec AclTextSpec GroupTextSpec ObjTextSpec LineTextSpec FileTextSpec.
From Verif.Spec Require NatTextSpec.
From Verif.Proofs Require Import GroupOps DictFacts PegFacts TokFacts CafTextFacts CafMean LineFacts AclTextFacts GroupTextFacts LineTextFacts NoErr FileTextFacts FileFacts.
From Verif.Props Require Import CafText AclText GroupText ObjText LineText NatText.
Local Open Scope list_scope.

Lemma dmem_dset {V} (d : dict V) k v n : dmem (dset d k v) n = true -> n = k \/ dmem d n = true.
Proof. unfold dmem. rewrite dget_dset. destruct (str_eqb_spec k n) as [->|]; auto. Qed.
Lemma nameif_in self l i j n : fold_r (iface_detail self) l i = Ok j -> if_nameif j = Some n -> if_nameif i = Some n \/ In (DNameif n) l.
Proof.
  revert i. induction l as [|d l IH]; cbn [fold_r]; intros i H N; [injection H as ->; auto|].
  destruct (iface_detail self i d) as [i'|] eqn:D; cbn [bind] in H; [|discriminate]. destruct (IH _ H N) as [E|I]; [|right; now right].
  destruct d; cbn [iface_detail] in D;
    repeat match type of D with
           | (do _ <- ?x; _) = Ok _ => destruct x; cbn [bind] in D
           | (if ?b then _ else _) = Ok _ => destruct b
           | match ?x with _ => _ end = Ok _ => destruct x
           end; try discriminate D; injection D as <-; cbn [if_nameif] in E; auto.
  right. left. congruence.
Qed.

Section File.
  Context (isalpha isalnum isspace : N -> bool) (OK : classes_ok isalpha isalnum isspace).
  Context (py_int : pystr -> option Z)
          (PI1 : forall n, n <> [] -> forallb AddrText.is_digit n = true -> py_int n <> None)
          (PI2 : forall n, In n port_code -> py_int n = None).
  Notation command_ := (command_ isalpha isalnum isspace py_int).
  Notation commands := (commands isalpha isalnum isspace py_int).
  Notation parse_file := (parse_file isalpha isalnum isspace py_int).
  Notation access_list E := (access_list isalpha isalnum isspace py_int E).
  Notation access_list_remark := (access_list_remark isalpha isalnum).
  Notation command_text := (command_text isalnum isspace).
  Notation file_text := (file_text isalnum isspace).
  Notation tables_ok := (tables_ok isalnum).
  Notation well_named := (well_named isalnum).

  (** ** Where the names in the tables come from *)
  Definition named_by {V} (cs : list command) (P : pystr -> command -> Prop) (d : dict V) : Prop :=
    forall n, dmem d n = true -> exists c, In c cs /\ P n c.
  Definition good_object n c := object_named n c /\ name_chars n.
  Definition good_group k n c := group_named k n c /\ name_chars n.
  Record tables_from (cs : list command) (T : tables) : Prop := {
    tf_names : forall n x, dget (tb_names T) n = Some x -> In (CSimple (SName x)) cs /\ nm_host x = n /\ valid (nm_addr x);
    tf_netobj : named_by cs good_object (tb_netobj T);
    tf_svcobj : named_by cs good_object (tb_svcobj T);
    tf_netgrp : named_by cs (good_group NetGroup) (fst (w_net (tb_world T)));
    tf_svcgrp : named_by cs (good_group SvcGroup) (fst (w_service (tb_world T)));
    tf_portgrp : named_by cs (good_group PortGroup) (fst (w_port (tb_world T)));
    tf_icmpgrp : named_by cs (good_group IcmpGroup) (fst (w_icmp (tb_world T)));
    tf_protogrp : named_by cs (good_group ProtoGroup) (fst (w_proto (tb_world T)));
    tf_time : keys (fun n => n <> [] /\ forall c, In c n -> ~ In c [32; 9; 10; 13]%N) (tb_time T);
    tf_if : named_by cs interface_named (tb_if T) }.
  Lemma from_nothing : tables_from [] no_tables.
  Proof using. clear. split; try (intros n H; discriminate H). intros n x H. discriminate H. Qed.
  Lemma named_more {V} cs c P (d : dict V) : named_by cs P d -> named_by (cs ++ [c]) P d.
  Proof using. clear. intros H n M. destruct (H n M) as (c' & I & Q). exists c'. split; [apply in_app_iff; now left|auto]. Qed.
  Lemma named_set {V} cs c P (d : dict V) k v : named_by cs P d -> P k c -> named_by (cs ++ [c]) P (dset d k v).
  Proof using. clear. intros H Q n M. apply dmem_dset in M as [->|M]; [exists c; split; [apply in_app_iff; right; now left|auto]|]. now apply (named_more _ c) in H; apply H. Qed.
  Lemma named_if {V} cs c P (d : dict V) k v (b : bool) : named_by cs P d -> P k c -> named_by (cs ++ [c]) P (if b then d else dset d k v).
  Proof using. clear. intros H Q. destruct b; [now apply named_more|now apply named_set]. Qed.
  Lemma from_more cs T c m : tables_from cs T -> tables_from (cs ++ [c]) (mktables (tb_names T) (tb_netobj T) (tb_svcobj T) (tb_world T) (tb_time T) (tb_if T) m).
  Proof using.
    clear. intros [A1 A2 A3 A4 A5 A6 A7 A8 A9 A10]. split; cbn [tb_names tb_netobj tb_svcobj tb_world tb_time tb_if]; auto using named_more.
    intros n x H. destruct (A1 n x H) as (I & E). split; [apply in_app_iff; now left|auto].
  Qed.
  Lemma define_keys {X} mk al (w w' : gworld X) d : define mk al w d = Ok w' -> exists g, fst w' = dset (fst w) (gd_name d) g.
  Proof using.
    clear. unfold define. destruct w as (t & h). destruct (map_r _ _) as [ms|]; cbn [bind]; [|discriminate]. destruct (h_alloc h _) as (h' & g).
    destruct (fold_r _ _ _) as [h''|]; cbn [bind]; [|discriminate]. intros [= <-]. cbn. eauto.
  Qed.

  Lemma from_step other cs T c t r T' m : tables_from cs T -> command_text other T c t r -> learn T c = Ok (T', m) -> tables_from (cs ++ [c]) T'.
  Proof using OK.
    intros F C L. pose proof (from_more cs T c (S (tb_count T)) F) as M. pose proof F as [A1 A2 A3 A4 A5 A6 A7 A8 A9 A10]. pose proof M as [B1 B2 B3 B4 B5 B6 B7 B8 B9 B10].
    cbn [tb_names tb_netobj tb_svcobj tb_world tb_time tb_if] in *.
    destruct C as [x t r X D|bare d t r X D|d t r X|x t r X|t r X|l ts r N X D|a n t r X A|t r X D|t r X|t r X]; cbn [learn] in L; unfold counted in L.
    - destruct X as [w t W O|g n z G I Z|g n G I|g a t g1 n z G T0 G1 I Z|g a t g1 n g2 d G T0 G1 I G2 O Nd Al|g n g1 d g2 g3 i z G Nn G1 Nd G2 G3 Ni Z|g n g1 d g2 g3 z G Nn G1 Nd G2 G3 Z|g n g1 z G Nn G1 Z|g a z l t G U Z Dt|g n z l t G U Z Dt];
        try (injection L as <- _; exact M).
      + injection L as <- _. cbn [tb_names tb_netobj tb_svcobj tb_world tb_time tb_if nm_host]. split; auto; cbn [tb_names]. intros k x. rewrite dget_dset. destruct (str_eqb_spec n k) as [->|]; [|apply B1].
        intros [= <-]. split; [apply in_app_iff; right; now left|]. split; [auto|]. now apply address_valid in T0.
      + injection L as <- _. cbn [tb_names tb_netobj tb_svcobj tb_world tb_time tb_if nm_host]. split; auto; cbn [tb_names]. intros k x. rewrite dget_dset. destruct (str_eqb_spec n k) as [->|]; [|apply B1].
        intros [= <-]. split; [apply in_app_iff; right; now left|]. split; [auto|]. now apply address_valid in T0.
      + destruct (iface_init _ _ _) as [i|] eqn:Ii; cbn [bind] in L; [|discriminate]. injection L as <- _. split; auto; cbn [tb_if].
        assert (S1 : forall v, named_by (cs ++ [CSimple (SInterface a l)]) interface_named (dset (tb_if T) a v)) by (intros v; apply named_set; [auto|constructor]).
        destruct (if_nameif i) as [n|] eqn:Ni; [|auto]. intros k K. apply dmem_dset in K as [->|K]; [|now apply S1 in K].
        exists (CSimple (SInterface a l)). split; [apply in_app_iff; right; now left|]. constructor. unfold iface_init in Ii. destruct (nameif_in _ _ _ _ _ Ii Ni) as [E|I]; [discriminate E|auto].
      + injection L as <- _. split; auto; cbn [tb_time]. intros k K. apply dmem_dset in K as [->|K]; [|now apply A9]. destruct U as (Nn & U). split; [auto|].
        intros c Ic Jc. apply U in Ic. cbn [In] in Jc. destruct Jc as [<-|[<-|[<-|[<-|[]]]]]; (rewrite (space_ok _ _ _ OK) in Ic by reflexivity; discriminate Ic).
    - destruct X as [g g' n b t d td G G' Nn B Td Nm|g g' n z s t d td G G' Nn Z S Td].
      + destruct (network_object_def _ _ _ _) as [((y & p) & nat)|]; cbn [bind] in L; [|discriminate]. injection L as <- _. split; auto; cbn [tb_netobj]. apply named_if; [auto|]. split; [constructor|auto].
      + injection L as <- _. split; auto; cbn [tb_svcobj]. apply named_if; [auto|]. split; [constructor|auto].
    - destruct (define_any (tb_world T) d) as [w|] eqn:Dw; cbn [bind] in L; [|discriminate]. injection L as <- _.
      assert (Gn : forall w (X : Type) (P : member X -> pystr -> Prop) d t, plain_group w P d t -> name_chars (gd_name d)).
      { intros w0 X0 P d0 t0 [n h d1 td ms tm (g1 & z & _ & Nc & _) _ _]. exact Nc. }
      destruct X as [g d t G X|g d t G X|g d t G X|g d t G X|g g1 n g2 p z d td ms tm G G1 Nn G2 Pw Z Td Tm]; cbn [define_any] in Dw;
        (destruct (define _ _ _ _) as [y|] eqn:Dd; cbn [bind] in Dw; [|discriminate]); injection Dw as <-; apply define_keys in Dd as (gi & Ek);
        split; auto; cbn [tb_world w_net w_port w_service w_proto w_icmp]; rewrite Ek; (apply named_set; [auto|]); (split; [constructor|eauto]).
      cbn [gd_name]. exact (proj2 Nn).
    - injection L as <- _. exact M.
    - injection L as <- _. exact M.
    - injection L as <- _. exact M.
    - injection L as <- _. exact M.
    - injection L as <- _. exact M.
    - injection L as <- _. exact M.
    - injection L as <- _. exact M.
  Qed.
  Lemma from_ok cs l T : tables_from cs T -> well_named (cs ++ l) -> tables_ok T.
  Proof using.
    clear. intros [A1 A2 A3 A4 A5 A6 A7 A8 A9 A10] [W1 W2 W3 W4 W5].
    assert (Lf : forall c, In c cs -> In c (cs ++ l)) by (intros c I; apply in_app_iff; now left).
    assert (O : forall V (d : dict V), named_by cs good_object d -> keys name_text d).
    { intros V d H n M. destruct (H n M) as (c & I & On & Nc). split; [eapply W2; eauto|exact Nc]. }
    assert (G : forall V k (d : dict V), named_by cs (good_group k) d -> keys name_text d).
    { intros V k d H n M. destruct (H n M) as (c & I & On & Nc). split; [eapply W3; eauto|exact Nc]. }
    assert (X : forall V W a b (d : dict V) (d' : dict W), named_by cs (good_group a) d -> named_by cs (good_group b) d' -> exclusive a b -> no_common d d').
    { intros V W a b d d' H H' E n M. destruct (dmem d' n) eqn:M'; [|auto]. destruct (H n M) as (c & I & On & _). destruct (H' n M') as (c' & I' & On' & _). exfalso. exact (W4 a b n c c' (Lf _ I) (Lf _ I') On On' E). }
    split.
    - unfold env_ok, env_of. cbn [e_names e_netobj e_netgrp e_svcobj e_svcgrp e_portgrp e_icmpgrp e_protogrp e_time].
      split; [intros n M; unfold dmem in M; destruct (dget (tb_names T) n) as [x|] eqn:E; [|discriminate]; destruct (A1 n x E) as (I & <- & _); apply W1; auto|].
      split; [eauto|]. split; [eauto|]. split; [eauto|]. split; [eauto|]. split; [eauto|]. split; [eauto|]. split; [eauto|]. split; [auto|]. split; [intros n x E; now apply A1 in E|].
      unfold exclusive in X. split; [eapply X; eauto; cbn; tauto|]. split; [eapply X; eauto; cbn; tauto|]. split; [eapply X; eauto; cbn; tauto|]. split; [eapply X; eauto; cbn; tauto|].
      split; [eapply X; eauto; cbn; tauto|eapply X; eauto; cbn; tauto].
    - intros n M. destruct (A10 n M) as (c & I & Nm). eapply W5; eauto.
  Qed.

  (** ** Whatever is read is a command *)
  Definition yields {A} (p : parser A) (P : A -> Prop) : Prop := forall s x r, p s = POk x r -> P x.
  Lemma yields_bind {A B} (p : parser A) (f : A -> parser B) P : (forall a, yields (f a) P) -> yields (pbind p f) P.
  Proof using. clear. intros F s x r H. apply pbind_ok in H as (a & s1 & _ & H). eapply F; eauto. Qed.
  Lemma yields_por {A} (p q : parser A) P : yields p P -> yields q P -> yields (por p q) P.
  Proof using. clear. intros Hp Hq s x r H. apply por_sound in H as [H|H]; eauto. Qed.
  Lemma yields_ret {A} (a : A) (P : A -> Prop) : P a -> yields (ret a) P.
  Proof using. clear. intros H s x r E. apply ret_ok in E as (<- & _). auto. Qed.
  Definition no_domain (x : simple) : Prop := forall n, x <> SDomain n.
  Ltac yields := repeat first [apply yields_por | apply yields_bind; intros ? | apply yields_ret; intros ?; discriminate].

  Lemma set_remark E rem x t rem' : line_text E isspace rem x t -> ar_remark x = rem ->
    exists x', line_text E isspace rem' x' t /\ ar_remark x' = rem'.
  Proof using.
    clear. intros [id mode hd p g g1 src s g2 dst d icmp i o z Hd G P G1 S G2 D I T|id mode hd proto p g g1 src s g2 dst d o z Hd G P G1 S G2 D T
      |id mode hd g src s g1 z Hd G S G1 Z|id mode hd g g1 url o z Hd G G1 U T|id mode hd g g1 dst d o z Hd G G1 D T] _.
    - eexists. split; [eapply LN_icmp; eauto|reflexivity].
    - eexists. split; [eapply LN_extended; eauto|reflexivity].
    - eexists. split; [eapply LN_standard; eauto|reflexivity].
    - eexists. split; [eapply LN_url; eauto|reflexivity].
    - eexists. split; [eapply LN_tcp; eauto|reflexivity].
  Qed.
  Lemma more_remarks E l ts x t : Forall2 remark_text l ts -> rule_text E isspace x t -> exists x', rule_text E isspace x' (concat ts ++ t).
  Proof using.
    clear. intros F [y ts' t' F' L]. destruct (set_remark E _ y t' (l ++ ar_remark y) L eq_refl) as (x' & L' & R). exists x'. rewrite app_assoc, <- concat_app.
    constructor; [rewrite R; now apply Forall2_app|now rewrite R].
  Qed.
  Lemma more_ether l ts t : Forall2 remark_text l ts -> ethertype_text isalnum t -> ethertype_text isalnum (concat ts ++ t).
  Proof using.
    clear. intros F [ts' rems id g g' x F' G G' I O A]. rewrite app_assoc, <- concat_app. eapply ET; eauto. eapply Forall2_app; eauto.
  Qed.
  Lemma acl_clash : forallb (fun w => clash (u w) (u "access-list") || String.eqb w "access-list") command_words = true.
  Proof using. vm_compute. reflexivity. Qed.
  Lemma acl_next other T T1 cs ms T2 l ts r : env_ok (env_of T) -> env_of T1 = env_of T -> Forall2 remark_text l ts -> file_text other T1 cs ms T2 r ->
    access_list (env_of T) (concat ts ++ r) = PFail -> access_list_remark r = PFail -> forall q, r <> u "access-list" ++ q.
  Proof using OK PI1 PI2.
    intros HE Et F X A M q Er. destruct X as [T0|T0 c t r0 T3 m cs' ms' T4 C _ _]; [discriminate Er|].
    pose proof (opening _ _ _ _ _ _ _ C) as [(_ & Z)|(w & q' & I & -> & Ac)].
    - destruct Z as [-> | ->]; discriminate Er.
    - pose proof acl_clash as K. rewrite forallb_forall in K. apply K in I. apply orb_true_iff in I as [I|I]; [rewrite <- app_assoc in Er; now apply clash_neq in Er|].
      apply String.eqb_eq in I. specialize (Ac I). clear I K. remember (u w ++ q') as t eqn:Ew. clear Ew Er.
      destruct C as [x t r X D|bare d t r X D|d t r X|x t r X|t r X|l' ts' r N X D|a n t r X Y|t r X D|t r X|t r X]; cbn [is_acl] in Ac; try discriminate Ac; try rewrite Et in *.
      + destruct (more_remarks _ _ _ _ _ F X) as (x' & X'). assert (H : access_list (env_of T) ((concat ts ++ t) ++ r) = POk (Some x') r) by (eapply C52_reads; eauto).
        rewrite <- app_assoc in H. congruence.
      + assert (H : access_list (env_of T) ((concat ts ++ t) ++ r) = POk None r) by (eapply C52_ethertype; eauto; exists (concat ts ++ t); split; [auto|eapply more_ether; eauto]).
        rewrite <- app_assoc in H. congruence.
      + destruct X as [|y ty l' ts' Y X]; [congruence|]. cbn [concat] in M. rewrite <- app_assoc in M. rewrite (remark_ok _ _ _ OK _ _ _ Y) in M. discriminate M.
  Qed.

  Lemma many_last {A} (p : parser A) s l r : many p s = POk l r -> p r = PFail \/ exists a r', p r = POk a r' /\ (length r <= length r')%nat.
  Proof using.
    clear. remember (length s) as n eqn:E. assert (L : (length s <= n)%nat) by (unfold pystr in *; lia). clear E. revert s l L.
    induction n as [|n IH]; intros s l L H; rewrite many_unfold in H; destruct (p s) as [|e|a s1] eqn:P; try discriminate; try (injection H as <- <-; auto);
      destruct (Nat.ltb_spec (@length N s1) (@length N s)); try (injection H as <- <-; right; exists a, s1; split; [auto|unfold pystr in *; lia]).
    - unfold pystr in *. lia.
    - destruct (many p s1) as [|e|l' r'] eqn:M; try discriminate. injection H as <- <-. eapply IH; [|exact M]. unfold pystr in *. lia.
  Qed.
  Lemma remarks_last s l r : many1 access_list_remark s = POk l r -> access_list_remark r = PFail.
  Proof using.
    clear. intros H. unfold many1 in H. pinv H. apply ret_ok in H as (_ & ->). apply many_last in P0 as [P0|(x & r' & P0 & L)]; [auto|]. exfalso.
    apply remark_sound in P0 as (t & -> & X). destruct X. rewrite !app_length in L. cbn in L. unfold pystr in *. lia.
  Qed.
  Lemma command_sound T s c r : tables_ok T -> ended s -> command_ T s = POk c r ->
    exists t, s = t ++ r /\ (command_text other_line T c t r \/
      exists l ts, c = CRemarks l /\ l <> [] /\ t = concat ts /\ Forall2 remark_text l ts /\ access_list (env_of T) s = PFail /\ access_list_remark r = PFail).
  Proof using OK PI1 PI2.
    intros (HE & HI) En H. unfold FileText.command_, choice in H. cbn [fold_right] in H.
    assert (Sm : forall (p : parser simple), (forall s x r, ended s -> p s = POk x r -> exists t, s = t ++ r /\ simple_text isalnum isspace other_line x t) -> yields p no_domain ->
      (let% x := p in ret (CSimple x)) s = POk c r -> exists t, s = t ++ r /\ command_text other_line T c t r).
    { intros p Sp Y K. pinv K. apply ret_ok in K as (<- & ->). destruct (Sp _ _ _ En P) as (t & -> & X). exists t. split; [auto|]. constructor; [auto|]. intros n E. destruct (Y _ _ _ P n E). }
    assert (Sm' : (exists t, s = t ++ r /\ command_text other_line T c t r) -> exists t, s = t ++ r /\ (command_text other_line T c t r \/
      exists l ts, c = CRemarks l /\ l <> [] /\ t = concat ts /\ Forall2 remark_text l ts /\ access_list (env_of T) s = PFail /\ access_list_remark r = PFail)).
    { intros (t & E & X). eauto. }
    apply por_sound in H as [H|H]; [apply Sm', (Sm _ (version_sound isalnum isspace)); [unfold version; yields|auto]|].
    apply por_sound in H as [H|H]; [apply Sm', (Sm _ (hostname_sound isalpha isalnum isspace)); [unfold hostname; yields|auto]|].
    apply por_sound in H as [H|H].
    { apply Sm'. pinv H. apply ret_ok in H as (<- & ->). destruct (domain_sound _ _ isspace _ _ _ En P) as (t & -> & X). exists t. split; [auto|]. constructor; [auto|]. intros n ->.
      unfold domain_name in P. pinv P. apply ret_ok in P as (_ & ->). apply ident_iff in P2 as (_ & _ & N). intros c q -> C. apply N. exists c, q. split; [auto|]. now apply id_char_spec. }
    apply por_sound in H as [H|H]; [apply Sm', (Sm _ (interface_sound _ _ _ OK)); [unfold interface_; yields|auto]|].
    apply por_sound in H as [H|H]; [apply Sm', (Sm _ (name_sound _ _ _ OK)); [unfold name; yields|auto]|].
    apply por_sound in H as [H|H]; [apply Sm', (Sm _ (time_range_sound _ _ _ OK)); [unfold time_range; yields|auto]|].
    apply por_sound in H as [H|H].
    { pinv H. apply ret_ok in H as (<- & ->). destruct (C54_reads _ _ _ OK _ PI1 PI2 _ HE _ HI _ _ _ P) as (bare & t & -> & X & N). exists t. split; [auto|]. left. econstructor; eauto. }
    apply por_sound in H as [H|H].
    { pinv H. apply ret_ok in H as (<- & ->). destruct (C53_reads _ _ _ OK _ PI1 PI2 _ HE _ _ _ P) as (t & -> & X & N). exists t. split; [auto|]. left. econstructor; eauto. }
    apply por_ok in H as [H|(Fa & H)].
    { pinv H. apply ret_ok in H as (<- & ->). destruct a as [x|].
      - apply (C52_reads _ _ _ OK _ PI1 PI2 _ HE) in P as (t & -> & X). exists t. split; [auto|]. left. now constructor.
      - apply (C52_ethertype _ _ _ OK _ PI1 PI2 _ HE) in P as (t & -> & X). exists t. split; [auto|]. left. now constructor. }
    apply por_sound in H as [H|H].
    { pinv H. apply ret_ok in H as (<- & ->). pose proof (remarks_last _ _ _ P) as Rl. pose proof P as P'. apply (remarks_sound _ _ _ OK) in P as (ts & -> & X). exists (concat ts). split; [auto|]. right. exists a, ts.
      split; [auto|]. split; [unfold many1 in P'; pinv P'; apply ret_ok in P' as (<- & _); discriminate|]. split; [auto|]. split; [auto|]. split; [|auto].
      unfold pbind in Fa. destruct (access_list (env_of T) (concat ts ++ r)); [auto|discriminate Fa|discriminate Fa]. }
    apply por_sound in H as [H|H]; [apply Sm', (Sm _ (bind_sound isalpha isalnum isspace)); [unfold access_group; yields|auto]|].
    apply por_sound in H as [H|H].
    { pinv H. apply ret_ok in H as (<- & ->). destruct a as [n|].
      - apply (C56_object _ _ _ OK _ HE _ HI) in P as (a & t & -> & X & A). exists t. split; [auto|]. left. econstructor; eauto.
      - unfold NatText.nat_command in P. apply act_ok in P as (a & P & A). destruct (C56_reads _ _ _ OK _ HE _ HI _ _ _ P) as [(t & -> & X)|(N & Ae & t & -> & X)].
        + exfalso. destruct X. unfold nat_action in A. cbn [na_iface] in A. destruct (nat_services _ _) as [[? ?]|]; cbn [bind] in A; [|discriminate A]. destruct (nat_opts_of _ _ _). discriminate A.
        + exists t. split; [auto|]. left. constructor; [auto|]. destruct Ae as [-> |Ae]; [|auto]. exfalso. rewrite app_nil_r in En. destruct X as [g n q G K O].
          destruct En as [En|(s' & En)]; [discriminate En|]. rewrite !app_assoc in En. destruct q as [|x q] using rev_ind.
          * rewrite app_nil_r in En. apply app_inj_tail in En as (_ & En). discriminate En.
          * rewrite app_assoc in En. apply app_inj_tail in En as (_ & ->). apply O, in_app_iff. right. now left. }
    apply por_sound in H as [H|H].
    { pinv H. apply ret_ok in H as (<- & ->). apply (ignored_sound _ _ _ OK) in P as (t & -> & X). exists t. split; [auto|]. left. now constructor. }
    apply por_sound in H as [H|H]; [|discriminate H]. pinv H. apply ret_ok in H as (<- & ->). apply nl_sound in P as (z & -> & Z). exists z. split; [auto|]. left. now constructor.
  Qed.

  (** ** The whole text *)
  Lemma file_sound fuel : forall T s cs ms T' prev, commands fuel T s = POk (cs, ms, T') [] -> ended s -> tables_from prev T -> well_named (prev ++ cs) ->
    file_text other_line T cs ms T' s.
  Proof using OK PI1 PI2.
    induction fuel as [|fuel IH]; intros T s cs ms T' prev H En Fr W; cbn [FileText.commands] in H.
    - injection H as <- <- <- ->. constructor.
    - destruct (command_ T s) as [|e|c r] eqn:C; [injection H as <- <- <- ->; constructor|discriminate|].
      destruct (learn T c) as [(T1, m)|] eqn:L; [|discriminate].
      destruct (Nat.ltb_spec (@length N r) (@length N s)) as [Lt|]; [|injection H as <- <- <- ->; constructor].
      destruct (commands fuel T1 r) as [|e|((cs', ms'), T2) r'] eqn:R; try discriminate. injection H as <- <- <- ->.
      pose proof (from_ok prev (c :: cs') T Fr W) as TO. apply command_sound in C as (t & -> & X); auto.
      assert (K : forall t r, command_text other_line T c t r -> tables_from (prev ++ [c]) T1) by (intros t0 r0 X0; eapply from_step; eauto).
      assert (W' : well_named ((prev ++ [c]) ++ cs')) by (rewrite <- app_assoc; exact W).
      destruct X as [X|(l & ts & -> & Nl & -> & F & A & M)].
      + econstructor; [exact X|exact L|]. eapply IH; eauto. now apply ended_app in En.
      + assert (F1 : tables_from (prev ++ [CRemarks l]) T1) by (injection L as <- _; now apply from_more).
        assert (Y : file_text other_line T1 cs' ms' T2 r) by (eapply IH; eauto; now apply ended_app in En).
        econstructor; [|exact L|exact Y]. constructor; [auto|auto|]. eapply (acl_next other_line T T1); eauto; [apply TO|]. injection L as <- _. reflexivity.
  Qed.
  Lemma file_complete T cs ms T' s : file_text other_line T cs ms T' s -> forall fuel prev, (length s < fuel)%nat -> tables_from prev T -> well_named (prev ++ cs) ->
    commands fuel T s = POk (cs, ms, T') [].
  Proof using OK PI1 PI2.
    induction 1 as [T|T c t r T' m cs ms T'' C L F IH]; intros fuel prev Lt Fr W; (destruct fuel as [|fuel]; [inversion Lt|]); cbn [FileText.commands].
    - now rewrite read_nothing.
    - pose proof (from_ok prev (c :: cs) T Fr W) as TO. rewrite (read_command _ _ _ OK _ PI1 PI2 _ _ _ _ C TO (file_fresh _ _ _ _ _ _ _ _ F)), L.
      assert (Nt : t <> []).
      { intros ->. apply opening in C as [(_ & [Z|Z])|(w & q & I & E & _)]; try discriminate Z. destruct (word_start w q I) as (c0 & q0 & E0 & _). congruence. }
      assert (Lr : (length r < length (t ++ r))%nat) by (rewrite app_length; destruct t; [congruence|]; cbn; unfold pystr in *; lia).
      destruct (Nat.ltb_spec (@length N r) (@length N (t ++ r))) as [_|X]; [|unfold pystr in *; lia].
      rewrite (IH fuel (prev ++ [c])); [reflexivity| | |].
      + unfold pystr in *. lia.
      + eapply from_step; eauto.
      + rewrite <- app_assoc. exact W.
  Qed.

  (** C57: what an accepted text is read as is written there, command by command. *)
  Theorem C57_reads : forall data cs ms T, parse_file data = Ok (cs, ms, T) -> well_named cs -> file_text other_line no_tables cs ms T (data ++ lf).
  Proof using OK PI1 PI2.
    intros data cs ms T H W. unfold FileText.parse_file in H. fold lf in H. destruct (commands _ _ _) as [|e|(([|c cs'], ms'), T') [|x r]] eqn:C; try discriminate H.
    injection H as <- <- <-. eapply (file_sound _ _ _ _ _ _ []); eauto; [right; eauto|apply from_nothing].
  Qed.
  (** C57: every text written as commands is accepted, and read as these. *)
  Theorem C57_complete : forall data cs ms T, file_text other_line no_tables cs ms T (data ++ lf) -> well_named cs -> parse_file data = Ok (cs, ms, T).
  Proof using OK PI1 PI2.
    intros data cs ms T F W. unfold FileText.parse_file. fold lf. rewrite (file_complete _ _ _ _ _ F _ []); [| |apply from_nothing|auto].
    - destruct cs as [|c cs]; [|reflexivity]. exfalso. inversion F as [? E1 E2 E3 E4|]; subst. now destruct data.
    - unfold pystr in *. lia.
  Qed.
  (** C57: accepted are exactly the texts written as commands. *)
  Theorem C57_exact : forall data cs ms T, well_named cs -> parse_file data = Ok (cs, ms, T) <-> file_text other_line no_tables cs ms T (data ++ lf).
  Proof using OK PI1 PI2. intros data cs ms T W. split; intros H; [now apply C57_reads|now apply C57_complete]. Qed.
  Theorem C57_unique : forall data cs ms T cs' ms' T', file_text other_line no_tables cs ms T (data ++ lf) -> file_text other_line no_tables cs' ms' T' (data ++ lf) ->
    well_named cs -> well_named cs' -> cs = cs' /\ ms = ms' /\ T = T'.
  Proof using OK PI1 PI2.
    intros data cs ms T cs' ms' T' F F' W W'. apply C57_complete in F; [|auto]. apply C57_complete in F'; [|auto]. rewrite F in F'. injection F' as -> -> ->. auto.
  Qed.
End File.

(** ** Examples *)
Notation pf := (parse_file ascii_alpha ascii_alnum ascii_space C52_int).
Definition C57_data : pystr :=
  line "ASA Version 9.1(2)" ++ line "!" ++ line "hostname fw1" ++ line "domain-name example.org" ++ line "names" ++
  line "name 10.0.0.80 web-srv" ++ line "interface GigabitEthernet0/0" ++ line " nameif outside" ++ line " security-level 0" ++
  line " ip address 192.0.2.1 255.255.255.0 standby 192.0.2.2" ++ line "!" ++
  line "interface GigabitEthernet0/1" ++ line " nameif inside" ++ line "!" ++
  line "time-range night" ++ line " periodic daily 22:00 to 23:59" ++ line "!" ++
  line "object network web" ++ line " host 10.0.0.80" ++ line "object network web" ++ line " nat (inside,outside) static 192.0.2.80" ++
  line "object service https" ++ line " service tcp destination eq https" ++
  line "object-group network servers" ++ line " network-object host web-srv" ++ line " network-object object web" ++
  line "object-group network all" ++ line " description all of them" ++ line " group-object servers" ++
  line "access-list ACL remark web" ++ line "access-list ACL extended permit tcp any object-group servers eq www time-range night" ++
  line "access-list ACL extended deny ip any any log" ++ line "access-list OTHER remark nothing" ++
  line "class-map inspection" ++ line " match default-inspection-traffic" ++
  line "nat (inside,outside) source dynamic all interface" ++
  line "access-group ACL in interface outside" ++ line "Cryptochecksum:0123" ++ u ": end".
Definition kind_of (c : command) : nat :=
  match c with CSimple _ => 0 | CObject _ => 1 | CGroup _ => 2 | CRule _ => 3 | CEthertype => 4 | CRemarks _ => 5 | CNat _ => 6 | CSkipped => 7 | CEmpty => 8 end.
Definition C57_result := Eval vm_compute in match pf C57_data with Ok x => Some x | Err _ => None end.
Definition kinds (data : pystr) : result (list nat) := match pf data with Ok x => Ok (map kind_of (fst (fst x))) | Err e => Err e end.
Example C57_ex1 : exists cs ms T, pf C57_data = Ok (cs, ms, T) /\ map kind_of cs = [0; 7; 0; 0; 8; 7; 0; 0; 7; 0; 7; 0; 7; 1; 1; 1; 2; 2; 3; 3; 5; 7; 6; 0; 7; 7] /\ well_named ascii_alnum cs.
Proof.
  destruct C57_result as [((cs, ms), T)|] eqn:E; [|discriminate E]. exists cs, ms, T. unfold C57_result in E. injection E as <- <- <-.
  split; [vm_compute; reflexivity|]. split; [vm_compute; reflexivity|].
  assert (G : forall A (l : list A) x (P : A -> Prop), In x l -> Forall P l -> P x) by (intros A l x P I F; rewrite Forall_forall in F; exact (F x I)).
  split.
  - intros x I. refine (G _ _ _ (fun c => forall x, c = CSimple (SName x) -> hostname_ok (nm_host x)) I _ x eq_refl).
    repeat apply Forall_cons; try apply Forall_nil; intros y Ey; try discriminate Ey. injection Ey as <-. cbn [nm_host].
    split; [|split].
    + split; [eexists _, _; split; [reflexivity|unfold letter; lia]|]. intros c Hc. repeat (destruct Hc as [<-|Hc]; [unfold letter, digit; lia|]). destruct Hc.
    + intros w Iw. repeat (destruct Iw as [<-|Iw]; [discriminate|]). destruct Iw.
    + intros w c n' Iw Ew. repeat (destruct Iw as [<-|Iw]; [discriminate Ew|]). destruct Iw.
  - intros n c I. refine (G _ _ _ (fun c => object_named n c -> n <> []) I _).
    repeat apply Forall_cons; try apply Forall_nil; intros B; inversion B; subst; discriminate.
  - intros k n c I. refine (G _ _ _ (fun c => group_named k n c -> n <> []) I _).
    repeat apply Forall_cons; try apply Forall_nil; intros B; inversion B; subst; discriminate.
  - intros a b n c c' I I' A B X.
    assert (K : forall c, In c (fst (fst (match C57_result with Some x => x | None => ([], [], no_tables) end))) -> forall k n, group_named k n c -> k = NetGroup); [|apply K in A; [|exact I]; apply K in B; [|exact I']; subst; repeat (destruct X as [X|X]; [discriminate X|]); destruct X].
    intros c0 I0. refine (G _ _ _ (fun c => forall k n, group_named k n c -> k = NetGroup) I0 _).
    repeat apply Forall_cons; try apply Forall_nil; intros k0 n0 Y; inversion Y; subst; reflexivity.
  - intros n c I. refine (G _ _ _ (fun c => interface_named n c -> freeof (in_class [44; 41]%N) n /\ clear_of_any ascii_alnum n) I _).
    repeat apply Forall_cons; try apply Forall_nil; intros B; inversion B; subst.
    all: try match goal with H : In _ _ |- _ => repeat (destruct H as [H|H]; [try discriminate H; injection H as <-|]); try destruct H end.
    all: split; [intros c1 Hc J; repeat (destruct Hc as [<-|Hc]; [repeat (destruct J as [J|J]; [discriminate J|]); destruct J|]); destruct Hc|intros c1 n1 E0; discriminate E0].
Qed.
Example C57_ex1' : exists cs ms T, file_text ascii_alnum ascii_space other_line no_tables cs ms T (C57_data ++ lf) /\ length cs = 26.
Proof.
  destruct C57_ex1 as (cs & ms & T & H & K & W). exists cs, ms, T. split.
  - apply (C57_reads _ _ _ C41_classes _ C52_int1 C52_int2 _ _ _ _ H W).
  - apply (f_equal (@length nat)) in K. rewrite map_length in K. exact K.
Qed.

(** ** Findings *)
(** Nothing of a configuration is read if one line is not understood: a blank at the end of a
    line, an indented line after a command that takes none, an unknown command. *)
Example C57_trailing_blank : kinds (line "hostname fw1 " ++ u "names") = Err FailedParse.
Proof. vm_compute. reflexivity. Qed.
Example C57_indented : kinds (line "dns-guard" ++ u " x") = Err FailedParse /\ kinds (line "dns" ++ u " x") = Ok [7].
Proof. vm_compute. auto. Qed.
Example C57_unknown : kinds (line "hostname fw1" ++ line "switch 1" ++ u "names") = Err FailedParse.
Proof. vm_compute. reflexivity. Qed.
(** A command may begin in the middle of a line, after an object without a body and after the
    domain name. *)
Example C57_mid_line : kinds (u "object network foo!x") = Ok [1; 7] /\ kinds (u "domain-name a!x") = Ok [0; 7].
Proof. vm_compute. auto. Qed.
(** The empty text is a configuration. *)
Example C57_empty : kinds [] = Ok [8].
Proof. vm_compute. reflexivity. Qed.

Print Assumptions C57_reads.
Print Assumptions C57_complete.
Print Assumptions C57_exact.
Print Assumptions C57_unique.
