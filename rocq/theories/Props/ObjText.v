(** C54: object definitions of ASA/FWSM configurations as text.
    Every definition of Spec/ObjTextSpec.v is read as the definition it stands for
    (C54_complete), whatever is read is such a definition (C54_reads), and a text has one
    meaning and one extent (C54_unique). *)
From Coq Require Import Lia String.
From Verif.Model Require Import Base Ip Hosts Groups Rules Nat Iface Peg Ids AddrText Ports AclText Define GroupText ObjText.
From Verif.Spec Require Import AddrSpec RefSpec AddrTextSpec CafTextSpec CafMeanSpec AclTextSpec GroupTextSpec ObjTextSpec.
From Verif.Proofs Require Import GroupOps MaskFacts DictFacts PegFacts AddrTextFacts CafTextFacts TokFacts CafMean LineFacts AclTextFacts AclOptFacts GroupTextFacts ObjTextFacts LineTextFacts NoErr.
From Verif.Props Require Import Refs Addresses AddrText CafText AclText.
Local Open Scope list_scope.

Section Objects.
  Context (isalpha isalnum isspace : N -> bool) (OK : classes_ok isalpha isalnum isspace).
  Context (py_int : pystr -> option Z)
          (PI1 : forall n, n <> [] -> forallb AddrText.is_digit n = true -> py_int n <> None)
          (PI2 : forall n, In n port_code -> py_int n = None).
  Variables (E : env) (HE : env_ok E) (IF : dict ifnames) (HIF : ifaces_ok isalnum IF).
  Notation kw := (kw isalpha isalnum).
  Notation object_ := (object_ isalpha isalnum isspace py_int E IF).
  Notation opt_descr := (opt_descr isalpha isalnum).
  Notation network_object := (network_object isalpha isalnum isspace E IF).
  Notation service_object := (service_object isalpha isalnum py_int).
  Notation object_nat := (object_nat isalpha isalnum E IF).
  Notation obj_text := (obj_text isspace E IF).
  Notation body_text := (body_text isspace E IF).

  Definition content_of (a : option (objargs + objnat_ast)) (t : option objnat_ast) : netobj_body :=
    match a with None => BArgs ANone t | Some (inl a) => BArgs a t | Some (inr m) => BNat m end.
  Lemma opt_nat_sound s x r : popt (then_ sp object_nat) s = POk x r -> exists t, s = t ++ r /\ opt_nat_text E IF x t.
  Proof using OK HE HIF.
    intros H. apply popt_ok in H as [(m & -> & H)|(-> & <- & _)]; [|exists []; split; [auto|constructor]].
    unfold then_ in H. pinv H. apply sp_ok in P. subst. eapply nat_line_sound in H as (t & -> & T); eauto. exists (u " " ++ t). split; [reflexivity|now constructor].
  Qed.
  Lemma name_over_iff r : name_over r <-> ~ starts is_obj_char r.
  Proof using.
    clear. split; [intros H (c & q & -> & C); apply obj_char_spec in C; now apply (H c q)|]. intros H c q -> C. apply H. exists c, q. split; [auto|]. now apply obj_char_spec.
  Qed.
  Lemma obj_name_over s n r : obj_name s = POk n r -> name_over r.
  Proof using. clear. unfold obj_name, pat0. destruct (span is_obj_char s) as [a b] eqn:S. apply span_iff in S as (_ & _ & S). intros [= <- <-]. now apply name_over_iff. Qed.
  (** C54: what is read is a definition. *)
  Theorem C54_reads : forall s d r, object_ s = POk d r -> exists bare t, s = t ++ r /\ obj_text bare d t /\ (bare = true -> name_over r).
  Proof using OK HE HIF PI1 PI2.
    intros s d r H. unfold ObjText.object_ in H. pinv H. apply kw_sound in P as ->. apply ws_sound in P0 as (g & -> & G).
    unfold object_type in H. apply por_sound in H as [H|H]; pinv H.
    - apply ret_ok in H as (<- & ->). apply kw_sound in P as ->. apply ws_iff in P0 as (g' & G' & -> & B). pose proof (obj_name_over _ _ _ P1) as Ov. apply obj_name_sound in P1 as (-> & Nn).
      apply descr_sound in P4 as (td & -> & Td). apply opt_nat_sound in P3 as (tn & -> & Tn). change (match a4 with None => BArgs ANone a5 | Some (inl a) => BArgs a a5 | Some (inr m) => BNat m end) with (content_of a4 a5).
      match type of P2 with popt _ ?x = _ => assert (K : exists t, x = t ++ td ++ r /\ body_text (content_of a4 a5) t /\ (forall z, a4 = Some z -> exists z q, eol_text z /\ t = z ++ q)) end.
      { apply popt_ok in P2 as [(x & -> & H)|(-> & <- & _)].
        - pinv H. apply nl_sound in P as (z & -> & Z). apply sp_ok in P0. subst. eapply contents_sound in H as (t & -> & T); eauto. exists (z ++ u " " ++ t ++ tn). split; [now rewrite <- !app_assoc|].
          split; [|intros; eauto]. destruct x as [x|m]; cbn [content_of]; [now constructor|econstructor; eauto].
        - exists tn. split; [auto|]. split; [now constructor|discriminate]. }
      destruct K as (t & -> & Tb & Ka). exists (is_empty (t ++ td)), (u "object" ++ g ++ u "network" ++ g' ++ a3 ++ t ++ td). split; [now rewrite <- !app_assoc|].
      split; [|intros Em; destruct t; [|discriminate Em]; destruct td; [exact Ov|discriminate Em]].
      constructor; auto; [now apply chars_name|]. intros Ne ->. destruct a4 as [x|]; [eapply Ka; eauto|]. exfalso. cbn [content_of] in Tb. cbn [app] in B.
      assert (Sp : exists q, t ++ td = 32%N :: q).
      { inversion Tb as [? ? ? ? ? ? At| |? ? On]; subst; [inversion At|]. destruct On as [|m t' _]; [|cbn [app]; eexists; reflexivity].
        destruct Td as [|g0 d0]; [now destruct Ne|]. eexists. reflexivity. }
      destruct Sp as (q & Sp). rewrite app_assoc, Sp in B. cbn [app] in B. apply B. now rewrite starts_cons.
    - destruct a4 as [sv|]; [|discriminate H]. apply ret_ok in H as (<- & ->). apply kw_sound in P as ->. apply ws_sound in P0 as (g' & -> & G'). apply obj_name_sound in P1 as (-> & Nn).
      apply descr_sound in P3 as (td & -> & Td). apply popt_ok in P2 as [(x & [= <-] & H)|([=] & _)]. pinv H. apply nl_sound in P as (z & -> & Z). apply sp_ok in P0. subst.
      eapply objservice_sound in H as (t & -> & T); eauto. exists false, (u "object" ++ g ++ u "service" ++ g' ++ a3 ++ z ++ u " " ++ t ++ td).
      split; [now rewrite <- !app_assoc|]. split; [|discriminate]. constructor; auto. now apply chars_name.
  Qed.

  Lemma descr_ok d td r : descr_text d td -> ~ indented r -> exists x, opt_descr (td ++ r) = POk x r /\ match x with Some d => d | None => [] end = d.
  Proof using OK.
    intros [|g e G Ne Nl B] N; [exists None|exists (Some e)]; (split; [|reflexivity]).
    - cbn [app]. apply descr_none. intros q ->. apply N. eexists. reflexivity.
    - eapply descr_some; eauto.
  Qed.
  Lemma opt_nat_ok x t d td r : opt_nat_text E IF x t -> descr_text d td -> ~ indented r -> popt (then_ sp object_nat) (t ++ td ++ r) = POk x (td ++ r).
  Proof using OK HE HIF.
    intros [|m t' T] Td N.
    - cbn [app]. apply popt_none. unfold then_. destruct Td as [|g e G Ne Nl B]; [apply pbind_fail; now apply sp_fail|].
      change ((u " description" ++ g ++ e ++ [10%N]) ++ r) with (32%N :: (u "description" ++ g ++ e ++ [10%N]) ++ r).
      eapply pbind_step; [apply sp_cons|]. unfold ObjText.object_nat. rewrite <- app_assoc. apply por_r; apply pbind_fail; now apply kw_clash.
    - change ((u " " ++ t') ++ td ++ r) with (32%N :: t' ++ td ++ r). apply popt_some. unfold then_. eapply pbind_step; [apply sp_cons|]. eapply nat_line_ok; eauto.
  Qed.
  (** Contents are not read on the line of the name. *)
  Lemma not_contents {A} (p : parser A) q : (exists q', q = 32%N :: q') -> popt (let% _ := nl in let% _ := sp in p) q = POk None q.
  Proof using. clear. intros (q' & ->). apply popt_none. reflexivity. Qed.
  Lemma empty_lines {A} (p : parser A) z r : eol_text z -> ~ indented r -> popt (let% _ := nl in let% _ := sp in p) (z ++ r) = POk None (z ++ r).
  Proof using. clear. intros Z N. apply popt_none. eapply pbind_step; [now apply nl_ok|]. apply pbind_fail. now apply sp_fail. Qed.
  Lemma no_contents {A} (p : parser A) r : (forall z r', eol_text z -> r = z ++ r' -> ~ (exists q, r' = 32%N :: q)) -> popt (let% _ := nl in let% _ := sp in p) r = POk None r.
  Proof using.
    clear. intros N. apply popt_none. unfold pbind at 1. destruct (nl r) as [|e|[] r'] eqn:Q; [auto|now apply never_nl in Q|]. apply nl_sound in Q as (z & -> & Z).
    apply pbind_fail. apply sp_fail. intros I. now apply (N z r' Z eq_refl).
  Qed.
  (** C54: every definition is read as what it stands for. *)
  Theorem C54_complete : forall bare d t r, obj_text bare d t -> obj_rest bare r -> object_ (t ++ r) = POk d r.
  Proof using OK HE HIF PI1 PI2.
    intros bare d t r H R. unfold ObjText.object_, object_type. destruct H as [g g' n b t d td G G' Nn B Td Nm|g g' n z s t d td G G' Nn Z S Td]; rewrite <- !app_assoc.
    - apply (kwws_step isalpha isalnum isspace OK); [auto|now apply nostart|]. apply por_l.
      assert (Nw : ~ starts is_blank (n ++ t ++ td ++ r)).
      { destruct n as [|c n].
        - cbn [app]. destruct (t ++ td) as [|x y] eqn:Et.
          + apply app_eq_nil in Et as (-> & ->). cbn in R |- *. destruct R as (_ & R & _). intros (c & q & -> & C). apply R. exists c, q. split; [auto|]. apply is_blank_spec in C. tauto.
          + destruct (Nm ltac:(discriminate) eq_refl) as (z & q & Z & ->). rewrite <- app_assoc. now apply eol_noblank.
        - apply chars_name in Nn as [[=]|Nn]. apply freew_noblank; [apply Nn|now apply letter_name]. }
      apply (kwws_step isalpha isalnum isspace OK); [auto|auto|].
      assert (Sp : ~ starts is_obj_char (t ++ td ++ r)).
      { destruct B as [z a ta m tm Z A T|z m tm m' tm' Z M T|m tm T]; rewrite <- ?app_assoc; try (now apply sep_no_obj, eol_sep).
        destruct T as [|m t' T]; [|apply sep_no_obj; eexists; left; reflexivity]. destruct Td as [|g0 e G0]; [|rewrite <- ?app_assoc; apply sep_no_obj; eexists; left; reflexivity].
        cbn in R |- *. destruct R as (R & _). now apply name_over_iff. }
      eapply pbind_step; [now apply obj_name_chars|].
      destruct B as [z a ta m tm Z A T|z m tm m' tm' Z M T|m tm T].
      + assert (R' : ~ indented r) by (destruct Z as [-> | ->]; exact R). destruct (descr_ok _ _ _ Td R') as (x & X & <-). rewrite <- !app_assoc.
        eapply pbind_step; [apply popt_some; eapply pbind_step; [now apply nl_ok|]; eapply pbind_step; [apply sp_cons|eapply args_ok; eauto]|].
        eapply pbind_step; [eapply opt_nat_ok; eauto|]. eapply pbind_step; [exact X|reflexivity].
      + assert (R' : ~ indented r) by (destruct Z as [-> | ->]; exact R). destruct (descr_ok _ _ _ Td R') as (x & X & <-). rewrite <- !app_assoc.
        eapply pbind_step; [apply popt_some; eapply pbind_step; [now apply nl_ok|]; eapply pbind_step; [apply sp_cons|eapply nat_contents_ok; eauto]|].
        eapply pbind_step; [eapply opt_nat_ok; eauto|]. eapply pbind_step; [exact X|reflexivity].
      + destruct (tm ++ td) as [|x y] eqn:Et.
        * apply app_eq_nil in Et as (-> & ->). cbn [app] in *. cbn in R. destruct R as (_ & R & R'). inversion T; subst. inversion Td; subst.
          assert (Ni : ~ indented r) by (intros (q & ->); apply R; exists 32%N, q; auto).
          eapply pbind_step; [now apply no_contents|]. eapply (pbind_step _ _ _ None r); [apply popt_none; unfold then_; now apply pbind_fail, sp_fail|].
          eapply (pbind_step _ _ _ None r); [apply descr_none; intros q ->; apply Ni; eexists; reflexivity|reflexivity].
        * cbn [is_empty] in R. change (~ indented r) in R. destruct (descr_ok _ _ _ Td R) as (w & X & <-).
          eapply pbind_step; [apply not_contents|].
          { destruct T as [|m t' T]; [|eexists; reflexivity]. destruct Td as [|g0 e G0]; [discriminate Et|]. eexists. reflexivity. }
          eapply pbind_step; [eapply opt_nat_ok; eauto|]. eapply pbind_step; [exact X|reflexivity].
    - apply (kwws_step isalpha isalnum isspace OK); [auto|now apply nostart|]. apply por_r; [apply pbind_fail; now apply kw_clash|].
      cbn in R. change (~ indented r) in R. destruct (descr_ok _ _ _ Td R) as (w & X & <-).
      apply (kwws_step isalpha isalnum isspace OK); [auto|apply name_end; auto using eol_end|]. eapply pbind_step; [apply obj_name_chars; auto; now apply sep_no_obj, eol_sep|].
      eapply pbind_step; [apply popt_some; eapply pbind_step; [now apply nl_ok|]; eapply pbind_step; [apply sp_cons|eapply objservice_ok; eauto]|].
      eapply pbind_step; [exact X|reflexivity].
  Qed.

  (** C54: a definition has one meaning and one extent. *)
  Theorem C54_unique : forall b b' d d' t t' r r', obj_text b d t -> obj_text b' d' t' -> obj_rest b r -> obj_rest b' r' ->
    t ++ r = t' ++ r' -> d = d' /\ t = t' /\ r = r'.
  Proof using OK HE HIF PI1 PI2.
    intros b b' d d' t t' r r' T T' N N' Eq. pose proof (C54_complete _ _ _ _ T N) as A. rewrite Eq, (C54_complete _ _ _ _ T' N') in A. injection A as -> ->.
    split; [auto|]. apply app_inv_tail in Eq. auto.
  Qed.
End Objects.

(** C54: a definition that is read can be carried out, unless its mask is none or its range
    runs backwards. *)
Definition definable (b : netobj_body) : Prop :=
  match b with
  | BArgs (ASubnet a m) _ => exists p, mask_denotes (a_ver a) m p
  | BArgs (ARange a b) _ => (a_val a <= a_val b)%N
  | _ => True
  end.
Section Defines.
  Context (isalpha isalnum isspace : N -> bool) (OK : classes_ok isalpha isalnum isspace).
  Context (py_int : pystr -> option Z)
          (PI1 : forall n, n <> [] -> forallb AddrText.is_digit n = true -> py_int n <> None)
          (PI2 : forall n, In n port_code -> py_int n = None).
  Variables (E : env) (HE : env_ok E) (IF : dict ifnames) (HIF : ifaces_ok isalnum IF).
  Lemma nat_defined m t : nat_text E IF m t -> exists n, network_object_nat m = Ok n.
  Proof using.
    intros [g n i n' i' g1 static g2 m' tm s ts o to z G I J G1 G2 M S Sf Nd O Z].
    assert (K : exists x, network_nat_mapped m' = Ok x).
    { destruct M as [k ob f D T|k x f D U T|a y f A U T|a y d p k f V A D No T|y U T|g3 h k l op f U G3 R Op T]; cbn [network_nat_mapped]; eauto.
      pose proof (network_ok a None (MaskLen p) k (address_valid _ _ A) Logic.I No) as K. unfold network in K. cbn [fst snd] in K.
      destruct (mk_Network a (MaskLen p)); [|discriminate K]. cbn [bind]. eauto. }
    destruct K as (x & K). unfold network_object_nat. cbn [on_mapped]. rewrite K. cbn [bind]. eauto.
  Qed.
  Theorem C54_defines : forall s n d b r table, object_ isalpha isalnum isspace py_int E IF s = POk (ONet n d b) r ->
    (definable b -> exists x, network_object_def table n d b = Ok x) /\ (~ definable b -> network_object_def table n d b = Err ValueError).
  Proof using OK HE HIF PI1 PI2.
    intros s n d b r table H. eapply C54_reads in H as (bare & t & -> & T & _); eauto. inversion T as [g g' n0 b0 t0 d0 td G G' Nn B Td Nm|]; subst. clear T.
    assert (N : forall x tx, opt_nat_text E IF x tx -> exists y, match x with Some a => do n <- network_object_nat a; Ok (Some n) | None => Ok None end = Ok y).
    { intros x tx [|m t1 T]; [eauto|]. apply nat_defined in T as (y & ->). cbn [bind]. eauto. }
    destruct B as [z a ta m tm Z A T|z m tm m' tm' Z M T|m tm T]; unfold network_object_def.
    - destruct (N _ _ T) as (y & ->). cbn [bind]. assert (K : (definable (BArgs a m) -> exists p, mk_NetworkObject n d a = Ok p) /\ (~ definable (BArgs a m) -> mk_NetworkObject n d a = Err ValueError)).
      { destruct A as [g0 a t2 z0 G0 At Z0|g0 a g1 k z0 G0 L G1 L' Z0|g0 a t2 q p z0 G0 V At D Z0|g0 a t2 g1 b t1 z0 G0 At G1 Bt V Z0|g0 x z0 G0 U Z0|g0 v g1 x z0 G0 G1 U Z0]; cbn [definable mk_NetworkObject]; try (split; [eauto|tauto]).
        - destruct (mk_Network_char (mkaddr V4 a) (MaskQuad k) L L') as (H1 & H2). split; [intros (p & D); destruct (H1 p D) as (x & -> & _); cbn [bind]; eauto|].
          intros Nd. now rewrite (H2 Nd).
        - destruct (mk_Network_char a (MaskLen p) (address_valid _ _ At) Logic.I) as (H1 & H2). split; [intros (w & Dw); destruct (H1 w Dw) as (x & -> & _); cbn [bind]; eauto|].
          intros Nd. now rewrite (H2 Nd).
        - split.
          + intros L. destruct (C08_range_exact n d a b (address_valid _ _ At) (address_valid _ _ Bt) V L) as (nets & K & _). cbn [mk_NetworkObject] in K. rewrite K. eauto.
          + intros L. apply (proj2 (C08_range_rejected n d a b)); [auto|]. lia.
        - intros _. destruct v; eauto. }
      destruct K as (K1 & K2). split; [intros D; apply K1 in D as (p & ->); cbn [bind]; eauto|intros D; now rewrite (K2 D)].
    - destruct (nat_defined _ _ M) as (y & ->). cbn [bind mk_NetworkObject]. split; [eauto|cbn [definable]; tauto].
    - destruct (N _ _ T) as (y & ->). cbn [bind mk_NetworkObject]. split; [eauto|cbn [definable]; tauto].
  Qed.
End Defines.

(** ** Witnesses *)
Definition C54_ifaces : dict ifnames := [(u "inside", mkifnames (u "Vlan1") (Some (u "inside"))); (u "outside", mkifnames (u "Vlan2") (Some (u "outside")))].
Example C54_ifaces_ok : ifaces_ok ascii_alnum C54_ifaces.
Proof.
  intros n M. assert (I : In n [u "inside"; u "outside"]).
  { unfold dmem in M. cbn [C54_ifaces dget] in M. destruct (str_eqb_spec (u "inside") n) as [e|e]; [left; exact e|]. destruct (str_eqb_spec (u "outside") n) as [e'|e']; [right; left; exact e'|discriminate M]. }
  split.
  - intros c Ic C. assert (F : forallb (fun c => negb (existsb (N.eqb c) [44; 41]%N)) n = true) by (destruct I as [<-|[<-|[]]]; reflexivity).
    rewrite forallb_forall in F. specialize (F c Ic). cbn [existsb] in F. destruct C as [<-|[<-|[]]]; discriminate F.
  - intros c n' X. destruct I as [<-|[<-|[]]]; discriminate X.
Qed.
Notation ro := (object_ ascii_alpha ascii_alnum ascii_space C52_int C52_env C54_ifaces).
Definition C54_lines : pystr := line "object network web-int" ++ line " host 10.0.0.80" ++
  line " nat (inside,outside) static srv.1 interface service tcp www 8080 no-proxy-arp  " ++ line " description the web server".
Definition C54_def : objdef := ONet (u "web-int") (u "the web server") (BArgs (AHost (mkaddr V4 167772240))
  (Some (mkobjnat (Some (mkifnames (u "Vlan1") (Some (u "inside"))), Some (mkifnames (u "Vlan2") (Some (u "outside")))) true
    (OMNode (HObj (mkobj (u "srv.1") [] None [LHost (mkaddr V4 1)]))) (Some (OSPorts (u "tcp") (u "www") (u "8080"))) [u "no-proxy-arp"]))).
Example C54_ex1 : ro (C54_lines ++ u "access-list") = POk C54_def (u "access-list").
Proof. vm_compute. reflexivity. Qed.
Example C54_ex1' : exists bare, obj_text ascii_space C52_env C54_ifaces bare C54_def C54_lines /\ obj_rest bare (u "access-list").
Proof.
  pose proof C54_ex1 as H. eapply (C54_reads _ _ _ C41_classes _ C52_int1 C52_int2 _ C52_env_ok _ C54_ifaces_ok) in H as (bare & t & X & T & _). apply app_inv_tail in X. exists bare. rewrite X. split; [auto|].
  assert (bare = false) as ->; [|intros (q & Q); discriminate Q]. inversion T as [? ? ? ? t0 ? td ? ? ? ? Td|]; subst. inversion Td; subst. destruct t0; reflexivity.
Qed.
Example C54_ex2 : ro (line "object network net6" ++ line " subnet 2001:db8::/32" ++ line " nat (any,outside) dynamic pat-pool dmz-hosts round-robin flat include-reserve interface ipv6 dns") =
  POk (ONet (u "net6") [] (BArgs (ASubnet (mkaddr V6 42540766411282592856903984951653826560) (MaskLen 32))
    (Some (mkobjnat (None, Some (mkifnames (u "Vlan2") (Some (u "outside")))) false (OMNode (HGrp 0%nat)) None [u "dns"])))) [].
Proof. vm_compute. reflexivity. Qed.
Example C54_ex3 : ro (line "object network r" ++ line " range 10.0.0.1 10.0.0.9" ++ u "x") = POk (ONet (u "r") [] (BArgs (ARange (mkaddr V4 167772161) (mkaddr V4 167772169)) None)) (u "x").
Proof. vm_compute. reflexivity. Qed.
Example C54_ex4 : ro (line "object network f" ++ line " fqdn v4 www.example.com") = POk (ONet (u "f") [] (BArgs (AFqdn (Some V4)) None)) [].
Proof. vm_compute. reflexivity. Qed.
Example C54_ex5 : ro (line "object service s" ++ line " service tcp source gt 1023 destination eq https" ++ line " description web") =
  POk (OSvc (u "s") (u "web") (mkservice (u "tcp") (Some (PPort (Some (u "gt")) (Some (u "1023")))) (Some (PPort (Some (u "eq")) (Some (u "https")))) None None)) [].
Proof. vm_compute. reflexivity. Qed.
(** A NAT section repeats the name; the object is complete without it. *)
Example C54_ex6 : ro (line "object network web-int" ++ line " nat (inside,outside) static interface" ++ u "x") =
  POk (ONet (u "web-int") [] (BNat (mkobjnat (Some (mkifnames (u "Vlan1") (Some (u "inside"))), Some (mkifnames (u "Vlan2") (Some (u "outside")))) true OMIface None []))) (u "x").
Proof. vm_compute. reflexivity. Qed.
Example C54_ex7 : ro (line "object network empty" ++ u "x") = POk (ONet (u "empty") [] (BArgs ANone None)) (10%N :: u "x").
Proof. vm_compute. reflexivity. Qed.
(** A mask that is none is read, and rejected when the object is built. *)
Definition C54_badmask : netobj_body := BArgs (ASubnet (mkaddr V4 167772160) (MaskQuad 4278255360)) None.
Example C54_ex8 : ro (line "object network m" ++ line " subnet 10.0.0.0 255.0.255.0") = POk (ONet (u "m") [] C54_badmask) [].
Proof. vm_compute. reflexivity. Qed.
Example C54_ex8' : network_object_def (fun _ => None) (u "m") [] C54_badmask = Err ValueError.
Proof. reflexivity. Qed.

(** ** Findings *)
(** A blank after the name, or after the address, ends the definition: what follows is left
    over with its indentation. *)
Example C54_trailing_name : ro (line "object network w " ++ line " host 10.0.0.80") = POk (ONet (u "w") [] (BArgs ANone None)) (line " " ++ line " host 10.0.0.80").
Proof. vm_compute. reflexivity. Qed.
Example C54_trailing_host : ro (line "object network w" ++ line " host 10.0.0.80 ") = POk (ONet (u "w") [] (BArgs ANone None)) (10%N :: line " host 10.0.0.80 ").
Proof. vm_compute. reflexivity. Qed.
(** A description before the NAT line ends the definition; the NAT line is left over. *)
Example C54_description_first : ro (line "object network w" ++ line " host 10.0.0.80" ++ line " description d" ++ line " nat (inside,outside) static interface") =
  POk (ONet (u "w") (u "d") (BArgs (AHost (mkaddr V4 167772240)) None)) (line " nat (inside,outside) static interface").
Proof. vm_compute. reflexivity. Qed.
(** An object named as a keyword is taken for the keyword's meaning elsewhere: here an
    interface that is not known makes the whole line unreadable. *)
Example C54_unknown_interface : ro (line "object network w" ++ line " host 10.0.0.80" ++ line " nat (inside,dmz) static interface") =
  POk (ONet (u "w") [] (BArgs (AHost (mkaddr V4 167772240)) None)) (line " nat (inside,dmz) static interface").
Proof. vm_compute. reflexivity. Qed.
(** The interface pair, which the ASA allows to be left out, is required. *)
Example C54_no_interfaces : ro (line "object network w" ++ line " host 10.0.0.80" ++ line " nat static 192.0.2.1") =
  POk (ONet (u "w") [] (BArgs (AHost (mkaddr V4 167772240)) None)) (line " nat static 192.0.2.1").
Proof. vm_compute. reflexivity. Qed.
(** A service object without contents is an AssertionError. *)
Example C54_empty_service : ro (line "object service s" ++ u "x") = PErr AssertionError.
Proof. vm_compute. reflexivity. Qed.
(** The host name of an fqdn object is not kept: two objects of the same kind are equal. *)
Example C54_fqdn_lost : ro (line "object network f" ++ line " fqdn a.example") = ro (line "object network f" ++ line " fqdn b.example").
Proof. vm_compute. reflexivity. Qed.
Print Assumptions C54_reads.
Print Assumptions C54_complete.
Print Assumptions C54_unique.
Print Assumptions C54_defines.
