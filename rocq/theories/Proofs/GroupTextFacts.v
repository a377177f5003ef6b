(** Members and definitions of object groups as text: what is read is what is written. *)
From Coq Require Import Lia String.
From Verif.Model Require Import Base Ip Hosts Groups Iface Peg Ids AddrText Ports AclText Define GroupText.
From Verif.Spec Require Import AddrSpec RefSpec AddrTextSpec CafTextSpec CafMeanSpec AclTextSpec GroupTextSpec.
From Verif.Proofs Require Import GroupOps DictFacts PegFacts AddrTextFacts CafTextFacts TokFacts CafMean LineFacts AclTextFacts AclOptFacts.
From Verif.Props Require Import Refs AddrText.
Local Open Scope list_scope.

(** ** Tables of names *)
Lemma dget_known {V} (d : dict V) n v : dget (known d) n = Some v <-> v = n /\ is_known d n.
Proof.
  unfold is_known. induction d as [|[k w] d IH]; cbn [known map dget fst].
  - split; [discriminate|intros (_ & x & [=])].
  - destruct (str_eqb_spec k n) as [-> |N].
    + split; [intros [= <-]; eauto|intros (-> & _); auto].
    + exact IH.
Qed.
Lemma known_mem {V} (d : dict V) n : dmem (known d) n = dmem d n.
Proof.
  induction d as [|[k w] d IH]; [reflexivity|]. unfold dmem in *. cbn [known map dget fst]. destruct (str_eqb k n); [reflexivity|exact IH].
Qed.

(** ** Ends of lines *)
Lemma line_end_sound s x r : line_end s = POk x r -> exists z, s = z ++ r /\ end_text z.
Proof.
  unfold line_end. intros H. pinv H. apply nl_iff in H as (z & Z & ->).
  assert (W : exists g, blanks g /\ s = g ++ z ++ r).
  { apply popt_ok in P as [(? & _ & W)|(_ & W & _)]; [apply ws_sound in W as (g & -> & G); exists g; split; [apply G|auto]|exists []; split; [intros c []|]].
    cbn [app]. congruence. }
  destruct W as (g & B & ->). exists (g ++ z). split; [now rewrite app_assoc|]. exists g, z. auto.
Qed.
Lemma line_end_ok z r : end_text z -> line_end (z ++ r) = POk tt r.
Proof.
  intros (g & e & B & Z & ->). rewrite <- app_assoc. unfold line_end.
  assert (W : exists x, popt ws (g ++ e ++ r) = POk x (e ++ r)).
  { destruct g as [|c g]; [exists None; apply popt_none, ws_fail; now apply eol_noblank|].
    exists (Some tt). apply popt_some, ws_gap; [split; [discriminate|auto]|now apply eol_noblank]. }
  destruct W as (x & W). eapply pbind_step; [exact W|]. apply nl_iff. eauto.
Qed.
Lemma end_sep z r : end_text z -> sep_start (z ++ r).
Proof. intros (g & e & B & Z & ->). rewrite <- app_assoc. apply blank_ends; auto. now apply eol_sep. Qed.
Lemma eol_end z : eol_text z -> end_text z.
Proof. intros Z. exists [], z. split; [intros c []|]. auto. Qed.
(** What follows the blanks of a line end. *)
Lemma end_word z : end_text z -> exists g e, z = g ++ e /\ (g = [] \/ gap g) /\ eol_text e.
Proof. intros (g & e & B & Z & ->). exists g, e. split; [auto|]. split; [|auto]. destruct g as [|c g]; [now left|right; split; [discriminate|auto]]. Qed.

Section Words.
  Context (isalpha isalnum isspace : N -> bool) (OK : classes_ok isalpha isalnum isspace).
  Notation kw := (kw isalpha isalnum).
  Notation tokens := (tokens isalpha isalnum).
  (** A word outside the list, no word of the list reads a part of it. *)
  Lemma tokens_none l p r : forallb (fun w => ascii w && freewb w && negb (misread w p)) l = true -> ascii p = true ->
    ~ In p l -> sepw r -> tokens l (p ++ r) = PFail.
  Proof using OK.
    intros C Ap N S. destruct (tokens l (p ++ r)) as [|e|v q] eqn:T; [auto|now apply tokens_noerr in T|exfalso].
    apply tokens_sound in T as (I & K & P). rewrite forallb_forall in C. specialize (C v I). rewrite !andb_true_iff in C. destruct C as ((Av & Fv) & M).
    destruct (Nat.le_gt_cases (length v) (length p)) as [L|L].
    - symmetry in K. apply app_longer in K as (k & -> & ->); [|auto]. destruct k as [|c k]; [rewrite app_nil_r in N; auto|].
      unfold misread in M. assert (X : strip_prefix v (v ++ c :: k) = Some (c :: k)) by (now apply strip_spec). rewrite X in M.
      rewrite negb_involutive in M. apply andb_true_iff in M as (M1 & M2). unfold passes in P. cbn in P.
      unfold ascii in Ap. rewrite forallb_app in Ap. cbn [forallb] in Ap. rewrite !andb_true_iff in Ap.
      rewrite (name_like_ok _ _ _ OK) in P by auto. rewrite M1, (alnum_ok _ _ _ OK) in P by tauto. rewrite M2 in P. discriminate.
    - symmetry in K. symmetry in K. apply app_longer in K as (k & -> & ->); [|lia]. destruct k as [|c k]; [rewrite app_nil_r in L; lia|].
      destruct S as (c' & r' & E & Cc). injection E as <- _. apply freewb_ok in Fv. apply (Fv c); [apply in_app_iff; right; now left|auto].
  Qed.
  (** A text beginning with a digit, words beginning with letters. *)
  Lemma tokens_digit l p r : forallb (fun w => match w with c :: _ => negb (AddrText.is_digit c) | [] => false end) l = true ->
    p <> [] -> forallb AddrText.is_digit p = true -> tokens l (p ++ r) = PFail.
  Proof using.
    clear. intros C N F. destruct p as [|d p]; [congruence|]. destruct (tokens l ((d :: p) ++ r)) as [|e|v q] eqn:T; [auto|now apply tokens_noerr in T|exfalso].
    apply tokens_sound in T as (I & K & _). rewrite forallb_forall in C. specialize (C v I). destruct v as [|c v]; [discriminate|].
    cbn [app] in K. injection K as -> _. cbn [forallb] in F. apply andb_true_iff in F as (F & _). rewrite F in C. discriminate.
  Qed.
End Words.

Section Members.
  Context (isalpha isalnum isspace : N -> bool) (OK : classes_ok isalpha isalnum isspace).
  Context (py_int : pystr -> option Z)
          (PI1 : forall n, n <> [] -> forallb AddrText.is_digit n = true -> py_int n <> None)
          (PI2 : forall n, In n port_code -> py_int n = None).
  Variables (E : env) (HE : env_ok E).
  Notation kw := (kw isalpha isalnum).
  Notation tokens := (tokens isalpha isalnum).
  Notation reference := (reference isalpha isalnum).
  Notation port := (port isalpha isalnum).
  Notation icmp_type := (icmp_type isalpha isalnum).
  Notation net_member := (net_member isalpha isalnum E).
  Notation service_op := (service_op isalpha isalnum py_int).
  Notation service_side := (service_side isalpha isalnum py_int).
  Notation icmp_service := (icmp_service isalpha isalnum).
  Notation port_service := (port_service isalpha isalnum py_int).
  Notation service_member := (service_member isalpha isalnum py_int E).
  Notation port_member := (port_member isalpha isalnum py_int E).
  Notation icmp_member := (icmp_member isalpha isalnum E).
  Notation proto_member := (proto_member isalpha isalnum E).
  Notation description := (description isalpha isalnum).
  Notation opt_descr := (opt_descr isalpha isalnum).
  Ltac env := destruct HE as (Kn & Kno & Kng & Kso & Ksg & Kpg & Kig & Kpr & Kt & Kv & C1 & C2 & C3 & C4 & C5 & C6).

  (** ** group-object *)
  Lemma known_white {V} (d : dict V) : keys name_text d -> forall n, dmem (known d) n = true -> freeof white n.
  Proof using. clear. intros K n M. rewrite known_mem in M. apply freew_white, letter_name, K, M. Qed.
  Lemma groupref_sound {V X} (d : dict V) fin endp s (m : member X) r : keys name_text d ->
    (forall s x r, fin s = POk x r -> exists z, s = z ++ r /\ endp z) ->
    group_object isalpha isalnum d fin s = POk m r -> exists t, s = t ++ r /\ groupref_text d endp m t.
  Proof using OK.
    intros K F H. unfold group_object in H. pinv H. apply ret_ok in H as (<- & ->). apply kw_sound in P as ->. apply ws_sound in P0 as (g & -> & G).
    apply (ref_sound _ _ _ OK) in P1 as (n & -> & D); [|now apply known_white]. apply dget_known in D as (-> & D). apply F in P2 as (z & -> & Z).
    exists (u "group-object" ++ g ++ n ++ z). split; [now rewrite <- !app_assoc|now constructor].
  Qed.
  Lemma groupref_ok {V X} (d : dict V) fin (endp : pystr -> Prop) (m : member X) t r : keys name_text d ->
    (forall z r, endp z -> fin (z ++ r) = POk tt r) -> (forall z r, endp z -> sep_start (z ++ r)) ->
    groupref_text d endp m t -> group_object isalpha isalnum d fin (t ++ r) = POk m r.
  Proof using OK.
    intros K F S [g n z G I Z]. unfold group_object. rewrite <- !app_assoc. destruct I as (x & D).
    assert (Fn : n <> [] /\ freew n) by (eapply name_nonempty; eauto). destruct Fn.
    apply (kwws_step isalpha isalnum isspace OK); auto using freew_noblank.
    eapply pbind_step; [apply (ref_ok _ _ _ OK); [now apply known_white|apply dget_known; split; [reflexivity|exists x; exact D]|now apply S]|].
    eapply pbind_step; [now apply F|reflexivity].
  Qed.
  Lemma nl_ok z r : eol_text z -> nl (z ++ r) = POk tt r.
  Proof using. clear. intros Z. apply nl_iff. eauto. Qed.
  Lemma nl_sound s x r : nl s = POk x r -> exists z, s = z ++ r /\ eol_text z.
  Proof using. clear. intros H. apply nl_iff in H as (z & Z & ->). eauto. Qed.
  Lemma groupref_kw {V X A} (d : dict V) endp (m : member X) t r w (k : parser A) : groupref_text d endp m t -> clash (u w) (u "group-object") = true ->
    (let% _ := kw w in k) (t ++ r) = PFail.
  Proof using. clear. intros [g n z G I Z] C. apply pbind_fail. rewrite <- !app_assoc. now apply kw_clash. Qed.

  (** ** Network members *)
  Notation named_mask := (por (let% n := reference (e_names E) in ret (nm_addr n, Some n)) (let% a := ip4 in ret (a, None))).
  Notation named_any := (por (let% n := reference (e_names E) in ret (nm_addr n, Some n)) (let% a := por ip4 ip6 in ret (a, None))).
  Lemma named_any_sound s x r : named_any s = POk x r -> exists t, s = t ++ r /\ address_ref E (fun _ => True) (fst x) (snd x) t.
  Proof using OK HE.
    intros H. apply por_sound in H as [H|H]; pinv H; apply ret_ok in H as (<- & ->); cbn [fst snd].
    - apply (ref_sound _ _ _ OK) in P as (n & -> & D); [|apply free_white; eapply names_free; eauto]. exists n. split; [auto|now constructor].
    - apply por_sound in P as [P|P]; [apply ip4_sound in P as (t & -> & V & A)|apply ip6_sound in P as (t & -> & V & A)]; exists t; (split; [auto|now constructor]).
  Qed.
  Lemma named_any_ok a x t r : address_ref E (fun _ => True) a x t -> sep_start r -> named_any (t ++ r) = POk (a, x) r.
  Proof using OK HE.
    intros R S. pose proof (named_host_ok isalpha isalnum isspace OK E HE a x t r R S) as H. unfold Ids.acl_name in H.
    apply por_ok in H as [H|(H & H')].
    - apply pbind_ok in H as (n & s1 & H & R'). apply por_sound in H as [H|H].
      + apply por_l. eapply pbind_step; [exact H|exact R'].
      + exfalso. apply C26_name_slash in H; [|apply (slash_alnum _ _ _ OK)|].
        * destruct H as (m & q & Eq & -> & D). apply ret_ok in R' as (_ & <-). exact (slash_not_sep q S).
        * intros m M c I C. apply (names_free E HE m M c I). unfold cls, in_class in *. cbn in *. tauto.
    - apply por_ok. right. split; [|exact H']. unfold pbind in H |- *. destruct (por (reference (e_names E)) (Ids.name_slash isalpha isalnum (e_names E)) (t ++ r)) eqn:Q; try discriminate.
      unfold por in Q. destruct (reference (e_names E) (t ++ r)); try discriminate. reflexivity.
  Qed.
  Lemma net_member_sound s m r : net_member s = POk m r -> exists t, s = t ++ r /\ net_member_text E m t.
  Proof using OK HE.
    unfold GroupText.net_member, choice, named_addr. cbn [fold_right]. intros H.
    apply por_sound in H as [H|H]; [pinv H|].
    { apply ret_ok in H as (<- & ->). apply kw_sound in P as ->. apply ws_sound in P0 as (g & -> & G). apply kw_sound in P1 as ->. apply ws_sound in P2 as (g' & -> & G').
      apply named_any_sound in P3 as (t & -> & A). apply nl_sound in P4 as (z & -> & Z).
      exists (u "network-object" ++ g ++ u "host" ++ g' ++ t ++ z). split; [now rewrite <- !app_assoc|]. eapply NM_host; eauto. }
    apply por_sound in H as [H|H]; [pinv H|].
    { apply ret_ok in H as (<- & ->). apply kw_sound in P as ->. apply ws_sound in P0 as (g & -> & G). apply kw_sound in P1 as ->. apply ws_sound in P2 as (g' & -> & G').
      apply (ref_sound _ _ _ OK) in P3 as (n & -> & D); [|apply free_white; eapply netobj_free; eauto]. apply nl_sound in P4 as (z & -> & Z).
      exists (u "network-object" ++ g ++ u "object" ++ g' ++ n ++ z). split; [now rewrite <- !app_assoc|]. eapply NM_object; eauto. }
    apply por_sound in H as [H|H]; [pinv H|].
    { apply kw_sound in P as ->. apply ws_sound in P0 as (g & -> & G). eapply (named_mask_sound _ _ _ OK E HE) in P1; eauto. destruct P1 as (t & -> & A).
      apply ws_sound in P2 as (g' & -> & G'). apply act_ok in H as (x & H & F). pinv H. apply ret_ok in H as (<- & ->).
      apply C50_ip4_read in P as (V & W & -> & _). apply nl_sound in P0 as (z & -> & Z).
      destruct (network a1 (MaskQuad (a_val a3))) as [h|] eqn:Nw; [|discriminate]. injection F as <-.
      assert (Lm : (a_val a3 < 2 ^ 32)%N) by (destruct a3 as [v n]; cbn [a_ver a_val] in *; subst v; exact W).
      apply network_sound in Nw as (n & -> & No); [|eapply ref_valid; eauto|exact Lm].
      exists (u "network-object" ++ g ++ t ++ g' ++ quad (a_val a3) ++ z). split; [now rewrite <- !app_assoc|]. cbn [th_host]. eapply NM_mask; eauto. }
    apply por_sound in H as [H|H]; [pinv H|].
    { apply kw_sound in P as ->. apply ws_sound in P0 as (g & -> & G). eapply (named_len_sound _ _ _ OK E HE) in P1; eauto. destruct P1 as (t & -> & A).
      destruct a2. apply char_ok in P2. subst. apply act_ok in H as (x & H & F). pinv H. apply ret_ok in H as (<- & ->).
      apply int_iff in P as (-> & Nd & Fd & _). apply nl_sound in P0 as (z & -> & Z).
      destruct (network a1 (MaskLen (int10 a2))) as [h|] eqn:Nw; [|discriminate]. injection F as <-.
      apply network_sound in Nw as (n & -> & No); [|eapply ref_valid; eauto|exact Logic.I].
      exists (u "network-object" ++ g ++ t ++ u "/" ++ a2 ++ z). split; [rewrite <- !app_assoc; reflexivity|]. cbn [th_host]. eapply NM_length; eauto. apply decimal_text_spec. auto. }
    apply por_sound in H as [H|H].
    { apply (groupref_sound _ _ eol_text) in H; [|env; auto|exact nl_sound]. destruct H as (t & -> & T). exists t. split; [auto|]. now apply NM_group. }
    apply por_sound in H as [H|H]; discriminate H.
  Qed.
  Lemma net_member_ok m t r : net_member_text E m t -> net_member (t ++ r) = POk m r.
  Proof using OK HE.
    intros H. unfold GroupText.net_member, choice, named_addr. cbn [fold_right].
    destruct H as [g g' a x t z G G' A Z|g g' n o z G G' D Z|g a x t g' m n z G A G' L No Z|g a x t d p n z G A Dd No Z|m t T]; rewrite <- ?app_assoc.
    - apply por_l. destruct (ref_free E HE _ _ _ _ A) as (Nt & Ft).
      apply (kwws_step isalpha isalnum isspace OK); [auto|now apply nostart|]. apply (kwws_step isalpha isalnum isspace OK); auto using freew_noblank.
      eapply pbind_step; [apply named_any_ok; eauto using eol_sep|]. cbn beta. eapply pbind_step; [now apply nl_ok|reflexivity].
    - assert (K : n <> [] /\ freew n) by (env; eapply name_nonempty; [|exact D]; assumption). destruct K as (Nn & Fn).
      apply por_r. { apply (kwws_step isalpha isalnum isspace OK); [auto|now apply nostart|]. apply pbind_fail. now apply kw_clash. }
      apply por_l. apply (kwws_step isalpha isalnum isspace OK); [auto|now apply nostart|]. apply (kwws_step isalpha isalnum isspace OK); auto using freew_noblank.
      eapply pbind_step; [apply (ref_ok _ _ _ OK); eauto using eol_sep; apply free_white; eapply netobj_free; eauto|].
      eapply pbind_step; [now apply nl_ok|reflexivity].
    - destruct (ref_free E HE _ _ _ _ A) as (Nt & Ft). destruct (ref_plain _ _ _ OK E HE _ _ _ _ A) as (_ & Np & _).
      assert (Nb : ~ starts is_blank (t ++ g' ++ quad m ++ z ++ r)) by now apply freew_noblank.
      assert (Nw : forall w, In w reserved -> t <> u w) by (intros w I ->; apply Np; now apply in_map).
      apply por_r. { apply (kwws_step isalpha isalnum isspace OK); auto. apply kwws_fail; auto using gap_sepw. apply Nw. cbn; tauto. }
      apply por_r. { apply (kwws_step isalpha isalnum isspace OK); auto. apply (kwws_fail isalpha isalnum "object"); auto using gap_sepw. apply Nw. cbn; tauto. }
      apply por_l. apply (kwws_step isalpha isalnum isspace OK); auto.
      eapply pbind_step; [apply (named_mask_ok _ _ _ OK E HE); eauto using gap_sep|]. cbn beta.
      eapply pbind_step; [apply ws_gap; auto; now apply quad_noblank|]. apply act_ok. exists (mkaddr V4 m). split.
      + eapply pbind_step; [apply ip4_ok; auto; now apply sep_no_digit, eol_sep|]. eapply pbind_step; [now apply nl_ok|reflexivity].
      + cbn [a_val]. rewrite (network_ok a x (MaskQuad m) n); auto. eapply ref_valid; eauto.
    - destruct (ref_free E HE _ _ _ _ A) as (Nt & Ft). destruct (ref_plain _ _ _ OK E HE _ _ _ _ A) as (_ & Np & _).
      change (u "/" ++ d ++ z ++ r) with (47%N :: d ++ z ++ r).
      assert (Nb : ~ starts is_blank (t ++ 47%N :: d ++ z ++ r)) by now apply freew_noblank.
      assert (Nw : forall w, In w reserved -> t <> u w) by (intros w I ->; apply Np; now apply in_map).
      apply por_r. { apply (kwws_step isalpha isalnum isspace OK); auto. apply kwws_fail; auto using slash_sepw. apply Nw. cbn; tauto. }
      apply por_r. { apply (kwws_step isalpha isalnum isspace OK); auto. apply (kwws_fail isalpha isalnum "object"); auto using slash_sepw. apply Nw. cbn; tauto. }
      apply por_r. { apply (kwws_step isalpha isalnum isspace OK); auto. apply pbind_fail. eapply (named_mask_slash _ _ _ OK E HE); eauto. }
      apply por_l. apply (kwws_step isalpha isalnum isspace OK); auto.
      eapply pbind_step; [apply (named_len_ok _ _ _ OK E HE); eauto|]. cbn beta.
      eapply pbind_step; [apply char_ok; reflexivity|]. apply decimal_text_spec in Dd as (Nd & Fd & Id). apply act_ok. exists d. split.
      + eapply pbind_step; [apply int_iff; split; [reflexivity|]; split; [auto|]; split; [auto|]; now apply sep_no_digit, eol_sep|]. eapply pbind_step; [now apply nl_ok|reflexivity].
      + rewrite Id, (network_ok a x (MaskLen p) n); auto; [eapply ref_valid; eauto|exact Logic.I].
    - do 4 (apply por_r; [eapply groupref_kw; eauto; reflexivity|]). apply por_l.
      eapply groupref_ok; eauto using nl_ok, eol_sep. env; auto.
  Qed.

  (** ** Ports of services *)
  Lemma port_number_ok p r : number_text p 65535 -> ~ starts AddrText.is_digit r -> port (p ++ r) = POk p r.
  Proof using.
    clear. intros N S. unfold AclText.port. apply por_r; [|now apply bounded_ok]. apply number_digits in N as (N & F).
    apply named_fail. intros n q I Eq _. assert (K : forallb (fun w => match w with c :: _ => negb (AddrText.is_digit c) | [] => false end) port_code = true) by reflexivity.
    rewrite forallb_forall in K. specialize (K n I). destruct n as [|c n]; [discriminate|]. destruct p as [|d p]; [congruence|].
    cbn [app] in Eq. injection Eq as -> _. cbn [forallb] in F. apply andb_true_iff in F as (F & _). rewrite F in K. discriminate.
  Qed.
  Lemma op_sound s m r : service_op s = POk m r -> exists t, s = t ++ r /\ op_text m t /\ (sep_start r \/ ends_in_number m).
  Proof using OK PI1 PI2.
    unfold GroupText.service_op. intros H.
    assert (K : forall s p r, port s = POk p r -> s = p ++ r /\ port_name p /\ (sep_start r \/ number_text p 65535)).
    { clear. intros s p r H. pose proof H as H0. apply port_sound in H as (-> & N). split; [auto|]. split; [auto|]. destruct N as [N|N]; [|now right].
      unfold AclText.port in H0. apply por_sound in H0 as [H|H].
      - left. unfold AclText.named in H. apply pbind_ok in H as (? & s1 & L & T). unfold look in L.
        match type of L with match ?x with _ => _ end = _ => destruct x as [| |y q'] eqn:X end; try discriminate. injection L as _ <-.
        apply pbind_ok in X as (n' & q & T' & W). rewrite T in T'. injection T' as <- <-. apply sep_parse. destruct y. eauto.
      - right. apply bounded_sound in H. tauto. }
    apply por_sound in H as [H|H]; pinv H.
    - apply ret_ok in H as (<- & ->). apply tokens_sound in P as (I & -> & _). apply ws_sound in P0 as (g & -> & G). apply K in P1 as (-> & N & S).
      exists (a ++ g ++ a1). split; [now rewrite <- !app_assoc|]. split; [|exact S]. constructor; auto.
      destruct I as [<-|[<-|[<-|[<-|[]]]]]; eexists; (split; [|reflexivity]); cbn; auto.
    - apply kw_sound in P as ->. apply ws_sound in P0 as (g & -> & G). apply K in P1 as (-> & N & _). apply ws_sound in P2 as (g' & -> & G'). apply K in P3 as (-> & N' & S).
      destruct (port_range py_int (Some a1) (Some a3)) as [x|] eqn:R; [|discriminate]. injection H as -> ->.
      eapply range_spec in R as (-> & A); eauto. exists (u "range" ++ g ++ a1 ++ g' ++ a3). split; [now rewrite <- !app_assoc|]. split; [now constructor|exact S].
  Qed.
  Lemma op_ok m t r : op_text m t -> (sep_start r \/ ends_in_number m /\ ~ starts AddrText.is_digit r) -> service_op (t ++ r) = POk m r.
  Proof using OK PI1 PI2.
    intros H S. assert (K : forall p, port_name p -> (sep_start r \/ number_text p 65535 /\ ~ starts AddrText.is_digit r) -> port (p ++ r) = POk p r).
    { intros p N [Sr|(Np & D)]; [eapply port_ok; eauto|now apply port_number_ok]. }
    unfold GroupText.service_op. destruct H as [w g p W G N|g a g' b G G' A B R]; rewrite <- ?app_assoc.
    - destruct (port_name_free _ N) as (Np & Fp). destruct W as (v & V & ->). apply por_l.
      apply (tokws_step _ _ _ OK); auto using freew_noblank.
      { cbn in V; destruct V as [<-|[<-|[<-|[<-|[]]]]]; cbn; tauto. }
      eapply pbind_step; [now apply K|reflexivity].
    - destruct (port_name_free _ A) as (Na & Fa). destruct (port_name_free _ B) as (Nb & Fb).
      apply por_r. { apply pbind_fail. now apply tokens_clash. }
      apply (kwws_step isalpha isalnum isspace OK); auto using freew_noblank. eapply pbind_step; [eapply port_ok; eauto using gap_sep|].
      eapply pbind_step; [apply ws_gap; auto using freew_noblank|]. eapply pbind_step; [now apply K|]. cbn beta.
      now rewrite (proj2 (range_spec py_int PI1 PI2 a b _ A B) (conj eq_refl R)).
  Qed.

  (** ** Services *)
  Lemma sep_start_ch c r : starts (fun x => negb (is_blank x) && negb (N.eqb x 13) && negb (N.eqb x 10)) (c :: r) -> ~ sep_start (c :: r).
  Proof using. clear. rewrite starts_cons. intros C (r' & H). destruct H as [H|[H|[H|H]]]; injection H as -> _; discriminate C. Qed.
  Lemma tokens_first l w r : name_like isalpha isalnum w = false -> tokens (w :: l) (w ++ r) = POk w r.
  Proof using. clear. intros N. unfold AclText.tokens. cbn [map choice fold_right]. apply por_l. apply token_ok. split; [auto|]. split; [auto|]. unfold passes. rewrite N. reflexivity. Qed.
  Lemma opt_ws_sound s x r : popt ws s = POk x r -> exists g, s = g ++ r /\ (gap g \/ g = []).
  Proof using. clear. intros H. apply popt_ok in H as [(? & _ & W)|(_ & -> & _)]; [apply ws_sound in W as (g & -> & G); eauto|exists []; auto]. Qed.
  Lemma opt_ws_ok g r : gap g \/ g = [] -> ~ starts is_blank r -> exists x, popt ws (g ++ r) = POk x r.
  Proof using. clear. intros [G| ->] N; [exists (Some tt); apply popt_some; now apply ws_gap|exists None; apply popt_none; now apply ws_fail]. Qed.
  Lemma side_sound w s x r : service_side w s = POk x r ->
    (x = None /\ r = s) \/ (exists m t, x = Some m /\ s = t ++ r /\ side_text w m t /\ (sep_start r \/ ends_in_number m)).
  Proof using OK PI1 PI2.
    unfold GroupText.service_side. intros H. apply por_sound in H as [H|H]; [|apply ret_ok in H as (<- & ->); now left].
    pinv H. apply ret_ok in H as (<- & ->). apply kw_sound in P as ->. apply ws_sound in P0 as (g & -> & G). apply op_sound in P1 as (t & -> & T & S).
    right. exists a1, (u w ++ g ++ t). split; [auto|]. split; [now rewrite <- !app_assoc|]. split; [exists g, t; auto|auto].
  Qed.
  Lemma op_start m t r : op_text m t -> ~ starts is_blank (t ++ r).
  Proof using. clear. intros [w g p (v & V & ->) G N|g a g' b G G' A B R]; rewrite <- ?app_assoc; [|now apply nostart]. cbn in V. destruct V as [<-|[<-|[<-|[<-|[]]]]]; now apply nostart. Qed.
  Lemma side_ok w m t r : side_text w m t -> (sep_start r \/ ends_in_number m /\ ~ starts AddrText.is_digit r) -> service_side w (t ++ r) = POk (Some m) r.
  Proof using OK PI1 PI2.
    intros (g & x & G & O & ->) S. unfold GroupText.service_side. rewrite <- !app_assoc. apply por_l.
    apply (kwws_step isalpha isalnum isspace OK); [auto|now apply op_start with (m := m)|]. eapply pbind_step; [apply op_ok; [exact O|exact S]|reflexivity].
  Qed.
  Lemma side_none w v r : clash (u w) v = true -> service_side w (v ++ r) = POk None (v ++ r).
  Proof using. clear. intros C. unfold GroupText.service_side. apply por_r; [apply pbind_fail; now apply kw_clash|reflexivity]. Qed.
  Lemma side_none_eol w z r : eol_text z -> (exists c w', u w = c :: w' /\ c <> 13%N /\ c <> 10%N) -> service_side w (z ++ r) = POk None (z ++ r).
  Proof using.
    clear. intros [-> | ->] (c & w' & Ew & A & B); unfold GroupText.service_side; (apply por_r; [|reflexivity]); apply pbind_fail; unfold AclText.kw; apply pbind_fail; unfold token;
    rewrite Ew; cbn [app strip_prefix]; apply N.eqb_neq in A, B; rewrite ?A, ?B; reflexivity.
  Qed.
  Lemma sep_not_word c w r : is_blank c = false -> c <> 13%N -> c <> 10%N -> ~ sep_start ((c :: w) ++ r).
  Proof using. clear. intros B N1 N2 (r' & H). cbn [app] in H. destruct H as [H|[H|[H|H]]]; injection H as -> _; (discriminate B || congruence). Qed.
  Definition three := [u "tcp-udp"; u "tcp"; u "udp"].
  Lemma three_words p : In p three <-> words ["tcp-udp"; "tcp"; "udp"]%string p.
  Proof using.
    clear. unfold three, words. split.
    - intros [<-|[<-|[<-|[]]]]; eexists; (split; [|reflexivity]); cbn; auto.
    - intros (w & [<-|[<-|[<-|[]]]] & ->); cbn; auto.
  Qed.
  Lemma three_join p g w c r : In p three -> passes isalpha isalnum p (g ++ w ++ r) -> gap g \/ g = [] -> w = c :: tl w -> ascii_alnum c = true -> (c <? 128)%N = true ->
    gap_or (p = u "tcp-udp") g.
  Proof using OK.
    intros I P [G| ->] Ew Ac As; [now left|right]. split; [auto|]. destruct I as [<-|[<-|[<-|[]]]]; [reflexivity| |]; exfalso; unfold passes in P; rewrite Ew in P; cbn [app next_alnum] in P;
    rewrite (alnum_ok _ _ _ OK) in P by auto; rewrite Ac, andb_true_r in P; rewrite (name_like_ok _ _ _ OK) in P by reflexivity; discriminate P.
  Qed.
  Lemma port_service_sound icmp_end s x r : port_service s = POk x r -> exists t, s = t ++ r /\ service_text icmp_end x t.
  Proof using OK PI1 PI2.
    unfold GroupText.port_service. intros H. pinv H. apply ret_ok in H as (<- & ->). apply tokens_sound in P as (I & -> & Ps).
    apply opt_ws_sound in P0 as (g1 & -> & G1). apply opt_ws_sound in P2 as (g2 & -> & G2). apply opt_ws_sound in P4 as (g3 & -> & G3). apply nl_sound in P5 as (z & -> & Z).
    assert (En : end_text (g3 ++ z)). { exists g3, z. split; [destruct G3 as [G| ->]; [apply G|intros ? []]|auto]. }
    apply side_sound in P1 as [(-> & <-)|(m & t & -> & -> & T & S)]; apply side_sound in P3 as [(-> & <-)|(m' & t' & -> & -> & T' & S')].
    - assert (En' : end_text (g1 ++ g2 ++ g3 ++ z)).
      { exists (g1 ++ g2 ++ g3), z. split; [|split; [auto|now rewrite <- !app_assoc]]. intros c Ic. rewrite !in_app_iff in Ic.
        destruct Ic as [Ic|[Ic|Ic]]; [destruct G1 as [G| ->]|destruct G2 as [G| ->]|destruct G3 as [G| ->]]; try (now destruct Ic); destruct G as (_ & G); apply G; auto. }
      exists (a ++ g1 ++ g2 ++ g3 ++ z). split; [now rewrite <- !app_assoc|]. apply SV_ports; [now apply three_words|now constructor].
    - exists (a ++ (g1 ++ g2) ++ t' ++ g3 ++ z). split; [now rewrite <- !app_assoc|]. apply SV_ports; [now apply three_words|]. apply PO_dst; [|auto|auto].
      destruct T' as (g & o & Gg & O & ->). eapply (three_join a (g1 ++ g2) (u "destination") 100%N); [auto|rewrite <- ?app_assoc in Ps; rewrite <- ?app_assoc; exact Ps| |reflexivity|reflexivity|reflexivity].
      destruct G1 as [(N1 & B1)| ->]; [left|auto]. split; [destruct g1; [congruence|discriminate]|]. intros c Ic. apply in_app_iff in Ic as [Ic|Ic]; [auto|]. destruct G2 as [(_ & B2)| ->]; [auto|destruct Ic].
    - exists (a ++ g1 ++ t ++ (g2 ++ g3) ++ z). split; [now rewrite <- !app_assoc|]. apply SV_ports; [now apply three_words|].
      rewrite <- app_assoc. apply PO_src; [|auto|].
      + destruct T as (g & o & Gg & O & ->). eapply (three_join a g1 (u "source") 115%N); [auto|rewrite <- ?app_assoc in Ps; rewrite <- ?app_assoc; exact Ps|auto|reflexivity|reflexivity|reflexivity].
      + exists (g2 ++ g3), z. split; [|split; [auto|now rewrite <- !app_assoc]]. intros c Ic. rewrite !in_app_iff in Ic.
        destruct Ic as [Ic|Ic]; [destruct G2 as [G| ->]|destruct G3 as [G| ->]]; try (now destruct Ic); destruct G as (_ & G); apply G; auto.
    - exists (a ++ g1 ++ t ++ g2 ++ t' ++ g3 ++ z). split; [now rewrite <- !app_assoc|]. apply SV_ports; [now apply three_words|]. apply PO_both; [|auto| |auto|auto].
      + destruct T as (g & o & Gg & O & ->). eapply (three_join a g1 (u "source") 115%N); [auto|rewrite <- ?app_assoc in Ps; rewrite <- ?app_assoc; exact Ps|auto|reflexivity|reflexivity|reflexivity].
      + destruct G2 as [G2| ->]; [now left|right]. split; [auto|]. destruct S as [S|S]; [|auto]. exfalso. destruct T' as (g & o & Gg & O & ->). cbn [app] in S. rewrite <- !app_assoc in S.
        apply (sep_not_word 100 (tl (u "destination")) (g ++ o ++ g3 ++ z ++ r)); [reflexivity|discriminate|discriminate|exact S].
  Qed.
  Lemma gap_or_gap P g : gap_or P g -> gap g \/ g = [].
  Proof using. clear. intros [G|(G & _)]; auto. Qed.
  Lemma three_token p g w r : In p three -> gap_or (p = u "tcp-udp") g -> tokens three (p ++ g ++ w ++ r) = POk p (g ++ w ++ r).
  Proof using OK.
    intros I [G|(-> & ->)]; [apply (tokens_ok _ _ _ OK); auto using gap_sepw|]. apply tokens_first. rewrite (name_like_ok _ _ _ OK); reflexivity.
  Qed.
  Lemma eol_side_none w z r : w = "source"%string \/ w = "destination"%string -> eol_text z -> service_side w (z ++ r) = POk None (z ++ r).
  Proof using. clear. intros [-> | ->] Z; apply side_none_eol; auto; eexists; eexists; (split; [reflexivity|split; discriminate]). Qed.
  Lemma port_service_ok p src dst t r : In p three -> ports_text p src dst t -> port_service (t ++ r) = POk (mkservice p src dst None None) r.
  Proof using OK PI1 PI2.
    intros I H. unfold GroupText.port_service. fold three.
    assert (Fin : forall dst z, end_text z -> (let% _ := popt ws in let% _ := nl in ret (mkservice p src dst None None)) (z ++ r) = POk (mkservice p src dst None None) r).
    { intros d z Z. apply end_word in Z as (g & e & -> & G & Z). rewrite <- app_assoc. destruct (opt_ws_ok g (e ++ r)) as (x & X); [tauto|now apply eol_noblank|].
      eapply pbind_step; [exact X|]. eapply pbind_step; [now apply nl_ok|reflexivity]. }
    assert (Dst0 : forall z, end_text z -> dst = None -> (let% _ := popt ws in let% dst := service_side "destination" in let% _ := popt ws in let% _ := nl in ret (mkservice p src dst None None)) (z ++ r) = POk (mkservice p src dst None None) r).
    { intros z Z ->. apply end_word in Z as (g & e & -> & G & Z). rewrite <- app_assoc. destruct (opt_ws_ok g (e ++ r)) as (x & X); [tauto|now apply eol_noblank|].
      eapply pbind_step; [exact X|]. eapply pbind_step; [apply eol_side_none; auto|]. apply Fin. now apply eol_end. }
    destruct H as [z Z|g m s z J S Z|g m d z J D Z|g m s g' m' d z J S J' D Z]; rewrite <- ?app_assoc.
    - eapply pbind_step; [apply (tokens_ok _ _ _ OK); auto; now apply sep_sepw, end_sep|].
      pose proof Z as Z0. apply end_word in Z as (g & e & -> & G & Z). rewrite <- app_assoc. destruct (opt_ws_ok g (e ++ r)) as (x & X); [tauto|now apply eol_noblank|].
      eapply pbind_step; [exact X|]. eapply pbind_step; [apply eol_side_none; auto|]. apply Dst0; auto. now apply eol_end.
    - destruct S as (gs & o & Gs & O & ->).
      eapply pbind_step; [rewrite <- ?app_assoc; now apply three_token|]. destruct (opt_ws_ok g (u "source" ++ gs ++ o ++ z ++ r)) as (x & X); [now apply gap_or_gap in J|now apply nostart|].
      eapply pbind_step; [exact X|]. eapply pbind_step.
      { replace (u "source" ++ gs ++ o ++ z ++ r) with ((u "source" ++ gs ++ o) ++ z ++ r) by now rewrite <- !app_assoc.
        apply side_ok; [exists gs, o; eauto|left; now apply end_sep]. }
      now apply Dst0.
    - destruct D as (gs & o & Gs & O & ->).
      eapply pbind_step; [rewrite <- ?app_assoc; now apply three_token|]. destruct (opt_ws_ok g (u "destination" ++ gs ++ o ++ z ++ r)) as (x & X); [now apply gap_or_gap in J|now apply nostart|].
      eapply pbind_step; [exact X|]. eapply pbind_step; [now apply side_none|]. eapply pbind_step; [apply popt_none, ws_fail; now apply nostart|]. eapply pbind_step.
      { replace (u "destination" ++ gs ++ o ++ z ++ r) with ((u "destination" ++ gs ++ o) ++ z ++ r) by now rewrite <- !app_assoc.
        apply side_ok; [exists gs, o; eauto|left; now apply end_sep]. }
      now apply Fin.
    - destruct S as (gs & o & Gs & O & ->). destruct D as (gd & od & Gd & Od & ->).
      eapply pbind_step; [rewrite <- ?app_assoc; now apply three_token|]. destruct (opt_ws_ok g (u "source" ++ gs ++ o ++ g' ++ u "destination" ++ gd ++ od ++ z ++ r)) as (x & X); [now apply gap_or_gap in J|now apply nostart|].
      rewrite <- ?app_assoc. eapply pbind_step; [exact X|]. eapply pbind_step.
      { replace (u "source" ++ gs ++ o ++ g' ++ u "destination" ++ gd ++ od ++ z ++ r) with ((u "source" ++ gs ++ o) ++ g' ++ u "destination" ++ gd ++ od ++ z ++ r) by now rewrite <- !app_assoc.
        apply side_ok; [exists gs, o; eauto|]. destruct J' as [G'|(-> & En)]; [left; now apply gap_sep|right]. split; [auto|]. cbn [app]. now apply nostart. }
      destruct (opt_ws_ok g' (u "destination" ++ gd ++ od ++ z ++ r)) as (y & Y); [now apply gap_or_gap in J'|now apply nostart|]. eapply pbind_step; [exact Y|]. eapply pbind_step.
      { replace (u "destination" ++ gd ++ od ++ z ++ r) with ((u "destination" ++ gd ++ od) ++ z ++ r) by now rewrite <- !app_assoc.
        apply side_ok; [exists gd, od; eauto|left; now apply end_sep]. }
      now apply Fin.
  Qed.

  Definition two := [u "icmp"; u "icmp6"].
  Lemma two_words p : In p two <-> words ["icmp"; "icmp6"]%string p.
  Proof using.
    clear. unfold two, words. split.
    - intros [<-|[<-|[]]]; eexists; (split; [|reflexivity]); cbn; auto.
    - intros (w & [<-|[<-|[]]] & ->); cbn; auto.
  Qed.
  Lemma icmp_service_sound fin (endp : pystr -> Prop) s x r : (forall s x r, fin s = POk x r -> exists z, s = z ++ r /\ endp z) ->
    icmp_service fin s = POk x r -> exists t, s = t ++ r /\ service_text endp x t.
  Proof using.
    intros F H. unfold GroupText.icmp_service in H. pinv H. apply ret_ok in H as (<- & ->). apply tokens_sound in P as (I & -> & _). apply F in P1 as (z & -> & Z).
    apply popt_ok in P0 as [((ty & c) & -> & Q)|(-> & <- & _)].
    - unfold then_ in Q. pinv Q. apply ws_sound in P as (g & -> & G). apply icmp_type_sound in P0 as (-> & N). apply ret_ok in Q as ([= -> ->] & ->). cbn [option_map fst].
      apply popt_ok in P1 as [(c' & -> & Q)|(-> & <- & _)].
      + pinv Q. apply ws_sound in P as (g' & -> & G'). apply bounded_sound in Q as (-> & C). exists (a ++ (g ++ ty ++ g' ++ c') ++ z). split; [now rewrite <- !app_assoc|].
        apply SV_icmp; [now apply two_words|now constructor|auto].
      + exists (a ++ (g ++ ty) ++ z). split; [now rewrite <- !app_assoc|]. apply SV_icmp; [now apply two_words|now constructor|auto].
    - exists (a ++ [] ++ z). split; [now rewrite <- !app_assoc|]. apply SV_icmp; [now apply two_words|constructor|auto].
  Qed.
  Lemma eol_nodigit z r : eol_text z -> ~ starts AddrText.is_digit (z ++ r).
  Proof using. clear. intros Z. now apply sep_no_digit, eol_sep. Qed.
  (** Nothing is read at the end of a line. *)
  Lemma end_opt {A} (p : parser A) z r : end_text z -> (forall e, eol_text e -> p (e ++ r) = PFail) -> popt (then_ ws p) (z ++ r) = POk None (z ++ r).
  Proof using.
    clear. intros Z F. apply popt_none. unfold then_. apply end_word in Z as (g & e & -> & [-> |G] & Z).
    - apply pbind_fail, ws_fail. now apply eol_noblank.
    - rewrite <- app_assoc. eapply pbind_step; [apply ws_gap; auto; now apply eol_noblank|auto].
  Qed.
  Lemma icmp_type_eol e r : eol_text e -> icmp_type (e ++ r) = PFail.
  Proof using.
    intros Z. change (e ++ r) with ([] ++ e ++ r). apply icmp_type_word; cbn [app].
    - intros c [].
    - now apply sep_sepw, eol_sep.
    - clear. intros I. assert (K : forallb (fun w => match w with [] => false | _ => true end) icmp_type_names = true) by reflexivity. rewrite forallb_forall in K. now specialize (K _ I).
    - now apply eol_nodigit.
  Qed.
  Lemma icmp_code_eol e r : eol_text e -> icmp_code (e ++ r) = PFail.
  Proof using. clear. intros Z. apply act_fail, int_fail. now apply eol_nodigit. Qed.
  Lemma icmp_service_ok fin (endp : pystr -> Prop) p ty c i z r : (forall z r, endp z -> fin (z ++ r) = POk tt r) -> (forall z, endp z -> end_text z) ->
    In p two -> message_text ty c i -> endp z -> icmp_service fin (p ++ i ++ z ++ r) = POk (mkservice p None None ty c) r.
  Proof using OK.
    intros F F' I M Z. unfold GroupText.icmp_service. fold two. pose proof (F' _ Z) as Z'. pose proof (end_sep z r Z') as Sz.
    destruct M as [|g t G N|g t g' c G N G' C]; rewrite <- ?app_assoc.
    - cbn [app]. eapply pbind_step; [apply (tokens_ok _ _ _ OK); auto; now apply sep_sepw|]. eapply pbind_step; [apply end_opt; [auto|]|].
      { intros e Ze. apply pbind_fail. now apply icmp_type_eol. }
      eapply pbind_step; [now apply F|reflexivity].
    - destruct (icmp_name_free _ N) as (Nt & Ft & _).
      eapply pbind_step; [apply (tokens_ok _ _ _ OK); auto; now apply gap_sepw|]. eapply pbind_step.
      { apply popt_some. unfold then_ at 1. eapply pbind_step; [apply ws_gap; auto using freew_noblank|]. eapply pbind_step; [eapply icmp_type_ok; eauto|].
        eapply pbind_step; [apply end_opt; [auto|intros e Ze; now apply icmp_code_eol]|reflexivity]. }
      eapply pbind_step; [now apply F|reflexivity].
    - destruct (icmp_name_free _ N) as (Nt & Ft & _). pose proof (number_digits _ _ C) as (Nc & Dc).
      eapply pbind_step; [apply (tokens_ok _ _ _ OK); auto; now apply gap_sepw|]. eapply pbind_step.
      { apply popt_some. unfold then_ at 1. eapply pbind_step; [apply ws_gap; auto using freew_noblank|]. eapply pbind_step; [eapply icmp_type_ok; eauto using gap_sep|].
        eapply pbind_step; [apply popt_some; unfold then_; eapply pbind_step; [apply ws_gap; auto using freew_noblank, digits_freew|apply bounded_ok; auto using sep_no_digit]|reflexivity]. }
      eapply pbind_step; [now apply F|reflexivity].
  Qed.

  (** ** Members of service groups *)
  Lemma service_member_sound s m r : service_member s = POk m r -> exists t, s = t ++ r /\ service_member_text E m t.
  Proof using OK HE PI1 PI2.
    unfold GroupText.service_member, choice. cbn [fold_right]. intros H.
    apply por_sound in H as [H|H]; [pinv H|].
    { apply ret_ok in H as (<- & ->). apply kw_sound in P as ->. apply ws_sound in P0 as (g & -> & G). apply (icmp_service_sound _ _ _ _ _ line_end_sound) in P1 as (t & -> & T).
      exists (u "service-object" ++ g ++ t). split; [now rewrite <- !app_assoc|]. now apply SM_service. }
    apply por_sound in H as [H|H]; [pinv H|].
    { apply ret_ok in H as (<- & ->). apply kw_sound in P as ->. apply ws_sound in P0 as (g & -> & G). apply (port_service_sound end_text) in P1 as (t & -> & T).
      exists (u "service-object" ++ g ++ t). split; [now rewrite <- !app_assoc|]. now apply SM_service. }
    apply por_sound in H as [H|H]; [pinv H|].
    { apply ret_ok in H as (<- & ->). apply kw_sound in P as ->. apply ws_sound in P0 as (g & -> & G). apply line_end_sound in P2 as (z & -> & Z).
      assert (W : forall q, por (tokens protocol_codes) (act protocol_int int_) q = POk a1 (z ++ r) -> q = a1 ++ z ++ r /\ (In a1 protocol_codes \/ number_text a1 255)).
      { clear. intros q P1. apply por_sound in P1 as [P1|P1]; [apply tokens_sound in P1 as (I & -> & _)|apply bounded_sound in P1 as (-> & N)]; auto. }
      apply W in P1 as (-> & P1). clear W. rename P1 into W.
 exists (u "service-object" ++ g ++ a1 ++ z). split; [now rewrite <- !app_assoc|]. now apply SM_proto. }
    apply por_sound in H as [H|H]; [pinv H|].
    { apply ret_ok in H as (<- & ->). apply kw_sound in P as ->. apply ws_sound in P0 as (g & -> & G). apply kw_sound in P1 as ->. apply ws_sound in P2 as (g' & -> & G').
      apply (ref_sound _ _ _ OK) in P3 as (n & -> & D); [|apply free_white; eapply svcobj_free; eauto]. apply line_end_sound in P4 as (z & -> & Z).
      exists (u "service-object" ++ g ++ u "object" ++ g' ++ n ++ z). split; [now rewrite <- !app_assoc|]. eapply SM_object; eauto. }
    apply por_sound in H as [H|H].
    { apply (groupref_sound _ _ end_text) in H; [|env; auto|exact line_end_sound]. destruct H as (t & -> & T). exists t. split; [auto|]. now apply SM_group. }
    apply por_sound in H as [H|H]; discriminate H.
  Qed.
  Lemma ports_head p src dst t : ports_text p src dst t -> exists q, t = p ++ q.
  Proof using. clear. intros [z Z|g m s z J S Z|g m d z J D Z|g m s g' m' d z J S J' D Z]; eauto. Qed.
  Lemma three_first p q : In p three -> tokens two (p ++ q) = PFail /\ ~ starts is_blank (p ++ q).
  Proof using. clear. intros [<-|[<-|[<-|[]]]]; (split; [now apply tokens_clash|now apply nostart]). Qed.
  Lemma two_first p q : In p two -> ~ starts is_blank (p ++ q).
  Proof using. clear. intros [<-|[<-|[]]]; now apply nostart. Qed.
  Lemma service_ok s t r : service_text end_text s t ->
    ~ starts is_blank (t ++ r) /\
    (icmp_service line_end (t ++ r) = POk s r \/ icmp_service line_end (t ++ r) = PFail /\ port_service (t ++ r) = POk s r).
  Proof using OK PI1 PI2.
    intros [p ty c i z W M Z|p src dst t' W Po].
    - apply two_words in W. rewrite <- !app_assoc. split; [now apply two_first|left]. eapply icmp_service_ok; eauto using line_end_ok.
    - apply three_words in W. destruct (ports_head _ _ _ _ Po) as (q & Eq). pose proof (three_first p (q ++ r) W) as (N & B). rewrite app_assoc, <- Eq in N, B.
      split; [auto|right]. split; [now apply pbind_fail|now apply port_service_ok].
  Qed.
  Lemma service_line g s t r : gap g -> service_text end_text s t -> service_member ((u "service-object" ++ g ++ t) ++ r) = POk (Lit (SService s)) r.
  Proof using OK HE PI1 PI2.
    intros G T. unfold GroupText.service_member, choice. cbn [fold_right]. rewrite <- !app_assoc. destruct (service_ok s t r T) as (B & [I|(I & P)]).
    - apply por_l. apply (kwws_step isalpha isalnum isspace OK); [auto|auto|]. eapply pbind_step; [exact I|reflexivity].
    - apply por_r. { apply (kwws_step isalpha isalnum isspace OK); [auto|auto|]. now apply pbind_fail. }
      apply por_l. apply (kwws_step isalpha isalnum isspace OK); [auto|auto|]. eapply pbind_step; [exact P|reflexivity].
  Qed.
  (** The other protocols. *)
  Lemma other_proto p r : In p protocol_codes \/ number_text p 255 -> sep_start r ->
    In p two \/ In p three \/ tokens two (p ++ r) = PFail /\ tokens three (p ++ r) = PFail.
  Proof using OK.
    intros [I|N] S.
    - assert (K : forallb (fun p => existsb (str_eqb p) (two ++ three) || (ascii p && forallb (fun w => ascii w && freewb w && negb (misread w p)) (two ++ three))) protocol_codes = true) by reflexivity.
      rewrite forallb_forall in K. specialize (K p I). destruct (existsb (str_eqb p) (two ++ three)) eqn:X.
      + apply existsb_exists in X as (w & W & Q). destruct (str_eqb_spec p w); [subst|discriminate]. apply in_app_iff in W. tauto.
      + right. right. cbn [orb] in K. rewrite forallb_app, !andb_true_iff in K. destruct K as (A & K1 & K2).
        assert (Nw : forall w, In w (two ++ three) -> p <> w). { intros w W ->. assert (Y : existsb (str_eqb w) (two ++ three) = true); [|congruence]. apply existsb_exists. exists w. split; [auto|]. now destruct (str_eqb_spec w w). }
        split; (apply (tokens_none _ _ _ OK); [assumption|assumption| |now apply sep_sepw]); intros W; apply (Nw p); auto; apply in_app_iff; auto.
    - right. right. apply number_digits in N as (N & D). split; apply tokens_digit; auto.
  Qed.
  Lemma proto_tokens p r : In p protocol_codes \/ number_text p 255 -> sep_start r -> por (tokens protocol_codes) (act protocol_int int_) (p ++ r) = POk p r.
  Proof using OK.
    intros [I|N] S; [apply por_l, (tokens_ok _ _ _ OK); auto using sep_sepw|]. apply por_r; [|apply bounded_ok; auto using sep_no_digit].
    apply number_digits in N as (N & D). now apply tokens_digit.
  Qed.
  Lemma proto_noblank p r : In p protocol_codes \/ number_text p 255 -> ~ starts is_blank (p ++ r).
  Proof using.
    clear. intros [I|N].
    - apply nostart. assert (K : forallb (fun p => match p with c :: _ => negb (is_blank c) | [] => false end) protocol_codes = true) by reflexivity.
      rewrite forallb_forall in K. specialize (K p I). destruct p; [discriminate|]. now apply negb_true_iff in K.
    - apply number_digits in N as (N & D). apply freew_noblank; auto using digits_freew.
  Qed.
  Lemma service_member_ok m t r : service_member_text E m t -> service_member (t ++ r) = POk m r.
  Proof using OK HE PI1 PI2.
    intros [g s t' G T|g p z G Pr Z|g g' n o z G G' D Z|m' t' T].
    - now apply service_line.
    - assert (X := other_proto p (z ++ r) Pr (end_sep z r Z)). destruct X as [X|[X|(X2 & X3)]].
      + apply service_line; auto. change (p ++ z) with (p ++ [] ++ z). apply SV_icmp; [now apply two_words|constructor|auto].
      + apply service_line; auto. apply SV_ports; [now apply three_words|now constructor].
      + pose proof (proto_noblank p (z ++ r) Pr) as B. unfold GroupText.service_member, choice. cbn [fold_right]. rewrite <- !app_assoc.
        apply por_r. { apply (kwws_step isalpha isalnum isspace OK); [auto|auto|]. apply pbind_fail. now apply pbind_fail. }
        apply por_r. { apply (kwws_step isalpha isalnum isspace OK); [auto|auto|]. apply pbind_fail. now apply pbind_fail. }
        apply por_l. apply (kwws_step isalpha isalnum isspace OK); [auto|auto|]. eapply pbind_step; [apply proto_tokens; auto using end_sep|].
        eapply pbind_step; [now apply line_end_ok|reflexivity].
    - unfold GroupText.service_member, choice. cbn [fold_right]. rewrite <- !app_assoc.
      assert (Kk : n <> [] /\ freew n) by (env; eapply name_nonempty; [|exact D]; assumption). destruct Kk as (Nn & Fn).
      apply por_r. { apply (kwws_step isalpha isalnum isspace OK); [auto|now apply nostart|]. apply pbind_fail. apply pbind_fail. now apply tokens_clash. }
      apply por_r. { apply (kwws_step isalpha isalnum isspace OK); [auto|now apply nostart|]. apply pbind_fail. apply pbind_fail. now apply tokens_clash. }
      apply por_r. { apply (kwws_step isalpha isalnum isspace OK); [auto|now apply nostart|]. apply pbind_fail. apply por_r; [now apply tokens_clash|apply act_fail, int_fail; now apply nostart]. }
      apply por_l. apply (kwws_step isalpha isalnum isspace OK); [auto|now apply nostart|]. apply (kwws_step isalpha isalnum isspace OK); auto using freew_noblank.
      eapply pbind_step; [apply (ref_ok _ _ _ OK); eauto using end_sep; apply free_white; eapply svcobj_free; eauto|].
      eapply pbind_step; [now apply line_end_ok|reflexivity].
    - unfold GroupText.service_member, choice. cbn [fold_right]. do 4 (apply por_r; [eapply groupref_kw; eauto; reflexivity|]). apply por_l.
      eapply groupref_ok; eauto using line_end_ok, end_sep. env; auto.
  Qed.

  (** ** Members of ICMP, protocol and port groups *)
  Lemma icmp_member_sound s m r : icmp_member s = POk m r -> exists t, s = t ++ r /\ icmp_member_text E m t.
  Proof using OK HE.
    unfold GroupText.icmp_member, choice. cbn [fold_right]. intros H. apply por_sound in H as [H|H]; [pinv H|].
    { apply ret_ok in H as (<- & ->). apply kw_sound in P as ->. apply ws_sound in P0 as (g & -> & G). apply icmp_type_sound in P1 as (-> & N). apply nl_sound in P2 as (z & -> & Z).
      exists (u "icmp-object" ++ g ++ a1 ++ z). split; [now rewrite <- !app_assoc|]. now constructor. }
    apply por_sound in H as [H|H].
    { apply (groupref_sound _ _ eol_text) in H; [|env; auto|exact nl_sound]. destruct H as (t & -> & T). exists t. split; [auto|]. now apply IM_group. }
    apply por_sound in H as [H|H]; discriminate H.
  Qed.
  Lemma icmp_member_ok m t r : icmp_member_text E m t -> icmp_member (t ++ r) = POk m r.
  Proof using OK HE.
    unfold GroupText.icmp_member, choice. cbn [fold_right]. intros [g t' z G N Z|m' t' T].
    - rewrite <- !app_assoc. destruct (icmp_name_free _ N) as (Nt & Ft & _). apply por_l. apply (kwws_step isalpha isalnum isspace OK); auto using freew_noblank.
      eapply pbind_step; [eapply icmp_type_ok; eauto using eol_sep|]. eapply pbind_step; [now apply nl_ok|reflexivity].
    - apply por_r; [eapply groupref_kw; eauto; reflexivity|]. apply por_l. eapply groupref_ok; eauto using nl_ok, eol_sep. env; auto.
  Qed.
  Lemma chars_name n : name_chars n <-> n = [] \/ name_text n.
  Proof using.
    clear. split; [destruct n as [|c n]; [now left|right; split; [discriminate|auto]]|]. intros [-> |(_ & H)]; [intros c []|exact H].
  Qed.
  Lemma obj_name_chars n r : name_chars n -> ~ starts is_obj_char r -> obj_name (n ++ r) = POk n r.
  Proof using.
    clear. intros H N. apply chars_name in H as [-> |H]; [|now apply obj_name_ok]. unfold obj_name, pat0. cbn [app].
    assert (S : span is_obj_char r = ([], r)); [|now rewrite S]. apply span_iff. auto.
  Qed.
  Lemma chars_noblank n r : name_chars n -> ~ starts is_blank r -> ~ starts is_blank (n ++ r).
  Proof using. clear. intros H N. apply chars_name in H as [-> |H]; [auto|]. apply freew_noblank; [apply H|now apply letter_name]. Qed.
  Lemma proto_member_sound s m r : proto_member s = POk m r -> exists t, s = t ++ r /\ proto_member_text E m t.
  Proof using OK HE.
    unfold GroupText.proto_member, choice. cbn [fold_right]. intros H. apply por_sound in H as [H|H]; [pinv H|].
    { apply ret_ok in H as (<- & ->). apply kw_sound in P as ->. apply ws_sound in P0 as (g & -> & G). apply obj_name_sound in P1 as (-> & N). apply nl_sound in P2 as (z & -> & Z).
      exists (u "protocol-object" ++ g ++ a1 ++ z). split; [now rewrite <- !app_assoc|]. constructor; auto. now apply chars_name. }
    apply por_sound in H as [H|H].
    { apply (groupref_sound _ _ eol_text) in H; [|env; auto|exact nl_sound]. destruct H as (t & -> & T). exists t. split; [auto|]. now apply RM_group. }
    apply por_sound in H as [H|H]; discriminate H.
  Qed.
  Lemma proto_member_ok m t r : proto_member_text E m t -> proto_member (t ++ r) = POk m r.
  Proof using OK HE.
    unfold GroupText.proto_member, choice. cbn [fold_right]. intros [g n z G N Z|m' t' T].
    - rewrite <- !app_assoc. apply por_l. apply (kwws_step isalpha isalnum isspace OK); [auto|apply chars_noblank; auto; now apply eol_noblank|].
      eapply pbind_step; [apply obj_name_chars; auto; now apply sep_no_obj, eol_sep|]. eapply pbind_step; [now apply nl_ok|reflexivity].
    - apply por_r; [eapply groupref_kw; eauto; reflexivity|]. apply por_l. eapply groupref_ok; eauto using nl_ok, eol_sep. env; auto.
  Qed.
  Lemma port_member_sound s x r : port_member s = POk x r ->
    (x = None /\ r = s) \/ (exists m t, x = Some m /\ s = t ++ r /\ port_member_text E m t).
  Proof using OK HE PI1 PI2.
    unfold GroupText.port_member, choice. cbn [fold_right]. intros H. apply por_sound in H as [H|H]; [pinv H|].
    { apply ret_ok in H as (<- & ->). apply kw_sound in P as ->. apply ws_sound in P0 as (g & -> & G). apply kw_sound in P1 as ->. apply ws_sound in P2 as (g' & -> & G').
      apply port_sound in P3 as (-> & N). apply nl_sound in P4 as (z & -> & Z).
      right. eexists; exists (u "port-object" ++ g ++ u "eq" ++ g' ++ a3 ++ z). split; [reflexivity|]. split; [now rewrite <- !app_assoc|]. now constructor. }
    apply por_sound in H as [H|H]; [pinv H|].
    { destruct (port_range py_int (Some a3) (Some a5)) as [y|] eqn:R; [|discriminate H]. injection H as <- ->. apply kw_sound in P as ->. apply ws_sound in P0 as (g & -> & G). apply kw_sound in P1 as ->. apply ws_sound in P2 as (g' & -> & G').
      apply port_sound in P3 as (-> & N). apply ws_sound in P4 as (g2 & -> & G2). apply port_sound in P5 as (-> & N2). apply nl_sound in P6 as (z & -> & Z).
      eapply range_spec in R as (-> & A); eauto.
      right. eexists; exists (u "port-object" ++ g ++ u "range" ++ g' ++ a3 ++ g2 ++ a5 ++ z). split; [reflexivity|]. split; [now rewrite <- !app_assoc|]. now constructor. }
    apply por_sound in H as [H|H]; [pinv H|].
    { apply ret_ok in H as (<- & ->). apply (groupref_sound _ _ eol_text) in P; [|env; auto|exact nl_sound]. destruct P as (t & -> & T). right. exists a, t. split; [auto|]. split; [auto|]. now apply PM_group. }
    apply por_sound in H as [H|H]; [|discriminate H]. apply ret_ok in H as (<- & ->). now left.
  Qed.
  Lemma port_member_ok m t r : port_member_text E m t -> port_member (t ++ r) = POk (Some m) r.
  Proof using OK HE PI1 PI2.
    unfold GroupText.port_member, choice. cbn [fold_right]. intros [g g' p z G G' N Z|g g1 a g2 b z G G1 G2 Na Nb A Z|m' t' T].
    - rewrite <- !app_assoc. destruct (port_name_free _ N) as (Nt & Ft). apply por_l. apply (kwws_step isalpha isalnum isspace OK); [auto|now apply nostart|].
      apply (kwws_step isalpha isalnum isspace OK); auto using freew_noblank. eapply pbind_step; [eapply port_ok; eauto using eol_sep|]. eapply pbind_step; [now apply nl_ok|reflexivity].
    - rewrite <- !app_assoc. destruct (port_name_free _ Na) as (Nta & Fta). destruct (port_name_free _ Nb) as (Ntb & Ftb).
      apply por_r. { apply (kwws_step isalpha isalnum isspace OK); [auto|now apply nostart|]. apply pbind_fail. now apply kw_clash. }
      apply por_l. apply (kwws_step isalpha isalnum isspace OK); [auto|now apply nostart|]. apply (kwws_step isalpha isalnum isspace OK); auto using freew_noblank.
      eapply pbind_step; [eapply port_ok; eauto using gap_sep|]. eapply pbind_step; [apply ws_gap; auto using freew_noblank|].
      eapply pbind_step; [eapply port_ok; eauto using eol_sep|]. eapply pbind_step; [now apply nl_ok|]. cbn beta.
      now rewrite (proj2 (range_spec py_int PI1 PI2 a b _ Na Nb) (conj eq_refl A)).
    - do 2 (apply por_r; [eapply groupref_kw; eauto; reflexivity|]). apply por_l. eapply pbind_step; [eapply groupref_ok; eauto using nl_ok, eol_sep; env; auto|reflexivity].
  Qed.
  Lemma port_member_none s : (forall w, In w ["port-object"; "group-object"]%string -> forall q, s <> u w ++ q) -> port_member s = POk None s.
  Proof using.
    intros N. unfold GroupText.port_member, choice. cbn [fold_right].
    assert (K : forall w, In w ["port-object"; "group-object"]%string -> kw w s = PFail).
    { intros w I. destruct (kw w s) as [|e|x q] eqn:Kw; [auto|now apply kw_noerr in Kw|]. apply kw_sound in Kw. now apply N in Kw. }
    do 2 (apply por_r; [apply pbind_fail, K; now left|]). apply por_r; [apply pbind_fail; unfold group_object; apply pbind_fail, K; right; now left|]. reflexivity.
  Qed.

  (** ** Lines *)
  Definition indented (r : pystr) : Prop := exists r', r = 32%N :: r'.
  Lemma sp_ok s r x : sp s = POk x r <-> s = 32%N :: r.
  Proof using. clear. destruct x. apply char_ok. Qed.
  Lemma sp_cons r : sp (32%N :: r) = POk tt r.
  Proof using. reflexivity. Qed.
  Lemma sp_fail s : ~ indented s -> sp s = PFail.
  Proof using. clear. intros N. unfold sp, char. destruct s as [|c s]; [auto|]. destruct (N.eqb_spec c 32); [|auto]. subst. destruct N. eexists; reflexivity. Qed.
  Lemma sp_noerr s e : sp s <> PErr e.
  Proof using. clear. unfold sp, char. destruct s as [|c s]; [discriminate|]. destruct (N.eqb c 32); discriminate. Qed.
  Lemma lines_sound {X} (P : X -> pystr -> Prop) (p : parser X) s ms r :
    (forall s m r, p s = POk m r -> exists t, s = t ++ r /\ P m t) -> (forall s, p s <> PFail) ->
    many (then_ sp p) s = POk ms r -> exists t, s = t ++ r /\ lines_text P ms t /\ ~ indented r.
  Proof using.
    clear. intros H F M. revert s M. induction ms as [|m ms IH]; intros s M.
    - pose proof (many_inv _ _ _ _ M) as ->. exists []. split; [auto|]. split; [constructor|]. intros (r' & ->). rewrite many_unfold in M. unfold then_, pbind in M. cbn [sp char N.eqb Pos.eqb] in M.
      change (sp (32%N :: r')) with (POk tt r') in M. cbn iota beta in M. specialize (F r'). specialize (H r'). destruct (p r') as [|e|a q]; [congruence|discriminate|].
      destruct (H a q eq_refl) as (t & -> & _). assert (L : (length q <? length (32%N :: t ++ q))%nat = true) by (apply Nat.ltb_lt; cbn; rewrite app_length; lia).
      rewrite L in M. destruct (many _ q); discriminate.
    - apply many_inv in M as (s1 & Q & _ & M). unfold then_ in Q. pinv Q. apply sp_ok in P0. subst. apply H in Q as (t & -> & T). apply IH in M as (t' & -> & T' & N).
      exists (32%N :: t ++ t'). split; [cbn; now rewrite <- app_assoc|]. split; [now constructor|auto].
  Qed.
  Lemma lines_ok {X} (P : X -> pystr -> Prop) (p : parser X) t ms r :
    (forall m t r, P m t -> p (t ++ r) = POk m r) -> ~ indented r -> lines_text P ms t -> many (then_ sp p) (t ++ r) = POk ms r.
  Proof using.
    clear. intros H N L. induction L as [|m t l t' M L IH].
    - apply many_stop. unfold then_. apply pbind_fail. now apply sp_fail.
    - cbn [app]. rewrite <- app_assoc. eapply many_step; [unfold then_; eapply pbind_step; [apply sp_cons|apply H, M]| |exact IH].
      cbn. rewrite !app_length. lia.
  Qed.
  (** Port groups: a line that is no member is skipped, with the blank before it. *)
  Lemma ragged_sound {X} (P : X -> pystr -> Prop) (p : parser (option X)) s ms r :
    (forall s x r, p s = POk x r -> (x = None /\ r = s) \/ (exists m t, x = Some m /\ s = t ++ r /\ P m t)) -> (forall s, p s <> PFail) ->
    many (then_ sp p) s = POk ms r -> exists t, s = t ++ r /\ ragged_text P (keep ms) t /\ ~ indented r.
  Proof using.
    clear. intros H F M. revert s M. induction ms as [|m ms IH]; intros s M.
    - pose proof (many_inv _ _ _ _ M) as ->. exists []. split; [auto|]. split; [constructor|]. intros (r' & ->). rewrite many_unfold in M. unfold then_, pbind in M.
      change (sp (32%N :: r')) with (POk tt r') in M. cbn iota beta in M. specialize (F r'). specialize (H r'). destruct (p r') as [|e|a q]; [congruence|discriminate|].
      assert (L : (length q <? length (32%N :: r'))%nat = true).
      { apply Nat.ltb_lt. destruct (H a q eq_refl) as [(_ & ->)|(m & t & _ & -> & _)]; cbn; [|rewrite app_length]; lia. }
      rewrite L in M. destruct (many _ q); discriminate.
    - apply many_inv in M as (s1 & Q & _ & M). unfold then_ in Q. pinv Q. apply sp_ok in P0. subst. apply IH in M as (t' & -> & T' & N).
      apply H in Q as [(-> & <-)|(x & t & -> & -> & T)]; unfold keep; cbn [flat_map app].
      + exists (32%N :: t'). split; [auto|]. split; [now constructor|auto].
      + exists (32%N :: t ++ t'). split; [cbn; now rewrite <- app_assoc|]. split; [now constructor|auto].
  Qed.
  Lemma ragged_ok {X} (P : X -> pystr -> Prop) (p : parser (option X)) t ms r :
    (forall m t r, P m t -> p (t ++ r) = POk (Some m) r) -> ~ indented r -> p r = POk None r -> (forall q, p (32%N :: q) = POk None (32%N :: q)) ->
    ragged_text P ms t -> exists l, many (then_ sp p) (t ++ r) = POk l r /\ keep l = ms.
  Proof using.
    clear. intros H N Pr Pb L. induction L as [|l t L IH|m t l t' M L IH].
    - exists []. split; [|auto]. apply many_stop. unfold then_. apply pbind_fail. now apply sp_fail.
    - destruct IH as (k & IH & <-). exists (None :: k). split; [|reflexivity].
      assert (Q : p (t ++ r) = POk None (t ++ r)) by (inversion L; subst; cbn [app]; auto).
      cbn [app]. eapply many_step; [unfold then_; eapply pbind_step; [apply sp_cons|exact Q]|cbn; lia|exact IH].
    - destruct IH as (k & IH & <-). exists (Some m :: k). split; [|reflexivity]. cbn [app]. rewrite <- app_assoc.
      eapply many_step; [unfold then_; eapply pbind_step; [apply sp_cons|apply H, M]| |exact IH]. cbn. rewrite !app_length. lia.
  Qed.

  (** ** Descriptions *)
  Lemma notlf_spec d : forallb not_lf d = true <-> ~ In 10%N d.
  Proof using.
    clear. rewrite forallb_forall. unfold not_lf. split.
    - intros H I. specialize (H _ I). discriminate H.
    - intros H c I. apply negb_true_iff. apply N.eqb_neq. intros ->. auto.
  Qed.
  Lemma descr_sound s x r : opt_descr s = POk x r -> exists t, s = t ++ r /\ descr_text (match x with Some d => d | None => [] end) t.
  Proof using.
    clear. unfold GroupText.opt_descr, then_. intros H. apply popt_ok in H as [(d & -> & H)|(-> & -> & _)]; [|exists []; split; [auto|constructor]].
    pinv H. apply sp_ok in P. subst. unfold GroupText.description in H. pinv H. apply ret_ok in H as (<- & ->). apply kw_sound in P as ->. apply ws_iff in P0 as (g & G & -> & B).
    unfold pat1 in P1. match type of P1 with context [span not_lf ?x] => destruct (span not_lf x) as [[|c d] q] eqn:Sp end; [discriminate|]. injection P1 as <- <-. apply span_iff in Sp as (-> & F & Nq).
    apply nl_iff in P2 as (z & Z & ->). assert (z = [10%N]). { destruct Z as [-> | ->]; [auto|]. exfalso. apply Nq. cbn [app]. now rewrite starts_cons. } subst z.
    exists (u " description" ++ g ++ (c :: d) ++ [10%N]). split; [rewrite <- !app_assoc; reflexivity|]. constructor; auto; [discriminate|now apply notlf_spec|].
    intros c' d' [= <- <-]. cbn [app] in B. rewrite starts_cons in B. split; intros ->; apply B; reflexivity.
  Qed.
  Lemma descr_some g d r : gap g -> d <> [] -> ~ In 10%N d -> (forall c d', d = c :: d' -> c <> 32%N /\ c <> 9%N) ->
    opt_descr ((u " description" ++ g ++ d ++ [10%N]) ++ r) = POk (Some d) r.
  Proof using OK.
    intros G N F B. unfold GroupText.opt_descr, then_. apply popt_some. rewrite <- !app_assoc. eapply pbind_step; [apply sp_cons|]. unfold GroupText.description.
    change ([32%N] ++ ?x) with x. apply (kwws_step isalpha isalnum isspace OK "description"); [auto| |].
    - destruct d as [|c d]; [congruence|]. apply nostart. destruct (B c d eq_refl) as (B1 & B2). unfold is_blank. apply N.eqb_neq in B1, B2. now rewrite B1, B2.
    - eapply (pbind_step _ _ _ d ([10%N] ++ r)); [|reflexivity]. unfold pat1. assert (S : span not_lf (d ++ [10%N] ++ r) = (d, [10%N] ++ r)).
      { apply span_iff. split; [auto|]. split; [now apply notlf_spec|]. apply nostart. reflexivity. }
      rewrite S. destruct d; [congruence|reflexivity].
  Qed.
  Lemma descr_none s : (forall q, s <> u " description" ++ q) -> opt_descr s = POk None s.
  Proof using.
    clear. intros N. apply popt_none. unfold then_, pbind at 1. destruct (sp s) as [|e|x q] eqn:S; [auto|now apply sp_noerr in S|]. apply sp_ok in S. subst.
    unfold GroupText.description. apply pbind_fail. destruct (kw "description" q) as [|e|y q'] eqn:K; [auto|now apply kw_noerr in K|]. apply kw_sound in K. subst. exfalso. now apply (N q').
  Qed.

  (** ** Heads *)
  Lemma ghead_sound w s n r : group_head isalpha isalnum w s = POk n r -> exists t, s = t ++ r /\ group_text w n t.
  Proof using.
    clear. unfold GroupText.group_head. intros H. pinv H. apply ret_ok in H as (<- & ->). apply kw_sound in P as ->. apply ws_sound in P0 as (g & -> & G).
    apply obj_name_sound in P1 as (-> & N). apply line_end_sound in P2 as (z & -> & Z). exists (u w ++ g ++ a1 ++ z). split; [now rewrite <- !app_assoc|].
    exists g, z. split; [auto|]. split; [now apply chars_name|auto].
  Qed.
  Lemma gap_blanks g b : gap g -> blanks b -> gap (g ++ b).
  Proof using. clear. intros (N & B) B'. split; [destruct g; [congruence|discriminate]|]. intros c I. apply in_app_iff in I as [I|I]; auto. Qed.
  (** The name and the end of the line, with the blanks as they are read. *)
  Lemma head_shape w n t : group_text w n t -> exists g z, t = u w ++ g ++ n ++ z /\ gap g /\ name_chars n /\ end_text z /\ (n = [] -> eol_text z).
  Proof using.
    clear. intros (g & z & G & N & Z & ->). destruct n as [|c n].
    - destruct Z as (b & e & B & Z & ->). exists (g ++ b), e. cbn [app]. split; [now rewrite <- app_assoc|]. split; [now apply gap_blanks|]. split; [auto|]. split; [now apply eol_end|auto].
    - exists g, z. split; [auto|]. split; [auto|]. split; [auto|]. split; [auto|discriminate].
  Qed.
  Lemma name_end n z r : name_chars n -> end_text z -> (n = [] -> eol_text z) -> ~ starts is_blank (n ++ z ++ r).
  Proof using. clear. intros N Z Y. destruct n as [|c n]; [cbn; apply eol_noblank; auto|]. apply chars_name in N as [[=]|N]. apply freew_noblank; [apply N|now apply letter_name]. Qed.
  Lemma ghead_ok w n t r : group_text w n t -> group_head isalpha isalnum w (t ++ r) = POk n r.
  Proof using OK.
    intros H. apply head_shape in H as (g & z & -> & G & N & Z & Y). rewrite <- !app_assoc. unfold GroupText.group_head.
    apply (kwws_step isalpha isalnum isspace OK); [auto|now apply name_end|]. eapply pbind_step; [apply obj_name_chars; auto; now apply sep_no_obj, end_sep|].
    eapply pbind_step; [now apply line_end_ok|reflexivity].
  Qed.
  Lemma ghead_clash {A} w v n t r (k : pystr -> parser A) : group_text v n t -> clash (u w) (u v) = true -> (let% n := group_head isalpha isalnum w in k n) (t ++ r) = PFail.
  Proof using. clear. intros (g & z & G & N & Z & ->) C. unfold GroupText.group_head. rewrite <- !app_assoc. apply pbind_fail. apply pbind_fail. now apply kw_clash. Qed.
End Members.
