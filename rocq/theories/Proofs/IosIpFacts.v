(** IOS commands: routes and what else begins with "ip" or "ipv6". *)
From Coq Require Import Lia String.
From Verif.Model Require Import Base Ip Hosts Groups Iface Peg Ids AddrText Ports AclText Define GroupText LineText FileText IosText IosFile.
From Verif.Model Require Config.
From Verif.Spec Require Import RefusedSpec AddrSpec RefSpec AddrTextSpec CafTextSpec CafMeanSpec AclTextSpec GroupTextSpec ObjTextSpec LineTextSpec FileTextSpec IosTextSpec IosFileSpec.
From Verif.Proofs Require Import DictFacts MaskFacts PegFacts AddrTextFacts CafTextFacts TokFacts CafMean LineFacts AclTextFacts AclOptFacts GroupTextFacts ObjTextFacts LineTextFacts IosFacts NoErr FileTextFacts FileFacts IosLineFacts IosSkipFacts IosCommandFacts.
From Verif.Props Require Import AddrText AclText IosText IosList6.
Local Open Scope list_scope.

Definition aliases_ok (IF : dict nat) : Prop := forall n, dmem IF n = true -> n <> [] /\ (forall c, In c n -> ~ In c [32; 9; 10; 13]%N) /\ ~ opens_digit n.

Lemma act_run {A B} (f : A -> result B) (p : parser A) s a r : p s = POk a r -> act f p s = match f a with Ok b => POk b r | Err e => PErr e end.
Proof. unfold act, pbind. now intros ->. Qed.

Section Ip.
  Context (isalpha isalnum isspace : N -> bool) (OK : classes_ok isalpha isalnum isspace).
  Notation kw := (kw isalpha isalnum).
  Section Route.
    Variable IF : dict nat.
    Notation gateway_ := (gateway_ isalpha isalnum IF).
    Notation ip_route := (ip_route isalpha isalnum IF).
    Notation core := (let% a := ip4 in let% _ := ws in let% m := ip4 in let% _ := ws in let% g := gateway_ in let% _ := nl in ret (a, m, g)).
    Lemma gateway_sound s gw r : gateway_ s = POk gw r -> exists t, s = t ++ r /\ gateway_text IF gw t.
    Proof using.
      clear. unfold IosFile.gateway_. intros H. apply por_sound in H as [H|H].
      - pinv H. apply ret_ok in H as (<- & ->). apply ip4_sound' in P as (t & -> & Q). exists t. split; [auto|now constructor].
      - apply act_ok in H as (n & H & A). apply ids_sound in H as (D & -> & _). unfold subscript in A. destruct (dget IF n) as [k|] eqn:Dk; cbn [bind] in A; [|discriminate]. injection A as <-.
        exists n. split; [auto|now constructor].
    Qed.
    Lemma gateway_ok gw t z r : aliases_ok IF -> gateway_text IF gw t -> eol_text z -> gateway_ (t ++ z ++ r) = POk gw (z ++ r).
    Proof using OK.
      intros A [t' a Q|n k D] Z; unfold IosFile.gateway_.
      - apply por_l. eapply pbind_step; [apply ip4_quad; [exact Q|now apply sep_no_digit, eol_sep]|]. reflexivity.
      - assert (M : dmem IF n = true) by (unfold dmem; now rewrite D). destruct (A n M) as (Ne & F & Nd).
        apply por_r; [apply pbind_fail, ip4_nodigit; intros (c & q & E & Dc); destruct n as [|x n]; [congruence|]; cbn [app] in E; injection E as -> _; apply Nd; exists c, n; split; [auto|now apply is_digit_spec]|].
        apply act_ok. exists n. split; [|unfold subscript; now rewrite D]. apply (ids_complete isalpha isalnum (in_class [10; 13]%N)).
        + intros c [<-|[<-|[]]]; rewrite (alnum_ok _ _ _ OK); reflexivity.
        + intros m Mm c I J. destruct (A m Mm) as (_ & Fm & _). apply (Fm c I). destruct J as [<-|[<-|[]]]; cbn; tauto.
        + auto.
        + destruct Z as [-> | ->]; eexists _, _; (split; [reflexivity|cbn; tauto]).
    Qed.
    Lemma core_sound s a m gw r : core s = POk (a, m, gw) r -> exists t g1 t2 g2 tg z, s = t ++ g1 ++ t2 ++ g2 ++ tg ++ z ++ r /\ quad_text t a /\ gap g1 /\ quad_text t2 m /\ gap g2 /\ gateway_text IF gw tg /\ eol_text z.
    Proof using.
      clear. intros H. pinv H. apply ret_ok in H as (E & ->). injection E as -> -> ->. apply ip4_sound' in P as (t & -> & Q). apply ws_sound in P0 as (g1 & -> & G1). apply ip4_sound' in P1 as (t2 & -> & Q2).
      apply ws_sound in P2 as (g2 & -> & G2). apply gateway_sound in P3 as (tg & -> & Tg). apply nl_sound in P4 as (z & -> & Z). exists t, g1, t2, g2, tg, z. auto 10.
    Qed.
    Lemma gateway_noblank gw tg r : aliases_ok IF -> gateway_text IF gw tg -> ~ starts is_blank (tg ++ r).
    Proof using.
      clear. intros A [t' a Q|n k D]; [eapply quad_text_noblank; eauto|]. destruct (A n) as (Ne & F & _); [unfold dmem; now rewrite D|].
      intros (c & q & E & B). destruct n as [|x n]; [congruence|]. cbn [app] in E. injection E as -> _. apply (F c (or_introl eq_refl)). apply is_blank_spec in B as [-> | ->]; cbn; tauto.
    Qed.
    Lemma core_ok t a g1 m g2 gw tg z r : aliases_ok IF -> quad_text t a -> gap g1 -> (m < 2 ^ 32)%N -> gap g2 -> gateway_text IF gw tg -> eol_text z ->
      core (t ++ g1 ++ quad m ++ g2 ++ tg ++ z ++ r) = POk (a, mkaddr V4 m, gw) r.
    Proof using OK.
      intros A Q G1 L G2 Tg Z. eapply pbind_step; [apply ip4_quad; [exact Q|now apply sep_no_digit, gap_sep]|]. eapply pbind_step; [apply ws_gap; [auto|now apply quad_noblank]|].
      eapply pbind_step; [apply ip4_ok; [exact L|now apply sep_no_digit, gap_sep]|]. eapply pbind_step; [apply ws_gap; [auto|eapply gateway_noblank; eauto]|].
      eapply pbind_step; [exact (gateway_ok gw tg z r A Tg Z)|]. eapply (pbind_step _ _ _ tt); [now apply nl_ok|]. reflexivity.
    Qed.
    Notation routed := (let% _ := kw "route" in let% _ := ws in ip_route).
    Lemma routed_shape a m gw t r : aliases_ok IF -> route_shape IF a m gw t ->
      routed (t ++ r) = match ip_network true a (MaskQuad m) with Ok n => POk (Some (n, gw)) r | Err e => PErr e end.
    Proof using OK.
      intros A [g t' g1 g2 tg z G Q G1 L G2 Tg Z]. rewrite <- !app_assoc. apply (kwws_step isalpha isalnum isspace OK); [auto|eapply quad_text_noblank; eauto|].
      unfold IosFile.ip_route. apply por_pair.
      - apply pbind_fail, kw_none. destruct (quad_text_start _ _ (g1 ++ quad m ++ g2 ++ tg ++ z ++ r) Q) as (c & q & -> & D). cbn [strip_prefix u]. change (u "profile") with [112; 114; 111; 102; 105; 108; 101]%N. cbn [strip_prefix].
        destruct (N.eqb_spec 112 c) as [<-|]; [discriminate D|auto].
      - pose proof (core_ok t' a g1 m g2 gw tg z r A Q G1 L G2 Tg Z) as C. rewrite (act_run _ _ _ _ _ C). cbn [fst snd a_val]. destruct (ip_network true a (MaskQuad m)); reflexivity.
    Qed.
    Lemma quad_shape g t g1 t2 m g2 tg z a gw : gap g -> quad_text t a -> gap g1 -> quad_text t2 m -> gap g2 -> gateway_text IF gw tg -> eol_text z ->
      route_shape IF a (a_val m) gw (u "route" ++ g ++ t ++ g1 ++ t2 ++ g2 ++ tg ++ z).
    Proof using. clear. intros G Q G1 Q2 G2 Tg Z. apply quad_text_iff in Q2 as (v & L & -> & ->). cbn [a_val]. now constructor. Qed.
    Lemma routed_sound s x r : routed s = POk x r ->
      (exists g z, s = u "route" ++ g ++ u "profile" ++ z ++ r /\ gap g /\ eol_text z /\ x = None) \/
      (exists t a m gw n, s = t ++ r /\ route_shape IF a m gw t /\ route_net a m n /\ x = Some (n, gw)).
    Proof using.
      clear. intros H. pinv H. apply kw_sound in P as ->. apply ws_sound in P0 as (g & -> & G). unfold IosFile.ip_route in H. apply por_sound in H as [H|H].
      - left. pinv H. apply ret_ok in H as (<- & ->). apply kw_sound in P as ->. apply nl_sound in P0 as (z & -> & Z). exists g, z. auto.
      - right. apply act_ok in H as (((a1, m), gw) & C & N). cbn [fst snd] in N. destruct (ip_network true a1 (MaskQuad (a_val m))) as [n|] eqn:In; cbn [bind] in N; [|discriminate]. injection N as <-.
        apply core_sound in C as (t & g1 & t2 & g2 & tg & z & -> & Q & G1 & Q2 & G2 & Tg & Z).
        exists (u "route" ++ g ++ t ++ g1 ++ t2 ++ g2 ++ tg ++ z), a1, (a_val m), gw, n. rewrite <- !app_assoc. split; [auto|]. split; [now apply quad_shape|]. split; [|auto].
        apply (route_network a1 (a_val m) n); [eapply quad_valid; eauto|apply Q| |auto]. apply quad_text_iff in Q2 as (v & L & _ & ->). exact L.
    Qed.
    Lemma gateway_line gw tg : aliases_ok IF -> gateway_text IF gw tg -> one_line tg.
    Proof using.
      clear. intros A [t' a Q|n k D]; [eapply address_line; apply Q|]. destruct (A n) as (_ & F & _); [unfold dmem; now rewrite D|]. intros I. apply (F _ I). cbn. tauto.
    Qed.
    Lemma shape_line a m gw t : aliases_ok IF -> route_shape IF a m gw t -> exists l, t = l ++ lf /\ one_line l.
    Proof using.
      clear. intros A [g t' g1 g2 tg z G Q G1 L G2 Tg Z]. destruct (eol_line _ Z) as (z' & O & ->). exists (u "route" ++ g ++ t' ++ g1 ++ quad m ++ g2 ++ tg ++ z'). rewrite <- !app_assoc. split; [auto|].
      rewrite !line_app. split; [now apply word_line|]. split; [now apply gap_line|]. split; [eapply address_line; apply Q|]. split; [now apply gap_line|]. split; [now apply quad_line|]. split; [now apply gap_line|]. split; [eapply gateway_line; eauto|auto].
    Qed.
    Lemma gateway_err q r e : gateway_ (q ++ lf ++ r) = PErr e -> one_line q -> malformed4 q.
    Proof using.
      clear. intros H O. unfold IosFile.gateway_ in H. apply por_err in H as [H|H].
      - apply pbind_err in H as [H|(x & s1 & _ & H)]; [now apply ip4_raises in H|discriminate H].
      - exfalso. unfold act in H. apply pbind_err in H as [H|(n & r' & D & H)]; [now apply ids_noerr in H|].
        apply ids_sound in D as (D & _). unfold subscript, dmem in *. destruct (dget IF n); [discriminate H|discriminate D].
    Qed.
    (** Why a route line raises. *)
    Lemma routed_err l r e : aliases_ok IF -> one_line l -> routed (l ++ lf ++ r) = PErr e -> refused_route (l ++ lf) \/ (exists a m gw, route_shape IF a m gw (l ++ lf)).
    Proof using.
      clear. intros Al O H. apply pbind_err in H as [H|(x & s1 & K & H)]; [now apply kw_noerr in H|]. apply kw_sound in K.
      apply pbind_err in H as [H|(y & s2 & W & H)]; [now apply never_ws in H|]. apply ws_sound in W as (g & -> & G).
      assert (S : exists q, l = u "route" ++ g ++ q /\ s2 = q ++ lf ++ r).
      { pose proof (line_split l (u "route" ++ g) s2 r O) as X. rewrite <- !app_assoc in X. destruct X as (q & -> & ->); [|exact K|].
        - rewrite !line_app. split; [now apply word_line|now apply gap_line].
        - exists q. rewrite <- !app_assoc. auto. }
      destruct S as (q & -> & ->). assert (Oq : one_line q) by (rewrite !line_app in O; tauto). unfold IosFile.ip_route in H. apply por_err in H as [H|H].
      { exfalso. revert H. match goal with |- ?p ?s = _ -> _ => assert (Nv : never p) by never; apply Nv end. }
      unfold act in H. apply pbind_err in H as [C|(((a, m), gw) & r' & C & _)].
      - left. clear K O. pose proof C as H. clear C.
        apply pbind_err in H as [H|(v & s5 & A & H)].
        { apply ip4_raises in H as (_ & H); [|auto]. rewrite <- !app_assoc. apply RR_net; [auto|now apply malformed4_end]. }
        apply quad_sound in A as (va & -> & La & A). apply line_split in A as (q2 & -> & ->); [|auto|now apply quad_line].
        apply pbind_err in H as [H|(w & s6 & W & H)]; [now apply never_ws in H|]. apply ws_sound in W as (g2 & W & G2).
        apply line_split in W as (q3 & -> & ->); [|now apply line_app in Oq|now apply gap_line].
        apply pbind_err in H as [H|(v & s7 & A & H)].
        { apply ip4_raises in H as (_ & H); [|rewrite !line_app in Oq; tauto]. rewrite <- !app_assoc. apply RR_mask; auto. now apply malformed4_end. }
        apply quad_sound in A as (vb & -> & Lb & A). apply line_split in A as (q4 & -> & ->); [|rewrite !line_app in Oq; tauto|now apply quad_line].
        apply pbind_err in H as [H|(w2 & s8 & W & H)]; [now apply never_ws in H|]. apply ws_sound in W as (g3 & W & G3).
        apply line_split in W as (q5 & -> & ->); [|rewrite !line_app in Oq; tauto|now apply gap_line].
        apply pbind_err in H as [H|(v & s9 & A & H)].
        { apply gateway_err in H; [|rewrite !line_app in Oq; tauto]. rewrite <- !app_assoc. apply RR_gateway; auto. now apply malformed4_end. }
        exfalso. revert H. match goal with |- ?p ?s = _ -> _ => assert (Nv : never p) by never; apply Nv end.
      - right. exists a, (a_val m), gw. apply core_sound in C as (t & g1 & t2 & g2 & tg & z & E & Q & G1 & Q2 & G2 & Tg & Z).
        pose proof (quad_shape _ _ _ _ _ _ _ _ _ _ G Q G1 Q2 G2 Tg Z) as Sh.
        destruct (shape_line _ _ _ _ Al Sh) as (l' & El & Ol). assert (X : (u "route" ++ g ++ q) ++ lf ++ r = l' ++ lf ++ r').
        { rewrite (app_assoc l'), <- El. rewrite <- !app_assoc. now rewrite E. }
        apply first_lines in X as (-> & _); [|auto|auto]. rewrite <- El. exact Sh.
    Qed.
    Lemma ip4_malformed q r : malformed4 q -> (exists q0, q = q0 ++ lf) -> ip4 (q ++ r) = PErr ValueError.
    Proof using. clear. intros M (q0 & ->). rewrite <- app_assoc. now apply malformed4_raises. Qed.
    Lemma quad_profile a r : (a < 2 ^ 32)%N -> kw "profile" (quad a ++ r) = PFail.
    Proof using.
      clear. intros L. apply kw_none. assert (Q : quad_text (quad a) (mkaddr V4 a)) by (apply quad_text_iff; eauto). destruct (quad_text_start _ _ r Q) as (c & q & -> & D). cbn [strip_prefix u]. change (u "profile") with [112; 114; 111; 102; 105; 108; 101]%N. cbn [strip_prefix].
      destruct (N.eqb_spec 112 c) as [<-|]; [discriminate D|auto].
    Qed.
    Lemma routed_refused t r : refused_route t -> (exists l, t = l ++ lf) -> routed (t ++ r) = PErr ValueError.
    Proof using OK.
      intros R (l & El). assert (Lst : forall a q, malformed4 q -> a ++ q = l ++ lf -> exists q0, q = q0 ++ lf).
      { intros a q M E. destruct q as [|c q _] using rev_ind.
        - exfalso. destruct M as (t0 & r0 & E0 & (a1 & b1 & c1 & d1 & _ & _ & _ & _ & -> & _) & _). destruct a1; discriminate E0.
        - rewrite app_assoc in E. apply app_inj_tail in E as (_ & ->). eauto. }
      assert (Pr : forall q x, ip4 q = PErr ValueError -> kw "profile" q = x -> x = PFail).
      { intros q x H K. destruct (kw "profile" q) as [|e|y q'] eqn:K'; [auto|now apply kw_noerr in K'|]. apply kw_sound in K' as ->. exfalso. revert H. cbn. discriminate. }
      destruct R as [g q G M|g a g1 q G A G1 M|g a g1 m g2 q G A G1 L G2 M].
      - destruct (Lst (u "route" ++ g) q M) as (q0 & Eq); [now rewrite <- app_assoc|]. pose proof (ip4_malformed q r M (ex_intro _ _ Eq)) as E.
        rewrite <- !app_assoc. apply (kwws_step isalpha isalnum isspace OK); [auto|now apply malformed4_noblank|]. unfold IosFile.ip_route. apply por_pair; [apply pbind_fail; eapply Pr; eauto|]. unfold act. apply pbind_perr. now apply pbind_perr.
      - destruct (Lst (u "route" ++ g ++ quad a ++ g1) q M) as (q0 & Eq); [now rewrite <- !app_assoc|]. pose proof (ip4_malformed q r M (ex_intro _ _ Eq)) as E.
        rewrite <- !app_assoc. apply (kwws_step isalpha isalnum isspace OK); [auto|now apply quad_noblank|]. unfold IosFile.ip_route. apply por_pair; [apply pbind_fail, quad_profile; auto|]. unfold act. apply pbind_perr.
        eapply pbind_step; [apply ip4_ok; [auto|now apply sep_no_digit, gap_sep]|]. eapply pbind_step; [apply ws_gap; [auto|now apply malformed4_noblank]|]. now apply pbind_perr.
      - destruct (Lst (u "route" ++ g ++ quad a ++ g1 ++ quad m ++ g2) q M) as (q0 & Eq); [now rewrite <- !app_assoc|]. pose proof (ip4_malformed q r M (ex_intro _ _ Eq)) as E.
        rewrite <- !app_assoc. apply (kwws_step isalpha isalnum isspace OK); [auto|now apply quad_noblank|]. unfold IosFile.ip_route. apply por_pair; [apply pbind_fail, quad_profile; auto|]. unfold act. apply pbind_perr.
        eapply pbind_step; [apply ip4_ok; [auto|now apply sep_no_digit, gap_sep]|]. eapply pbind_step; [apply ws_gap; [auto|now apply quad_noblank]|].
        eapply pbind_step; [apply ip4_ok; [auto|now apply sep_no_digit, gap_sep]|]. eapply pbind_step; [apply ws_gap; [auto|now apply malformed4_noblank]|]. apply pbind_perr. unfold IosFile.gateway_. apply por_perr. now apply pbind_perr.
    Qed.
  End Route.

  Context (py_int : pystr -> option Z)
          (PI1 : forall n, n <> [] -> forallb AddrText.is_digit n = true -> py_int n <> None)
          (PI2 : forall n, In n port_code -> py_int n = None).
  Notation ip_ignored := (ip_ignored isalpha isalnum).
  Notation dhcp_pool := (dhcp_pool isalpha isalnum).
  Notation ios_skip := (ios_skip isalpha isalnum).
  Notation ip_ := (ip_ isalpha isalnum py_int).
  Notation ip_command := (ip_command isalpha isalnum py_int).
  Notation ipv6_ := (ipv6_ isalpha isalnum py_int).
  Notation routed IF := (let% _ := kw "route" in let% _ := ws in ip_route isalpha isalnum IF).

  Lemma kw_free w r : ascii (u w) = true -> name_like ascii_alpha ascii_alnum (u w) = false -> kw w (u w ++ r) = POk tt r.
  Proof using OK.
    intros A N. unfold AclText.kw. eapply pbind_step; [|reflexivity]. apply token_ok. split; [auto|]. split; [auto|]. unfold passes. rewrite (name_like_ok _ _ _ OK) by auto. rewrite N. reflexivity.
  Qed.
  Lemma ws_some g r : gap g -> exists r', ws (g ++ r) = POk tt r'.
  Proof using.
    clear. intros (N & F). destruct (ws (g ++ r)) as [|e|[] r'] eqn:W; [|now apply never_ws in W|eauto]. exfalso. destruct g as [|c g]; [congruence|].
    unfold ws, pbind, pat1 in W. cbn [app span] in W. assert (B : is_blank c = true) by (apply is_blank_spec; apply F; now left). rewrite B in W. destruct (span is_blank (g ++ r)). discriminate W.
  Qed.
  (** ** Skipped "ip" commands *)
  Lemma pool_miss s : strip_prefix (u "dhcp pool") s = None -> dhcp_pool s = PFail.
  Proof using. clear. intros H. unfold IosFile.dhcp_pool. now apply pbind_fail, kw_none. Qed.
  Lemma ip_split s : ip_ignored s = por (choice (map ios_skip ip_skip_1)) (por dhcp_pool (choice (map ios_skip ip_skip_2))) s.
  Proof using. clear. unfold IosFile.ip_ignored. rewrite choice_app. unfold por at 1 2. destruct (choice _ s); auto. Qed.
  Lemma ip_pool s : ip_ignored (u "dhcp pool" ++ s) = dhcp_pool (u "dhcp pool" ++ s).
  Proof using.
    clear. rewrite ip_split. apply por_pair; [now apply table_clash|]. unfold por. destruct (dhcp_pool _); [|reflexivity|reflexivity]. now apply table_clash.
  Qed.
  Lemma ip_other s : strip_prefix (u "dhcp pool") s = None -> ip_ignored s = choice (map ios_skip ip_table) s.
  Proof using.
    clear. intros H. rewrite ip_split. unfold ip_table. rewrite map_app, choice_app. unfold por at 1 3. destruct (choice _ s); auto. apply por_pair; [now apply pool_miss|reflexivity].
  Qed.
  Lemma ip_clash : forallb (fun w => (clash (u "access-list") (u w) && clash (u "dhcp pool") (u w)) && (clash (u "domain name") (u w) || String.eqb w "domain") && (clash (u "route") (u w) || String.eqb w "route")) (map word_of ip_table) = true.
  Proof using. vm_compute. reflexivity. Qed.
  Lemma ip_word w : In w (map word_of ip_table) -> clash (u "access-list") (u w) = true /\ clash (u "dhcp pool") (u w) = true /\ (clash (u "domain name") (u w) = true \/ w = "domain"%string) /\ (clash (u "route") (u w) = true \/ w = "route"%string).
  Proof using.
    clear. intros I. pose proof ip_clash as H. rewrite forallb_forall in H. apply H in I. rewrite !andb_true_iff, !orb_true_iff, !String.eqb_eq in I. tauto.
  Qed.
  Notation ip_text := (ignored_text isalnum ip_open [] ip_alone ip_blocks).
  Lemma ip_line t : ip_text t -> exists l t', t = l ++ lf ++ t' /\ one_line l.
  Proof using OK.
    intros [w l t' (y & -> & A & G) _ _]. destruct (follow_entry _ _ _ _ _ ip_fits _ _ A) as (k & b & I). destruct (entry_word _ _ _ OK _ _ _ _ _ ip_fits _ _ _ I) as (_ & Fo & Ow & _).
    apply Fo in A. destruct (rest_line _ _ A) as (q & O & ->). exists (u w ++ q), t'. rewrite <- !app_assoc. split; [auto|]. now apply line_app.
  Qed.
  Lemma route_text_line q : one_line q -> ~ opens_alnum isalnum (q ++ lf) -> ip_text (u "route" ++ q ++ lf).
  Proof using.
    clear. intros O N. apply (text_single isalnum _ _ _ _ _ ip_fits).
    - exists (q ++ lf). split; [auto|]. split; [|auto]. apply FO_open; [cbn; tauto|auto].
    - intros w' q' I E. apply ip_word in I as (_ & _ & _ & [C|C]); [|auto]. now apply clash_neq in E.
  Qed.
  Lemma route_only t x : ip_text t -> t = u "route" ++ x -> exists l, t = l ++ lf /\ one_line l.
  Proof using OK.
    intros [w l t' (y & -> & A & G) _ B] E. destruct (follow_entry _ _ _ _ _ ip_fits _ _ A) as (k & b & I). destruct (entry_word _ _ _ OK _ _ _ _ _ ip_fits _ _ _ I) as (_ & Fo & Ow & _).
    assert (w = "route"%string) as ->.
    { assert (J : In w (map word_of ip_table)) by (apply in_map_iff; exists (w, k, b); auto). apply ip_word in J as (_ & _ & _ & [C|C]); [|auto]. rewrite <- !app_assoc in E. symmetry in E. now apply clash_neq in E. }
    apply Fo in A. destruct (rest_line _ _ A) as (q & O & ->). destruct B as [-> |(B & _)]; [|exfalso; revert B; cbn; intros H; repeat (destruct H as [H|H]; [discriminate H|]); destruct H].
    exists (u "route" ++ q). rewrite app_nil_r, <- app_assoc. split; [auto|]. now apply line_app.
  Qed.

  Lemma profile_text g z : gap g -> eol_text z -> ip_text (u "route" ++ g ++ u "profile" ++ z).
  Proof using OK.
    intros G Z. destruct (eol_line _ Z) as (z' & O & ->). rewrite 2 (app_assoc _ _ lf), (app_assoc g). apply route_text_line.
    - rewrite !line_app. split; [split; [now apply gap_line|now apply word_line]|auto].
    - rewrite <- !app_assoc. intros (c & q & E & A). destruct G as (N & F). destruct g as [|d g]; [congruence|]. cbn [app] in E. injection E as -> _.
      destruct (F c (or_introl eq_refl)) as [-> | ->]; rewrite (alnum_ok _ _ _ OK) in A by reflexivity; discriminate A.
  Qed.

  (** ** The command "ip" *)
  Section One.
    Variables (T : itables) (HE : env_ok (ienv T)) (HA : aliases_ok (it_if T)).
    Lemma ip_sound s c r : ip_ T s = POk c r -> exists t, s = t ++ r /\ icommand_text isalnum isspace clean_detail clean_route T c t r.
    Proof using OK PI1 PI2 HE HA.
      unfold IosFile.ip_. intros H. pinv H. apply kw_sound in P as ->. apply ws_sound in P0 as (g & -> & G). unfold IosFile.ip_command, choice in H. cbn [fold_right] in H.
      apply por_sound in H as [H|H].
      { pinv H. apply ret_ok in H as (<- & ->). apply kw_sound in P as ->. apply ws_sound in P0 as (g' & -> & G'). apply (C60_reads _ _ _ OK _ PI1 PI2 _ HE) in P1 as (t & -> & X).
        exists (u "ip" ++ g ++ u "access-list" ++ g' ++ t). split; [now rewrite <- !app_assoc|]. now apply IC_list. }
      apply por_ok in H as [H|(F1 & H)].
      { pinv H. apply ret_ok in H as (<- & ->). apply kw_sound in P as ->. apply ws_sound in P0 as (g' & -> & G'). pose proof P1 as P2. apply obj_name_sound in P1 as (-> & X). apply chars_name in X.
        exists (u "ip" ++ g ++ u "domain name" ++ g' ++ a3). split; [now rewrite <- !app_assoc|]. apply IC_domain; auto. unfold obj_name in P2. apply pat0_iff in P2 as (_ & _ & N).
        intros c q -> C. apply N. exists c, q. split; [auto|]. now apply obj_char_spec. }
      apply por_ok in H as [H|(F2 & H)].
      { assert (K : exists x, routed (it_if T) s1 = POk x r /\ c = match x with Some (n, gw) => IRoute n gw | None => INothing end).
        { pinv H. apply ret_ok in H as (<- & ->). exists a3. split; [|destruct a3 as [(n, gw)|]; reflexivity]. eapply pbind_step; [exact P|]. eapply pbind_step; [exact P0|]. exact P1. }
        clear H. destruct K as (x & Hr & ->). pose proof Hr as H. apply routed_sound in H as [(g' & z & -> & G' & Z & ->)|(t & a' & m & gw & n & -> & Sh & Rn & ->)].
        - exists (u "ip" ++ g ++ u "route" ++ g' ++ u "profile" ++ z). split; [now rewrite <- !app_assoc|]. apply IC_ip; auto; [now apply profile_text| | |].
          + intros g1 q _ E. change (u "domain name" ++ g1 ++ q) with (u "domain name" ++ (g1 ++ q)) in E. symmetry in E. now apply clash_neq in E.
          + intros a' m gw Sh. remember (u "route" ++ g' ++ u "profile" ++ z) as t eqn:Et. destruct Sh as [g2 t g3 g4 tg z' G2 Q _ _ _ _ _].
            apply app_inv_head in Et. assert (W : forall a b, ws (g' ++ u "profile" ++ z) = POk tt a -> ws (g' ++ u "profile" ++ z) = POk tt b -> a = b) by congruence.
            assert (X : t ++ g3 ++ quad m ++ g4 ++ tg ++ z' = u "profile" ++ z).
            { apply W; [rewrite <- Et; apply ws_gap; [auto|eapply quad_text_noblank; eauto]|apply ws_gap; [auto|now apply nostart]]. }
            destruct (quad_text_start _ _ (g3 ++ quad m ++ g4 ++ tg ++ z') Q) as (c & q & E & D). rewrite E in X. cbn in X. injection X as -> _. discriminate D.
          + intros R. apply (routed_refused (it_if T) _ r) in R; [|destruct (eol_line _ Z) as (z' & _ & ->); exists (u "route" ++ g' ++ u "profile" ++ z'); now rewrite <- !app_assoc].
            rewrite <- !app_assoc in R. rewrite Hr in R. discriminate R.
        - exists (u "ip" ++ g ++ t). split; [now rewrite <- !app_assoc|]. eapply IC_route; eauto. }
      apply por_sound in H as [H|H]; [|discriminate H]. pinv H. apply ret_ok in H as (<- & ->).
      destruct (strip_prefix (u "dhcp pool") s1) as [q|] eqn:Sd.
      - apply strip_spec in Sd as ->. rewrite ip_pool in P. unfold IosFile.dhcp_pool in P. pinv P. apply ret_ok in P as (_ & ->). apply kw_sound in P0. apply app_inv_head in P0 as <-.
        pose proof P1 as P2. apply pool_last in P2. apply pool_sound in P1 as (t & -> & X). exists (u "ip" ++ g ++ u "dhcp pool" ++ t). split; [now rewrite <- !app_assoc|]. now apply IC_pool.
      - rewrite ip_other in P by auto. apply (table_sound _ _ _ OK _ _ _ _ _ ip_fits) in P as (t & -> & X). exists (u "ip" ++ g ++ t). split; [now rewrite <- !app_assoc|]. apply IC_ip; auto.
        + intros g' q G' ->. rewrite <- !app_assoc in F1. revert F1. unfold pbind at 1. rewrite kw_free by reflexivity. unfold pbind at 1. destruct (ws_some g' (q ++ r) G') as (r' & ->).
          unfold pbind, obj_name, pat0. destruct (span is_obj_char r'). discriminate.
        + intros a' m gw Sh. pose proof (routed_shape (it_if T) _ _ _ _ r HA Sh) as R. unfold pbind in R, F2. destruct (kw "route" (t ++ r)) as [|e|x s3]; [|discriminate F2|].
          * destruct (ip_network true a' (MaskQuad m)); discriminate R.
          * destruct (ws s3) as [|e|y s4]; [|discriminate F2|].
            -- destruct (ip_network true a' (MaskQuad m)); discriminate R.
            -- destruct (ip_route isalpha isalnum (it_if T) s4); [|discriminate F2|discriminate F2]. destruct (ip_network true a' (MaskQuad m)); discriminate R.
        + intros R. assert (Rx : exists x, t = u "route" ++ x) by (destruct R; eauto). destruct Rx as (x & Ex). destruct (route_only _ _ X Ex) as (l2 & E2 & _).
          apply (routed_refused (it_if T) _ r) in R; [|eauto]. unfold pbind in R, F2. destruct (kw "route" (t ++ r)) as [|e|y s3]; [discriminate R|discriminate F2|].
          destruct (ws s3) as [|e|z s4]; [discriminate R|discriminate F2|]. destruct (ip_route isalpha isalnum (it_if T) s4); [discriminate R|discriminate F2|discriminate R].
    Qed.
    Lemma words_noblank w : In w (map word_of ip_table) -> forall q, ~ starts is_blank (u w ++ q).
    Proof using.
      clear. intros I q. apply nostart. assert (K : forallb (fun w => match u w with c :: _ => negb (is_blank c) | [] => false end) (map word_of ip_table) = true) by (vm_compute; reflexivity).
      rewrite forallb_forall in K. apply K in I. destruct (u w) as [|c x]; [discriminate|]. now apply negb_true_iff in I.
    Qed.
    Lemma ip_head g s x : gap g -> ~ starts is_blank s -> ip_command T s = x -> ip_ T (u "ip" ++ g ++ s) = x.
    Proof using OK. intros G N E. unfold IosFile.ip_. now apply (kwws_step isalpha isalnum isspace OK). Qed.
    Lemma ip_list_ok g g' l t r : gap g -> gap g' -> named_list_text (ienv T) l t -> (forall q, r <> 32%N :: q) -> ip_ T (u "ip" ++ g ++ u "access-list" ++ g' ++ t ++ r) = POk (IRules l) r.
    Proof using OK PI1 PI2 HE.
      intros G G' X R. apply ip_head; [auto|now apply nostart|]. unfold IosFile.ip_command, choice. cbn [fold_right]. apply por_l.
      apply (kwws_step isalpha isalnum isspace OK); [auto|destruct X; rewrite <- ?app_assoc; now apply nostart|]. eapply pbind_step; [exact (C60_complete _ _ _ OK _ PI1 PI2 _ HE _ _ _ X R)|]. reflexivity.
    Qed.
    Lemma ip_domain_ok g g' n r : gap g -> gap g' -> name_chars n -> name_over r -> ~ starts is_blank (n ++ r) -> ip_ T (u "ip" ++ g ++ u "domain name" ++ g' ++ n ++ r) = POk (IDomain n) r.
    Proof using OK.
      intros G G' X R B. apply ip_head; [auto|now apply nostart|]. unfold IosFile.ip_command, choice. cbn [fold_right]. apply por_r; [now apply pbind_fail, kw_clash|]. apply por_l.
      apply (kwws_step isalpha isalnum isspace OK); [auto|auto|]. eapply pbind_step; [apply obj_name_chars; [exact X|]|reflexivity].
      intros (c & q & -> & C). apply (R c q eq_refl). now apply obj_char_spec.
    Qed.
    Lemma ip_route_ok g a m gw n t r : gap g -> route_shape (it_if T) a m gw t -> route_net a m n -> ip_ T (u "ip" ++ g ++ t ++ r) = POk (IRoute n gw) r.
    Proof using OK HA.
      intros G Sh Rn. assert (B : exists x, t = u "route" ++ x) by (destruct Sh; eauto). destruct B as (x & B). apply ip_head; [auto|rewrite B, <- app_assoc; now apply nostart|].
      unfold IosFile.ip_command, choice. cbn [fold_right]. apply por_r; [rewrite B, <- app_assoc; now apply pbind_fail, kw_clash|]. apply por_r; [rewrite B, <- app_assoc; now apply pbind_fail, kw_clash|].
      pose proof (routed_shape (it_if T) _ _ _ _ r HA Sh) as R. apply route_network in Rn; [|destruct Sh as [? ? ? ? ? ? ? Q]; now apply quad_valid in Q|destruct Sh as [? ? ? ? ? ? ? Q]; apply Q|destruct Sh; auto]. rewrite Rn in R. apply por_l.
      pinv R. eapply pbind_step; [exact P|]. eapply pbind_step; [exact P0|]. eapply pbind_step; [exact R|]. reflexivity.
    Qed.
    Lemma ip_pool_ok g t r : gap g -> pool_text t -> pool_over r -> ip_ T (u "ip" ++ g ++ u "dhcp pool" ++ t ++ r) = POk INothing r.
    Proof using OK.
      intros G X R. apply ip_head; [auto|now apply nostart|]. unfold IosFile.ip_command, choice. cbn [fold_right]. apply por_r; [now apply pbind_fail, kw_clash|]. apply por_r; [now apply pbind_fail, kw_clash|]. apply por_r; [now apply pbind_fail, kw_clash|].
      apply por_l. eapply (pbind_step _ _ _ tt); [|reflexivity]. rewrite ip_pool. unfold IosFile.dhcp_pool. destruct (pool_ok _ _ X R) as (l & H). eapply (pbind_step _ _ _ tt); [now apply kw_free|]. eapply pbind_step; [exact H|]. reflexivity.
    Qed.
    Lemma ip_skip_ok g t r : gap g -> ip_text t -> (forall g' q, gap g' -> t <> u "domain name" ++ g' ++ q) -> (forall a m gw, ~ route_shape (it_if T) a m gw t) -> clean_route t -> ~ indented r ->
      ip_ T (u "ip" ++ g ++ t ++ r) = POk INothing r.
    Proof using OK HA.
      intros G X D S C R. destruct (text_word isalnum _ _ _ _ _ ip_fits _ X) as (w & q & I & Et). pose proof (ip_word _ I) as (K1 & K2 & K3 & K4).
      apply ip_head; [auto|rewrite Et, <- app_assoc; now apply words_noblank|]. unfold IosFile.ip_command, choice. cbn [fold_right]. apply por_r; [rewrite Et, <- app_assoc; now apply pbind_fail, kw_clash|].
      destruct (ip_line _ X) as (l & t' & El & O). apply por_pair.
      { destruct (kw "domain name" (t ++ r)) as [|e|[] s1] eqn:K; [now apply pbind_fail|now apply kw_noerr in K|]. apply kw_sound in K as K'. unfold pbind at 1. rewrite K. apply pbind_fail. clear K.
        destruct (ws s1) as [|e|[] s2] eqn:W; [auto|now apply never_ws in W|]. exfalso. apply ws_sound in W as (g' & -> & G'). rewrite El, <- !app_assoc in K'.
        apply (line_split l (u "domain name" ++ g') s2) in K' as (b & -> & _); [|auto|]. 2:{ rewrite line_app. split; [|now apply gap_line]. unfold one_line. vm_compute. intros W. repeat (destruct W as [W|W]; [discriminate W|]). exact W. }
        apply (D g' (b ++ lf ++ t') G'). rewrite El, <- !app_assoc. reflexivity. }
      assert (Sk : (let% _ := ip_ignored in ret INothing) (t ++ r) = POk INothing r).
      { eapply (pbind_step _ _ _ tt); [|reflexivity]. rewrite ip_other by (rewrite Et, <- app_assoc; now apply strip_clash). now apply (table_complete _ _ _ OK _ _ _ _ _ ip_fits). }
      destruct (routed (it_if T) (t ++ r)) as [|e|x r'] eqn:Rt.
      - apply por_r; [|apply por_l; exact Sk]. unfold pbind in Rt |- *. destruct (kw "route" (t ++ r)) as [|e|x s1]; [auto|discriminate|]. destruct (ws s1) as [|e|y s2]; [auto|discriminate|]. destruct (ip_route isalpha isalnum (it_if T) s2); [auto|discriminate|discriminate].
      - exfalso. assert (Rx : exists x, t = u "route" ++ x).
        { destruct K4 as [K4|K4]; [|rewrite K4 in Et; eauto]. exfalso. rewrite Et, <- app_assoc in Rt. unfold pbind in Rt. rewrite kw_clash in Rt by auto. discriminate Rt. }
        destruct Rx as (x & Ex). destruct (route_only _ _ X Ex) as (l2 & E2 & O2). rewrite E2, <- app_assoc in Rt. apply routed_err in Rt as [Z|(a & m & gw & Sh)]; [| |auto|auto].
        + rewrite <- E2 in Z. now apply C in Z.
        + rewrite <- E2 in Sh. now apply S in Sh.
      - apply routed_sound in Rt as Rt'. destruct Rt' as [(g1 & z & E1 & G1 & Z & ->)|(t2 & a & m & gw & n & E1 & Sh & _ & _)].
        + assert (Rx : exists x, t = u "route" ++ x).
          { destruct K4 as [K4|K4]; [|rewrite K4 in Et; eauto]. exfalso. rewrite Et, <- app_assoc in Rt. unfold pbind in Rt. rewrite kw_clash in Rt by auto. discriminate Rt. }
          destruct Rx as (x & Ex). destruct (route_only _ _ X Ex) as (l2 & E2 & O2). rewrite E2, <- app_assoc in E1. destruct (eol_line _ Z) as (z' & Oz & ->).
          replace (u "route" ++ g1 ++ u "profile" ++ (z' ++ lf) ++ r') with ((u "route" ++ g1 ++ u "profile" ++ z') ++ lf ++ r') in E1 by now rewrite <- !app_assoc.
          apply first_lines in E1 as (_ & <-); [|auto|]. 2:{ rewrite !line_app. repeat split; auto; [now apply word_line|now apply gap_line|now apply word_line]. }
          apply por_l. pinv Rt. eapply pbind_step; [exact P|]. eapply pbind_step; [exact P0|]. eapply pbind_step; [exact Rt|]. reflexivity.
        + exfalso. assert (Rx : exists x, t = u "route" ++ x).
          { destruct K4 as [K4|K4]; [|rewrite K4 in Et; eauto]. exfalso. rewrite Et, <- app_assoc in Rt. unfold pbind in Rt. rewrite kw_clash in Rt by auto. discriminate Rt. }
          destruct Rx as (x0 & Ex). destruct (route_only _ _ X Ex) as (l2 & E2 & O2). destruct (shape_line _ _ _ _ _ HA Sh) as (l3 & E3 & O3). rewrite E2, E3, <- !app_assoc in E1. apply first_lines in E1 as (<- & _); [|auto|auto].
          rewrite <- E2 in E3. rewrite E3 in Sh. now apply S in Sh.
    Qed.

    (** ** The command "ipv6" *)
    Lemma ipv6_head g s x : gap g -> ~ starts is_blank s -> por (let% l := ipv6_access_list isalpha isalnum py_int (ienv T) in ret (IRules l)) (let% _ := ipv6_ignored isalpha isalnum in ret INothing) s = x -> ipv6_ T (u "ipv6" ++ g ++ s) = x.
    Proof using OK. intros G N E. unfold IosFile.ipv6_. now apply (kwws_step isalpha isalnum isspace OK). Qed.
    Lemma ipv6_list_ok g l t r : gap g -> list6_text (ienv T) l t -> (forall q, r <> 32%N :: q) -> ipv6_ T (u "ipv6" ++ g ++ t ++ r) = POk (IRules l) r.
    Proof using OK PI1 PI2 HE.
      intros G X R. apply ipv6_head; [auto|destruct X; rewrite <- ?app_assoc; now apply nostart|]. apply por_l. eapply pbind_step; [exact (C62_complete _ _ _ OK _ PI1 PI2 _ HE _ _ _ X R)|]. reflexivity.
    Qed.
    Lemma ws_line g q r : gap g -> one_line q -> exists q', ws (g ++ q ++ lf ++ r) = POk tt (q' ++ lf ++ r) /\ one_line q'.
    Proof using.
      clear. intros G O. destruct (ws_some g (q ++ lf ++ r) G) as (r' & W). pose proof W as W'. apply ws_sound in W' as (g' & E & G'). rewrite app_assoc in E.
      apply line_split in E as (b & E & ->); [|apply line_app; split; [now apply gap_line|auto]|now apply gap_line]. exists b. split; [exact W|]. assert (X : one_line (g' ++ b)) by (rewrite <- E; apply line_app; split; [now apply gap_line|auto]). now apply line_app in X.
    Qed.
    Lemma ipv6_skip_ok g w g' q r : gap g -> w = "unicast-routing"%string /\ g' = [] \/ In w ["nd"; "prefix-list"; "route"]%string /\ gap g' -> one_line q ->
      ipv6_ T (u "ipv6" ++ g ++ u w ++ g' ++ q ++ lf ++ r) = POk INothing (lf ++ r).
    Proof using OK.
      intros G W O. assert (TE : forall q, one_line q -> toeol (q ++ lf ++ r) = POk q (lf ++ r)) by (intros q1 O1; apply toeol_iff; split; [auto|]; split; [auto|right; exists r; auto]).
      assert (NL : forall w, clash (u "access-list") (u w) = true -> forall s, (let% l := ipv6_access_list isalpha isalnum py_int (ienv T) in ret (IRules l)) (u w ++ s) = PFail).
      { intros v C s. apply pbind_fail. unfold ipv6_access_list. now apply pbind_fail, kw_clash. }
      apply ipv6_head; [auto|destruct W as [(-> & _)|([<-|[<-|[<-|[]]]] & _)]; now apply nostart|].
      apply por_r; [apply NL; destruct W as [(-> & _)|([<-|[<-|[<-|[]]]] & _)]; reflexivity|]. eapply (pbind_step _ _ _ tt); [|reflexivity]. unfold IosFile.ipv6_ignored, choice. cbn [fold_right].
      destruct W as [(-> & ->)|(I & G')].
      - apply por_l. eapply (pbind_step _ _ _ tt); [now apply kw_free|]. eapply pbind_step; [now apply TE|]. reflexivity.
      - destruct (ws_line g' q r G' O) as (q' & W' & O').
        assert (ST : forall v, stop isalnum (g' ++ v)) by (intros v; apply (sep_stop _ _ _ OK); now apply gap_sep).
        destruct I as [<-|[<-|[<-|[]]]].
        + apply por_r; [now apply pbind_fail, kw_clash|]. apply por_l. eapply (pbind_step _ _ _ tt); [now apply kw_ok|]. eapply (pbind_step _ _ _ tt); [exact W'|]. eapply pbind_step; [now apply TE|]. reflexivity.
        + do 3 (apply por_r; [now apply pbind_fail, kw_clash|]). apply por_l. eapply (pbind_step _ _ _ tt); [now apply kw_ok|]. eapply (pbind_step _ _ _ tt); [exact W'|]. eapply pbind_step; [now apply TE|]. reflexivity.
        + do 2 (apply por_r; [now apply pbind_fail, kw_clash|]). apply por_l. eapply (pbind_step _ _ _ tt); [now apply kw_ok|]. eapply (pbind_step _ _ _ tt); [exact W'|]. eapply pbind_step; [now apply TE|]. reflexivity.
    Qed.
    Lemma ipv6_block_ok g q t r : gap g -> one_line q -> ~ opens_alnum isalnum q -> inner_lines t -> ~ indented r -> ipv6_ T (u "ipv6" ++ g ++ u "ipv6" ++ q ++ lf ++ t ++ r) = POk INothing r.
    Proof using OK.
      intros G O N I R. apply ipv6_head; [auto|now apply nostart|]. apply por_r; [apply pbind_fail; unfold ipv6_access_list; now apply pbind_fail, kw_clash|]. eapply (pbind_step _ _ _ tt); [|reflexivity].
      unfold IosFile.ipv6_ignored, choice. cbn [fold_right]. do 4 (apply por_r; [now apply pbind_fail, kw_clash|]). apply por_l.
      eapply (pbind_step _ _ _ tt); [apply kw_ok; unfold stop; apply not_true_iff_false; rewrite next_alnum_opens|].
      { intros (c & x & E & A). destruct q as [|d q]; [cbn in E; injection E as <- _; rewrite (alnum_ok _ _ _ OK) in A by reflexivity; discriminate A|]. cbn [app] in E. injection E as -> _. apply N. exists c, q. auto. }
      eapply pbind_step; [now apply toeol_ok|]. eapply (pbind_step _ _ _ tt); [apply nl_ok; now left|]. destruct (inner_ok _ _ I R) as (l & L). eapply pbind_step; [exact L|]. reflexivity.
    Qed.
    Lemma not_ended y x : x <> [] -> one_line x -> ~ ended (y ++ x).
    Proof using. clear. intros N O E. apply ended_app in E as [E|(s & E)]; [auto|]. apply O. rewrite E. apply in_or_app. right. now left. Qed.
    Lemma ipv6_sound s c r : ended s -> ipv6_ T s = POk c r -> exists t, s = t ++ r /\ icommand_text isalnum isspace clean_detail clean_route T c t r.
    Proof using OK PI1 PI2 HE.
      unfold IosFile.ipv6_. intros En H. pinv H. apply kw_sound in P as ->. apply ws_sound in P0 as (g & -> & G). apply por_sound in H as [H|H]; pinv H; apply ret_ok in H as (<- & ->).
      { apply (C62_reads _ _ _ OK _ PI1 PI2 _ HE) in P as (t & -> & X). exists (u "ipv6" ++ g ++ t). split; [now rewrite <- !app_assoc|]. now apply IC_list6. }
      unfold IosFile.ipv6_ignored, choice in P. cbn [fold_right] in P.
      assert (K : forall w g' q r, w = "unicast-routing"%string /\ g' = [] \/ In w ["nd"; "prefix-list"; "route"]%string /\ gap g' -> ended (u "ipv6" ++ g ++ u w ++ g' ++ q ++ r) -> one_line q -> r = [] \/ (exists r', r = 10%N :: r') ->
        exists t, u "ipv6" ++ g ++ u w ++ g' ++ q ++ r = t ++ r /\ icommand_text isalnum isspace clean_detail clean_route T INothing t r).
      { clear En P s1 r. intros w g' q r W En O R. exists (u "ipv6" ++ g ++ u w ++ g' ++ q). split; [now rewrite <- !app_assoc|]. apply IC_ipv6; auto. destruct R as [-> |(r' & ->)]; [exfalso|exists r'; auto].
        rewrite app_nil_r, app_assoc in En. apply not_ended in En; [auto|destruct W as [(-> & _)|([<-|[<-|[<-|[]]]] & _)]; discriminate|].
        rewrite !line_app. split; [destruct W as [(-> & _)|([<-|[<-|[<-|[]]]] & _)]; now apply word_line|]. split; [destruct W as [(_ & ->)|(_ & W)]; [intros []|now apply gap_line]|auto]. }
      repeat (apply por_sound in P as [P|P]); [pinv P..|discriminate P].
      - apply ret_ok in P as (_ & ->). apply kw_sound in P0 as ->. apply toeol_iff in P1 as (-> & O & R). apply (K "unicast-routing"%string [] _); auto.
      - apply ret_ok in P as (_ & ->). apply kw_sound in P0 as ->. apply ws_sound in P1 as (g' & -> & G'). apply toeol_iff in P2 as (-> & O & R). apply (K "nd"%string g' _); auto. right. split; [now left|auto].
      - apply ret_ok in P as (_ & ->). apply kw_sound in P0 as ->. apply ws_sound in P1 as (g' & -> & G'). apply toeol_iff in P2 as (-> & O & R). apply (K "route"%string g' _); auto. right. split; [right; right; now left|auto].
      - apply ret_ok in P as (_ & ->). apply kw_sound in P0 as ->. apply ws_sound in P1 as (g' & -> & G'). apply toeol_iff in P2 as (-> & O & R). apply (K "prefix-list"%string g' _); auto. right. split; [right; now left|auto].
      - apply ret_ok in P as (_ & ->). pose proof P0 as P0'. apply kw_sound in P0 as ->. destruct (toeol_nl_sound _ _ _ _ _ P1 P2) as (-> & O). apply inner_sound in P3 as (t & -> & I).
        exists (u "ipv6" ++ g ++ u "ipv6" ++ a3 ++ lf ++ t). split; [now rewrite <- !app_assoc|]. apply IC_ipv6_block; auto.
        unfold AclText.kw in P0'. pinv P0'. apply token_ok in P as (_ & _ & Pa). unfold passes in Pa. rewrite (name_like_ok _ _ _ OK) in Pa by reflexivity. cbn [andb] in Pa.
        apply ret_ok in P0' as (_ & E0). subst s. change (name_like ascii_alpha ascii_alnum (u "ipv6")) with true in Pa. cbn [andb] in Pa. intros (c & q & -> & A). cbn in Pa. rewrite A in Pa. discriminate Pa.
    Qed.
  End One.
End Ip.
