(** C50: addresses in configuration text (ip.bnf with the actions ip4 and ip6). *)
From Coq Require Import Lia String.
From Verif.Model Require Import Base Ip Hosts Peg AddrText AclText.
From Verif.Spec Require Import AddrSpec AddrTextSpec CafTextSpec CafMeanSpec CafShow.
From Verif.Proofs Require Import PegFacts AddrTextFacts Addr6Facts CafTextFacts CafMean CafShowFacts.
Local Open Scope list_scope.

(** Digits [d] followed by the digit [x] are still a number up to 255. *)
Definition goes_on (last : N) (r : pystr) : Prop :=
  exists x r', r = x :: r' /\ is_digit x = true /\ (10 * last + (x - 48) <= 255)%N.

Lemma octet_dec3 v : (v <= 255)%N -> octet_text (dec3 v).
Proof.
  intros L. destruct (N.ltb_spec v 100).
  - left. split; [now apply dec3_digits|]. unfold dec3. destruct (v <? 10)%N; [now left|]. destruct (N.ltb_spec v 100); [now right|lia].
  - right. exists v. split; [lia|auto].
Qed.
Definition digit_ext (v x : N) : bool :=
  Bool.eqb (match octet_end (dec3 v ++ [x]) with Some (_, []) => true | _ => false end) (10 * v + (x - 48) <=? 255)%N.
Lemma digit_ext_all : forallb (fun v => forallb (digit_ext v) digits) upto255 = true.
Proof. vm_compute. reflexivity. Qed.
Lemma octet_end_whole d : octet_text d <-> exists a, octet_end d = Some (a, []) /\ a = d.
Proof.
  split.
  - intros O. exists d. split; [|reflexivity]. apply octet_end_spec. split; [auto|]. split; [now rewrite app_nil_r|]. intros x r' [=].
  - intros (a & H & ->). apply octet_end_spec in H. apply H.
Qed.
Lemma octet_more v x : (v <= 255)%N -> is_digit x = true -> octet_text (dec3 v ++ [x]) <-> (10 * v + (x - 48) <= 255)%N.
Proof.
  intros L D. pose proof digit_ext_all as K. rewrite forallb_forall in K. specialize (K v (upto255_In v L)). rewrite forallb_forall in K.
  specialize (K x (digit_In x D)). unfold digit_ext in K. apply Bool.eqb_prop in K. rewrite <- N.leb_le, <- K, octet_end_whole.
  destruct (octet_end (dec3 v ++ [x])) as [(a & [|y q])|] eqn:Ee; (split; [intros (b & Hb & Eb)|intros Hb]); try discriminate Hb; try reflexivity.
  - apply octet_end_spec in Ee as (_ & Ee & _). rewrite app_nil_r in Ee. exists a. split; [reflexivity|auto].
Qed.

(** An IPv4 address is read exactly if the text starts with one in the usual notation that
    is not continued by a digit that fits. *)
Theorem C50_ip4_read : forall s a r,
  ip4 s = POk a r <-> a_ver a = V4 /\ valid a /\ s = quad (a_val a) ++ r /\ ~ goes_on (a_val a mod 256) r.
Proof.
  intros s a r. unfold ip4, act, pbind.
  assert (M : forall x, (x mod 256 <= 255)%N) by (intros x; pose proof (N.mod_lt x 256); lia).
  assert (G : forall n r, (n < 2 ^ 32)%N -> addr4_text (quad n) r <-> ~ goes_on (n mod 256) r).
  { clear s a r. intros n r L. split.
    - intros (a & b & c & d & _ & _ & _ & Od & Eq & F) (x & r' & -> & D & Le). apply (F x r' eq_refl).
      assert (d = dec3 (n mod 256)) as ->; [|apply octet_more; auto].
      unfold quad, dotted in Eq. apply octet_digits in Od as (_ & Od). apply (f_equal (fun t => rev t)) in Eq.
      rewrite !app_comm_cons, !app_assoc, !rev_app_distr in Eq. cbn [rev] in Eq. rewrite <- !app_assoc in Eq. cbn [app] in Eq.
      assert (K : forall p q t t', forallb is_digit p = true -> forallb is_digit q = true -> p ++ 46%N :: t = q ++ 46%N :: t' -> p = q).
      { clear. induction p as [|x p IH]; intros [|y q] t t' P Q E; cbn in E; [auto|..].
        - injection E as <- _. discriminate Q.
        - injection E as -> _. discriminate P.
        - injection E as -> E. f_equal. cbn in P, Q. apply andb_true_iff in P, Q. eapply IH; [apply P|apply Q|exact E]. }
      assert (V : forall p, forallb is_digit p = true -> forallb is_digit (rev p) = true).
      { intros p P. rewrite forallb_forall in *. intros x' I. apply P, in_rev, I. }
      apply K in Eq; [|apply V, dec3_digits, M|apply V, Od]. rewrite <- (rev_involutive d), <- Eq. apply rev_involutive.
    - intros N. unfold quad, dotted. assert (A : (n / 2 ^ 24 <= 255)%N) by (apply N.lt_succ_r, N.div_lt_upper_bound; lia).
      eexists _, _, _, _. split; [apply octet_dec3, A|]. split; [apply octet_dec3, M|]. split; [apply octet_dec3, M|]. split; [apply octet_dec3, M|].
      split; [reflexivity|]. intros x r' -> O. apply N. exists x, r'. split; [reflexivity|].
      assert (D : is_digit x = true).
      { apply octet_digits in O as (_ & O). rewrite forallb_app in O. apply andb_true_iff in O as (_ & O). cbn [forallb] in O. now rewrite andb_true_r in O. }
      split; [auto|]. apply octet_more in O; auto. }
  split.
  - destruct (ip4_pat s) as [|e|t r1] eqn:P; try discriminate. destruct (ip_address t) as [a1|] eqn:A; [|discriminate].
    intros [= -> ->]. apply ip_address_spec in A. apply ip4_pat_spec in P as (-> & T). unfold address_text in A.
    destruct a as [[|] n]; cbn [a_ver a_val] in *.
    + destruct A as (L & ->). split; [reflexivity|]. split; [exact L|]. split; [reflexivity|]. apply G in T; auto.
    + exfalso. apply ipv6_colon in A. destruct T as (a & b & c & d & Oa & Ob & Oc & Od & -> & _).
      apply octet_digits in Oa as (_ & Oa), Ob as (_ & Ob), Oc as (_ & Oc), Od as (_ & Od).
      assert (K : forall p, forallb is_digit p = true -> ~ In 58%N p).
      { intros p P I. rewrite forallb_forall in P. apply P in I. discriminate I. }
      repeat (rewrite in_app_iff in A; cbn [In] in A).
      destruct A as [A|[A|[A|[A|[A|[A|A]]]]]]; try discriminate A; revert A; now apply K.
  - intros (V & L & -> & N). destruct a as [v n]. cbn [a_ver a_val] in *. subst v. unfold valid in L. cbn [a_ver a_val bits] in L.
    rewrite (proj2 (ip4_pat_spec _ (quad n) r)); [|split; [reflexivity|apply G; auto]].
    rewrite (proj2 (ip_address_spec (quad n) (mkaddr V4 n))); [reflexivity|]. split; auto.
Qed.

(** Reading raises an exception (which ends the whole parse) exactly for a dotted text
    with a number that has a superfluous leading zero. *)
Theorem C50_ip4_raises : forall s e,
  ip4 s = PErr e <-> e = ValueError /\
    exists t r, s = t ++ r /\ addr4_text t r /\
      exists a d b, t = a ++ [48%N; d] ++ b /\ is_digit d = true /\ (a = [] \/ exists a', a = a' ++ [46%N]).
Proof.
  assert (Z : forall o, octet_text o -> (exists v, (v <= 255)%N /\ o = dec3 v) \/ exists d, o = [48%N; d] /\ is_digit d = true).
  { intros o [(D & [L|L])|(v & R & ->)].
    - destruct o as [|x [|]]; try discriminate L. cbn in D. rewrite andb_true_r in D. left. exists (x - 48)%N. unfold is_digit in D.
      rewrite andb_true_iff, !N.leb_le in D. split; [lia|]. unfold dec3. replace (x - 48 <? 10)%N with true by (symmetry; apply N.ltb_lt; lia). f_equal. lia.
    - destruct o as [|x [|y [|]]]; try discriminate L. cbn in D. rewrite andb_true_r, andb_true_iff in D. destruct D as (Dx & Dy).
      destruct (N.eqb_spec x 48) as [->|Nx]; [right; eauto|]. left. exists (10 * (x - 48) + (y - 48))%N.
      unfold is_digit in *. rewrite andb_true_iff, !N.leb_le in Dx, Dy. split; [lia|]. unfold dec3.
      replace (_ <? 10)%N with false by (symmetry; apply N.ltb_ge; lia). replace (_ <? 100)%N with true by (symmetry; apply N.ltb_lt; lia).
      set (p := (x - 48)%N). set (q := (y - 48)%N). assert (q < 10)%N by (subst q; lia).
      replace ((10 * p + q) / 10)%N with p by (rewrite N.mul_comm, N.div_add_l, N.div_small by lia; lia).
      replace ((10 * p + q) mod 10)%N with q by (rewrite N.add_comm, N.mul_comm, N.mod_add, N.mod_small by lia; lia).
      subst p q. f_equal; [|f_equal]; lia.
    - left. exists v. split; [lia|reflexivity]. }
  intros s e. unfold ip4, act, pbind. split.
  - destruct (ip4_pat s) as [|e'|t r] eqn:P; [discriminate|now apply ip4_pat_noerr in P|].
    destruct (ip_address t) as [a|e'] eqn:A; [discriminate|]. intros [= ->]. split.
    { unfold ip_address in A. destruct (parse4 t); [discriminate|]. destruct (parse6 t); congruence. }
    apply ip4_pat_spec in P as (-> & T). exists t, r. split; [reflexivity|]. split; [exact T|].
    destruct T as (a & b & c & d & Oa & Ob & Oc & Od & -> & _).
    destruct (Z a Oa) as [(va & La & ->)|(x & -> & D)]; [|exists [], x, (46%N :: b ++ 46%N :: c ++ 46%N :: d); auto].
    destruct (Z b Ob) as [(vb & Lb & ->)|(x & -> & D)].
    2:{ exists (dec3 va ++ [46%N]), x, (46%N :: c ++ 46%N :: d). split; [now rewrite <- !app_assoc|]. split; eauto. }
    destruct (Z c Oc) as [(vc & Lc & ->)|(x & -> & D)].
    2:{ exists ((dec3 va ++ 46%N :: dec3 vb) ++ [46%N]), x, (46%N :: d). split; [repeat (rewrite <- !app_assoc; cbn [app]); reflexivity|]. split; eauto. }
    destruct (Z d Od) as [(vd & Ld & ->)|(x & -> & D)].
    2:{ exists ((dec3 va ++ 46%N :: dec3 vb ++ 46%N :: dec3 vc) ++ [46%N]), x, [].
        split; [repeat (rewrite <- !app_assoc; cbn [app]); reflexivity|]. split; eauto. }
    exfalso. unfold ip_address in A. destruct (parse4 _) eqn:P in A; [discriminate|].
    assert (X : exists n, parse4 (dotted va vb vc vd) = Ok n).
    { eexists. apply parse4_dotted. exists va, vb, vc, vd. eauto 10. }
    destruct X as (n & X). unfold dotted in X. rewrite X in P. discriminate P.
  - intros (-> & t & r & -> & T & p & d & q & Et & D & Hp). rewrite (proj2 (ip4_pat_spec _ t r)) by auto.
    destruct (ip_address t) as [a|e'] eqn:A.
    2:{ unfold ip_address in A. destruct (parse4 t); [discriminate|]. destruct (parse6 t); congruence. }
    exfalso.
    assert (NC : ~ In 58%N t).
    { destruct T as (a1 & b & c & d1 & Oa & Ob & Oc & Od & -> & _).
      apply octet_digits in Oa as (_ & Oa), Ob as (_ & Ob), Oc as (_ & Oc), Od as (_ & Od).
      assert (K : forall p, forallb is_digit p = true -> ~ In 58%N p).
      { intros p' P I. rewrite forallb_forall in P. apply P in I. discriminate I. }
      intros I. repeat (rewrite in_app_iff in I; cbn [In] in I).
      destruct I as [I|[I|[I|[I|[I|[I|I]]]]]]; try discriminate I; revert I; now apply K. }
    apply ip_address_spec in A. destruct a as [[|] n]; unfold address_text in A; cbn [a_ver a_val] in A; [|now apply ipv6_colon in A].
    destruct A as (L & Eq). pose proof (proj2 (parse4_spec t n) (conj L Eq)) as P4. clear Eq.
    unfold parse4 in P4. destruct t as [|c0 t0] eqn:Et0; [discriminate P4|]. rewrite <- Et0 in *. clear c0 t0 Et0.
    assert (S : exists l o m, split dot t = l ++ (48%N :: d :: o) :: m).
    { subst t. clear -Hp D. assert (Q : exists o m, split dot ([48%N; d] ++ q) = (48%N :: d :: o) :: m).
      { cbn [app split]. change (48 =? dot)%N with false. cbn [negb]. destruct (N.eqb_spec d dot) as [->|]; [discriminate D|].
        destruct (split dot q) as [|p0 ps] eqn:Sq; [exists [], []|exists p0, ps]; reflexivity. }
      destruct Q as (o & m & Q). destruct Hp as [->|(p' & ->)].
      - exists [], o, m. exact Q.
      - rewrite <- app_assoc. cbn [app]. change 46%N with dot.
        assert (J : forall p' z, exists l, split dot (p' ++ dot :: z) = l ++ split dot z).
        { clear. induction p' as [|c p IH]; intros z; cbn [app split].
          - exists [[]]. reflexivity.
          - destruct (IH z) as (l & El). destruct (N.eqb c dot).
            + exists ([] :: l). now rewrite El.
            + destruct l as [|x l]; cbn [app] in El.
              * exfalso. assert (length (split dot (p ++ dot :: z)) = S (length (split dot p) + length (split dot z) - 1)).
                { clear. pose proof (split_nonempty dot z) as Nz. induction p as [|c p IH]; cbn [app split].
                  - cbn. destruct (split dot z); [congruence|]. cbn. lia.
                  - destruct (N.eqb c dot); cbn [length]; [rewrite IH; pose proof (split_nonempty dot p); destruct (split dot p); [congruence|cbn; lia]|].
                    pose proof (split_nonempty dot p) as Np. pose proof (split_nonempty dot (p ++ dot :: z)) as Nq.
                    destruct (split dot (p ++ dot :: z)), (split dot p); try congruence. cbn [length] in *. lia. }
                rewrite El in H. pose proof (split_nonempty dot p). destruct (split dot p); [congruence|]. cbn [length] in H.
                pose proof (split_nonempty dot z). destruct (split dot z); [congruence|]. cbn [length] in H. lia.
              * rewrite El. exists ((c :: x) :: l). reflexivity. }
        destruct (J p' ([48%N; d] ++ q)) as (l & El). cbn [app] in El, Q. rewrite El, Q. eauto. }
    destruct S as (l & o & m & S). 
    assert (Bad : forall z, parse_octet (48%N :: d :: o) <> Ok z).
    { intros z. unfold parse_octet. destruct (negb (forallb _ _)); [discriminate|]. destruct (3 <? _); [discriminate|].
      cbn [str_eqb]. rewrite andb_false_r. discriminate. }
    assert (In (48%N :: d :: o) (split dot t)) as I by (rewrite S; apply in_elt).
    destruct (split dot t) as [|a [|b [|c [|dd [|]]]]]; try (destruct t; discriminate P4).

    destruct (parse_octet a) eqn:Pa; [|discriminate P4]. destruct (parse_octet b) eqn:Pb; [|discriminate P4].
    destruct (parse_octet c) eqn:Pc; [|discriminate P4]. destruct (parse_octet dd) eqn:Pd; [|discriminate P4].
    destruct I as [->|[->|[->|[->|[]]]]]; eapply Bad; eauto.
Qed.

(** An IPv6 address is read exactly if the characters up to the first one that is no hex
    digit, dot or colon are one in a notation of RFC 4291. *)
Lemma hextets_char s vs : hextets s vs -> forallb is_hexdotcolon s = true /\ s <> [].
Proof.
  assert (H1 : forall s v, hextet s v -> forallb is_hexdotcolon s = true /\ s <> []).
  { intros t v (H & _). apply hex_number_spec in H as (N & F & _). split; [|auto]. rewrite forallb_forall in *. intros x I. unfold is_hexdotcolon. now rewrite (F x I). }
  induction 1 as [s v H|a L|s v t vs H Ht (F & N)].
  - eauto.
  - split; [|unfold quad, dotted, dec3; destruct (_ <? 10)%N; [discriminate|destruct (_ <? 100)%N; discriminate]].
    assert (M : forall x, (x mod 256 <= 255)%N) by (intros x; pose proof (N.mod_lt x 256); lia).
    assert (A : (a / 2 ^ 24 <= 255)%N) by (apply N.lt_succ_r, N.div_lt_upper_bound; lia).
    assert (K : forall v, (v <= 255)%N -> forallb is_hexdotcolon (dec3 v) = true).
    { intros v Lv. pose proof (dec3_digits v Lv) as D. rewrite forallb_forall in *. intros x I. unfold is_hexdotcolon. rewrite digit_hex; auto. }
    unfold quad, dotted. rewrite !forallb_app. cbn [forallb]. rewrite !forallb_app. cbn [forallb]. rewrite !forallb_app. cbn [forallb]. rewrite !K by auto. reflexivity.
  - apply H1 in H as (F1 & N1). rewrite forallb_app. cbn [forallb]. rewrite F1, F. split; [reflexivity|]. destruct s; [congruence|discriminate].
Qed.
Lemma hex_only s v : hextet s v -> forallb is_hex s = true.
Proof. intros (H & _). now apply hex_number_spec in H. Qed.
Lemma plain_hextets_hextets s vs : plain_hextets s vs -> hextets s vs.
Proof. induction 1; [now constructor|now constructor]. Qed.
Lemma ipv6_addr6 t n r : ipv6_text t n -> ~ starts is_hexdotcolon r -> addr6_text t r.
Proof.
  intros H N.
  assert (Q : forall s vs, hextets s vs -> (length vs > 2 \/ plain_hextets s vs) -> forall z, z <> [] -> forallb is_hexdotcolon z = true ->
    exists a b, forallb is_hex a = true /\ b <> [] /\ forallb is_hexdotcolon b = true /\ s ++ 58%N :: z = a ++ 58%N :: b).
  { intros s vs Hs C z Nz Fz. destruct Hs as [s v Hv|a L|s v t' vs Hv Ht].
    - exists s, z. split; [eapply hex_only; eauto|auto].
    - exfalso. destruct C as [C|C]; [cbn in C; lia|].
      inversion C as [|s1 v1 t1 vs1 Hv1 Ht1 Eq1 Eq2]. pose proof (quad_no_colon a L) as X. rewrite <- Eq1 in X.
      unfold has in X. rewrite existsb_app in X. cbn in X. rewrite orb_true_r in X. discriminate X.
    - apply hextets_char in Ht as (Ft & Nt). exists s, (t' ++ 58%N :: z). split; [eapply hex_only; eauto|]. split; [destruct t'; discriminate|].
      split; [rewrite forallb_app; cbn [forallb]; now rewrite Ft, Fz|]. now rewrite <- app_assoc. }
  destruct H as [s vs Hs L|s t hi lo Hs Ht L].
  - destruct Hs as [s v Hv|a La|s v t' vs Hv Ht]; try discriminate L. apply hextets_char in Ht as (Ft & Nt).
    exists s, t'. split; [eapply hex_only; eauto|auto].
  - assert (Ft : forallb is_hexdotcolon t = true) by (destruct Ht as [(-> & _)|Ht]; [reflexivity|apply hextets_char in Ht; apply Ht]).
    destruct Hs as [(-> & _)|Hs].
    + exists [], (58%N :: t). split; [reflexivity|]. split; [discriminate|]. split; [exact Ft|]. split; [reflexivity|auto].
    + destruct (Q s hi (plain_hextets_hextets _ _ Hs) (or_intror Hs) (58%N :: t)) as (a & b & Ha & Nb & Fb & Eb); [discriminate|exact Ft|].
      exists a, b. auto.
Qed.
Theorem C50_ip6_read : forall s a r,
  ip6 s = POk a r <-> a_ver a = V6 /\ exists t, s = t ++ r /\ ipv6_text t (a_val a) /\ ~ starts is_hexdotcolon r.
Proof.
  intros s a r. unfold ip6, act, pbind. split.
  - destruct (ip6_pat s) as [|e|t r1] eqn:P; try discriminate. destruct (ip_address t) as [a1|] eqn:A; [|discriminate].
    intros [= -> ->]. apply ip_address_spec in A. apply ip6_pat_spec in P as (-> & T). destruct a as [[|] n]; unfold address_text in A; cbn [a_ver a_val] in *.
    + exfalso. destruct A as (L & ->). destruct T as (a & b & _ & _ & _ & Eq & _). pose proof (quad_no_colon n L) as Q.
      assert (X : has colon (quad n) = true); [|congruence]. rewrite Eq. unfold has. rewrite existsb_app. cbn. now rewrite orb_true_r.
    + split; [reflexivity|]. exists t. split; [reflexivity|]. split; [exact A|]. destruct T as (? & ? & _ & _ & _ & _ & N). exact N.
  - intros (V & t & -> & T & N). rewrite (proj2 (ip6_pat_spec _ t r)); [|split; [reflexivity|eapply ipv6_addr6; eauto]].
    rewrite (proj2 (ip_address_spec t a)); [reflexivity|]. unfold address_text. destruct a as [v n]. cbn in V. subst v. exact T.
Qed.
(** Any other text of the pattern raises. *)
Theorem C50_ip6_raises : forall s e,
  ip6 s = PErr e <-> e = ValueError /\ exists t r, s = t ++ r /\ addr6_text t r /\ ~ exists n, ipv6_text t n.
Proof.
  intros s e. unfold ip6, act, pbind. split.
  - destruct (ip6_pat s) as [|e'|t r] eqn:P; [discriminate|now apply ip6_pat_noerr in P|].
    destruct (ip_address t) as [a|e'] eqn:A; [discriminate|]. intros [= ->]. apply ip6_pat_spec in P as (-> & T). split.
    { unfold ip_address in A. destruct (parse4 t); [discriminate|]. destruct (parse6 t); congruence. }
    exists t, r. split; [reflexivity|]. split; [auto|]. intros (n & H). rewrite (proj2 (ip_address_spec t (mkaddr V6 n))) in A; [discriminate|exact H].
  - intros (-> & t & r & -> & T & N). rewrite (proj2 (ip6_pat_spec _ t r)) by auto.
    destruct (ip_address t) as [a|e'] eqn:A.
    2:{ unfold ip_address in A. destruct (parse4 t); [discriminate|]. destruct (parse6 t); congruence. }
    exfalso. apply ip_address_spec in A. destruct a as [[|] n]; unfold address_text in A; cbn [a_ver a_val] in A; [|eauto].
    destruct A as (L & ->). destruct T as (a & b & _ & _ & _ & Eq & _). pose proof (quad_no_colon n L) as Q.
    assert (X : has colon (quad n) = true); [|congruence]. rewrite Eq. unfold has. rewrite existsb_app. cbn. now rewrite orb_true_r.
Qed.

(** Every address is written by some text that is read as that address, whatever follows
    that is no character of an address. *)
Theorem C50_every_address : forall a r, valid a -> ~ starts is_hexdotcolon r ->
  (if ver_eqb (a_ver a) V4 then ip4 else ip6) (show_addr a ++ r) = POk a r.
Proof.
  intros a r V N. destruct a as [[|] n]; cbn [a_ver ver_eqb].
  - apply C50_ip4_read. split; [reflexivity|]. split; [auto|]. split; [reflexivity|]. intros (x & r' & -> & D & _). apply N. rewrite starts_cons.
    unfold is_hexdotcolon. now rewrite digit_hex.
  - apply C50_ip6_read. split; [reflexivity|]. exists (show_addr (mkaddr V6 n)). split; [reflexivity|]. split; [|auto].
    exact (show_addr_text (mkaddr V6 n) V).
Qed.

(** Examples: a dotted address before a blank, one whose last number is too large, one with
    a leading zero, a short IPv6 text, and a text that is none. *)
Example C50_ex1 : ip4 (u "10.1.2.3 255.255.0.0") = POk (mkaddr V4 167838211) (u " 255.255.0.0").
Proof. vm_compute. reflexivity. Qed.
Example C50_ex2 : ip4 (u "1.2.3.256") = POk (mkaddr V4 16909081) (u "6").
Proof. vm_compute. reflexivity. Qed.
Example C50_ex3 : ip4 (u "10.01.2.3 ") = PErr ValueError.
Proof. vm_compute. reflexivity. Qed.
Example C50_ex4 : ip6 (u "fe80::1/64") = POk (mkaddr V6 338288524927261089654018896841347694593) (u "/64").
Proof. vm_compute. reflexivity. Qed.
Example C50_ex5 : ip6 (u "1::2::3 ") = PErr ValueError.
Proof. vm_compute. reflexivity. Qed.
Print Assumptions C50_ip4_read.
Print Assumptions C50_ip4_raises.
Print Assumptions C50_ip6_read.
Print Assumptions C50_ip6_raises.
Print Assumptions C50_every_address.
