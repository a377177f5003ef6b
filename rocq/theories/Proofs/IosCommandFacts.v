(** IOS commands: banners, pools, routes and the commands "ip" and "ipv6". *)
From Coq Require Import Lia String.
From Verif.Model Require Import Base Ip Hosts Groups Iface Peg Ids AddrText Ports AclText Define GroupText LineText FileText IosText IosFile.
From Verif.Model Require Config.
From Verif.Spec Require Import AddrSpec RefSpec AddrTextSpec CafTextSpec CafMeanSpec AclTextSpec GroupTextSpec ObjTextSpec LineTextSpec FileTextSpec IosTextSpec IosFileSpec.
From Verif.Proofs Require Import DictFacts MaskFacts PegFacts AddrTextFacts CafTextFacts TokFacts CafMean LineFacts AclTextFacts AclOptFacts GroupTextFacts ObjTextFacts LineTextFacts IosFacts NoErr FileTextFacts FileFacts IosLineFacts IosSkipFacts.
From Verif.Props Require Import AddrText AclText.
Local Open Scope list_scope.

Definition ios_table := ios_skip_1 ++ ios_skip_2 ++ ios_skip_3 ++ ios_skip_4.
Definition ip_table := ip_skip_1 ++ ip_skip_2.
Lemma ios_fits : table_fits ios_table ios_open ios_spaced ios_alone ios_blocks = true.
Proof. vm_compute. reflexivity. Qed.
Lemma ip_fits : table_fits ip_table ip_open [] ip_alone ip_blocks = true.
Proof. vm_compute. reflexivity. Qed.
Lemma choice_app {A} (l l' : list (parser A)) s : choice (l ++ l') s = por (choice l) (choice l') s.
Proof.
  induction l as [|p l IH]; [reflexivity|]. unfold choice in *. cbn [app fold_right]. unfold por at 1 3. unfold por at 2. destruct (p s); auto.
Qed.
Lemma stop_spec d w : stop_text d w <-> banner_stop d = Ok w.
Proof.
  unfold stop_text. split.
  - intros [(L & ->)|(_ & H)]; [|auto]. unfold banner_stop, utf8. destruct (N.ltb_spec d 128); [reflexivity|lia].
  - intros H. destruct (N.ltb_spec d 128) as [L|L]; [left|right; auto]. split; [auto|]. unfold banner_stop, utf8 in H. destruct (N.ltb_spec d 128); [|lia]. cbn in H. now injection H as <-.
Qed.
Lemma caret_ok m r : caret_units m -> caret_msg (m ++ u "^C" ++ r) = u "^C" ++ r.
Proof.
  induction 1 as [|c m N C IH|c m N C IH]; [reflexivity| |]; cbn [app caret_msg].
  - destruct (N.eqb_spec c 94); [congruence|]. exact IH.
  - rewrite N.eqb_refl. destruct (N.eqb_spec c 67); [congruence|]. exact IH.
Qed.
Lemma caret_sound s : exists m, s = m ++ caret_msg s /\ caret_units m.
Proof.
  remember (length s) as n eqn:E. assert (L : (length s <= n)%nat) by (unfold pystr in *; lia). clear E. revert s L. induction n as [|n IH]; intros s L.
  - destruct s; [|cbn in L; lia]. exists []. split; [auto|constructor].
  - destruct s as [|c s]; [exists []; split; [auto|constructor]|]. cbn [caret_msg]. destruct (N.eqb_spec c 94) as [-> |N].
    + destruct s as [|d s]; [exists []; split; [auto|constructor]|]. destruct (N.eqb_spec d 67) as [-> |N']; [exists []; split; [auto|constructor]|].
      cbn in L. destruct (IH s) as (m & E & C); [unfold pystr in *; lia|]. exists (94%N :: d :: m). split; [cbn [app]; now f_equal; f_equal|now constructor].
    + cbn in L. destruct (IH s) as (m & E & C); [unfold pystr in *; lia|]. exists (c :: m). split; [cbn [app]; now f_equal|now constructor].
Qed.
Lemma pat0_iff f s a r : pat0 f s = POk a r <-> s = a ++ r /\ forallb f a = true /\ ~ starts f r.
Proof. unfold pat0. rewrite <- span_iff. destruct (span f s) as (x, y). split; [intros [= -> ->]; auto|intros [= -> ->]; auto]. Qed.
Lemma lit_iff t s x r : lit t s = POk x r <-> s = t ++ r /\ x = t.
Proof. unfold lit. rewrite <- strip_spec. destruct (strip_prefix t s) as [q|]; split; try discriminate; [intros [= -> ->]; auto|intros ([= ->] & ->); auto|intros ([=] & _)]. Qed.

(** ** Pools *)
Lemma pool_char_spec c : pool_char c = true <-> c <> 10%N /\ ~ pool_mark c.
Proof.
  unfold pool_char, pool_mark. rewrite negb_true_iff. change (u "(!|)" ++ [10%N]) with [40; 33; 124; 41; 10]%N. change (u "(!|)") with [40; 33; 124; 41]%N. cbn [existsb In].
  rewrite !orb_false_iff, !N.eqb_neq. split; [intros (A & B & C & D & E & _); split; [auto|]; intros [X|[X|[X|[X|[]]]]]; congruence|]. intros (A & B). repeat split; intros ->; tauto.
Qed.
Notation pool_line := (let% _ := pat0 pool_char in nl).
Lemma pool_line_sound s x r : pool_line s = POk x r -> exists q, s = q ++ lf ++ r /\ one_line q /\ forall c, In c q -> ~ pool_mark c.
Proof.
  intros H. pinv H. apply pat0_iff in P as (-> & F & _). rewrite forallb_forall in F. apply nl_sound in H as (z & -> & Z).
  assert (O : exists z', z = z' ++ lf /\ (z' = [] \/ z' = [13%N])) by (destruct Z as [-> | ->]; [exists []|exists [13%N]]; auto). destruct O as (z' & -> & O).
  exists (a ++ z'). rewrite <- !app_assoc. split; [auto|]. assert (K : forall c, In c (a ++ z') -> pool_char c = true).
  { intros c I. apply in_app_iff in I as [I|I]; [auto|]. destruct O as [-> | ->]; [destruct I|]. destruct I as [<-|[]]. reflexivity. }
  split; [intros I; apply K, pool_char_spec in I; tauto|]. intros c I. apply K, pool_char_spec in I. tauto.
Qed.
Lemma pool_line_ok q r : one_line q -> (forall c, In c q -> ~ pool_mark c) -> pool_line (q ++ lf ++ r) = POk tt r.
Proof.
  intros O M. eapply pbind_step; [apply (pat0_iff _ _ q)|].
  - split; [reflexivity|]. split.
    + apply forallb_forall. intros c I. apply pool_char_spec. split; [intros ->; auto|auto].
    + intros (c & q' & E & P). cbn in E. injection E as <- _. discriminate P.
  - reflexivity.
Qed.
Lemma pool_sound s l r : many pool_line s = POk l r -> exists t, s = t ++ r /\ pool_text t.
Proof.
  intros H. apply many_chain in H. induction H as [s|a l s s1 r P L C IH]; [exists []; split; [auto|constructor]|].
  destruct IH as (t & -> & B). apply pool_line_sound in P as (q & -> & O & M). exists (q ++ lf ++ t). rewrite <- !app_assoc. split; [auto|]. now constructor.
Qed.
Lemma never_pat0 f : never (pat0 f).
Proof. intros s e H. unfold pat0 in H. destruct (span f s). discriminate H. Qed.
Lemma never_pool_line : never pool_line.
Proof. apply never_bind; [apply never_pat0|intros _; apply never_nl]. Qed.
Lemma pool_stop r : pool_over r -> pool_line r = PFail.
Proof.
  intros P. destruct (pool_line r) as [|e|x r'] eqn:H; [auto|now apply never_pool_line in H|].
  apply pool_line_sound in H as (q & -> & O & M). exfalso. destruct (P q r' O eq_refl) as (c & I & Mc). exact (M c I Mc).
Qed.
Lemma pool_ok t r : pool_text t -> pool_over r -> exists l, many pool_line (t ++ r) = POk l r.
Proof.
  intros B F. assert (C : exists l, chain pool_line l (t ++ r) r).
  { induction B as [|q t O M B (l & C)]; [exists []; constructor|]. exists (tt :: l). rewrite <- !app_assoc. eapply Ch_cons; [now apply pool_line_ok| |exact C]. rewrite !app_length. cbn. lia. }
  destruct C as (l & C). exists l. apply chain_many; [auto|now apply pool_stop].
Qed.
Lemma many_end {A} (p : parser A) s l r : many p s = POk l r -> forall x r', p r = POk x r' -> (length r <= length r')%nat.
Proof.
  remember (length s) as n eqn:E. assert (L : (length s <= n)%nat) by (unfold pystr in *; lia). clear E. revert s l L.
  induction n as [|n IH]; intros s l L H x r' P; rewrite many_unfold in H.
  - destruct s; [|cbn in L; lia]. destruct (p []) as [|e|y q] eqn:Q; [injection H as <- <-; congruence|discriminate|].
    destruct (Nat.ltb_spec (@length N q) (@length N [])) as [K|K]; [cbn in K; lia|]. injection H as <- <-. cbn. lia.
  - destruct (p s) as [|e|y q] eqn:Q; [injection H as <- <-; congruence|discriminate|].
    destruct (Nat.ltb_spec (@length N q) (@length N s)) as [K|K].
    + destruct (many p q) as [|e|l' q'] eqn:M; try discriminate. injection H as <- <-. eapply (IH q); eauto. unfold pystr in *. lia.
    + injection H as <- <-. rewrite P in Q. injection Q as -> ->. exact K.
Qed.
Lemma pool_last s l r : many pool_line s = POk l r -> pool_over r.
Proof.
  intros H q r' O E. destruct (existsb (fun c => existsb (N.eqb c) (u "(!|)")) q) eqn:X.
  - apply existsb_exists in X as (c & I & X). apply existsb_exists in X as (d & J & X). apply N.eqb_eq in X as ->. exists d. auto.
  - exfalso. assert (P : pool_line r = POk tt r').
    { rewrite E. apply pool_line_ok; [auto|]. intros c I M. assert (Y : existsb (fun c => existsb (N.eqb c) (u "(!|)")) q = true); [|congruence].
      apply existsb_exists. exists c. split; [auto|]. apply existsb_exists. exists c. split; [exact M|apply N.eqb_refl]. }
    apply (many_end _ _ _ _ H) in P. rewrite E in P. rewrite !app_length in P. cbn in P. unfold pystr in *. lia.
Qed.

(** ** Routes *)
Lemma route_network a m r : valid a -> a_ver a = V4 -> (m < 2 ^ 32)%N -> (ip_network true a (MaskQuad m) = Ok r <-> route_net a m r).
Proof.
  intros Va Ve L. unfold route_net. split.
  - intros H. assert (W : mask_in_range (MaskQuad m)) by exact L. pose proof (ip_network_wf true a (MaskQuad m) r Va W H) as (_ & Hv & Hm & Ha).
    assert (A : n_addr r = a_val a).
    { unfold ip_network in H. destruct (make_netmask _ _) as [p|]; [|discriminate]. destruct (N.eqb_spec (N.land (a_val a) (ip_int_from_prefix (a_ver a) p)) (a_val a)); [|discriminate]. now injection H as <-. }
    split; [|auto]. assert (F : ip_network false a (MaskQuad m) = Ok r).
    { unfold ip_network in *. destruct (make_netmask _ _) as [p|]; [|discriminate]. destruct (N.eqb _ _); [auto|discriminate]. }
    destruct (network_sound (a, None) (MaskQuad m) (mkthost (HLeaf (LNet r)) None) Va W) as (n & E & N); [unfold network, mk_Network; cbn [fst snd]; rewrite F; reflexivity|]. injection E as <-. exact N.
  - intros (N & A). assert (W : mask_in_range (MaskQuad m)) by exact L. pose proof (network_ok a None (MaskQuad m) r Va W N) as H. unfold network, mk_Network in H. cbn [fst snd] in H.
    destruct (ip_network false a (MaskQuad m)) as [n|e] eqn:F; [|discriminate H]. cbn in H. injection H as ->.
    unfold ip_network in *. destruct (make_netmask _ _) as [p|]; [|discriminate]. destruct (N.eqb_spec (N.land (a_val a) (ip_int_from_prefix (a_ver a) p)) (a_val a)) as [|X]; [auto|].
    injection F as <-. cbn [n_addr] in A. congruence.
Qed.

Section Commands.
  Context (isalpha isalnum isspace : N -> bool) (OK : classes_ok isalpha isalnum isspace).
  Notation kw := (kw isalpha isalnum).
  Notation ios_skip := (ios_skip isalpha isalnum).
  Notation ios_ignored := (ios_ignored isalpha isalnum).
  Notation banner := (banner isalpha isalnum).
  Notation skip_define := (skip_define isalpha isalnum).
  Notation skip_using := (skip_using isalpha isalnum).

  Lemma caret_kw r : kw "^C" (u "^C" ++ r) = POk tt r.
  Proof using OK.
    unfold AclText.kw. eapply pbind_step; [|reflexivity]. apply token_ok. split; [reflexivity|]. split; [auto|]. unfold passes. rewrite (name_like_ok _ _ _ OK) by reflexivity. reflexivity.
  Qed.
  Lemma banner_sound s x r : banner s = POk x r -> exists t, s = t ++ r /\ banner_text t.
  Proof using OK.
    unfold IosFile.banner. intros H. pinv H. apply kw_sound in P as ->. apply ws_sound in P0 as (g & -> & G). apply kw_sound in P1 as ->. apply ws_iff in P2 as (g' & G' & -> & Nb).
    apply nl_sound in H as (z & -> & Z). unfold delim_start in P3. apply por_ok in P3 as [P3|(F3 & P3)].
    - pinv P3. apply ret_ok in P3 as (<- & ->). apply kw_sound in P as ->.
      cbn [delimited] in P4. destruct (caret_sound s4) as (m & E & C). apply kw_sound in P4. rewrite P4 in E. subst s4.
      exists (u "banner" ++ g ++ u "motd" ++ g' ++ u "^C" ++ m ++ u "^C" ++ z). rewrite <- !app_assoc. split; [auto|]. now constructor.
    - match goal with H : ~ starts is_blank ?q |- _ => destruct q as [|d q0] end; [discriminate P3|]. destruct (N.eqb_spec d 10) as [|Nd]; [discriminate P3|]. injection P3 as <- ->. cbn [delimited] in P4.
      destruct (banner_stop d) as [w|] eqn:B; [|discriminate P4]. pinv P4. apply ret_ok in P4 as (_ & ->). apply pat0_iff in P as (-> & Fm & _). apply lit_iff in P0 as (-> & ->).
      exists (u "banner" ++ g ++ u "motd" ++ g' ++ d :: a3 ++ w ++ z). rewrite <- !app_assoc. cbn [app]. rewrite <- !app_assoc. split; [auto|]. apply BN_char; auto.
      + intros ->. apply Nb. eexists _, _. split; [reflexivity|reflexivity].
      + intros ->. apply Nb. eexists _, _. split; [reflexivity|reflexivity].
      + now apply stop_spec.
      + intros -> m' E. revert F3. unfold pbind. rewrite app_assoc, E. cbn [app]. change (94%N :: 67%N :: m' ++ z ++ r) with (u "^C" ++ m' ++ z ++ r). rewrite caret_kw. discriminate.
      + intros c I J. rewrite forallb_forall in Fm. apply Fm in I. apply negb_true_iff in I. assert (K : existsb (N.eqb c) w = true); [|congruence]. apply existsb_exists. exists c. split; [auto|apply N.eqb_refl].
  Qed.
  Lemma banner_ok t r : banner_text t -> banner (t ++ r) = POk tt r.
  Proof using OK.
    intros [g g' m z G G' C Z|g g' d m w z G G' Nd Nb Nt S Nc F Z]; rewrite <- !app_assoc; unfold IosFile.banner.
    - apply (kwws_step isalpha isalnum isspace OK); [auto|now apply nostart|]. apply (kwws_step isalpha isalnum isspace OK); [auto|now apply nostart|].
      eapply pbind_step; [unfold delim_start; apply por_l; eapply pbind_step; [apply caret_kw|reflexivity]|]. eapply pbind_step; [cbn [delimited]; rewrite caret_ok by auto; apply caret_kw|]. now apply nl_ok.
    - assert (Bl : ~ starts is_blank ((d :: m ++ w ++ z) ++ r)).
      { intros (c & q & E & B). cbn [app] in E. injection E as <- _. apply is_blank_spec in B. tauto. }
      apply (kwws_step isalpha isalnum isspace OK); [auto|now apply nostart|]. apply (kwws_step isalpha isalnum isspace OK); [auto|exact Bl|].
      eapply pbind_step.
      { unfold delim_start. apply por_r; [|cbn [app]; destruct (N.eqb_spec d 10); [congruence|reflexivity]]. apply pbind_fail. destruct (N.eqb_spec d 94) as [-> |N94]; [|apply kw_none; cbn [app]; change (u "^C") with [94; 67]%N; cbn [strip_prefix]; destruct (N.eqb_spec 94 d); [congruence|auto]].
        apply kw_none. change (u "^C") with [94; 67]%N. cbn [app strip_prefix]. rewrite N.eqb_refl. destruct ((m ++ w ++ z) ++ r) as [|c q] eqn:Eq; [auto|]. destruct (N.eqb_spec 67 c) as [<-|]; [|auto].
        exfalso. rewrite <- !app_assoc in Eq. rewrite app_assoc in Eq. destruct (m ++ w) as [|c q'] eqn:Em; [|cbn [app] in Eq; injection Eq as -> _; now destruct (Nc eq_refl q')].
        apply app_eq_nil in Em as (_ & ->). apply stop_spec in S. discriminate S. }
      eapply pbind_step.
      { cbn [delimited]. rewrite (proj1 (stop_spec d w) S). rewrite <- !app_assoc. eapply pbind_step; [apply (pat0_iff _ _ m)|].
        - split; [reflexivity|]. split; [apply forallb_forall; intros c I; apply negb_true_iff; destruct (existsb (N.eqb c) w) eqn:X; [|auto]; apply existsb_exists in X as (c' & J & X); apply N.eqb_eq in X as ->; now destruct (F c' I)|].
          intros (c & q & E & X). apply negb_true_iff in X. destruct w as [|c' w]; [apply stop_spec in S; unfold banner_stop in S; exfalso|].
          + unfold utf8 in S. repeat match type of S with context [if ?b then _ else _] => destruct b end; discriminate S.
          + cbn [app] in E. injection E as -> _. cbn [existsb] in X. now rewrite N.eqb_refl in X.
        - eapply pbind_step; [apply lit_iff; split; reflexivity|]. reflexivity. }
      now apply nl_ok.
  Qed.

  Lemma define_sound s x r : skip_define s = POk x r -> exists g q, s = u "define" ++ g ++ u "interface-range" ++ q ++ lf ++ r /\ gap g /\ one_line q.
  Proof using.
    clear. unfold IosFile.skip_define. intros H. pinv H. apply kw_sound in P as ->. apply ws_sound in P0 as (g & -> & G). apply kw_sound in P1 as ->.
    destruct (toeol_nl_sound _ _ _ _ _ P2 H) as (-> & O). eauto 6.
  Qed.
  Lemma define_ok g q r : gap g -> one_line q -> skip_define (u "define" ++ g ++ u "interface-range" ++ q ++ lf ++ r) = POk tt r.
  Proof using OK.
    intros G O. unfold IosFile.skip_define. apply (kwws_step isalpha isalnum isspace OK); [auto|now apply nostart|].
    eapply (pbind_step _ _ _ tt); [unfold AclText.kw; eapply pbind_step; [|reflexivity]; apply token_ok; split; [reflexivity|]; split; [auto|]; unfold passes; rewrite (name_like_ok _ _ _ OK) by reflexivity; reflexivity|].
    eapply pbind_step; [now apply toeol_ok|]. reflexivity.
  Qed.
  Lemma using_fail s : skip_using s = PFail.
  Proof using OK.
    unfold IosFile.skip_using, pbind. destruct (kw "Using" s) as [|e|x r] eqn:K; [auto|now apply kw_noerr in K|]. unfold AclText.kw in K. pinv K. apply ret_ok in K as (_ & ->). apply token_ok in P as (-> & -> & P).
    unfold passes in P. rewrite (name_like_ok _ _ _ OK) in P by reflexivity. assert (D : ~ starts is_digit r).
    { intros (c & q & -> & D). apply is_digit_spec in D. cbn [next_alnum] in P. rewrite (alnum_ok _ _ _ OK) in P by (unfold digit in D; lia). revert P. unfold ascii_alnum. apply is_digit_spec in D. rewrite D, orb_true_r. discriminate. }
    now rewrite int_fail.
  Qed.
  Lemma ignored_split s : ios_ignored s = por (choice (map ios_skip ios_skip_1)) (por banner (por (choice (map ios_skip ios_skip_2)) (por skip_define
    (por (choice (map ios_skip ios_skip_3)) (por skip_using (por (choice (map ios_skip ios_skip_4)) nl)))))) s.
  Proof using.
    clear. unfold IosFile.ios_ignored.
    assert (K : forall (a : list (parser unit)) p b q, (forall s, choice b s = q s) -> forall s, choice (a ++ [p] ++ b) s = por (choice a) (por p q) s).
    { intros a p b q E s0. rewrite choice_app. unfold por at 1 2. destruct (choice a s0); auto. unfold choice. cbn [app fold_right]. unfold por. fold (choice b). now rewrite <- E. }
    apply K. intros s1. apply K. intros s2. apply K. intros s3. rewrite choice_app. unfold por. destruct (choice _ s3); auto. unfold choice, por. cbn [fold_right]. now destruct (nl s3).
  Qed.
  Lemma tables_split s : choice (map ios_skip ios_table) s = por (choice (map ios_skip ios_skip_1)) (por (choice (map ios_skip ios_skip_2)) (por (choice (map ios_skip ios_skip_3)) (choice (map ios_skip ios_skip_4)))) s.
  Proof using.
    clear. unfold ios_table. rewrite !map_app, choice_app. unfold por at 1 2. destruct (choice _ s); auto. rewrite choice_app. unfold por. destruct (choice _ s); auto. rewrite choice_app. unfold por. reflexivity.
  Qed.
  Lemma banner_miss s : strip_prefix (u "banner") s = None -> banner s = PFail.
  Proof using. clear. intros H. unfold IosFile.banner. now apply pbind_fail, kw_none. Qed.
  Lemma define_miss s : strip_prefix (u "define") s = None -> skip_define s = PFail.
  Proof using. clear. intros H. unfold IosFile.skip_define. now apply pbind_fail, kw_none. Qed.
  Lemma table_clash l w s : forallb (fun e => clash (u (word_of e)) (u w)) l = true -> choice (map ios_skip l) (u w ++ s) = PFail.
  Proof using.
    clear. intros H. apply table_miss. apply not_clash. rewrite forallb_forall in *. intros v I. apply in_map_iff in I as (e & <- & I). now apply H.
  Qed.
  Lemma nl_miss c s : c <> 10%N -> c <> 13%N -> nl (c :: s) = PFail.
  Proof using. clear. intros A B. unfold nl, pbind, popt, char. destruct (N.eqb_spec c 13); [congruence|]. destruct (N.eqb_spec c 10); [congruence|auto]. Qed.
  Lemma por_pair {A} (p q : parser A) s x : p s = PFail -> q s = x -> por p q s = x.
  Proof using. clear. unfold por. now intros ->. Qed.
  Lemma ignored_banner s : ios_ignored (u "banner" ++ s) = banner (u "banner" ++ s).
  Proof using OK.
    rewrite ignored_split. apply por_pair; [now apply table_clash|]. unfold por at 1. destruct (banner _) eqn:B; [|reflexivity|reflexivity]. apply por_pair; [now apply table_clash|]. apply por_pair; [now apply define_miss|].
    apply por_pair; [now apply table_clash|]. apply por_pair; [apply using_fail|]. apply por_pair; [now apply table_clash|]. now apply nl_miss.
  Qed.
  Lemma ignored_define s : ios_ignored (u "define" ++ s) = skip_define (u "define" ++ s).
  Proof using OK.
    rewrite ignored_split. apply por_pair; [now apply table_clash|]. apply por_pair; [now apply banner_miss|]. apply por_pair; [now apply table_clash|]. unfold por at 1. destruct (skip_define _) eqn:B; [|reflexivity|reflexivity].
    apply por_pair; [now apply table_clash|]. apply por_pair; [apply using_fail|]. apply por_pair; [now apply table_clash|]. now apply nl_miss.
  Qed.
  Lemma ignored_table s : strip_prefix (u "banner") s = None -> strip_prefix (u "define") s = None -> ios_ignored s = por (choice (map ios_skip ios_table)) nl s.
  Proof using OK.
    intros B D. rewrite ignored_split. unfold por at 1. unfold por at 7. rewrite tables_split. unfold por at 7. destruct (choice (map ios_skip ios_skip_1) s); auto. apply por_pair; [now apply banner_miss|].
    unfold por at 1 6. destruct (choice (map ios_skip ios_skip_2) s); auto. apply por_pair; [now apply define_miss|]. unfold por at 1 4. destruct (choice (map ios_skip ios_skip_3) s); auto. apply por_pair; [apply using_fail|]. reflexivity.
  Qed.
  Lemma ios_ignored_sound T other fr s x r : ios_ignored s = POk x r -> exists t, s = t ++ r /\ icommand_text isalnum isspace other fr T INothing t r.
  Proof using OK.
    intros H. destruct (strip_prefix (u "banner") s) as [q|] eqn:B.
    { apply strip_spec in B as ->. rewrite ignored_banner in H. apply banner_sound in H as (t & E & X). exists t. split; [auto|]. now apply IC_banner. }
    destruct (strip_prefix (u "define") s) as [q|] eqn:D.
    { apply strip_spec in D as ->. rewrite ignored_define in H. apply define_sound in H as (g & q' & -> & G & O). exists (u "define" ++ g ++ u "interface-range" ++ q' ++ lf). split; [now rewrite <- !app_assoc|]. now apply IC_define. }
    rewrite ignored_table in H by auto. apply por_sound in H as [H|H].
    - apply (table_sound _ _ _ OK _ _ _ _ _ ios_fits) in H as (t & -> & X). exists t. split; [auto|]. now apply IC_skipped.
    - apply nl_sound in H as (z & -> & Z). exists z. split; [auto|]. now apply IC_empty.
  Qed.
  Lemma table_words : forallb (fun e => clash (u "banner") (u (word_of e)) && clash (u "define") (u (word_of e))) ios_table = true.
  Proof using. vm_compute. reflexivity. Qed.
  Lemma ignored_skipped t r : ignored_text isalnum ios_open ios_spaced ios_alone ios_blocks t -> ~ indented r -> ios_ignored (t ++ r) = POk tt r.
  Proof using OK.
    intros X N. pose proof (table_complete _ _ _ OK _ _ _ _ _ ios_fits t r X N) as H. apply (text_word isalnum _ _ _ _ _ ios_fits) in X as (w & q & I & ->).
    apply in_map_iff in I as (e & <- & I). pose proof table_words as K. rewrite forallb_forall in K. apply K in I. apply andb_true_iff in I as (A & B).
    rewrite ignored_table; [now apply por_l| |]; rewrite <- app_assoc; now apply strip_clash.
  Qed.
  Lemma ignored_empty z r : eol_text z -> ios_ignored (z ++ r) = POk tt r.
  Proof using OK.
    intros Z. rewrite ignored_table; [|destruct Z as [-> | ->]; reflexivity|destruct Z as [-> | ->]; reflexivity]. apply por_r; [|now apply nl_ok]. apply table_miss.
    assert (K : forallb (fun w => clash (u w) [10%N] && clash (u w) [13%N; 10%N]) (map word_of ios_table) = true) by (vm_compute; reflexivity).
    apply not_clash. rewrite forallb_forall in *. intros w I. apply K in I. apply andb_true_iff in I. destruct Z as [-> | ->]; tauto.
  Qed.
End Commands.
