(** Interfaces of IOS configurations as text. *)
From Coq Require Import Lia String.
From Verif.Model Require Import Base Ip Hosts Groups Iface Peg Ids AddrText Ports AclText Define GroupText LineText FileText IosText IosFile.
From Verif.Spec Require Import AddrSpec RefSpec AddrTextSpec CafTextSpec CafMeanSpec AclTextSpec GroupTextSpec ObjTextSpec LineTextSpec RefusedSpec IosTextSpec IosFileSpec.
From Verif.Proofs Require Import DictFacts PegFacts AddrTextFacts CafTextFacts TokFacts CafMean LineFacts AclTextFacts AclOptFacts GroupTextFacts ObjTextFacts LineTextFacts IosFacts NoErr FileTextFacts.
From Verif.Props Require Import AddrText AclText.
Local Open Scope list_scope.

Lemma opens_digit_starts q : opens_digit q <-> starts is_digit q.
Proof. unfold opens_digit, starts. split; intros (c & t & -> & D); exists c, t; (split; [auto|now apply is_digit_spec]). Qed.
Lemma app_cons {A} (l : list A) a r : (l ++ [a]) ++ r = l ++ a :: r.
Proof. now rewrite <- app_assoc. Qed.

(** ** Lists of VLANs *)
Lemma char_iff c s x r : char c s = POk x r <-> s = c :: r.
Proof. destruct x. apply char_ok. Qed.
Lemma char_fail c s : (forall r, s <> c :: r) -> char c s = PFail.
Proof. intros N. destruct s as [|d s]; [reflexivity|]. cbn. destruct (N.eqb_spec d c) as [->|]; [now destruct (N s)|reflexivity]. Qed.
Lemma int_dec d r : int_ (d ++ r) = POk d r <-> (exists v, decimal_text d v) /\ ~ starts is_digit r.
Proof.
  rewrite int_iff. split; [intros (_ & N & F & S); split; [exists (int10 d); now apply dec_text|auto]|]. intros ((v & D) & S). apply decimal_text_spec in D as (N & F & _). auto.
Qed.
Definition vlan_over (v : vlan) (q : pystr) : Prop :=
  ~ opens_digit q /\ (forall d q', v = Vlan d -> q = u "-" ++ q' -> ~ opens_digit q').
Lemma vlan_sound s v r : vlan_ s = POk v r -> exists t, s = t ++ r /\ vlan_text v t /\ vlan_over v r.
Proof.
  unfold vlan_. intros H. apply por_ok in H as [H|(F & H)].
  - pinv H. apply ret_ok in H as (<- & ->). apply int_iff in P as (-> & Na & Fa & Sa). apply char_iff in P0 as ->. apply int_iff in P1 as (-> & Nb & Fb & Sb).
    exists (a ++ u "-" ++ a1). split; [now rewrite <- app_assoc|]. split; [apply (VT_range a (int10 a) a1 (int10 a1)); now apply dec_text|]. split; [now rewrite opens_digit_starts|]. intros d q' X. discriminate X.
  - pinv H. apply ret_ok in H as (<- & ->). pose proof P as P0. apply int_iff in P as (-> & Na & Fa & Sa). exists a. split; [auto|]. split; [apply (VT_one a (int10 a)); now apply dec_text|].
    split; [now rewrite opens_digit_starts|]. intros d q' _ -> Od. apply opens_digit_starts in Od. revert F. unfold pbind at 1. rewrite P0. unfold pbind at 1.
    replace (char 45 (u "-" ++ q')) with (POk tt q') by reflexivity. unfold pbind. destruct (int_ q') eqn:I; try discriminate. intros _.
    destruct Od as (c & q & -> & C). unfold int_, pat1 in I. cbn [span] in I. rewrite C in I. destruct (span is_digit q). discriminate I.
Qed.
Lemma vlan_ok v t q : vlan_text v t -> vlan_over v q -> vlan_ (t ++ q) = POk v q.
Proof.
  intros [d n D|a n b m A B] (S & R); unfold vlan_.
  - assert (I : int_ (d ++ q) = POk d q) by (apply int_dec; split; [eauto|now rewrite <- opens_digit_starts]).
    apply por_r; [|eapply pbind_step; [exact I|reflexivity]]. eapply pbind_step; [exact I|]. destruct q as [|c q]; [reflexivity|]. unfold pbind at 1. cbn [char].
    destruct (N.eqb_spec c 45) as [->|]; [|reflexivity]. apply pbind_fail, int_fail. rewrite <- opens_digit_starts. now apply (R d q).
  - apply por_l. rewrite <- !app_assoc. eapply pbind_step; [apply int_dec; split; [eauto|now apply nostart]|]. eapply (pbind_step _ _ _ tt); [apply char_iff; reflexivity|].
    eapply pbind_step; [apply int_dec; split; [eauto|now rewrite <- opens_digit_starts]|reflexivity].
Qed.
Lemma comma_over v q : vlan_over v (u "," ++ q).
Proof. split; [intros (c & t & E & D); injection E as <- _; apply is_digit_spec in D; discriminate D|intros d q' _ E; discriminate E]. Qed.
Lemma vlans_sound fuel : forall s l r v, vlans_more fuel s = POk l r -> (length s < fuel)%nat -> vlan_over v s ->
  exists t, s = t ++ r /\ (l = [] /\ t = [] \/ exists t', t = u "," ++ t' /\ vlans_text l t') /\ vlans_over (v :: l) r.
Proof.
  induction fuel as [|fuel IH]; intros s l r v H L V; [inversion L|]. cbn [vlans_more] in H.
  destruct (char 44 s) as [|e|x s1] eqn:C.
  - injection H as <- <-. exists []. split; [auto|]. split; [now left|]. destruct V as (V1 & V2). split; [auto|]. split; [intros q' ->; discriminate C|]. intros l' d q' E. destruct l' as [|? [|]]; try discriminate E. injection E as ->. exact (V2 d q' eq_refl).
  - exfalso. revert C. apply never_char.
  - apply char_iff in C as ->. pinv H. apply ret_ok in H as (<- & ->). apply vlan_sound in P as (t & -> & T & O). pose proof P0 as P1. apply IH with (v := a) in P0 as (t' & -> & D & V'); [| |auto].
    + exists (u "," ++ t ++ t'). split; [cbn; now rewrite <- app_assoc|]. split.
      * right. exists (t ++ t'). split; [auto|]. destruct D as [(-> & ->)|(t2 & -> & D)]; [rewrite app_nil_r; now constructor|now constructor].
      * destruct V' as (W1 & W2 & W3). split; [auto|]. split; [auto|]. intros l' d q' E. destruct l' as [|y l']; [destruct a0; discriminate E|]. injection E as _ E. exact (W3 l' d q' E).
    + clear -L. cbn in L. rewrite app_length in L. unfold pystr in *. lia.
Qed.
Lemma vlan_list_sound s l r : vlan_list s = POk l r -> exists t, s = t ++ r /\ vlans_text l t /\ vlans_over l r.
Proof.
  unfold vlan_list. intros H. pinv H. apply ret_ok in H as (<- & ->). apply vlan_sound in P as (t & -> & T & O). apply (vlans_sound _ _ _ _ a) in P0 as (t' & -> & D & V); [| |auto].
  - exists (t ++ t'). split; [now rewrite <- app_assoc|]. split; [|auto]. destruct D as [(-> & ->)|(t2 & -> & D)]; [rewrite app_nil_r; now constructor|now constructor].
  - unfold pystr. lia.
Qed.
Lemma vlans_ok l t : vlans_text l t -> forall v l' q fuel, l = v :: l' -> vlans_over l q -> (length t + length q < fuel)%nat ->
  exists t1 t2, t = t1 ++ t2 /\ vlan_text v t1 /\ vlan_over v (t2 ++ q) /\ vlans_more fuel (t2 ++ q) = POk l' q.
Proof.
  induction 1 as [v t V|v t l t' V Vs IH]; intros v0 l0 q fuel E O L; injection E as <- <-; (destruct fuel as [|fuel]; [inversion L|]).
  - exists t, []. split; [now rewrite app_nil_r|]. split; [auto|]. destruct O as (O1 & O2 & O3). split; [split; [auto|]; intros d q' ->; apply (O3 [] d q'); auto|].
    cbn [app vlans_more]. rewrite char_fail; [reflexivity|]. intros r ->. now apply (O2 r).
  - exists t, (u "," ++ t'). split; [auto|]. split; [auto|]. split; [rewrite <- app_assoc; apply comma_over|].
    assert (O' : vlans_over l q).
    { destruct O as (O1 & O2 & O3). split; [auto|]. split; [auto|]. intros l1 d q' ->. apply (O3 (v :: l1) d q'). auto. }
    destruct l as [|v' l']; [inversion Vs|].
    assert (Lt : (length t' + length q < fuel)%nat) by (rewrite !app_length in L; cbn in L; unfold pystr in *; lia).
    destruct (IH v' l' q fuel eq_refl O' Lt) as (t1 & t2 & -> & V1 & Ov & M).
    change ((u "," ++ t1 ++ t2) ++ q) with (44%N :: (t1 ++ t2) ++ q). cbn [vlans_more char]. rewrite N.eqb_refl, <- app_assoc.
    eapply pbind_step; [exact (vlan_ok v' t1 (t2 ++ q) V1 Ov)|]. eapply pbind_step; [exact M|reflexivity].
Qed.
Lemma vlan_list_ok l t q : vlans_text l t -> vlans_over l q -> vlan_list (t ++ q) = POk l q.
Proof.
  intros V O. destruct l as [|v l]; [inversion V|]. unfold vlan_list.
  assert (K : forall fuel, (length t + length q < fuel)%nat -> exists t1 t2, t = t1 ++ t2 /\ vlan_text v t1 /\ vlan_over v (t2 ++ q) /\ vlans_more fuel (t2 ++ q) = POk l q) by (intros; eapply vlans_ok; eauto).
  assert (Mono : forall f s l r, vlans_more f s = POk l r -> (length s < f)%nat -> forall f', (length s < f')%nat -> vlans_more f' s = POk l r).
  { clear. induction f as [|f IH]; intros s l r H L f' L'; [inversion L|]. destruct f' as [|f']; [inversion L'|]. cbn [vlans_more] in *. destruct (char 44 s) as [|e|x s1] eqn:C; auto.
    apply char_iff in C as ->. apply pbind_ok in H as (v & s2 & V & H). apply vlan_sound in V as V'. destruct V' as (t & -> & _ & _). eapply pbind_step; [exact V|].
    apply pbind_ok in H as (l1 & s3 & M & R). cbn in L, L'. rewrite app_length in L, L'. eapply pbind_step; [eapply IH; eauto; unfold pystr in *; lia|auto]. }
  destruct (K (S (length t + length q)) (Nat.lt_succ_diag_r _)) as (t1 & t2 & -> & V1 & Ov & M). rewrite <- app_assoc. eapply pbind_step; [exact (vlan_ok v t1 (t2 ++ q) V1 Ov)|].
  eapply pbind_step; [|reflexivity]. cbn beta. eapply Mono; [exact M| |unfold pystr; lia]. rewrite !app_length. unfold pystr in *. lia.
Qed.

(** ** Lines of interfaces *)
Ltac gapped := eapply pbind_step; [apply ws_gap; [auto|]|].
Lemma over_lf l q r : vlans_over l q <-> vlans_over l (q ++ lf ++ r).
Proof.
  assert (D : forall q, opens_digit q <-> opens_digit (q ++ lf ++ r)).
  { intros [|c t]; split; intros (x & y & E & X); cbn [app lf] in *; try discriminate E; injection E as <- _; [apply is_digit_spec in X; discriminate X| |]; eexists _, _; eauto. }
  unfold vlans_over. rewrite <- (D q). split; intros (A & B & C); (split; [auto|split]).
  - intros q' E. destruct q as [|c q]; [discriminate E|]. cbn [app] in E. injection E as -> E. now apply (B q).
  - intros l' d q' L E. destruct q as [|c q]; [discriminate E|]. cbn [app] in E. injection E as -> <-. rewrite <- D. now apply (C l' d q).
  - intros q' ->. now apply (B (q' ++ lf ++ r)).
  - intros l' d q' L ->. rewrite D. now apply (C l' d (q' ++ lf ++ r)).
Qed.
Lemma never_vlan : never vlan_.
Proof. unfold vlan_. never. Qed.
Lemma never_vlans fuel : never (vlans_more fuel).
Proof.
  induction fuel as [|fuel IH]; intros s e H; [discriminate H|]. cbn [vlans_more] in H. destruct (char 44 s) as [|e'|x r]; try discriminate H. revert H.
  apply never_bind; [apply never_vlan|]. intros v. apply never_bind; [exact IH|]. intros l. apply never_ret.
Qed.
Lemma never_vlan_list : never vlan_list.
Proof. unfold vlan_list. apply never_bind; [apply never_vlan|]. intros v. apply never_bind; [intros s; apply never_vlans|]. intros l. apply never_ret. Qed.
Lemma maybe_line w t : freewb (u w) = true -> maybe w t -> one_line t.
Proof. intros F [-> |(g & G & ->)]; [intros []|]. apply line_app. split; [now apply gap_line|now apply word_line]. Qed.
Lemma end_is_line z : end_line z -> exists l, z = l ++ lf /\ one_line l.
Proof.
  intros Z. apply end_word in Z as (g & e & -> & G & [-> | ->]).
  - exists g. split; [auto|]. destruct G as [-> |G]; [intros []|now apply gap_line].
  - exists (g ++ [13%N]). split; [now rewrite <- app_assoc|]. apply line_app. split; [destruct G as [-> |G]; [intros []|now apply gap_line]|]. intros [[=]|[]].
Qed.
Lemma digits_line d v : decimal_text d v -> one_line d.
Proof. intros D I. apply decimal_text_spec in D as (_ & F & _). rewrite forallb_forall in F. apply F in I. discriminate I. Qed.
Lemma name_line n : name_text n -> one_line n.
Proof. intros (_ & F) I. apply F in I. destruct I as [[I|I]|[I|I]]; unfold letter, digit in *; lia. Qed.
Lemma words_line l t : (forall w, In w l -> freewb (u w) = true) -> words l t -> one_line t.
Proof. intros F (w & I & ->). now apply word_line, F. Qed.
Lemma address_line t a : address_text t a -> one_line t.
Proof. intros A I. apply address_hdc in A as (A & _). unfold pystr in *. rewrite forallb_forall in A. apply A in I. discriminate I. Qed.
Lemma vlan_line v t : vlan_text v t -> one_line t.
Proof. intros [d n D|a n b m A B]; [eapply digits_line; eauto|]. rewrite !line_app. repeat split; [eapply digits_line; eauto| |eapply digits_line; eauto]. intros [[=]|[]]. Qed.
Lemma vlans_line l t : vlans_text l t -> one_line t.
Proof. induction 1 as [v t V|v t l t' V _ IH]; [eapply vlan_line; eauto|]. rewrite !line_app. repeat split; [eapply vlan_line; eauto| |auto]. intros [[=]|[]]. Qed.
Lemma quad_line n : (n < 2 ^ 32)%N -> one_line (quad n).
Proof. intros L. apply (address_line (quad n) (mkaddr V4 n)). now split. Qed.
Lemma kept_line isalnum d t : ios_kept isalnum d t -> exists l, t = l ++ lf /\ one_line l.
Proof.
  intros K. destruct K as [g t G O B|g g1 t a g2 m s z G G1 A G2 M S Z|g g1 n g2 d z G G1 N G2 D Z|g g1 t a p tp s z G G1 A P S Z|g g1 n g2 d z G G1 N G2 D Z|g g1 m q G G1 M O Q|g g1 g2 g3 d l t q G G1 G2 G3 T O V].
  - exists (u "description" ++ g ++ t). rewrite <- !app_assoc. split; [auto|]. rewrite !line_app. repeat split; auto using gap_line. now apply word_line.
  - apply end_is_line in Z as (z' & -> & Z). exists (u "ip" ++ g ++ u "address" ++ g1 ++ t ++ g2 ++ quad m ++ s ++ z'). rewrite <- !app_assoc. split; [auto|]. rewrite !line_app.
    repeat split; auto using gap_line, quad_line; try (now apply word_line); [destruct A as (_ & A); eapply address_line; eauto|now apply (maybe_line "secondary")].
  - apply end_is_line in Z as (z' & -> & Z). exists (u "ip" ++ g ++ u "access-group" ++ g1 ++ n ++ g2 ++ d ++ z'). rewrite <- !app_assoc. split; [auto|]. rewrite !line_app.
    repeat split; auto using gap_line, name_line; try (now apply word_line). eapply words_line; [|eauto]. intros w [<-|[<-|[]]]; reflexivity.
  - apply end_is_line in Z as (z' & -> & Z). exists (u "ipv6" ++ g ++ u "address" ++ g1 ++ t ++ tp ++ s ++ z'). rewrite <- !app_assoc. split; [auto|]. rewrite !line_app.
    repeat split; auto using gap_line; try (now apply word_line); [destruct A as (_ & A); eapply address_line; eauto| |now apply (maybe_line "link-local")].
    destruct P as [|d p D]; [intros []|]. apply line_app. split; [intros [[=]|[]]|eapply digits_line; eauto].
  - apply end_is_line in Z as (z' & -> & Z). exists (u "ipv6" ++ g ++ u "traffic-filter" ++ g1 ++ n ++ g2 ++ d ++ z'). rewrite <- !app_assoc. split; [auto|]. rewrite !line_app.
    repeat split; auto using gap_line, name_line; try (now apply word_line). eapply words_line; [|eauto]. intros w [<-|[<-|[]]]; reflexivity.
  - exists (u "switchport" ++ g ++ u "mode" ++ g1 ++ m ++ q). rewrite <- !app_assoc. split; [auto|]. rewrite !line_app.
    repeat split; auto using gap_line; try (now apply word_line). eapply words_line; [|eauto]. intros w [<-|[<-|[]]]; reflexivity.
  - exists (u "switchport" ++ g ++ u "trunk" ++ g1 ++ u "allowed" ++ g2 ++ u "vlan" ++ g3 ++ t ++ q). rewrite <- !app_assoc. split; [auto|]. rewrite !line_app.
    repeat split; auto using gap_line; try (now apply word_line). destruct T as [l t T|g' l t G' T]; [eapply vlans_line; eauto|]. rewrite !line_app. repeat split; [now apply word_line|now apply gap_line|eapply vlans_line; eauto].
Qed.
Section IosLines.
  Context (isalpha isalnum isspace : N -> bool) (OK : classes_ok isalpha isalnum isspace).
  Notation kw := (kw isalpha isalnum).
  Notation tokens := (tokens isalpha isalnum).
  Notation ios_detail := (ios_detail isalpha isalnum).
  Notation kept := (ios_kept isalnum).
  Notation kw_then := (kw_then _ _ _ OK).

  Lemma maybe_ok w t z r : maybe w t -> clash (u w) lf = true -> clash (u w) [13%N] = true -> freewb (u w) = true -> end_line z ->
    exists x, popt (then_ ws (kw w)) (t ++ z ++ r) = POk x (z ++ r).
  Proof using OK.
    intros M C1 C2 F Z. destruct M as [-> |(g & G & ->)].
    - exists None. apply popt_none. cbn [app]. unfold then_. apply end_word in Z as (g & e & -> & G & Ee). rewrite <- app_assoc.
      assert (B : ~ starts is_blank (e ++ r)) by (destruct Ee as [-> | ->]; cbn [app lf]; rewrite starts_cons; discriminate).
      destruct G as [-> |G]; [now apply pbind_fail, ws_fail|]. eapply pbind_step; [now apply ws_gap|].
      destruct Ee as [-> | ->]; [now apply kw_clash|]. change ([13%N; 10%N] ++ r) with ([13%N] ++ 10%N :: r). now apply kw_clash.
    - exists (Some tt). apply popt_some. unfold then_. rewrite <- !app_assoc. gapped; [apply freew_noblank; [|now apply freewb_ok]|].
      + intros E. rewrite E in C1. discriminate C1.
      + apply kw_ok. now apply (sepw_stop _ _ _ OK), (sep_sepw _), end_sep.
  Qed.
  Lemma group_detail_ok w v f g g1 n g2 d z r : freewb (u v) = true -> u v <> [] -> gap g -> gap g1 -> name_text n -> gap g2 -> words ["in"; "out"]%string d -> end_line z ->
    idetail_group isalpha isalnum w v f (u w ++ g ++ u v ++ g1 ++ n ++ g2 ++ d ++ z ++ r) = POk (f n d) r.
  Proof using OK.
    intros Fv Nv G G1 N G2 D Z. unfold idetail_group. eapply pbind_step; [now apply kw_then|]. gapped; [apply freew_noblank; [auto|now apply freewb_ok]|].
    eapply pbind_step; [now apply kw_then|]. gapped; [apply freew_noblank; [apply N|now apply letter_name]|].
    eapply pbind_step; [apply obj_name_ok; [auto|now apply sep_no_obj, gap_sep]|].
    assert (Fd : d <> [] /\ freew d) by (destruct D as (x & [<-|[<-|[]]] & ->); (split; [discriminate|now apply freewb_ok])).
    gapped; [now apply freew_noblank|]. eapply pbind_step; [apply (tokens_ok _ _ _ OK _ d (z ++ r)); [reflexivity| |now apply sep_sepw, end_sep]|].
    - destruct D as (x & [<-|[<-|[]]] & ->); cbn; auto.
    - eapply pbind_step; [now apply line_end_ok|reflexivity].
  Qed.
  Lemma group_detail_sound w v f s d r : idetail_group isalpha isalnum w v f s = POk d r ->
    exists g g1 n g2 e z, s = (u w ++ g ++ u v ++ g1 ++ n ++ g2 ++ e ++ z) ++ r /\ gap g /\ gap g1 /\ name_text n /\ gap g2 /\ words ["in"; "out"]%string e /\ end_line z /\ d = f n e.
  Proof using.
    clear. unfold idetail_group. intros H. pinv H. apply ret_ok in H as (<- & ->). apply kw_sound in P as ->. apply ws_sound in P0 as (g & -> & G). apply kw_sound in P1 as ->. apply ws_iff in P2 as (g1 & G1 & -> & B).
    apply obj_name_sound in P3 as (-> & N). apply ws_iff in P4 as (g2 & G2 & -> & _). apply tokens_sound in P5 as (I & -> & _). apply line_end_sound in P6 as (z & -> & Z).
    destruct N as [-> |N].
    { exfalso. apply B. cbn [app]. destruct G2 as (Ng & Fg). destruct g2 as [|c g2]; [congruence|]. exists c, (g2 ++ a5 ++ z ++ r). split; [auto|]. apply is_blank_spec. apply Fg. now left. }
    exists g, g1, a3, g2, a5, z. split; [now rewrite <- !app_assoc|]. repeat split; auto; try apply G; try apply G1; try apply G2; try apply N.
    cbn in I. destruct I as [<-|[<-|[]]]; [exists "in"%string|exists "out"%string]; cbn; auto.
  Qed.
  Lemma opens_next q r : ~ opens_alnum isalnum q -> stop isalnum (q ++ lf ++ r).
  Proof using OK.
    intros N. unfold stop. destruct q as [|c q]; cbn.
    - pose proof (sep_stop _ _ _ OK (10%N :: r)) as S. apply S. exists r. auto.
    - destruct (isalnum c) eqn:A; [|auto]. destruct N. exists c, q. auto.
  Qed.
  Lemma kept_ok d t r : kept d t -> ios_detail (t ++ r) = POk d r.
  Proof using OK.
    intros K. unfold IosFile.ios_detail, choice. cbn [fold_right].
    destruct K as [g t G O B|g g1 t a g2 m s z G G1 A G2 M S Z|g g1 n g2 d z G G1 N G2 D Z|g g1 t a p tp s z G G1 A P S Z|g g1 n g2 d z G G1 N G2 D Z|g g1 m q G G1 M O Q|g g1 g2 g3 d l t q G G1 G2 G3 T O V]; rewrite <- !app_assoc.
    - apply por_l. now apply (descr_detail _ _ _ OK).
    - apply por_r; [now apply pbind_fail, kw_clash|]. apply por_l. apply quad_text_iff in A as (n & L & -> & ->). unfold idetail_ip4.
      destruct (maybe_ok "secondary" s z r S) as (x & X); auto.
      eapply pbind_step; [now apply kw_then|]. gapped; [now apply nostart|]. eapply pbind_step; [now apply kw_then|]. gapped; [now apply quad_noblank|].
      eapply pbind_step; [apply ip4_ok; [auto|now apply sep_no_digit, gap_sep]|]. gapped; [now apply quad_noblank|].
      eapply pbind_step; [apply ip4_ok; [auto|]|].
      { apply sep_no_digit. destruct S as [-> |(g' & G' & ->)]; [exact (end_sep z r Z)|]. rewrite <- app_assoc. now apply gap_sep. }
      eapply pbind_step; [exact X|]. eapply pbind_step; [now apply line_end_ok|]. reflexivity.
    - apply por_r; [now apply pbind_fail, kw_clash|]. apply por_r; [|apply por_l; now apply group_detail_ok].
      unfold idetail_ip4. eapply pbind_step; [now apply kw_then|]. gapped; [now apply nostart|]. now apply pbind_fail, kw_clash.
    - apply por_r; [now apply pbind_fail, kw_clash|]. apply por_r; [now apply ip_not_ipv6|]. apply por_r; [now apply ip_not_ipv6|]. apply por_l. unfold idetail_ip6.
      destruct A as (V & A). pose proof A as A0. apply (LineTextFacts.v6_text _ _ V) in A as (T & Ea).
      destruct (maybe_ok "link-local" s z r S) as (x & X); auto.
      assert (Sx : sep_start (s ++ z ++ r)) by (destruct S as [-> |(g' & G' & ->)]; [exact (end_sep z r Z)|rewrite <- app_assoc; now apply gap_sep]).
      eapply pbind_step; [now apply kw_then|]. gapped; [now apply nostart|]. eapply pbind_step; [now apply kw_then|]. gapped; [eapply addr_noblank; eauto|].
      eapply pbind_step; [apply ip6_ok; [exact T|]|].
      { destruct P as [|d p D]; [now apply sep_no_hdc|now apply nostart]. }
      destruct P as [|d p D].
      + eapply pbind_step; [apply popt_none; unfold then_; apply pbind_fail, char_fail|].
        { intros q E. destruct Sx as (q' & Sx). unfold pystr in *. cbn [app] in *. rewrite E in Sx. destruct Sx as [[=]|[[=]|[[=]|[=]]]]. }
        eapply pbind_step; [exact X|]. eapply pbind_step; [now apply line_end_ok|]. unfold ret. cbn [option_map]. now rewrite <- Ea.
      + eapply pbind_step; [apply popt_some; unfold then_; rewrite <- !app_assoc; eapply (pbind_step _ _ _ tt); [apply char_iff; reflexivity|]|].
        { apply int_dec. split; [eauto|now apply sep_no_digit]. }
        eapply pbind_step; [exact X|]. eapply pbind_step; [now apply line_end_ok|]. unfold ret. cbn [option_map]. apply decimal_text_spec in D as (_ & _ & ->). now rewrite <- Ea.
    - apply por_r; [now apply pbind_fail, kw_clash|]. apply por_r; [now apply ip_not_ipv6|]. apply por_r; [now apply ip_not_ipv6|]. apply por_r; [|apply por_l; now apply group_detail_ok].
      unfold idetail_ip6. eapply pbind_step; [now apply kw_then|]. gapped; [now apply nostart|]. now apply pbind_fail, kw_clash.
    - apply por_r; [now apply pbind_fail, kw_clash|]. apply por_r; [now apply pbind_fail, kw_clash|]. apply por_r; [now apply pbind_fail, kw_clash|]. apply por_r; [now apply pbind_fail, kw_clash|].
      apply por_r; [now apply pbind_fail, kw_clash|]. apply por_l. unfold idetail_switch. eapply pbind_step; [now apply kw_then|]. gapped; [now apply nostart|].
      eapply pbind_step; [|eapply pbind_step; [apply (line_end_ok lf); exists [], lf; split; [intros ? []|split; [now left|auto]]|reflexivity]].
      unfold switchport_cmd. apply por_l. eapply pbind_step; [now apply kw_then|].
      assert (Sm : stop isalnum (q ++ lf ++ r)) by now apply opens_next.
      destruct M as (x & [<-|[<-|[]]] & ->); (gapped; [now apply nostart|]).
      + eapply (pbind_step _ _ _ (u "access") (q ++ lf ++ r)); [|eapply pbind_step; [now apply toeol_ok|reflexivity]]. unfold AclText.tokens, choice. cbn [map fold_right]. apply por_l. apply token_ok. split; [auto|]. split; [auto|].
        unfold passes. now rewrite Sm, andb_false_r.
      + eapply (pbind_step _ _ _ (u "trunk") (q ++ lf ++ r)); [|eapply pbind_step; [now apply toeol_ok|reflexivity]]. unfold AclText.tokens, choice. cbn [map fold_right]. apply por_r; [|apply por_l; apply token_ok; split; [auto|]; split; [auto|]; unfold passes; now rewrite Sm, andb_false_r].
        unfold token. now rewrite clash_strip.
    - apply por_r; [now apply pbind_fail, kw_clash|]. apply por_r; [now apply pbind_fail, kw_clash|]. apply por_r; [now apply pbind_fail, kw_clash|]. apply por_r; [now apply pbind_fail, kw_clash|].
      apply por_r; [now apply pbind_fail, kw_clash|]. apply por_l. unfold idetail_switch. eapply pbind_step; [now apply kw_then|]. gapped; [now apply nostart|].
      eapply pbind_step; [|eapply pbind_step; [apply (line_end_ok lf); exists [], lf; split; [intros ? []|split; [now left|auto]]|reflexivity]].
      unfold switchport_cmd. apply por_r; [now apply pbind_fail, kw_clash|]. eapply pbind_step; [now apply kw_then|]. gapped; [now apply nostart|]. eapply pbind_step; [now apply kw_then|]. gapped; [now apply nostart|].
      eapply pbind_step; [now apply kw_then|]. apply (over_lf _ _ r) in V.
      assert (Dg : forall l t q, vlans_text l t -> exists c t', t ++ q = [c] ++ t' /\ is_digit c = true).
      { clear. intros l t q T. assert (X : exists c t', t = c :: t' /\ is_digit c = true).
        { assert (Y : forall v t, vlan_text v t -> exists c t', t = c :: t' /\ is_digit c = true).
          { clear. intros v t [d n D|a n b m D _]; apply decimal_text_spec in D as (N & F & _); [destruct d as [|c d]|destruct a as [|c d]]; try congruence; cbn [forallb] in F; apply andb_prop in F as (F & _); eexists _, _; (split; [reflexivity|auto]). }
          destruct T as [v t V|v t l t' V _]; apply Y in V as (c & t1 & -> & D); eexists _, _; (split; [reflexivity|auto]). }
        destruct X as (c & t' & -> & D). exists c, (t' ++ q). auto. }
      assert (Sb : forall s c t', s = [c] ++ t' -> is_digit c = true -> ~ starts is_blank s).
      { clear. intros s c t' -> D. cbn [app]. rewrite starts_cons. intros E. apply is_blank_spec in E as [-> | ->]; discriminate D. }
      destruct T as [l t T|g' l t G' T].
      + destruct (Dg l t (q ++ lf ++ r) T) as (c & t' & E & C). gapped; [eapply Sb; eauto|]. eapply (pbind_step _ _ _ _ (q ++ lf ++ r)); [|eapply pbind_step; [now apply toeol_ok|reflexivity]]. unfold trunk_op. apply por_r.
        * rewrite E. apply pbind_fail, kw_clash. change (clash (u "add") [c]) with (negb (97 =? c)%N || false). destruct (N.eqb_spec 97 c) as [<-|]; [discriminate C|reflexivity].
        * eapply pbind_step; [exact (vlan_list_ok l t (q ++ lf ++ r) T V)|reflexivity].
      + rewrite <- !app_assoc. gapped; [now apply nostart|]. eapply (pbind_step _ _ _ _ (q ++ lf ++ r)); [|eapply pbind_step; [now apply toeol_ok|reflexivity]]. unfold trunk_op. apply por_l. eapply pbind_step; [now apply kw_then|].
        destruct (Dg l t (q ++ lf ++ r) T) as (c & t' & E & C). gapped; [eapply Sb; eauto|]. eapply pbind_step; [exact (vlan_list_ok l t (q ++ lf ++ r) T V)|reflexivity].
  Qed.
  Lemma maybe_sound w s x r : popt (then_ ws (kw w)) s = POk x r -> exists t, s = t ++ r /\ maybe w t.
  Proof using.
    clear. intros H. apply popt_ok in H as [(y & -> & H)|(-> & -> & _)]; [|exists []; split; [auto|now left]]. unfold then_ in H. apply pbind_ok in H as (z & s1 & W & H).
    apply ws_sound in W as (g & -> & G). apply kw_sound in H as ->. exists (g ++ u w). split; [now rewrite <- app_assoc|]. right. exists g. auto.
  Qed.
  Lemma ip4_sound s d r : idetail_ip4 isalpha isalnum s = POk d r -> exists t, s = t ++ r /\ kept d t.
  Proof using.
    clear. unfold idetail_ip4. intros H. pinv H. apply ret_ok in H as (<- & ->). apply kw_sound in P as ->. apply ws_sound in P0 as (g & -> & G). apply kw_sound in P1 as ->. apply ws_sound in P2 as (g1 & -> & G1).
    apply quad_sound in P3 as (va & -> & La & ->). apply ws_sound in P4 as (g2 & -> & G2). apply quad_sound in P5 as (vm & -> & Lm & ->). apply maybe_sound in P6 as (t & -> & M). apply line_end_sound in P7 as (z & -> & Z). cbn [a_val].
    exists (u "ip" ++ g ++ u "address" ++ g1 ++ quad va ++ g2 ++ quad vm ++ t ++ z). split; [now rewrite <- !app_assoc|]. apply IK_ip4; auto. apply quad_text_iff. eauto.
  Qed.
  Lemma ip6_detail_sound s d r : idetail_ip6 isalpha isalnum s = POk d r -> exists t, s = t ++ r /\ kept d t.
  Proof using.
    clear. unfold idetail_ip6. intros H. pinv H. apply ret_ok in H as (<- & ->). apply kw_sound in P as ->. apply ws_sound in P0 as (g & -> & G). apply kw_sound in P1 as ->. apply ws_sound in P2 as (g1 & -> & G1).
    apply ip6_sound in P3 as (t & -> & V & T). apply maybe_sound in P5 as (m & -> & M). apply line_end_sound in P6 as (z & -> & Z).
    apply popt_ok in P4 as [(d & -> & P4)|(-> & <- & _)].
    - unfold then_ in P4. apply pbind_ok in P4 as (x & s1 & C & I). apply char_iff in C as ->. apply int_iff in I as (-> & Nd & Fd & _).
      exists (u "ipv6" ++ g ++ u "address" ++ g1 ++ t ++ (u "/" ++ d) ++ m ++ z). split; [rewrite <- !app_assoc; reflexivity|]. apply IK_ip6; auto; [now split|]. constructor. now apply dec_text.
    - exists (u "ipv6" ++ g ++ u "address" ++ g1 ++ t ++ [] ++ m ++ z). split; [rewrite <- !app_assoc; reflexivity|]. apply IK_ip6; auto; [now split|constructor].
  Qed.
  Lemma trunk_op_sound s d r : trunk_op isalpha isalnum s = POk d r -> exists l t, s = t ++ r /\ trunk_text d l t /\ vlans_over l r.
  Proof using.
    clear. unfold trunk_op. intros H. apply por_sound in H as [H|H]; pinv H; apply ret_ok in H as (<- & ->).
    - apply kw_sound in P as ->. apply ws_sound in P0 as (g & -> & G). apply vlan_list_sound in P1 as (t & -> & T & V). exists a1, (u "add" ++ g ++ t). split; [now rewrite <- !app_assoc|]. split; [now constructor|auto].
    - apply vlan_list_sound in P as (t & -> & T & V). exists a, t. split; [auto|]. split; [now constructor|auto].
  Qed.
  Lemma toeol_end s t s1 r : toeol s = POk t s1 -> line_end s1 = POk tt r -> s = t ++ lf ++ r /\ one_line t.
  Proof using.
    clear. intros T N. apply line_end_sound in N as (z & -> & Z). apply toeol_iff in T as (-> & O & E1). apply end_word in Z as (g & e & -> & G & Ee).
    assert (X : g ++ e = lf).
    { destruct E1 as [E1|(r' & E1)]; [destruct G as [-> |(Ng & _)]; [destruct Ee as [-> | ->]; discriminate E1|destruct g; [congruence|discriminate E1]]|].
      destruct G as [-> |(Ng & Fg)]; [destruct Ee as [-> | ->]; [auto|discriminate E1]|]. destruct g as [|c g]; [congruence|]. cbn [app] in E1. injection E1 as -> _. destruct (Fg 10%N (or_introl eq_refl)) as [[=]|[=]]. }
    rewrite X. auto.
  Qed.
  Lemma switch_sound s d r : idetail_switch isalpha isalnum s = POk d r -> exists t, s = t ++ r /\ kept d t.
  Proof using OK.
    unfold idetail_switch. intros H. pinv H. apply ret_ok in H as (<- & ->). apply kw_sound in P as ->. apply ws_sound in P0 as (g & -> & G).
    unfold switchport_cmd in P1. apply por_sound in P1 as [H|H].
    - pinv H. apply ret_ok in H as (<- & ->). apply kw_sound in P as ->. apply ws_sound in P0 as (g1 & -> & G1). apply tokens_sound in P1 as (I & -> & Pa). destruct a2. destruct (toeol_end _ _ _ _ P3 P2) as (-> & O).
      exists (u "switchport" ++ g ++ u "mode" ++ g1 ++ a5 ++ a6 ++ lf). split; [now rewrite <- !app_assoc|]. apply IK_mode; auto.
      + cbn in I. destruct I as [<-|[<-|[]]]; [exists "access"%string|exists "trunk"%string]; cbn; auto.
      + intros (c & q & -> & A). unfold passes in Pa. cbn [app next_alnum] in Pa. rewrite A, andb_true_r in Pa.
        cbn in I. destruct I as [<-|[<-|[]]]; rewrite (name_like_ok _ _ _ OK) in Pa by reflexivity; discriminate Pa.
    - pinv H. apply ret_ok in H as (<- & ->). apply kw_sound in P as ->. apply ws_sound in P0 as (g1 & -> & G1). apply kw_sound in P1 as ->. apply ws_sound in P3 as (g2 & -> & G2). apply kw_sound in P4 as ->. apply ws_sound in P5 as (g3 & -> & G3).
      apply trunk_op_sound in P6 as (l & t & -> & T & V). destruct a2. destruct (toeol_end _ _ _ _ P7 P2) as (-> & O). apply over_lf in V.
      match goal with |- context [t ++ ?q ++ lf ++ r] => exists (u "switchport" ++ g ++ u "trunk" ++ g1 ++ u "allowed" ++ g2 ++ u "vlan" ++ g3 ++ t ++ q ++ lf) end. split; [now rewrite <- !app_assoc|]. eapply IK_trunk; eauto.
  Qed.
  Lemma kept_unique l r d t r' : one_line l -> l ++ lf ++ r = t ++ r' -> kept d t -> t = l ++ lf /\ r = r'.
  Proof using.
    clear. intros O E K. apply kept_line in K as (l' & -> & O'). rewrite <- app_assoc in E.
    assert (X : l = l' /\ r = r'); [|destruct X as (-> & ->); auto]. revert l' O' E. induction l as [|c l IH]; intros [|c' l'] O' E; cbn [app lf] in E.
    - injection E as E. auto.
    - injection E as <- _. destruct O'. now left.
    - injection E as -> _. destruct O. now left.
    - injection E as <- E. apply IH in E as (-> & ->); [auto| |]; intros I; [apply O|apply O']; now right.
  Qed.
  Lemma other_ok l r : one_line l -> idetail_other (l ++ lf ++ r) = POk DNone r.
  Proof using. clear. intros O. unfold idetail_other. eapply pbind_step; [now apply toeol_ok|]. reflexivity. Qed.
  Lemma por_err {A} (p q : parser A) s e : por p q s = PErr e -> p s = PErr e \/ q s = PErr e.
  Proof using. clear. unfold por. destruct (p s); auto; discriminate. Qed.
  Lemma pbind_err {A B} (p : parser A) (f : A -> parser B) s e : pbind p f s = PErr e -> p s = PErr e \/ exists a r, p s = POk a r /\ f a r = PErr e.
  Proof using. clear. unfold pbind. destruct (p s) as [|e'|a r] eqn:Q; [discriminate| |]; intros H; [left; now injection H as ->|right; eauto]. Qed.
  Lemma never_group w v f : never (idetail_group isalpha isalnum w v f).
  Proof using. clear. unfold idetail_group. never. intros s e. unfold obj_name, pat0. destruct (span _ s). discriminate. Qed.
  Lemma never_switch : never (idetail_switch isalpha isalnum).
  Proof using. clear. unfold idetail_switch, switchport_cmd, trunk_op. never; apply never_vlan_list. Qed.
  Lemma refused_raises l r : one_line l -> refused_detail l -> ios_detail (l ++ lf ++ r) = PErr ValueError.
  Proof using OK.
    intros O H. unfold IosFile.ios_detail, choice. cbn [fold_right].
    destruct H as [g g1 q G G1 M|g g1 a g2 q G G1 A G2 M|g g1 q G G1 M]; assert (Oq : one_line q) by (rewrite !line_app in O; tauto); rewrite <- !app_assoc; (apply por_r; [now apply pbind_fail, kw_clash|]).
    - apply por_perr. unfold idetail_ip4. eapply pbind_step; [now apply kw_then|]. gapped; [now apply nostart|]. eapply pbind_step; [now apply kw_then|]. gapped; [now apply malformed4_noblank|].
      apply pbind_perr. now apply ip4_raises.
    - apply por_perr. unfold idetail_ip4. eapply pbind_step; [now apply kw_then|]. gapped; [now apply nostart|]. eapply pbind_step; [now apply kw_then|]. gapped; [now apply quad_noblank|].
      eapply pbind_step; [apply ip4_ok; [auto|now apply sep_no_digit, gap_sep]|]. gapped; [now apply malformed4_noblank|]. apply pbind_perr. now apply ip4_raises.
    - apply por_r; [now apply ip_not_ipv6|]. apply por_r; [now apply ip_not_ipv6|]. apply por_perr. unfold idetail_ip6. eapply pbind_step; [now apply kw_then|]. gapped; [now apply nostart|]. eapply pbind_step; [now apply kw_then|].
      gapped; [now apply malformed6_noblank|]. apply pbind_perr. now apply ip6_raises.
  Qed.
  Lemma raises_refused l r e : one_line l -> ios_detail (l ++ lf ++ r) = PErr e -> refused_detail l.
  Proof using OK.
    intros O H. unfold IosFile.ios_detail, choice in H. cbn [fold_right] in H.
    apply por_err in H as [H|H]; [|apply por_err in H as [H|H]; [|apply por_err in H as [H|H]; [|apply por_err in H as [H|H]; [|apply por_err in H as [H|H]; [|apply por_err in H as [H|H]]]]]].
    - exfalso. revert H. unfold detail_descr. match goal with |- ?p ?s = _ -> _ => assert (Nv : never p) by never; apply Nv end.
    - unfold idetail_ip4 in H. apply pbind_err in H as [H|(x & s1 & K & H)]; [now apply kw_noerr in H|]. apply kw_sound in K.
      apply pbind_err in H as [H|(y & s2 & W & H)]; [now apply never_ws in H|]. apply ws_sound in W as (g & -> & G).
      apply pbind_err in H as [H|(z & s3 & K2 & H)]; [now apply kw_noerr in H|]. apply kw_sound in K2 as ->.
      apply pbind_err in H as [H|(z1 & s4 & W & H)]; [now apply never_ws in H|]. apply ws_sound in W as (g1 & -> & G1).
      apply line_words in K as (q & -> & -> & Oq); [|auto|now apply word_line|now apply word_line|auto|auto].
      apply pbind_err in H as [H|(v & s5 & A & H)]; [apply ip4_raises in H as (_ & H); [now constructor|auto]|].
      apply quad_sound in A as (va & -> & La & A). apply line_split in A as (q2 & -> & ->); [|auto|now apply quad_line].
      apply pbind_err in H as [H|(w & s6 & W & H)]; [now apply never_ws in H|]. apply ws_sound in W as (g2 & W & G2).
      apply line_split in W as (q3 & -> & ->); [|now apply line_app in Oq|now apply gap_line]. rewrite !line_app in Oq. destruct Oq as (_ & _ & Oq).
      apply pbind_err in H as [H|(v & s7 & A & H)]; [apply ip4_raises in H as (_ & H); [now constructor|auto]|].
      exfalso. apply pbind_err in H as [H|(m & s8 & M & H)]; [revert H; apply never_popt, never_then; never|]. revert H. apply never_bind; [apply never_line_end|]. intros _. apply never_ret.
    - now apply never_group in H.
    - unfold idetail_ip6 in H. apply pbind_err in H as [H|(x & s1 & K & H)]; [now apply kw_noerr in H|]. apply kw_sound in K.
      apply pbind_err in H as [H|(y & s2 & W & H)]; [now apply never_ws in H|]. apply ws_sound in W as (g & -> & G).
      apply pbind_err in H as [H|(z & s3 & K2 & H)]; [now apply kw_noerr in H|]. apply kw_sound in K2 as ->.
      apply pbind_err in H as [H|(z1 & s4 & W & H)]; [now apply never_ws in H|]. apply ws_sound in W as (g1 & -> & G1).
      apply line_words in K as (q & -> & -> & Oq); [|auto|now apply word_line|now apply word_line|auto|auto].
      apply pbind_err in H as [H|(v & s5 & A & H)]; [apply ip6_raises in H as (_ & H); [now constructor|auto]|].
      exfalso. revert H. match goal with |- ?p ?s = _ -> _ => assert (Nv : never p) by never; apply Nv end.
    - now apply never_group in H.
    - now apply never_switch in H.
    - unfold por at 1 in H. rewrite other_ok in H by auto. discriminate H.
  Qed.
  Lemma detail_sound l r d r' : one_line l -> ios_detail (l ++ lf ++ r) = POk d r' ->
    (exists t, l ++ lf ++ r = t ++ r' /\ kept d t) \/ (d = DNone /\ r' = r /\ ios_unkept isalnum l /\ clean_detail l).
  Proof using OK.
    intros O H. assert (U : d = DNone -> ios_unkept isalnum l /\ clean_detail l).
    { intros ->. split; [|intros X; apply (refused_raises l r O) in X; congruence]. intros d0 K. pose proof (kept_ok d0 _ r K) as X. rewrite <- app_assoc, H in X. injection X as <- _. inversion K. match goal with T : trunk_text DNone _ _ |- _ => inversion T end. }
    unfold IosFile.ios_detail, choice in H. cbn [fold_right] in H.
    apply por_sound in H as [H|H]; [left|apply por_sound in H as [H|H]; [left; now apply ip4_sound|apply por_sound in H as [H|H]; [left|apply por_sound in H as [H|H]; [left; now apply ip6_detail_sound|apply por_sound in H as [H|H]; [left|apply por_sound in H as [H|H]; [left; now apply switch_sound|right]]]]]].
    - unfold detail_descr in H. pinv H. apply ret_ok in H as (<- & ->). apply kw_sound in P. apply ws_iff in P0 as (g & G & -> & B). destruct (toeol_nl_sound _ _ _ _ _ P1 P2) as (-> & O').
      rewrite P. exists (u "description" ++ g ++ a1 ++ lf). split; [now rewrite <- !app_assoc|]. constructor; auto. rewrite opens_starts. intros (c & q & -> & C). apply B. exists c, (q ++ lf ++ r'). auto.
    - apply group_detail_sound in H as (g & g1 & n & g2 & e & z & -> & G & G1 & N & G2 & E & Z & ->). eexists. split; [reflexivity|]. now constructor.
    - apply group_detail_sound in H as (g & g1 & n & g2 & e & z & -> & G & G1 & N & G2 & E & Z & ->). eexists. split; [reflexivity|]. now constructor.
    - unfold por at 1 in H. rewrite other_ok in H by auto. injection H as <- <-. auto.
  Qed.
  Lemma other_line_ok l r : one_line l -> ios_unkept isalnum l -> clean_detail l -> ios_detail (l ++ lf ++ r) = POk DNone r.
  Proof using OK.
    intros O U C. destruct (ios_detail (l ++ lf ++ r)) as [|e|d r'] eqn:H.
    - exfalso. revert H. unfold IosFile.ios_detail, choice. cbn [fold_right]. do 6 (unfold por at 1; match goal with |- context [match ?x with PFail => _ | _ => _ end] => destruct x; try discriminate end). unfold por at 1. now rewrite other_ok by auto.
    - now apply raises_refused in H.
    - apply detail_sound in H as [(t & E & K)|(-> & -> & _)]; [|auto|auto]. apply (kept_unique l r d t r' O E) in K as K'. destruct K' as (-> & _). now apply U in K.
  Qed.
  Lemma details_sound s l r : ended s -> many (then_ sp ios_detail) s = POk l r -> exists t, s = t ++ r /\ ios_details isalnum clean_detail l t.
  Proof using OK.
    intros En H. apply many_chain in H. induction H as [s|x l s s1 r P _ _ IH]; [exists []; split; [auto|constructor]|].
    unfold then_ in P. apply pbind_ok in P as (y & s2 & Sp & P). apply sp_ok in Sp. subst. assert (E2 : ended s2) by (apply (ended_app [32%N]), En).
    assert (N2 : s2 <> []) by (intros ->; destruct En as [[=]|([|? [|]] & E)]; discriminate E). apply ended_line in E2 as E'; [|auto]. destruct E' as (q & r2 & -> & O).
    apply detail_sound in P as [(t & E & K)|(-> & -> & U)]; [| |auto].
    - rewrite E in E2. apply ended_app in E2. apply IH in E2 as (t' & -> & T). exists (u " " ++ t ++ t'). split; [rewrite <- !app_assoc, E; reflexivity|now constructor].
    - apply ended_app, (ended_app lf) in E2. apply IH in E2 as (t' & -> & T). exists (u " " ++ q ++ lf ++ t'). split; [rewrite <- !app_assoc; reflexivity|now constructor].
  Qed.
  Lemma details_ok l t r : ios_details isalnum clean_detail l t -> ~ indented r -> many (then_ sp ios_detail) (t ++ r) = POk l r.
  Proof using OK.
    intros T N. apply chain_many; [|unfold then_; now apply pbind_fail, sp_fail].
    induction T as [|d t l ts K _ IH|t l ts O U F _ IH]; [constructor| |]; rewrite <- !app_assoc; (eapply Ch_cons; [| |exact IH]).
    - unfold then_. eapply pbind_step; [apply sp_cons|]. now apply kept_ok.
    - rewrite !app_length. change (length (u " ")) with 1%nat. unfold pystr in *. lia.
    - unfold then_. eapply pbind_step; [apply sp_cons|]. now apply other_line_ok.
    - rewrite !app_length. change (length (u " ")) with 1%nat. unfold pystr in *. lia.
  Qed.
  Lemma interface_sound s a l r : ended s -> ios_interface isalpha isalnum isspace s = POk (a, l) r -> exists t, s = t ++ r /\ ios_iface_text isalnum isspace clean_detail a l t.
  Proof using OK.
    intros En H. unfold ios_interface in H. pinv H. apply ret_ok in H as ([= <- <-] & ->). apply kw_sound in P as ->. apply ws_sound in P0 as (g & -> & G). apply string_iff in P1 as (-> & U & _). apply nl_sound in P2 as (z & -> & Z).
    do 4 apply ended_app in En. apply details_sound in P3 as (t & -> & T); [|auto].
    exists (u "interface" ++ g ++ a2 ++ z ++ t). split; [now rewrite <- !app_assoc|]. now constructor.
  Qed.
  Lemma interface_ok a l t r : ios_iface_text isalnum isspace clean_detail a l t -> ~ indented r -> ios_interface isalpha isalnum isspace (t ++ r) = POk (a, l) r.
  Proof using OK.
    intros [g a' z l' t' G U Z T] N. unfold ios_interface. rewrite <- !app_assoc. eapply pbind_step; [now apply kw_then|]. gapped; [eapply url_noblank; eauto|].
    eapply pbind_step; [eapply fqdn_space; eauto|]. eapply pbind_step; [now apply nl_ok|]. eapply pbind_step; [exact (details_ok _ _ _ T N)|reflexivity].
  Qed.
End IosLines.
