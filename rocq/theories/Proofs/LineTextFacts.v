(** Lemmas on Model/LineText.v. *)
From Coq Require Import Lia String Arith.
From Verif.Model Require Import Base Ip Hosts Groups Rules Nat Iface Peg Ids AddrText Ports AclText Define GroupText ObjText LineText.
From Verif.Spec Require Import AddrSpec RefSpec AddrTextSpec CafTextSpec CafMeanSpec AclTextSpec GroupTextSpec ObjTextSpec LineTextSpec RefusedSpec.
From Verif.Proofs Require Import GroupOps DictFacts PegFacts AddrTextFacts CafTextFacts TokFacts CafMean LineFacts AclTextFacts AclOptFacts GroupTextFacts ObjTextFacts NoErr.
From Verif.Proofs Require Export RefusedFacts.
From Verif.Props Require Import AclText.
Local Open Scope list_scope.

Lemma opens_starts t : opens_blank t <-> starts is_blank t.
Proof.
  split; [intros (c & q & -> & C); exists c, q; split; [auto|now apply is_blank_spec]|].
  intros (c & q & -> & C). exists c, q. split; [auto|]. now apply is_blank_spec.
Qed.
Lemma toeol_ok t r : one_line t -> toeol (t ++ lf ++ r) = POk t (lf ++ r).
Proof. intros N. apply toeol_iff. split; [auto|]. split; [auto|]. right. eexists. reflexivity. Qed.
Lemma lf_ok r : nl (lf ++ r) = POk tt r.
Proof. reflexivity. Qed.
(** [TOEOL NL] *)
Lemma toeol_nl_sound s t s1 x r : toeol s = POk t s1 -> nl s1 = POk x r -> s = t ++ lf ++ r /\ one_line t.
Proof.
  intros T N. apply toeol_iff in T as (-> & O & E1). apply nl_iff in N as (z & Z & ->).
  assert (z = [10%N]) as ->; [|auto]. destruct Z as [-> | ->]; [auto|]. destruct E1 as [E1|(r' & E1)]; discriminate.
Qed.
Lemma lit_sound t s x r : lit t s = POk x r -> x = t /\ s = t ++ r.
Proof. unfold lit. destruct (strip_prefix t s) eqn:S; [|discriminate]. intros [= <- <-]. apply strip_spec in S. auto. Qed.
Lemma lit_ok t r : lit t (t ++ r) = POk t r.
Proof. unfold lit. now rewrite (proj2 (strip_spec t (t ++ r) r) eq_refl). Qed.
Lemma lit_clash t v r : clash t v = true -> lit t (v ++ r) = PFail.
Proof. intros C. unfold lit. now rewrite clash_strip. Qed.
Lemma ws_noerr s e : ws s <> PErr e.
Proof. unfold ws, pbind, pat1, ret. destruct (span is_blank s) as [[|] ?]; discriminate. Qed.
Lemma starts_app_sep f z r : end_text z -> f 32%N = false -> f 9%N = false -> f 13%N = false -> f 10%N = false -> ~ starts f (z ++ r).
Proof.
  intros Z A B C D. apply end_sep with (r := r) in Z. destruct Z as (q & [-> |[-> |[-> | ->]]]); rewrite starts_cons; congruence.
Qed.

(** ** Numbers of a fixed width *)
Lemma dec_text d : d <> [] -> forallb is_digit d = true -> decimal_text d (int10 d).
Proof. intros N D. apply decimal_text_spec. auto. Qed.
Lemma digits12_ok t r : t <> [] -> (length t <= 2)%nat -> forallb is_digit t = true -> ~ starts is_digit r -> digits12 (t ++ r) = POk t r.
Proof.
  intros N L D R. destruct t as [|a [|b [|c t]]]; [congruence| | |cbn in L; lia]; cbn [forallb] in D.
  - rewrite andb_true_r in D. destruct r as [|b r]; cbn [app digits12]; rewrite D; [auto|]. rewrite starts_cons in R. destruct (is_digit b); [now destruct R|auto].
  - rewrite !andb_true_iff in D. destruct D as (A & B & _). cbn [app digits12]. now rewrite A, B.
Qed.
Lemma digits12_sound s t r : digits12 s = POk t r -> s = t ++ r /\ t <> [] /\ (length t <= 2)%nat /\ forallb is_digit t = true.
Proof.
  unfold digits12. destruct s as [|a [|b s]]; [discriminate| |].
  - destruct (is_digit a) eqn:A; [|discriminate]. intros [= <- <-]. cbn [forallb length]. rewrite A. repeat split; (discriminate || lia).
  - destruct (is_digit a) eqn:A; [|discriminate]. destruct (is_digit b) eqn:B; intros [= <- <-]; cbn [forallb length]; rewrite A, ?B; repeat split; (discriminate || lia).
Qed.
Lemma digits12_nodigit s : ~ starts is_digit s -> digits12 s = PFail.
Proof.
  intros N. destruct s as [|a [|b s]]; [auto| |]; rewrite starts_cons in N; unfold digits12; (destruct (is_digit a); [now destruct N|auto]).
Qed.
Lemma digits4_ok t r : length t = 4%nat -> forallb is_digit t = true -> digits4 (t ++ r) = POk t r.
Proof.
  intros L D. destruct t as [|a [|b [|c [|d [|e t]]]]]; try discriminate L. cbn [forallb] in D. rewrite !andb_true_iff in D. destruct D as (A & B & C & F & _).
  cbn [app digits4]. now rewrite A, B, C, F.
Qed.
Lemma digits4_sound s t r : digits4 s = POk t r -> s = t ++ r /\ length t = 4%nat /\ forallb is_digit t = true.
Proof.
  unfold digits4. destruct s as [|a [|b [|c [|d s]]]]; try discriminate. destruct (is_digit a && is_digit b && is_digit c && is_digit d) eqn:D; [|discriminate].
  intros [= <- <-]. split; [auto|]. split; [auto|]. cbn [forallb]. rewrite !andb_true_iff in *. tauto.
Qed.
Lemma short_sound s t r : digits12 s = POk t r -> s = t ++ r /\ short_number t (int10 t).
Proof. intros H. apply digits12_sound in H as (-> & N & L & D). split; [auto|]. split; [now apply dec_text|auto]. Qed.
Lemma short_ok t v r : short_number t v -> ~ starts is_digit r -> digits12 (t ++ r) = POk t r /\ int10 t = v.
Proof. intros (D & L) R. apply decimal_text_spec in D as (N & D & V). split; [now apply digits12_ok|auto]. Qed.
Lemma short_noblank t v r : short_number t v -> ~ starts is_blank (t ++ r).
Proof. intros (D & _). apply decimal_text_spec in D as (N & D & _). apply freew_noblank; [auto|now apply digits_freew]. Qed.
Lemma colon_nodigit r : ~ starts is_digit (u ":" ++ r). Proof. now apply nostart. Qed.

(** ** Times *)
Lemma leap_spec y : is_leap y = true <-> leap y.
Proof.
  unfold is_leap, leap. rewrite andb_true_iff, orb_true_iff, negb_true_iff, !N.eqb_eq, N.eqb_neq. tauto.
Qed.
Lemma month_spec t y : In t month_names <-> exists n len, month_text t n y len.
Proof.
  split.
  - intros I. unfold month_names in I. cbn [map In] in I.
    assert (L : forall m s, In (m, s) [(1%N, "January"); (3%N, "March"); (5%N, "May"); (7%N, "July"); (8%N, "August"); (10%N, "October"); (12%N, "December")]%string -> exists n len, month_text (u s) n y len) by (intros; eexists _, _; eapply MT_long; eauto).
    assert (S : forall m s, In (m, s) [(4%N, "April"); (6%N, "June"); (9%N, "September"); (11%N, "November")]%string -> exists n len, month_text (u s) n y len) by (intros; eexists _, _; eapply MT_short; eauto).
    assert (F : exists n len, month_text (u "February") n y len).
    { destruct (is_leap y) eqn:E; [apply leap_spec in E; eexists _, _; now apply MT_february_leap|eexists _, _; apply MT_february; rewrite <- leap_spec; congruence]. }
    repeat (destruct I as [<-|I]; [first [exact F|eapply L; cbn; tauto|eapply S; cbn; tauto]|]). destruct I.
  - intros (n & len & M). destruct M as [n s y I|n s y I|y _|y _]; [| |right; now left|right; now left];
      cbn in I; repeat (destruct I as [[= <- <-]|I]; [unfold month_names; cbn [map]; repeat (first [now left|right])|]); destruct I.
Qed.
Lemma month_value t n y len : month_text t n y len -> month_number t = n /\ days_in_month y n = len.
Proof.
  intros M. destruct M as [n s y I|n s y I|y L|y L].
  - cbn in I; repeat (destruct I as [[= <- <-]|I]; [split; [reflexivity|]; unfold days_in_month; cbn [N.eqb Pos.eqb andb]; reflexivity|]); destruct I.
  - cbn in I; repeat (destruct I as [[= <- <-]|I]; [split; [reflexivity|]; unfold days_in_month; cbn [N.eqb Pos.eqb andb]; reflexivity|]); destruct I.
  - split; [reflexivity|]. rewrite <- leap_spec in L. unfold days_in_month. destruct (is_leap y); [now destruct L|reflexivity].
  - split; [reflexivity|]. rewrite <- leap_spec in L. unfold days_in_month. now rewrite L.
Qed.
Lemma hm_sound s x r : hour_minute s = POk x r -> exists th tm, s = (th ++ u ":" ++ tm) ++ r /\ short_number th (fst x) /\ short_number tm (snd x).
Proof.
  unfold hour_minute. intros H. pinv H. apply ret_ok in H as (<- & ->). apply short_sound in P as (-> & A). destruct a0. apply char_ok in P0. subst. apply short_sound in P1 as (-> & B).
  exists a, a1. split; [now rewrite <- !app_assoc|auto].
Qed.
Lemma hm_ok th h tm m r : short_number th h -> short_number tm m -> ~ starts is_digit r -> hour_minute ((th ++ u ":" ++ tm) ++ r) = POk (h, m) r.
Proof.
  intros H M R. rewrite <- !app_assoc. unfold hour_minute. destruct (short_ok th h (u ":" ++ tm ++ r) H (colon_nodigit _)) as (A & V). destruct (short_ok tm m r M R) as (B & W).
  eapply pbind_step; [exact A|]. eapply pbind_step; [apply char_ok; reflexivity|]. eapply pbind_step; [exact B|]. unfold ret. now rewrite V, W.
Qed.
Lemma check_time_spec h m t : check_time h m = Ok t <-> (h < 24)%N /\ (m < 60)%N /\ t = mktod h m.
Proof.
  unfold check_time. destruct (N.leb_spec h 23), (N.leb_spec m 59); cbn [andb]; split; try discriminate; try (intros (? & ? & _); lia).
  - intros [= <-]. repeat split; lia.
  - intros (_ & _ & ->). reflexivity.
Qed.
Lemma time_sound s x r : time s = POk x r -> exists t, s = t ++ r /\ tod_text x t.
Proof.
  unfold time. intros H. apply act_ok in H as ((h & m) & H & C). apply hm_sound in H as (th & tm & -> & A & B). apply check_time_spec in C as (L & L' & ->).
  eexists. split; [reflexivity|]. now constructor.
Qed.
Lemma time_ok x t r : tod_text x t -> ~ starts is_digit r -> time (t ++ r) = POk x r.
Proof.
  intros [h m th tm H M L L'] R. unfold time. apply act_ok. exists (h, m). split; [now apply hm_ok|]. cbn [fst snd]. apply check_time_spec. auto.
Qed.
Lemma tod_noblank x t r : tod_text x t -> ~ starts is_blank (t ++ r).
Proof. intros [h m th tm H M L L']. rewrite <- !app_assoc. eapply short_noblank; eauto. Qed.

Section Lines.
  Context (isalpha isalnum isspace : N -> bool) (OK : classes_ok isalpha isalnum isspace).
  Notation kw := (kw isalpha isalnum).
  Notation tokens := (tokens isalpha isalnum).
  Notation timedate := (timedate isalpha isalnum).
  Notation bound := (bound isalpha isalnum).
  Notation time_range_object := (time_range_object isalpha isalnum).

  Lemma timedate_sound s x r : timedate s = POk x r -> exists t, s = t ++ r /\ moment_text x t.
  Proof using.
    unfold LineText.timedate. intros H. apply act_ok in H as ((((h & mi) & d & mo) & y) & H & C) || apply act_ok in H as (((((h & mi) & d) & mo) & y) & H & C).
    pinv H. apply ret_ok in H as ([= <- <- <- <- <-] & ->). apply hm_sound in P as (th & tm & -> & A & B). apply ws_sound in P0 as (g & -> & G). apply short_sound in P1 as (-> & D).
    apply ws_sound in P2 as (g1 & -> & G1). apply tokens_sound in P3 as (I & -> & _). apply ws_sound in P4 as (g2 & -> & G2). apply digits4_sound in P5 as (-> & L & Dy).
    unfold check_moment in C. destruct (_ && _) eqn:E in C; [|discriminate]. rewrite !andb_true_iff, !N.leb_le in E. destruct E as ((Y & D1) & D2).
    destruct (check_time _ _) as [t|] eqn:Ct in C; [|discriminate]. cbn [bind] in C. injection C as <-. apply check_time_spec in Ct as (Lh & Lm & ->).
    apply (month_spec _ (int10 a5)) in I as (n & len & M). pose proof (month_value _ _ _ _ M) as (<- & E). rewrite E in D2.
    assert (T : tod_text (mktod (fst a) (snd a)) (th ++ u ":" ++ tm)) by now constructor. assert (Ty : decimal_text a5 (int10 a5)) by (apply dec_text; [destruct a5; discriminate|auto]).
    exists ((th ++ u ":" ++ tm) ++ g ++ a1 ++ g1 ++ a3 ++ g2 ++ a5). split; [now rewrite <- !app_assoc|]. eapply MO; eauto.
  Qed.
  Lemma year_free ty y r : decimal_text ty y -> ~ starts is_blank (ty ++ r).
  Proof using. clear. intros D. apply decimal_text_spec in D as (N & D & _). apply freew_noblank; [auto|now apply digits_freew]. Qed.
  Lemma timedate_ok x t r : moment_text x t -> timedate (t ++ r) = POk x r.
  Proof using OK.
    intros [t0 tx g td d g1 tm m y len g2 ty T G D G1 M G2 Y Ly Y1 D1]. unfold LineText.timedate. rewrite <- !app_assoc.
    destruct T as [h mi th tmi H Mi L L']. pose proof (month_value _ _ _ _ M) as (<- & E). pose proof (proj2 (month_spec tm y) (ex_intro _ _ (ex_intro _ _ M))) as I.
    apply decimal_text_spec in Y as Y'. destruct Y' as (Ny & Dy & Vy).
    apply act_ok. exists (h, mi, d, month_number tm, y). split.
    - eapply pbind_step; [apply (hm_ok th h tmi mi); auto; now apply sep_no_digit, gap_sep|]. eapply pbind_step; [apply ws_gap; [auto|eapply short_noblank; eauto]|].
      destruct (short_ok td d (g1 ++ tm ++ g2 ++ ty ++ r) D) as (A & V); [now apply sep_no_digit, gap_sep|]. eapply pbind_step; [exact A|].
      assert (Cl : clear_list month_names = true) by reflexivity. pose proof (clear_in _ _ Cl I) as (_ & Fm).
      eapply pbind_step; [apply ws_gap; [auto|]|].
      { apply freew_noblank; [|now apply freewb_ok]. intros ->. cbn in I. repeat (destruct I as [I|I]; [discriminate I|]). destruct I. }
      eapply pbind_step; [apply (tokens_ok _ _ _ OK); auto; now apply gap_sepw|]. eapply pbind_step; [apply ws_gap; [auto|eapply year_free; eauto]|].
      eapply pbind_step; [now apply digits4_ok|]. unfold ret. cbn [fst snd]. now rewrite V, Vy.
    - unfold check_moment. rewrite E. assert (B : (1 <=? y)%N && (1 <=? d)%N && (d <=? len)%N = true) by (rewrite !andb_true_iff, !N.leb_le; tauto). rewrite B.
      rewrite (proj2 (check_time_spec h mi _) (conj L (conj L' eq_refl))). reflexivity.
  Qed.
  Lemma bound_sound w s x r : bound w s = POk x r -> exists t, s = t ++ r /\ bound_text w x t.
  Proof using.
    unfold LineText.bound. intros H. apply popt_ok in H as [(m & -> & H)|(-> & -> & _)]; [|exists []; split; [auto|constructor]]. pinv H.
    apply ws_sound in P as (g & -> & G). apply kw_sound in P0 as ->. apply ws_sound in P1 as (g' & -> & G'). apply timedate_sound in H as (t & -> & T).
    exists (g ++ u w ++ g' ++ t). split; [now rewrite <- !app_assoc|now constructor].
  Qed.
  Lemma moment_noblank x t r : moment_text x t -> ~ starts is_blank (t ++ r).
  Proof using. clear. intros [t0 tx g td d g1 tm m y len g2 ty T]. rewrite <- !app_assoc. eapply tod_noblank; eauto. Qed.
  Lemma bound_some w m t r : freewb (u w) = true -> u w <> [] -> bound_text w (Some m) t -> bound w (t ++ r) = POk (Some m) r.
  Proof using OK.
    intros F N T. inversion T as [|g g' m' t' G G' M]; subst. rewrite <- !app_assoc. unfold LineText.bound. apply popt_some.
    eapply pbind_step; [apply ws_gap; [auto|apply freew_noblank; [auto|now apply freewb_ok]]|]. apply (kwws_step isalpha isalnum isspace OK); [auto|eapply moment_noblank; eauto|]. now apply timedate_ok.
  Qed.
  Lemma bound_none w s : (forall q g, gap g -> s <> g ++ u w ++ q) -> bound w s = POk None s.
  Proof using.
    clear. intros N. unfold LineText.bound. apply popt_none. unfold pbind at 1. destruct (ws s) as [|e|x q] eqn:W; [auto|now apply ws_noerr in W|].
    apply ws_sound in W as (g & -> & G). apply pbind_fail. destruct (kw w q) as [|e|y q'] eqn:K; [auto|now apply kw_noerr in K|]. apply kw_sound in K as ->. exfalso. now apply (N q' g G).
  Qed.
  Lemma day_alone d d' q : In d day_names -> In d' day_names -> passes isalpha isalnum d (d' ++ q) -> False.
  Proof using OK.
    intros I I' P. unfold passes in P. assert (A : forallb (fun d => ascii d && name_like ascii_alpha ascii_alnum d && match d with c :: _ => (c <? 128)%N && ascii_alnum c | [] => false end) day_names = true) by reflexivity.
    rewrite forallb_forall in A. pose proof (A _ I) as B. pose proof (A _ I') as B'. rewrite !andb_true_iff in B, B'. destruct B as ((Ad & Nd) & _), B' as (_ & B').
    rewrite (name_like_ok _ _ _ OK), Nd in P by auto. destruct d' as [|c d']; [discriminate|]. apply andb_true_iff in B' as (L & C). cbn [app next_alnum] in P. rewrite (alnum_ok _ _ _ OK), C in P by auto. discriminate P.
  Qed.
  Lemma weekday_spec d : weekday d <-> In d day_names.
  Proof using.
    clear. unfold weekday, words, day_names. split.
    - intros (w & I & ->). now apply in_map.
    - intros I. apply in_map_iff in I as (w & <- & I). eauto.
  Qed.
  Lemma timeobj_sound s x r : time_range_object s = POk x r ->
    exists t, s = t ++ r /\ match x with Some x => timeobj_text x t | None => exists g l, gap g /\ one_line l /\ ~ opens_blank l /\ t = u "no" ++ g ++ l ++ lf end.
  Proof using OK.
    unfold LineText.time_range_object, choice. cbn [fold_right]. intros H. apply por_sound in H as [H|H]; [|apply por_sound in H as [H|H]; [|apply por_sound in H as [H|H]; [|apply por_sound in H as [H|H]; [|discriminate]]]].
    - pinv H. apply ret_ok in H as (<- & ->). apply kw_sound in P as ->. apply ws_sound in P0 as (g & -> & G).
      unfold many1 in P1. apply pbind_ok in P1 as (d & s1a & Pd & P1). apply pbind_ok in P1 as (l & s2a & Pl & P1). apply ret_ok in P1 as (<- & ->).
      apply ws_sound in P2 as (g1 & -> & G1). apply tokens_sound in Pd as (I & -> & Ps).
      assert (l = []) as ->; [destruct l as [|d' l]; [auto|exfalso]; apply many_inv in Pl as (s1' & Pl & _); apply tokens_sound in Pl as (I' & -> & _); now apply day_alone in Ps|].
      apply many_inv in Pl as ->. apply time_sound in P3 as (ts & -> & Ts). apply ws_sound in P4 as (g2 & -> & G2). apply kw_sound in P5 as ->. apply ws_sound in P6 as (g3 & -> & G3).
      apply weekday_spec in I. apply popt_ok in P7 as [(d' & -> & P7)|(-> & -> & _)].
      + pinv P7. apply ret_ok in P7 as (<- & ->). apply tokens_sound in P as (I' & -> & _). apply ws_sound in P0 as (g4 & -> & G4). apply time_sound in P8 as (te & -> & Te). apply nl_sound in P9 as (z & -> & Z).
        eexists. split; [|eapply (TO_days g d g1 _ ts g2 g3 _ g4 _ te z); eauto; now apply weekday_spec]. now rewrite <- !app_assoc.
      + apply time_sound in P8 as (te & -> & Te). apply nl_sound in P9 as (z & -> & Z).
        eexists. split; [|eapply (TO_day g d g1 _ ts g2 g3 _ te z); eauto]. now rewrite <- !app_assoc.
    - pinv H. apply ret_ok in H as (<- & ->). apply kw_sound in P as ->. apply ws_sound in P0 as (g & -> & G). apply tokens_sound in P1 as (I & -> & _).
      apply ws_sound in P2 as (g1 & -> & G1). apply time_sound in P3 as (ts & -> & Ts). apply ws_sound in P4 as (g2 & -> & G2). apply kw_sound in P5 as ->. apply ws_sound in P6 as (g3 & -> & G3).
      apply time_sound in P7 as (te & -> & Te). apply nl_sound in P8 as (z & -> & Z).
      assert (W : words ["weekdays"; "weekend"; "daily"]%string a1) by (destruct I as [<-|[<-|[<-|[]]]]; [exists "weekdays"%string|exists "weekend"%string|exists "daily"%string]; cbn; auto).
      eexists. split; [|eapply (TO_kind g a1 g1 _ ts g2 g3 _ te z); eauto]. now rewrite <- !app_assoc.
    - pinv H. apply ret_ok in H as (<- & ->). apply kw_sound in P as ->. apply bound_sound in P0 as (ta & -> & Ta). apply bound_sound in P1 as (tb & -> & Tb). apply nl_sound in P2 as (z & -> & Z).
      eexists. split; [|eapply (TO_absolute _ ta _ tb z); eauto]. now rewrite <- !app_assoc.
    - pinv H. apply ret_ok in H as (<- & ->). apply kw_sound in P as ->. apply ws_iff in P0 as (g & G & -> & B). destruct (toeol_nl_sound _ _ _ _ _ P1 P2) as (-> & O).
      exists (u "no" ++ g ++ a1 ++ lf). split; [now rewrite <- !app_assoc|]. exists g, a1. split; [auto|]. split; [auto|]. split; [|auto]. rewrite opens_starts.
      intros (c & q & -> & C). apply B. exists c, (q ++ lf ++ r). auto.
  Qed.
  Lemma tokens_start l f s : forallb (fun w => match w with c :: _ => negb (f c) | [] => false end) l = true -> starts f s -> tokens l s = PFail.
  Proof using.
    clear. intros L (c & q & -> & C). destruct (tokens l (c :: q)) as [|e|n r] eqn:T; [auto|now apply tokens_noerr in T|]. apply tokens_sound in T as (I & E & _).
    rewrite forallb_forall in L. specialize (L n I). destruct n as [|d n]; [discriminate|]. injection E as <- _. now rewrite C in L.
  Qed.
  Lemma kw_start w f s : match u w with c :: _ => negb (f c) | [] => false end = true -> starts f s -> kw w s = PFail.
  Proof using.
    clear. intros L (c & q & -> & C). destruct (kw w (c :: q)) as [|e|n r] eqn:T; [auto|now apply kw_noerr in T|]. apply kw_sound in T.
    destruct (u w) as [|d n']; [discriminate|]. injection T as <- _. now rewrite C in L.
  Qed.
  Lemma tod_digit x t r : tod_text x t -> starts is_digit (t ++ r).
  Proof using.
    clear. intros [h m th tm (D & _)]. apply decimal_text_spec in D as (N & D & _). destruct th as [|c th]; [congruence|]. cbn [forallb] in D. apply andb_true_iff in D as (D & _).
    cbn [app]. rewrite starts_cons. exact D.
  Qed.
  Lemma gap_cancel g g' a b : gap g -> gap g' -> ~ starts is_blank a -> ~ starts is_blank b -> g ++ a = g' ++ b -> g = g' /\ a = b.
  Proof using.
    clear. intros G G' A B E. assert (X : a = b); [|subst; split; [now apply app_inv_tail in E|auto]].
    pose proof (ws_gap g a G A) as W. rewrite E, (ws_gap g' b G' B) in W. now injection W.
  Qed.
  Lemma day_list d r : In d day_names -> starts is_blank r -> sep_start r -> many1 (tokens day_names) (d ++ r) = POk [d] r.
  Proof using OK.
    intros I B S. unfold many1. eapply pbind_step; [apply (tokens_ok _ _ _ OK); [reflexivity|auto|now apply sep_sepw]|].
    eapply pbind_step; [apply many_stop, (tokens_start _ is_blank); auto; reflexivity|]. reflexivity.
  Qed.
  Lemma list_noblank l w r : clear_list l = true -> forallb (fun w => negb (str_eqb w [])) l = true -> In w l -> ~ starts is_blank (w ++ r).
  Proof using.
    clear. intros C N I. apply (clear_in _ _ C) in I as F. rewrite forallb_forall in N. specialize (N w I). apply freew_noblank; [|now apply freewb_ok]. intros ->. discriminate.
  Qed.
  Lemma kw_then w g r : gap g -> kw w (u w ++ g ++ r) = POk tt (g ++ r).
  Proof using OK. intros G. apply kw_ok. now apply (gap_stop _ _ _ OK). Qed.
  Ltac gapped := eapply pbind_step; [apply ws_gap; [auto|]|].
  Lemma timeobj_ok x t r : timeobj_text x t -> time_range_object (t ++ r) = POk (Some x) r.
  Proof using OK.
    intros T. unfold LineText.time_range_object, choice. cbn [fold_right].
    destruct T as [g d g1 s ts g2 g3 e te z G D G1 S G2 G3 E Z|g d g1 s ts g2 g3 d' g4 e te z G D G1 S G2 G3 D' G4 E Z|g w g1 s ts g2 g3 e te z G W G1 S G2 G3 E Z|a ta b tb z A B Z]; rewrite <- !app_assoc.
    - apply por_l. apply weekday_spec in D. eapply pbind_step; [now apply kw_then|]. gapped; [eapply list_noblank; eauto; reflexivity|].
      eapply pbind_step; [apply day_list; [auto|now apply gap_nonblank|now apply gap_sep]|]. gapped; [eapply tod_noblank; eauto|].
      eapply pbind_step; [eapply time_ok; [eauto|now apply sep_no_digit, gap_sep]|]. gapped; [now apply nostart|]. eapply pbind_step; [now apply kw_then|]. gapped; [eapply tod_noblank; eauto|].
      eapply pbind_step; [apply popt_none, pbind_fail, (tokens_start _ is_digit); [reflexivity|eapply tod_digit; eauto]|]. eapply pbind_step; [eapply time_ok; [eauto|now apply sep_no_digit, eol_sep]|].
      eapply pbind_step; [now apply nl_ok|]. reflexivity.
    - apply por_l. apply weekday_spec in D, D'. eapply pbind_step; [now apply kw_then|]. gapped; [eapply list_noblank; eauto; reflexivity|].
      eapply pbind_step; [apply day_list; [auto|now apply gap_nonblank|now apply gap_sep]|]. gapped; [eapply tod_noblank; eauto|].
      eapply pbind_step; [eapply time_ok; [eauto|now apply sep_no_digit, gap_sep]|]. gapped; [now apply nostart|]. eapply pbind_step; [now apply kw_then|]. gapped; [eapply list_noblank; eauto; reflexivity|].
      eapply pbind_step; [apply popt_some; eapply pbind_step; [apply (tokens_ok _ _ _ OK); [reflexivity|auto|now apply gap_sepw]|]; gapped; [eapply tod_noblank; eauto|reflexivity]|]. eapply pbind_step; [eapply time_ok; [eauto|now apply sep_no_digit, eol_sep]|].
      eapply pbind_step; [now apply nl_ok|]. reflexivity.
    - assert (I : In w [u "weekdays"; u "weekend"; u "daily"]) by (destruct W as (w0 & I & ->); destruct I as [<-|[<-|[<-|[]]]]; cbn [In]; auto).
      assert (Nb : forall q, ~ starts is_blank (w ++ q)) by (intros q; eapply list_noblank; eauto; reflexivity).
      assert (C : forall q, tokens day_names (w ++ q) = PFail) by (intros q; cbn [In] in I; repeat (destruct I as [<-|I]; [apply tokens_clash; reflexivity|]); destruct I).
      apply por_r; [eapply pbind_step; [now apply kw_then|]; gapped; [auto|]; apply pbind_fail, pbind_fail, C|].
      apply por_l. eapply pbind_step; [now apply kw_then|]. gapped; [auto|].
      eapply pbind_step; [apply (tokens_ok _ _ _ OK); [reflexivity|auto|now apply gap_sepw]|]. gapped; [eapply tod_noblank; eauto|].
      eapply pbind_step; [eapply time_ok; [eauto|now apply sep_no_digit, gap_sep]|]. gapped; [now apply nostart|]. eapply pbind_step; [now apply kw_then|]. gapped; [eapply tod_noblank; eauto|].
      eapply pbind_step; [eapply time_ok; [eauto|now apply sep_no_digit, eol_sep]|]. eapply pbind_step; [now apply nl_ok|]. reflexivity.
    - apply por_r; [now apply pbind_fail, kw_clash|]. apply por_r; [now apply pbind_fail, kw_clash|]. apply por_l.
      assert (Be : bound "end" (tb ++ z ++ r) = POk b (z ++ r)).
      { destruct b as [b|]; [apply bound_some; [reflexivity|discriminate|auto]|]. inversion B; subst. cbn [app]. apply bound_none. intros q g G E. pose proof (eol_noblank z r Z) as Nb. rewrite E in Nb. now apply Nb, gap_nonblank. }
      assert (Sb : sep_start (tb ++ z ++ r)) by (inversion B; subst; [cbn [app]; now apply eol_sep|rewrite <- !app_assoc; now apply gap_sep]).
      assert (Sa : sep_start (ta ++ tb ++ z ++ r)) by (inversion A; subst; [auto|rewrite <- !app_assoc; now apply gap_sep]).
      eapply pbind_step; [apply kw_ok; now apply (sep_stop _ _ _ OK)|].
      eapply pbind_step; [|eapply pbind_step; [exact Be|]; eapply pbind_step; [now apply nl_ok|]; reflexivity].
      destruct a as [a|]; [apply bound_some; [reflexivity|discriminate|auto]|]. inversion A; subst. cbn [app]. apply bound_none. intros q g G E.
      inversion B as [|g' g'' m t G' G'' M]; subst.
      + pose proof (eol_noblank z r Z) as Nb. cbn [app] in E. rewrite E in Nb. now apply Nb, gap_nonblank.
      + rewrite <- !app_assoc in E. apply gap_cancel in E as (_ & E); [discriminate E| | | |]; auto; now apply nostart.
  Qed.
  Lemma no_ok g l r : gap g -> one_line l -> ~ opens_blank l -> time_range_object ((u "no" ++ g ++ l ++ lf) ++ r) = POk None r.
  Proof using OK.
    intros G O N. rewrite <- !app_assoc. unfold LineText.time_range_object, choice. cbn [fold_right].
    apply por_r; [now apply pbind_fail, kw_clash|]. apply por_r; [now apply pbind_fail, kw_clash|]. apply por_r; [now apply pbind_fail, kw_clash|]. apply por_l.
    eapply pbind_step; [now apply kw_then|]. gapped; [|eapply pbind_step; [now apply toeol_ok|]; reflexivity].
    destruct l as [|c l]; [change (~ starts is_blank (10%N :: r)); rewrite starts_cons; discriminate|]. rewrite opens_starts in N. cbn [app]. rewrite starts_cons in *. auto.
  Qed.
  Definition shown (x : option timeobj) : pystr -> Prop :=
    match x with Some x => timeobj_text x | None => fun t => exists g l, gap g /\ one_line l /\ ~ opens_blank l /\ t = u "no" ++ g ++ l ++ lf end.
  Lemma timeobjs_sound s l r : many (then_ sp time_range_object) s = POk l r -> exists t, s = t ++ r /\ timeobjs_text (keep l) t.
  Proof using OK.
    intros H. apply many_chain in H. induction H as [s|x l s s1 r P _ _ (t & -> & IH)]; [exists []; split; [auto|constructor]|].
    unfold then_ in P. apply pbind_ok in P as (y & s2 & Sp & P). apply sp_ok in Sp. subst. apply timeobj_sound in P as (tx & -> & X).
    destruct x as [x|]; [exists (u " " ++ tx ++ t); split; [rewrite <- !app_assoc; reflexivity|now constructor]|].
    destruct X as (g & q & G & O & N & ->). exists (u " no" ++ g ++ q ++ lf ++ t). split; [rewrite <- !app_assoc; reflexivity|now constructor].
  Qed.
  Lemma chain_app {A} (p : parser A) x l s s1 r : p s = POk x s1 -> (length s1 < length s)%nat -> chain p l s1 r -> chain p (x :: l) s r.
  Proof using. clear. intros. econstructor; eauto. Qed.
  Lemma timeobjs_ok l t r : timeobjs_text l t -> ~ indented r -> exists l', many (then_ sp time_range_object) (t ++ r) = POk l' r /\ keep l' = l.
  Proof using OK.
    intros T N. assert (C : exists l', chain (then_ sp time_range_object) l' (t ++ r) r /\ keep l' = l).
    { induction T as [|x t l ts X _ (l' & C & <-)|g q l ts G O B _ (l' & C & <-)].
      - exists []. split; [constructor|auto].
      - exists (Some x :: l'). split; [|auto]. rewrite <- !app_assoc. eapply Ch_cons; [|  |exact C].
        + unfold then_. eapply pbind_step; [apply sp_cons|]. now apply timeobj_ok.
        + rewrite !app_length. change (length (u " ")) with 1%nat. change (length (u " no")) with 3%nat. unfold pystr in *. lia.
      - exists (None :: l'). split; [|auto]. rewrite <- !app_assoc. eapply Ch_cons; [| |exact C].
        + unfold then_. eapply pbind_step; [apply sp_cons|]. pose proof (no_ok g q (ts ++ r) G O B) as K. rewrite <- !app_assoc in K. exact K.
        + rewrite !app_length. change (length (u " ")) with 1%nat. change (length (u " no")) with 3%nat. unfold pystr in *. lia. }
    destruct C as (l' & C & E). exists l'. split; [|auto]. apply chain_many; [auto|]. unfold then_. now apply pbind_fail, sp_fail.
  Qed.

  (** ** Interfaces *)
  Notation interface_detail := (interface_detail isalpha isalnum).
  Notation detail_other := (detail_other isalpha isalnum).
  Lemma end_noblank n z r : n <> [] -> freew n -> end_text z -> ~ starts is_blank (n ++ z ++ r).
  Proof using. clear. intros. now apply freew_noblank. Qed.
  Lemma ident_freew n : ident_text n -> n <> [] /\ freew n.
  Proof using. clear. intros I. apply ident_name in I. split; [apply I|now apply letter_name]. Qed.
  Lemma ident_noblank n r : ident_text n -> ~ starts is_blank (n ++ r).
  Proof using. clear. intros I. apply ident_freew in I as (N & F). now apply freew_noblank. Qed.
  Lemma ident_ok n r : ident_text n -> sep_start r -> identifier (n ++ r) = POk n r.
  Proof using. clear. intros I S. apply ident_iff. split; [auto|]. split; [auto|now apply sep_no_id]. Qed.
  Lemma v6_text t a : a_ver a = V6 -> address_text t a -> ipv6_text t (a_val a) /\ a = mkaddr V6 (a_val a).
  Proof using. clear. intros V T. destruct a as [v n]. cbn [a_ver a_val] in *. subst. split; [exact T|auto]. Qed.
  Lemma descr_detail g t r : gap g -> one_line t -> ~ opens_blank t -> detail_descr isalpha isalnum (u "description" ++ g ++ t ++ lf ++ r) = POk (DDescription t) r.
  Proof using OK.
    intros G O B. unfold detail_descr. eapply pbind_step; [now apply kw_then|]. gapped; [|eapply pbind_step; [now apply toeol_ok|]; reflexivity].
    destruct t as [|c t]; [change (~ starts is_blank (10%N :: r)); rewrite starts_cons; discriminate|]. rewrite opens_starts in B. cbn [app]. rewrite starts_cons in *. auto.
  Qed.
  Lemma ip_not_ipv6 {A} (k : parser A) g r : gap g -> (let% _ := kw "ip" in let% _ := ws in k) (u "ipv6" ++ g ++ r) = PFail.
  Proof using. clear. intros G. apply kwws_fail; [now apply freewb_ok|reflexivity|now apply gap_sepw|discriminate]. Qed.
  Lemma ipv6_not_ip {A} (k : parser A) g r : gap g -> (let% _ := kw "ipv6" in let% _ := ws in k) (u "ip" ++ g ++ r) = PFail.
  Proof using. clear. intros G. apply kwws_fail; [now apply freewb_ok|reflexivity|now apply gap_sepw|discriminate]. Qed.
  Lemma kept_ok d t r : kept_text d t -> interface_detail (t ++ r) = POk d r.
  Proof using OK.
    intros K. unfold LineText.interface_detail, choice. cbn [fold_right].
    destruct K as [g t G O B|g n z G I Z|g g1 a g2 m g3 g4 b z G G1 G2 G3 G4 A M B Z|g g1 a t d p g2 g3 b t' z G G1 G2 G3 V A D V' B Z]; rewrite <- !app_assoc.
    - apply por_l. now apply descr_detail.
    - apply por_r; [now apply pbind_fail, kw_clash|]. apply por_l. unfold detail_nameif. eapply pbind_step; [now apply kw_then|]. gapped; [now apply ident_noblank|].
      eapply pbind_step; [apply ident_ok; [auto|now apply end_sep]|]. eapply pbind_step; [now apply line_end_ok|]. reflexivity.
    - apply por_r; [now apply pbind_fail, kw_clash|]. apply por_r; [now apply pbind_fail, kw_clash|]. apply por_l. unfold detail_ip4.
      eapply pbind_step; [now apply kw_then|]. gapped; [now apply nostart|]. eapply pbind_step; [now apply kw_then|]. gapped; [now apply quad_noblank|].
      eapply pbind_step; [apply ip4_ok; [auto|now apply sep_no_digit, gap_sep]|]. gapped; [now apply quad_noblank|]. eapply pbind_step; [apply ip4_ok; [auto|now apply sep_no_digit, gap_sep]|].
      gapped; [now apply nostart|]. eapply pbind_step; [now apply kw_then|]. gapped; [now apply quad_noblank|]. eapply pbind_step; [apply ip4_ok; [auto|now apply sep_no_digit, end_sep]|].
      eapply pbind_step; [now apply line_end_ok|]. reflexivity.
    - apply por_r; [now apply pbind_fail, kw_clash|]. apply por_r; [now apply pbind_fail, kw_clash|]. apply por_r; [now apply ip_not_ipv6|]. apply por_l. unfold detail_ip6.
      apply (v6_text _ _ V) in A as (T & Ea). apply (v6_text _ _ V') in B as (T' & Eb). pose proof (addr_noblank t a) as Na. pose proof (addr_noblank t' b) as Nb.
      assert (At : address_text t a) by (rewrite Ea; exact T). assert (Bt : address_text t' b) by (rewrite Eb; exact T').
      apply decimal_text_spec in D as (Nd & Fd & Vd).
      eapply pbind_step; [now apply kw_then|]. gapped; [now apply nostart|]. eapply pbind_step; [now apply kw_then|]. gapped; [now apply Na|].
      eapply pbind_step; [apply ip6_ok; [exact T|now apply nostart]|]. eapply pbind_step; [apply char_ok; reflexivity|].
      eapply pbind_step; [apply int_iff; split; [reflexivity|]; split; [auto|]; split; [auto|now apply sep_no_digit, gap_sep]|].
      gapped; [now apply nostart|]. eapply pbind_step; [now apply kw_then|]. gapped; [now apply Nb|]. eapply pbind_step; [apply ip6_ok; [exact T'|now apply sep_no_hdc, end_sep]|].
      eapply pbind_step; [now apply line_end_ok|]. unfold ret. now rewrite Vd, <- Ea.
  Qed.
  Lemma gap_line g : gap g -> one_line g.
  Proof using. clear. intros (_ & B) I. destruct (B _ I); discriminate. Qed.
  Lemma other_ok l r : one_line l -> detail_other (l ++ lf ++ r) = POk DNone r.
  Proof using.
    clear. intros O. unfold LineText.detail_other. destruct (popt (let% _ := kw "no" in ws) (l ++ lf ++ r)) as [|e|x s] eqn:P.
    - unfold popt in P. destruct ((let% _ := kw "no" in ws) (l ++ lf ++ r)); discriminate P.
    - unfold popt in P. destruct ((let% _ := kw "no" in ws) (l ++ lf ++ r)) as [|e'|] eqn:Q; try discriminate P. exfalso. unfold pbind in Q.
      destruct (kw "no" _) as [|?|? ?] eqn:K in Q; [discriminate Q|now apply kw_noerr in K|now apply ws_noerr in Q].
    - assert (X : exists l', s = l' ++ lf ++ r /\ one_line l').
      { apply popt_ok in P as [(y & -> & P)|(-> & -> & _)]; [|eauto]. apply pbind_ok in P as (? & s1 & K & W). apply kw_sound in K. apply ws_sound in W as (g & -> & G).
        rewrite (app_assoc (u "no")) in K. apply line_split in K as (l' & -> & ->); [exists l'; split; [auto|apply line_app in O; tauto]|auto|]. apply line_app. split; [|now apply gap_line].
        intros I. cbn in I. repeat (destruct I as [I|I]; [discriminate I|]). destruct I. }
      destruct X as (l' & -> & O'). eapply pbind_step; [exact P|]. eapply pbind_step; [now apply toeol_ok|]. reflexivity.
  Qed.
  Lemma detail_ip4_sound s d r : detail_ip4 isalpha isalnum s = POk d r -> exists t, s = t ++ r /\ kept_text d t.
  Proof using.
    clear. unfold detail_ip4. intros H. pinv H. apply ret_ok in H as (<- & ->). apply kw_sound in P as ->. apply ws_sound in P0 as (g & -> & G). apply kw_sound in P1 as ->. apply ws_sound in P2 as (g1 & -> & G1).
    apply quad_sound in P3 as (va & -> & La & ->). apply ws_sound in P4 as (g2 & -> & G2). apply quad_sound in P5 as (vm & -> & Lm & ->). apply ws_sound in P6 as (g3 & -> & G3). apply kw_sound in P7 as ->.
    apply ws_sound in P8 as (g4 & -> & G4). apply quad_sound in P9 as (vb & _ & Lb & ->). apply line_end_sound in P10 as (z & -> & Z). cbn [a_val].
    exists (u "ip" ++ g ++ u "address" ++ g1 ++ quad va ++ g2 ++ quad vm ++ g3 ++ u "standby" ++ g4 ++ quad vb ++ z). split; [now rewrite <- !app_assoc|]. now apply KT_ip4.
  Qed.
  Lemma detail_ip6_sound s d r : detail_ip6 isalpha isalnum s = POk d r -> exists t, s = t ++ r /\ kept_text d t.
  Proof using.
    clear. unfold detail_ip6. intros H. pinv H. apply ret_ok in H as (<- & ->). apply kw_sound in P as ->. apply ws_sound in P0 as (g & -> & G). apply kw_sound in P1 as ->. apply ws_sound in P2 as (g1 & -> & G1).
    apply ip6_sound in P3 as (t & -> & V & T). destruct a4. apply char_ok in P4. subst. apply int_iff in P5 as (-> & Nd & Fd & _). apply ws_sound in P6 as (g2 & -> & G2). apply kw_sound in P7 as ->.
    apply ws_sound in P8 as (g3 & -> & G3). apply ip6_sound in P9 as (t' & -> & V' & T'). apply line_end_sound in P10 as (z & -> & Z).
    match goal with |- exists _, _ = _ /\ kept_text (DAddr6 ?a (Some (int10 ?d))) _ => exists (u "ipv6" ++ g ++ u "address" ++ g1 ++ t ++ u "/" ++ d ++ g2 ++ u "standby" ++ g3 ++ t' ++ z) end.
    split; [now rewrite <- !app_assoc|]. eapply KT_ip6; eauto. now apply dec_text.
  Qed.
  Lemma line_words l w v g g1 s r : one_line l -> one_line w -> one_line v -> gap g -> gap g1 -> l ++ lf ++ r = w ++ g ++ v ++ g1 ++ s -> exists q, l = w ++ g ++ v ++ g1 ++ q /\ s = q ++ lf ++ r /\ one_line q.
  Proof using.
    clear. intros O Ow Ov G G1 E. pose proof (line_split l (w ++ g ++ v ++ g1) s r O) as X. rewrite <- !app_assoc in X. destruct X as (q & -> & ->); [|exact E|].
    - rewrite !line_app. repeat split; auto using gap_line.
    - exists q. split; [now rewrite <- !app_assoc|]. split; [auto|]. rewrite !line_app in O. tauto.
  Qed.
  Lemma word_line w : freewb w = true -> one_line w.
  Proof using. clear. intros F I. apply freewb_ok in F. apply (F _ I). cbn. unfold cls, in_class. cbn. tauto. Qed.
  Lemma address_line t a : address_text t a -> one_line t.
  Proof using. clear. intros A I. apply address_hdc in A as (A & _). unfold pystr in *. rewrite forallb_forall in A. apply A in I. discriminate I. Qed.
  Lemma quad_line n : (n < 2 ^ 32)%N -> one_line (quad n).
  Proof using. clear. intros L. apply (address_line (quad n) (mkaddr V4 n)). now split. Qed.
  Lemma digits_line d v : decimal_text d v -> one_line d.
  Proof using. clear. intros D I. apply decimal_text_spec in D as (_ & F & _). rewrite forallb_forall in F. apply F in I. discriminate I. Qed.
  Lemma end_is_line z : end_text z -> exists l, z = l ++ lf /\ one_line l.
  Proof using.
    clear. intros Z. apply end_word in Z as (g & e & -> & G & [-> | ->]).
    - exists g. split; [auto|]. destruct G as [-> |G]; [intros []|now apply gap_line].
    - exists (g ++ [13%N]). split; [now rewrite <- app_assoc|]. apply line_app. split; [destruct G as [-> |G]; [intros []|now apply gap_line]|]. intros [[=]|[]].
  Qed.
  Lemma first_lines a b r r' : one_line a -> one_line b -> a ++ lf ++ r = b ++ lf ++ r' -> a = b /\ r = r'.
  Proof using.
    clear. intros A B E. destruct (line_split a b (lf ++ r') r A B E) as (b' & -> & E'). destruct b' as [|c b']; [rewrite app_nil_r; split; [auto|]; now injection E'|].
    cbn [app lf] in E'. injection E' as <- _. apply line_app in A as (_ & A). destruct A. now left.
  Qed.
  Lemma refused_raises l r : one_line l -> refused_line l -> interface_detail (l ++ lf ++ r) = PErr ValueError.
  Proof using OK.
    intros O H. unfold LineText.interface_detail, choice. cbn [fold_right].
    destruct H as [g g1 q G G1 M|g g1 a g2 q G G1 A G2 M|g g1 a g2 m g3 g4 q G G1 A G2 Lm G3 G4 M|g g1 q G G1 M|g g1 a t d p g2 g3 q G G1 V A D G2 G3 M];
      assert (Oq : one_line q) by (rewrite !line_app in O; tauto); rewrite <- !app_assoc; (apply por_r; [now apply pbind_fail, kw_clash|]); (apply por_r; [now apply pbind_fail, kw_clash|]).
    - apply por_perr. unfold detail_ip4. eapply pbind_step; [now apply kw_then|]. gapped; [now apply nostart|]. eapply pbind_step; [now apply kw_then|]. gapped; [now apply malformed4_noblank|].
      apply pbind_perr. now apply ip4_raises.
    - apply por_perr. unfold detail_ip4. eapply pbind_step; [now apply kw_then|]. gapped; [now apply nostart|]. eapply pbind_step; [now apply kw_then|]. gapped; [now apply quad_noblank|].
      eapply pbind_step; [apply ip4_ok; [auto|now apply sep_no_digit, gap_sep]|]. gapped; [now apply malformed4_noblank|]. apply pbind_perr. now apply ip4_raises.
    - apply por_perr. unfold detail_ip4. eapply pbind_step; [now apply kw_then|]. gapped; [now apply nostart|]. eapply pbind_step; [now apply kw_then|]. gapped; [now apply quad_noblank|].
      eapply pbind_step; [apply ip4_ok; [auto|now apply sep_no_digit, gap_sep]|]. gapped; [now apply quad_noblank|]. eapply pbind_step; [apply ip4_ok; [auto|now apply sep_no_digit, gap_sep]|].
      gapped; [now apply nostart|]. eapply pbind_step; [now apply kw_then|]. gapped; [now apply malformed4_noblank|]. apply pbind_perr. now apply ip4_raises.
    - apply por_r; [now apply ip_not_ipv6|]. apply por_perr. unfold detail_ip6. eapply pbind_step; [now apply kw_then|]. gapped; [now apply nostart|]. eapply pbind_step; [now apply kw_then|].
      gapped; [now apply malformed6_noblank|]. apply pbind_perr. now apply ip6_raises.
    - apply por_r; [now apply ip_not_ipv6|]. apply por_perr. unfold detail_ip6. assert (Na := addr_noblank t a). assert (At := A). apply (v6_text _ _ V) in A as (T & Ea). apply decimal_text_spec in D as (Nd & Fd & Vd).
      eapply pbind_step; [now apply kw_then|]. gapped; [now apply nostart|]. eapply pbind_step; [now apply kw_then|]. gapped; [now apply Na|].
      eapply pbind_step; [apply ip6_ok; [exact T|now apply nostart]|]. eapply pbind_step; [apply char_ok; reflexivity|].
      eapply pbind_step; [apply int_iff; split; [reflexivity|]; split; [auto|]; split; [auto|now apply sep_no_digit, gap_sep]|].
      gapped; [now apply nostart|]. eapply pbind_step; [now apply kw_then|]. gapped; [now apply malformed6_noblank|]. apply pbind_perr. now apply ip6_raises.
  Qed.
  Lemma raises_refused l r e : one_line l -> interface_detail (l ++ lf ++ r) = PErr e -> refused_line l.
  Proof using OK.
    intros O H. unfold LineText.interface_detail, choice in H. cbn [fold_right] in H.
    apply por_err in H as [H|H]; [|apply por_err in H as [H|H]; [|apply por_err in H as [H|H]; [|apply por_err in H as [H|H]]]].
    - exfalso. revert H. unfold detail_descr. match goal with |- ?p ?s = _ -> _ => assert (Nv : never p) by never; apply Nv end.
    - exfalso. revert H. unfold detail_nameif. match goal with |- ?p ?s = _ -> _ => assert (Nv : never p) by (never; intros [|c q] e1; unfold identifier; [discriminate|]; destruct (is_id_start c); [destruct (span is_id_char q)|]; discriminate); apply Nv end.
    - unfold detail_ip4 in H. apply pbind_err in H as [H|(x & s1 & K & H)]; [now apply kw_noerr in H|]. apply kw_sound in K.
      apply pbind_err in H as [H|(y & s2 & W & H)]; [now apply never_ws in H|]. apply ws_sound in W as (g & -> & G).
      apply pbind_err in H as [H|(z & s3 & K2 & H)]; [now apply kw_noerr in H|]. apply kw_sound in K2 as ->.
      apply pbind_err in H as [H|(z1 & s4 & W & H)]; [now apply never_ws in H|]. apply ws_sound in W as (g1 & -> & G1).
      apply line_words in K as (q & -> & -> & Oq); [|auto|now apply word_line|now apply word_line|auto|auto].
      apply pbind_err in H as [H|(v & s5 & A & H)]; [apply ip4_raises in H as (_ & H); [now constructor|auto]|].
      apply quad_sound in A as (va & -> & La & A). apply line_split in A as (q2 & -> & ->); [|auto|now apply quad_line].
      apply pbind_err in H as [H|(w & s6 & W & H)]; [now apply never_ws in H|]. apply ws_sound in W as (g2 & W & G2).
      apply line_split in W as (q3 & -> & ->); [|now apply line_app in Oq|now apply gap_line]. rewrite !line_app in Oq. destruct Oq as (_ & _ & Oq).
      apply pbind_err in H as [H|(v & s7 & A & H)]; [apply ip4_raises in H as (_ & H); [now constructor|auto]|].
      apply quad_sound in A as (vm & -> & Lm & A). apply line_split in A as (q4 & -> & ->); [|auto|now apply quad_line].
      apply pbind_err in H as [H|(w1 & s8 & W & H)]; [now apply never_ws in H|]. apply ws_sound in W as (g3 & W & G3).
      apply pbind_err in H as [H|(w2 & s9 & K2 & H)]; [now apply kw_noerr in H|]. apply kw_sound in K2 as ->.
      apply pbind_err in H as [H|(w3 & s10 & W2 & H)]; [now apply never_ws in H|]. apply ws_sound in W2 as (g4 & -> & G4). rewrite line_app in Oq. destruct Oq as (_ & Oq).
      pose proof (line_words q4 [] (u "standby") g3 g4 s10 r) as X. clear X.
      pose proof (line_split q4 (g3 ++ u "standby" ++ g4) s10 r Oq) as X. rewrite <- !app_assoc in X. destruct X as (q5 & -> & ->); [|exact W|].
      { rewrite !line_app. repeat split; auto using gap_line. now apply word_line. }
      rewrite <- !app_assoc. apply pbind_err in H as [H|(v2 & s11 & A & H)]; [apply ip4_raises in H as (_ & H); [now constructor|rewrite !line_app in Oq; tauto]|].
      exfalso. revert H. match goal with |- ?p ?s = _ -> _ => assert (Nv : never p) by never; apply Nv end.
    - unfold detail_ip6 in H. apply pbind_err in H as [H|(x & s1 & K & H)]; [now apply kw_noerr in H|]. apply kw_sound in K.
      apply pbind_err in H as [H|(y & s2 & W & H)]; [now apply never_ws in H|]. apply ws_sound in W as (g & -> & G).
      apply pbind_err in H as [H|(z & s3 & K2 & H)]; [now apply kw_noerr in H|]. apply kw_sound in K2 as ->.
      apply pbind_err in H as [H|(z1 & s4 & W & H)]; [now apply never_ws in H|]. apply ws_sound in W as (g1 & -> & G1).
      apply line_words in K as (q & -> & -> & Oq); [|auto|now apply word_line|now apply word_line|auto|auto].
      apply pbind_err in H as [H|(v & s5 & A & H)]; [apply ip6_raises in H as (_ & H); [now constructor|auto]|].
      apply ip6_sound in A as (t & A & V & T). apply line_split in A as (q2 & -> & ->); [|auto|now apply (address_line t v)].
      apply pbind_err in H as [H|([] & s6 & C & H)]; [exfalso; revert H; match goal with |- ?p ?s = _ -> _ => assert (Nv : never p) by never; apply Nv end|]. apply char_ok in C.
      apply pbind_err in H as [H|(d & s7 & D & H)]; [exfalso; revert H; match goal with |- ?p ?s = _ -> _ => assert (Nv : never p) by never; apply Nv end|]. apply int_iff in D as (-> & Nd & Fd & _).
      apply pbind_err in H as [H|(w1 & s8 & W & H)]; [now apply never_ws in H|]. apply ws_sound in W as (g2 & -> & G2).
      apply pbind_err in H as [H|(w2 & s9 & K2 & H)]; [now apply kw_noerr in H|]. apply kw_sound in K2 as ->.
      apply pbind_err in H as [H|(w3 & s10 & W2 & H)]; [now apply never_ws in H|]. apply ws_sound in W2 as (g3 & -> & G3). rewrite line_app in Oq. destruct Oq as (_ & Oq).
      pose proof (line_split q2 (u "/" ++ d ++ g2 ++ u "standby" ++ g3) s10 r Oq) as X. rewrite <- !app_assoc in X. destruct X as (q5 & -> & ->); [|exact C|].
      { rewrite !line_app. split; [intros [[=]|[]]|]. repeat split; auto using gap_line; [|now apply word_line]. intros I. rewrite forallb_forall in Fd. apply Fd in I. discriminate I. }
      rewrite <- !app_assoc. apply pbind_err in H as [H|(v2 & s11 & A & H)]; [apply ip6_raises in H as (_ & H); [|rewrite !line_app in Oq; tauto]|].
      + eapply RF_standby6; eauto. now apply dec_text.
      + exfalso. revert H. match goal with |- ?p ?s = _ -> _ => assert (Nv : never p) by never; apply Nv end.
    - unfold por at 1 in H. rewrite other_ok in H by auto. discriminate H.
  Qed.
  Lemma detail_sound l r d r' : one_line l -> interface_detail (l ++ lf ++ r) = POk d r' ->
    (exists t, l ++ lf ++ r = t ++ r' /\ kept_text d t) \/ (d = DNone /\ r' = r /\ other_line l).
  Proof using OK.
    intros O H. assert (U : d = DNone -> other_line l).
    { intros ->. split; [|intros X; apply (refused_raises l r O) in X; congruence]. intros d0 K. pose proof (kept_ok d0 _ r K) as X. rewrite <- app_assoc, H in X. injection X as <- _. inversion K. }
    unfold LineText.interface_detail, choice in H. cbn [fold_right] in H. 
    apply por_sound in H as [H|H]; [left|apply por_sound in H as [H|H]; [left|apply por_sound in H as [H|H]; [left; now apply detail_ip4_sound|apply por_sound in H as [H|H]; [left; now apply detail_ip6_sound|right]]]].
    - unfold detail_descr in H. pinv H. apply ret_ok in H as (<- & ->). apply kw_sound in P. apply ws_iff in P0 as (g & G & -> & B). destruct (toeol_nl_sound _ _ _ _ _ P1 P2) as (-> & O').
      rewrite P. exists (u "description" ++ g ++ a1 ++ lf). split; [now rewrite <- !app_assoc|]. constructor; auto. rewrite opens_starts. intros (c & q & -> & C). apply B. exists c, (q ++ lf ++ r'). auto.
    - unfold detail_nameif in H. pinv H. apply ret_ok in H as (<- & ->). apply kw_sound in P. apply ws_sound in P0 as (g & -> & G). apply ident_iff in P1 as (-> & I & _). apply line_end_sound in P2 as (z & -> & Z).
      rewrite P. exists (u "nameif" ++ g ++ a1 ++ z). split; [now rewrite <- !app_assoc|]. now constructor.
    - unfold por at 1 in H. rewrite other_ok in H by auto. injection H as <- <-. auto.
  Qed.
  Lemma kept_line d t : kept_text d t -> exists l, t = l ++ lf /\ one_line l.
  Proof using.
    clear. intros K. destruct K as [g t G O B|g n z G I Z|g g1 a g2 m g3 g4 b z G G1 G2 G3 G4 A M B Z|g g1 a t d p g2 g3 b t' z G G1 G2 G3 V A D V' B Z]; try (apply end_is_line in Z as (z' & -> & Z)).
    - exists (u "description" ++ g ++ t). split; [now rewrite <- !app_assoc|]. rewrite !line_app. repeat split; auto using gap_line. now apply word_line.
    - exists (u "nameif" ++ g ++ n ++ z'). split; [now rewrite <- !app_assoc|]. rewrite !line_app. repeat split; auto using gap_line; [now apply word_line|].
      intros E. apply ident_freew in I as (_ & I). apply (I _ E). cbn. unfold cls, in_class. cbn. tauto.
    - exists (u "ip" ++ g ++ u "address" ++ g1 ++ quad a ++ g2 ++ quad m ++ g3 ++ u "standby" ++ g4 ++ quad b ++ z'). split; [now rewrite <- !app_assoc|]. rewrite !line_app. repeat split; auto using gap_line, quad_line; now apply word_line.
    - exists (u "ipv6" ++ g ++ u "address" ++ g1 ++ t ++ u "/" ++ d ++ g2 ++ u "standby" ++ g3 ++ t' ++ z'). split; [now rewrite <- !app_assoc|]. rewrite !line_app.
      repeat split; auto using gap_line; try (now apply word_line); eauto using address_line, digits_line. intros [[=]|[]].
  Qed.
  Lemma other_line_ok l r : one_line l -> other_line l -> interface_detail (l ++ lf ++ r) = POk DNone r.
  Proof using OK.
    intros O (U & N). destruct (interface_detail (l ++ lf ++ r)) as [|e|d r'] eqn:H.
    - exfalso. revert H. unfold LineText.interface_detail, choice. cbn [fold_right]. do 4 (unfold por at 1; match goal with |- context [match ?x with PFail => _ | _ => _ end] => destruct x; try discriminate end). unfold por at 1. now rewrite other_ok by auto.
    - now apply raises_refused in H.
    - apply detail_sound in H as [(t & E & K)|(-> & -> & _)]; [|auto|auto]. exfalso. destruct (kept_line _ _ K) as (l' & -> & O'). rewrite <- app_assoc in E. apply first_lines in E as (-> & _); [|auto|auto]. now apply U in K.
  Qed.
  Definition ended (s : pystr) : Prop := s = [] \/ exists s', s = s' ++ lf.
  Lemma ended_app t r : ended (t ++ r) -> ended r.
  Proof using.
    clear. destruct r as [|c r] using rev_ind; [now left|]. intros [E|(s & E)]; [now apply app_eq_nil in E as (_ & E); destruct r|].
    rewrite app_assoc in E. apply app_inj_tail in E as (_ & ->). right. now exists r.
  Qed.
  Lemma ended_line s : s <> [] -> ended s -> exists l r, s = l ++ lf ++ r /\ one_line l.
  Proof using.
    clear. intros N [E|(s' & ->)]; [congruence|]. clear N. induction s' as [|c s IH]; [exists [], []; split; [auto|intros []]|]. destruct IH as (l & r & E & O).
    destruct (N.eq_dec c 10) as [-> |Nc]; [exists [], (s ++ lf); split; [auto|intros []]|]. exists (c :: l), r. cbn [app]. rewrite E. split; [auto|]. intros [I|I]; [congruence|now apply O].
  Qed.
  Lemma details_sound s l r : ended s -> many (then_ sp interface_detail) s = POk l r -> exists t, s = t ++ r /\ details_text other_line l t.
  Proof using OK.
    intros En H. apply many_chain in H. induction H as [s|x l s s1 r P _ _ IH]; [exists []; split; [auto|constructor]|].
    unfold then_ in P. apply pbind_ok in P as (y & s2 & Sp & P). apply sp_ok in Sp. subst. assert (E2 : ended s2) by (apply (ended_app [32%N]), En).
    assert (N2 : s2 <> []) by (intros ->; destruct En as [[=]|([|? [|]] & E)]; discriminate E). apply ended_line in E2 as E'; [|auto]. destruct E' as (q & r2 & -> & O).
    apply detail_sound in P as [(t & E & K)|(-> & -> & U)]; [| |auto].
    - rewrite E in E2. apply ended_app in E2. apply IH in E2 as (t' & -> & T). exists (u " " ++ t ++ t'). split; [rewrite <- !app_assoc, E; reflexivity|now constructor].
    - apply ended_app, (ended_app lf) in E2. apply IH in E2 as (t' & -> & T). exists (u " " ++ q ++ lf ++ t'). split; [rewrite <- !app_assoc; reflexivity|now constructor].
  Qed.
  Lemma details_ok l t r : details_text other_line l t -> ~ indented r -> many (then_ sp interface_detail) (t ++ r) = POk l r.
  Proof using OK.
    intros T N. apply chain_many; [|unfold then_; now apply pbind_fail, sp_fail].
    induction T as [|d t l ts K _ IH|t l ts O U _ IH]; [constructor| |]; rewrite <- !app_assoc; (eapply Ch_cons; [| |exact IH]).
    - unfold then_. eapply pbind_step; [apply sp_cons|]. now apply kept_ok.
    - rewrite !app_length. change (length (u " ")) with 1%nat. unfold pystr in *. lia.
    - unfold then_. eapply pbind_step; [apply sp_cons|]. now apply other_line_ok.
    - rewrite !app_length. change (length (u " ")) with 1%nat. unfold pystr in *. lia.
  Qed.
End Lines.
