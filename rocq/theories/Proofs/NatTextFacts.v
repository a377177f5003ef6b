(** Lemmas on Model/NatText.v. *)
From Coq Require Import Lia String.
From Verif.Model Require Import Base Ip Hosts Groups Rules Nat Iface Peg Ids AddrText Ports AclText Define GroupText ObjText LineText NatText.
From Verif.Spec Require Import AddrSpec RefSpec AddrTextSpec CafTextSpec CafMeanSpec AclTextSpec GroupTextSpec ObjTextSpec LineTextSpec NatTextSpec.
From Verif.Proofs Require Import GroupOps DictFacts PegFacts AddrTextFacts CafTextFacts TokFacts CafMean LineFacts AclTextFacts AclOptFacts GroupTextFacts ObjTextFacts LineTextFacts.
From Verif.Props Require Import Refs AclText.
Local Open Scope list_scope.

Section Lines.
  Context (isalpha isalnum isspace : N -> bool) (OK : classes_ok isalpha isalnum isspace).
  Variables (E : env) (HE : env_ok E) (IF : dict ifnames) (HIF : ifaces_ok isalnum IF).
  Notation kw := (kw isalpha isalnum).
  Notation tokens := (tokens isalpha isalnum).
  Notation reference := (reference isalpha isalnum).
  Notation mapped_static := (mapped_static isalpha isalnum E).
  Notation mapped_dynamic := (mapped_dynamic isalpha isalnum E).
  Notation real_node := (real_node isalpha isalnum E).
  Notation nat_src := (nat_src isalpha isalnum E).
  Notation nat_dst := (nat_dst isalpha isalnum E).
  Notation nat_pos := (nat_pos isalpha isalnum).
  Notation nat_srv := (nat_srv isalpha isalnum E).
  Notation nat_opt := (nat_opt isalpha isalnum).
  Notation nat_line := (nat_line isalpha isalnum E IF).
  Ltac gapped := eapply pbind_step; [apply ws_gap; [auto|]|].
  Ltac kws := eapply pbind_step; [now apply (kw_then _ _ _ OK)|].

  Lemma ko : keys name_text (e_netobj E). Proof using HE. exact (kno E HE). Qed.
  Lemma kg : keys name_text (e_netgrp E). Proof using HE. exact (kng E HE). Qed.
  Hint Resolve ko kg : core.
  Lemma ks : keys name_text (e_svcobj E).
  Proof using HE. destruct HE as (_ & _ & _ & H & _). exact H. Qed.

  Lemma node_sound s h r : por (let% o := reference (e_netobj E) in ret (HObj o)) (let% g := reference (e_netgrp E) in ret (HGrp g)) s = POk h r ->
    exists n, s = n ++ r /\ sep_start r /\ node_text E h n.
  Proof using OK HE.
    intros H. apply por_ok in H as [H|(F & H)].
    - pinv H. apply ret_ok in H as (<- & ->). apply (refs_exact _ _ _ OK) in P as (n & -> & S & D); [|exact ko]. exists n. repeat split; auto. now constructor.
    - pinv H. apply ret_ok in H as (<- & ->). apply (refs_exact _ _ _ OK) in P as (n & -> & S & D); [|exact kg]. exists n. repeat split; auto. constructor; [auto|].
      apply ref_map_fail in F. eapply not_read; eauto.
  Qed.
  Lemma node_word h n : node_text E h n -> n <> [] /\ freew n /\ name_text n.
  Proof using HE.
    intros [m o D|m x D _]; (split; [|split]).
    - eapply name_nonempty; [exact ko|eauto].
    - eapply name_nonempty; [exact ko|eauto].
    - apply ko. eapply mem_get; eauto.
    - eapply name_nonempty; [exact kg|eauto].
    - eapply name_nonempty; [exact kg|eauto].
    - apply kg. eapply mem_get; eauto.
  Qed.
  Lemma node_ok h n r : node_text E h n -> sep_start r ->
    por (let% o := reference (e_netobj E) in ret (HObj o)) (let% g := reference (e_netgrp E) in ret (HGrp g)) (n ++ r) = POk h r.
  Proof using OK HE.
    intros T S. pose proof (node_word _ _ T) as (N & F & _). destruct T as [m o D|m x D U].
    - apply por_l. eapply pbind_step; [eapply ref_read; eauto|reflexivity].
    - apply por_r; [apply pbind_fail; eapply unread; eauto|]. eapply pbind_step; [eapply ref_read; eauto|reflexivity].
  Qed.
  (** The optional word ipv6 *)
  Lemma ipv6_none s x : popt (then_ ws (kw "ipv6")) s = POk x s -> then_ ws (kw "ipv6") s = PFail.
  Proof using.
    clear. intros H. unfold popt in H. destruct (then_ ws (kw "ipv6") s) as [|e|y r] eqn:T; [auto|discriminate H|]. injection H as _ ->. exfalso. unfold then_ in T.
    apply pbind_ok in T as (z & s1 & W & K). apply ws_sound in W as (g & -> & G & _). apply kw_sound in K. apply (f_equal (@length N)) in K. rewrite !app_length in K. destruct g; [congruence|]. cbn [length] in K.
    change (length (u "ipv6")) with 4%nat in K. unfold pystr in *. lia.
  Qed.
  Lemma iface_unknown_sound t r : sep_start r -> opt_ipv6_text t -> reference (e_netobj E) (u "interface" ++ t ++ r) = PFail -> reference (e_netgrp E) (u "interface" ++ t ++ r) = PFail -> unknown E (u "interface").
  Proof using OK HE.
    intros S T F F'. assert (S' : sep_start (t ++ r)) by (destruct T as [-> |(g & G & ->)]; [auto|rewrite <- app_assoc; now apply gap_sep]).
    split; eapply not_read; eauto.
  Qed.
  Lemma mapped_static_sound s m r : sep_start r -> mapped_static s = POk m r ->
    exists t, s = t ++ r /\ mapped_node_text E true m t /\ (t = u "interface" -> m = MIface -> then_ ws (kw "ipv6") r = PFail).
  Proof using OK HE.
    unfold NatText.mapped_static, choice. cbn [fold_right]. intros S H.
    apply por_ok in H as [H|(F1 & H)]; [|apply por_ok in H as [H|(F2 & H)]; [|apply por_ok in H as [H|(F3 & H)]; [|apply por_ok in H as [H|(_ & H)]; [|discriminate H]]]].
    - pinv H. apply ret_ok in H as (<- & ->). apply (refs_exact _ _ _ OK) in P as (n & -> & _ & D); [|auto]. exists n. split; [auto|]. split; [|intros _ [=]].
      rewrite <- (app_nil_r n). constructor; [now constructor|now left|auto].
    - pinv H. apply ret_ok in H as (<- & ->). apply (refs_exact _ _ _ OK) in P as (n & -> & _ & D); [|auto]. exists n. split; [auto|]. split; [|intros _ [=]].
      apply ref_map_fail in F1. rewrite <- (app_nil_r n). constructor; [constructor; [auto|eapply not_read; eauto]|now left|auto].
    - pinv H. apply ret_ok in H as (<- & ->). unfold ObjText.fallback in P. pinv P. apply ret_ok in P as (_ & ->). apply kw_sound in P0 as ->. pose proof P1 as Q. apply ipv6_sound in P1 as (t & -> & T).
      apply ref_map_fail in F1, F2. exists (u "interface" ++ t). split; [now rewrite <- app_assoc|]. split; [constructor; [eapply iface_unknown_sound; eauto|auto]|]. intros E0 _.
      rewrite <- (app_nil_r (u "interface")) in E0 at 2. apply app_inv_head in E0 as ->. cbn [app] in Q. eapply ipv6_none; eauto.
    - pinv H. apply ret_ok in H as (<- & ->). apply kw_sound in P as ->. apply ref_map_fail in F1, F2. exists (u "any"). split; [auto|]. split; [constructor; split; eapply not_read; eauto|discriminate].
  Qed.
  Lemma unread_word w r : unknown E (u w) -> freewb (u w) = true -> sep_start r -> reference (e_netobj E) (u w ++ r) = PFail /\ reference (e_netgrp E) (u w ++ r) = PFail.
  Proof using OK HE. intros (A & B) F S. apply freewb_ok in F. split; eapply unread; eauto. Qed.
  Lemma mapped_static_ok m t r : mapped_node_text E true m t -> sep_start r -> (t = u "interface" -> m = MIface -> then_ ws (kw "ipv6") r = PFail) -> mapped_static (t ++ r) = POk m r.
  Proof using OK HE.
    intros T S I. unfold NatText.mapped_static, choice. cbn [fold_right]. inversion T as [st h n f Nt Ft Fs|st t' U T'|U|]; subst.
    - rewrite (Fs eq_refl), app_nil_r in *. pose proof (node_word _ _ Nt) as (N & F & _). destruct Nt as [n o D|n x D U].
      + apply por_l. eapply pbind_step; [eapply ref_read; eauto|reflexivity].
      + apply por_r; [apply pbind_fail; eapply unread; eauto|]. apply por_l. eapply pbind_step; [eapply ref_read; eauto|reflexivity].
    - assert (S' : sep_start (t' ++ r)) by (destruct T' as [-> |(g & G & ->)]; [auto|rewrite <- app_assoc; now apply gap_sep]).
      rewrite <- app_assoc. destruct (unread_word "interface" (t' ++ r) U eq_refl S') as (F1 & F2).
      apply por_r; [now apply pbind_fail|]. apply por_r; [now apply pbind_fail|]. apply por_l. eapply pbind_step; [|reflexivity]. unfold ObjText.fallback. eapply pbind_step; [apply kw_ok; now apply (sep_stop _ _ _ OK)|].
      destruct T' as [-> |(g & G & ->)].
      + cbn [app]. eapply pbind_step; [apply popt_none, I; [now rewrite app_nil_r|auto]|reflexivity].
      + rewrite <- app_assoc. eapply pbind_step; [apply popt_some; unfold then_; gapped; [now apply nostart|]; apply kw_ok; now apply (sep_stop _ _ _ OK)|reflexivity].
    - destruct (unread_word "any" r U eq_refl S) as (F1 & F2). apply por_r; [now apply pbind_fail|]. apply por_r; [now apply pbind_fail|].
      apply por_r; [apply pbind_fail, pbind_fail, kw_clash; reflexivity|]. apply por_l. eapply pbind_step; [apply kw_ok; now apply (sep_stop _ _ _ OK)|reflexivity].
  Qed.
  Lemma opt_fallback_total s : exists x r, opt_fallback isalpha isalnum s = POk x r.
  Proof using.
    clear. unfold opt_fallback, popt. destruct (then_ ws (fallback isalpha isalnum) s) as [|e|x r] eqn:T; eauto. exfalso. unfold then_, fallback, pbind in T.
    destruct (ws s) as [|?|? s1] eqn:W; [discriminate|now apply ws_noerr in W|]. destruct (kw "interface" s1) as [|?|? s2] eqn:K in T; [discriminate|now apply kw_noerr in K|].
    unfold popt, then_, pbind in T. destruct (ws s2) as [|?|? s3] eqn:W' in T; [discriminate T|now apply ws_noerr in W'|]. destruct (kw "ipv6" _) eqn:K' in T; [discriminate T|now apply kw_noerr in K'|discriminate T].
  Qed.
  Lemma ref_fb_fail {V X} (d : dict V) (f : V -> X) s : (let% x := reference d in let% _ := opt_fallback isalpha isalnum in ret (f x)) s = PFail -> reference d s = PFail.
  Proof using.
    clear. unfold pbind at 1. destruct (reference d s) as [|e|v r]; [auto|discriminate|]. destruct (opt_fallback_total r) as (x & r' & O). unfold pbind. rewrite O. discriminate.
  Qed.
  Lemma fallback_sep f r : sep_start r -> fallback_text f -> sep_start (f ++ r).
  Proof using. clear. intros S [-> |(g & t' & G & _ & ->)]; [auto|rewrite <- app_assoc; now apply gap_sep]. Qed.
  Lemma mapped_dynamic_sound s m r : sep_start r -> mapped_dynamic s = POk m r -> exists t, s = t ++ r /\ mapped_node_text E false m t.
  Proof using OK HE.
    unfold NatText.mapped_dynamic, choice. cbn [fold_right]. intros S H.
    apply por_ok in H as [H|(F1 & H)]; [|apply por_ok in H as [H|(F2 & H)]; [|apply por_ok in H as [H|(F3 & H)]; [|apply por_ok in H as [H|(_ & H)]; [|discriminate H]]]].
    - pinv H. apply ret_ok in H as (<- & ->). apply (refs_exact _ _ _ OK) in P as (n & -> & _ & D); [|auto]. apply fallback_sound in P0 as (f & -> & Ft). exists (n ++ f). split; [now rewrite <- app_assoc|].
      constructor; [now constructor|auto|discriminate].
    - pinv H. apply ret_ok in H as (<- & ->). apply (refs_exact _ _ _ OK) in P as (n & -> & Sn & D); [|auto]. apply fallback_sound in P0 as (f & -> & Ft). exists (n ++ f). split; [now rewrite <- app_assoc|].
      constructor; [constructor; [auto|]|auto|discriminate]. apply ref_fb_fail in F1. eapply not_read; eauto.
    - pinv H. apply ret_ok in H as (<- & ->). apply kw_sound in P as ->. apply ipv6_sound in P0 as (t & -> & T). apply ref_fb_fail in F1, F2. exists (u "interface" ++ t). split; [now rewrite <- app_assoc|].
      constructor; [eapply iface_unknown_sound; eauto|auto].
    - pinv H. apply ret_ok in H as (<- & ->). apply (pool_sound _ _ _ OK E HE) in P as (g & n & l & o & -> & G & R & O). apply fallback_sound in P0 as (f & -> & Ft). apply ref_fb_fail in F1, F2.
      exists (u "pat-pool" ++ g ++ n ++ o ++ f). split; [now rewrite <- !app_assoc|]. rewrite <- !app_assoc in F1, F2. apply (MX_pool E g _ n l o f); auto. split; eapply (not_read _ _ _ OK); [|exact F1| |  |exact F2|]; auto; now apply gap_sep.
  Qed.
  Lemma mapped_dynamic_ok m t r : mapped_node_text E false m t -> next after_mapped r -> mapped_dynamic (t ++ r) = POk m r.
  Proof using OK HE.
    intros T N. pose proof (next_sep _ _ N) as S. unfold NatText.mapped_dynamic, choice. cbn [fold_right]. inversion T as [st h n f Nt Ft Fs|st t' U T'|U|g h n l o f U G R O Ft]; subst; rewrite <- !app_assoc.
    - pose proof (node_word _ _ Nt) as (Nn & F & _). destruct (fallback_ok _ _ _ OK f r Ft N) as (x & X). pose proof (fallback_sep f r S Ft) as Sf. destruct Nt as [n o D|n x' D U].
      + apply por_l. eapply pbind_step; [eapply ref_read; eauto|]. eapply pbind_step; [exact X|reflexivity].
      + apply por_r; [apply pbind_fail; eapply unread; eauto|]. apply por_l. eapply pbind_step; [eapply ref_read; eauto|]. eapply pbind_step; [exact X|reflexivity].
    - assert (S' : sep_start (t' ++ r)) by (destruct T' as [-> |(g & G & ->)]; [auto|rewrite <- app_assoc; now apply gap_sep]).
      destruct (unread_word "interface" (t' ++ r) U eq_refl S') as (F1 & F2).
      apply por_r; [now apply pbind_fail|]. apply por_r; [now apply pbind_fail|]. apply por_l. eapply pbind_step; [apply kw_ok; now apply (sep_stop _ _ _ OK)|].
      destruct (ipv6_ok _ _ _ OK t' r _ T' N) as (x & X); [reflexivity|]. eapply pbind_step; [exact X|reflexivity].
    - assert (Sf : next (u "interface" :: after_mapped) (f ++ r)) by (now apply fallback_next).
      destruct (unread_word "pat-pool" (g ++ n ++ o ++ f ++ r) U eq_refl (gap_sep _ _ G)) as (F1 & F2).
      apply por_r; [now apply pbind_fail|]. apply por_r; [now apply pbind_fail|]. apply por_r; [apply pbind_fail, kw_clash; reflexivity|]. apply por_l.
      assert (So : sep_start (o ++ f ++ r)) by (eapply each_sep; [eauto|]; now apply fallback_sep). destruct (pool_range_ok _ _ _ OK E HE h n _ R So) as (Rn & Nn & Fn).
      eapply pbind_step; [unfold ObjText.pat_pool; kws; gapped; [now apply freew_noblank|]; eapply pbind_step; [exact Rn|]; eapply pbind_step; [eapply pool_options_ok; eauto|reflexivity]|].
      destruct (fallback_ok _ _ _ OK f r Ft N) as (x & X). eapply pbind_step; [exact X|reflexivity].
  Qed.
  Lemma real_sound s x r y r' : real_node s = POk x r -> ws r = POk y r' -> exists t, s = t ++ r /\ real_text E x t.
  Proof using OK HE.
    unfold NatText.real_node, choice. cbn [fold_right]. intros H W. assert (Sr : sep_start r) by (apply ws_sound in W as (g & -> & G); now apply gap_sep).
    assert (X : forall V (d : dict V) (f : V -> real_ast) n, keys name_text d -> (let% _ := look (let% _ := reference d in ws) in let% o := reference d in ret (f o)) (n ++ r) = PFail -> ~ is_known d n).
    { intros V d f n K F (v & D). pose proof (ref_read _ _ _ OK d n v r K D Sr) as Rd. unfold look, pbind in F. rewrite Rd, W in F. rewrite Rd in F. discriminate F. }
    apply por_ok in H as [H|(F1 & H)]; [|apply por_ok in H as [H|(F2 & H)]; [|apply por_ok in H as [H|(_ & H)]; [|discriminate H]]].
    - pinv H. apply ret_ok in H as (<- & ->). unfold look in P. destruct ((let% _ := reference (e_netobj E) in ws) s); try discriminate P. injection P as _ <-.
      apply (refs_exact _ _ _ OK) in P0 as (n & -> & _ & D); [|auto]. exists n. split; [auto|]. now constructor; constructor.
    - pinv H. apply ret_ok in H as (<- & ->). unfold look in P. destruct ((let% _ := reference (e_netgrp E) in ws) s); try discriminate P. injection P as _ <-.
      apply (refs_exact _ _ _ OK) in P0 as (n & -> & _ & D); [|auto]. exists n. split; [auto|]. apply X in F1; [|auto]. now constructor; constructor.
    - pinv H. apply ret_ok in H as (<- & ->). apply kw_sound in P as ->. apply X in F1; [|auto]. apply X in F2; [|auto]. exists (u "any"). split; [auto|]. constructor. split; auto.
  Qed.
  Lemma real_ok x t g r : real_text E x t -> gap g -> ~ starts is_blank r -> real_node (t ++ g ++ r) = POk x (g ++ r).
  Proof using OK HE.
    intros T G B. pose proof (gap_sep g r G) as S. pose proof (ws_gap g r G B) as W. unfold NatText.real_node, choice. cbn [fold_right].
    assert (Lf : forall V X (d : dict V) (k : parser X) s, reference d s = PFail -> (let% _ := look (let% _ := reference d in ws) in k) s = PFail).
    { intros V X d k s F. apply pbind_fail. unfold look, pbind. now rewrite F. }
    assert (Lk : forall V X (d : dict V) (k : parser X) n v q, keys name_text d -> dget d n = Some v -> k (n ++ g ++ r) = q -> (let% _ := look (let% _ := reference d in ws) in k) (n ++ g ++ r) = q).
    { intros V X d k n v q K D Q. eapply pbind_step; [|exact Q]. unfold look, pbind. now rewrite (ref_read _ _ _ OK d n v _ K D S), W. }
    destruct T as [h t Nt|U].
    - pose proof (node_word _ _ Nt) as (Nn & F & _). destruct Nt as [n o D|n x' D U].
      + apply por_l. eapply Lk; eauto. eapply pbind_step; [eapply ref_read; eauto|reflexivity].
      + apply por_r; [apply Lf; eapply unread; eauto|]. apply por_l. eapply Lk; eauto. eapply pbind_step; [eapply ref_read; eauto|reflexivity].
    - destruct (unread_word "any" (g ++ r) U eq_refl S) as (F1 & F2). apply por_r; [now apply Lf|]. apply por_r; [now apply Lf|]. apply por_l. eapply pbind_step; [now apply (kw_then _ _ _ OK)|reflexivity].
  Qed.
  Lemma real_word x t r : real_text E x t -> ~ starts is_blank (t ++ r).
  Proof using HE. intros [h n T|_]; [apply node_word in T as (N & F & _); now apply freew_noblank|now apply nostart]. Qed.
  Lemma mapped_node_word b m t r : mapped_node_text E b m t -> ~ starts is_blank (t ++ r).
  Proof using HE.
    intros [st h n f T _ _|st t' _ _|_|g h n l o f _ _ _ _ _]; rewrite <- ?app_assoc; [apply node_word in T as (N & F & _); now apply freew_noblank|now apply nostart|now apply nostart|now apply nostart].
  Qed.

  (** ** Position, destination, services *)
  Lemma kw_free w r : name_like ascii_alpha ascii_alnum (u w) = false -> ascii (u w) = true -> kw w (u w ++ r) = POk tt r.
  Proof using OK.
    intros N A. unfold AclText.kw. eapply pbind_step; [|reflexivity]. apply token_ok. split; [auto|]. split; [auto|]. unfold passes. now rewrite (name_like_ok _ _ _ OK), N.
  Qed.
  Lemma pos_sound s x r : popt (then_ ws nat_pos) s = POk x r -> exists t, s = t ++ r /\ pos_text (match x with Some _ => true | None => false end) t.
  Proof using.
    clear. intros H. apply popt_ok in H as [(y & -> & H)|(-> & -> & _)]; [|exists []; split; [auto|constructor]]. unfold NatText.nat_pos, then_ in H. pinv H. apply ret_ok in H as (_ & ->).
    apply ws_sound in P as (g & -> & G). apply kw_sound in P0 as ->. apply tokens_sound in P1 as (I & -> & _).
    assert (W : words ["object"; "auto"]%string a1) by (destruct I as [<-|[<-|[]]]; eexists; (split; [|reflexivity]); cbn; auto).
    apply popt_ok in P2 as [(d & -> & P2)|(-> & -> & _)].
    - pinv P2. apply ws_sound in P as (g' & -> & G'). apply int_iff in P2 as (-> & Nd & Fd & _). exists (g ++ u "after-" ++ a1 ++ g' ++ d). split; [now rewrite <- !app_assoc|].
      apply (PO_number g a1 g' d (int10 d)); auto. now apply dec_text.
    - exists (g ++ u "after-" ++ a1). split; [now rewrite <- !app_assoc|]. now constructor.
  Qed.
  Lemma pos_ok b t g r : pos_text b t -> gap g -> exists x, popt (then_ ws nat_pos) (t ++ g ++ u "source" ++ r) = POk x (g ++ u "source" ++ r) /\ b = match x with Some _ => true | None => false end.
  Proof using OK.
    intros T G. assert (Tk : forall w, words ["object"; "auto"]%string w -> In w [u "object"; u "auto"]) by (intros w (w0 & [<-|[<-|[]]] & ->); cbn; auto).
    destruct T as [|g0 w G0 W|g0 w g' d v G0 W G' D]; rewrite <- ?app_assoc.
    - exists None. split; [|auto]. apply popt_none. unfold then_. cbn [app]. gapped; [now apply nostart|]. unfold NatText.nat_pos. apply pbind_fail, kw_clash. reflexivity.
    - exists (Some tt). split; [|auto]. apply popt_some. unfold then_, NatText.nat_pos. gapped; [now apply nostart|]. eapply pbind_step; [now apply kw_free|].
      eapply pbind_step; [apply (tokens_ok _ _ _ OK); [reflexivity|auto|now apply gap_sepw]|]. eapply pbind_step; [apply popt_none; unfold then_; gapped; [now apply nostart|]; apply int_fail; now apply nostart|reflexivity].
    - exists (Some tt). split; [|auto]. apply decimal_text_spec in D as (Nd & Fd & _). apply popt_some. unfold then_, NatText.nat_pos. gapped; [now apply nostart|]. eapply pbind_step; [now apply kw_free|].
      eapply pbind_step; [apply (tokens_ok _ _ _ OK); [reflexivity|auto|now apply gap_sepw]|]. eapply pbind_step; [apply popt_some; unfold then_; gapped|reflexivity].
      + apply freew_noblank; [auto|now apply digits_freew].
      + apply int_iff. repeat split; auto. now apply sep_no_digit, gap_sep.
  Qed.
  Lemma word_prefix n r w s : freew w -> sepw r -> n ++ r = w ++ s -> exists q, n = w ++ q /\ s = q ++ r.
  Proof using.
    clear. intros F S. revert n. induction w as [|c w IH]; intros n E0; [exists n; auto|]. destruct n as [|d n].
    - destruct S as (c' & r' & -> & C). cbn [app] in E0. injection E0 as -> _. destruct (F c); [now left|auto].
    - injection E0 as -> E0. apply IH in E0 as (q & -> & ->); [exists q; auto|]. intros x I. apply F. now right.
  Qed.
  Lemma ipv6_like_spec n r g : name_text n -> gap g -> sep_start r -> then_ ws (kw "ipv6") (g ++ n ++ r) = PFail <-> ~ ipv6_like n.
  Proof using OK.
    intros Nn G S. unfold then_. assert (B : ~ starts is_blank (n ++ r)) by (apply freew_noblank; [apply Nn|now apply letter_name]).
    assert (W : (let% _ := ws in kw "ipv6") (g ++ n ++ r) = kw "ipv6" (n ++ r)) by (eapply pbind_step; [now apply ws_gap|reflexivity]). rewrite W. clear W.
    assert (A : forall c, letter c \/ digit c \/ c = 95%N \/ c = 45%N \/ c = 46%N \/ c = 43%N -> isalnum c = true <-> letter c \/ digit c).
    { intros c C. unfold letter, digit in *. rewrite (alnum_ok _ _ _ OK) by (apply N.ltb_lt; lia). unfold ascii_alnum. rewrite orb_true_iff. change (ascii_alpha c) with (in_range 65 90 c || in_range 97 122 c). unfold in_range, AddrText.is_digit. rewrite orb_true_iff, !andb_true_iff, !N.leb_le. lia. }
    split.
    - intros F (q & -> & Q). rewrite <- app_assoc, kw_ok in F; [discriminate F|]. unfold stop. destruct q as [|c q]; [cbn [app]; now apply (sep_stop _ _ _ OK)|]. cbn [app next_alnum].
      specialize (Q c q eq_refl). destruct (isalnum c) eqn:C; [|auto]. exfalso. apply A in C; [tauto|]. apply (proj2 Nn). apply in_app_iff. right. now left.
    - intros L. destruct (kw "ipv6" (n ++ r)) as [|e|x s] eqn:K; [auto|now apply kw_noerr in K|]. exfalso. apply L. clear L. unfold AclText.kw in K.
      apply pbind_ok in K as (y & s1 & T & K). apply token_ok in T as (_ & T & Ps). unfold passes in Ps. rewrite (name_like_ok _ _ _ OK) in Ps by reflexivity. change (name_like ascii_alpha ascii_alnum (u "ipv6")) with true in Ps. cbn [andb] in Ps.
      apply sep_sepw in S. apply word_prefix in T as (q & -> & ->); [|now apply freewb_ok|auto]. exists q. split; [auto|]. intros c q' ->. cbn [app next_alnum] in Ps.
      assert (Ic : letter c \/ digit c \/ c = 95%N \/ c = 45%N \/ c = 46%N \/ c = 43%N) by (apply (proj2 Nn), in_app_iff; right; now left). apply A in Ic. rewrite Ps in Ic. intuition discriminate.
  Qed.
  Lemma dst_sound s x r : popt (then_ ws nat_dst) s = POk x r -> sep_start r -> exists t, s = t ++ r /\ dst_text E x t.
  Proof using OK HE.
    intros H S. apply popt_ok in H as [((m & h) & -> & H)|(-> & -> & _)]; [|exists []; split; [auto|constructor]]. unfold NatText.nat_dst, then_ in H. pinv H. apply ret_ok in H as ([= <- <-] & ->).
    apply ws_sound in P as (g & -> & G). apply kw_sound in P0 as ->. apply ws_sound in P1 as (g1 & -> & G1). apply kw_sound in P2 as ->. apply ws_sound in P3 as (g2 & -> & G2).
    apply ws_sound in P5 as (g3 & -> & G3). apply node_sound in P6 as (th & -> & _ & Th). apply mapped_static_sound in P4 as (tm & -> & Tm & I); [|now apply gap_sep].
    exists (g ++ u "destination" ++ g1 ++ u "static" ++ g2 ++ tm ++ g3 ++ th). split; [now rewrite <- !app_assoc|]. constructor; auto. intros E1 E2. apply (ipv6_like_spec th r g3); auto. now apply (node_word _ _ Th).
  Qed.
  Definition after_dst : list pystr := [u "service"; u "net-to-net"; u "dns"; u "unidirectional"; u "no-proxy-arp"; u "inactive"; u "description"; u "route-lookup"].
  Definition after_srv : list pystr := [u "net-to-net"; u "dns"; u "unidirectional"; u "no-proxy-arp"; u "inactive"; u "description"; u "route-lookup"].
  Lemma dst_ok x t r : dst_text E x t -> next after_dst r -> popt (then_ ws nat_dst) (t ++ r) = POk x r.
  Proof using OK HE.
    intros T N. pose proof (next_sep _ _ N) as S. destruct T as [|g g1 g2 m tm g3 h th G G1 G2 M G3 H I].
    - cbn [app]. apply popt_none. eapply next_fail; [exact N|reflexivity|..].
      + intros w r' Iw. unfold NatText.nat_dst. apply pbind_fail, kw_clash. unfold after_dst in Iw. cbn [In] in Iw. repeat (destruct Iw as [<-|Iw]; [reflexivity|]). destruct Iw.
      + intros z r' Z. unfold NatText.nat_dst. apply pbind_fail. now apply kw_eol.
    - rewrite <- !app_assoc. apply popt_some. unfold then_, NatText.nat_dst. gapped; [now apply nostart|]. kws. gapped; [now apply nostart|]. kws. gapped; [eapply mapped_node_word; eauto|].
      pose proof (node_word _ _ H) as (Nn & F & Nt). eapply pbind_step; [apply mapped_static_ok; [exact M|now apply gap_sep|]|].
      + intros E1 E2. apply ipv6_like_spec; auto.
      + gapped; [now apply freew_noblank|]. eapply pbind_step; [apply (node_ok _ _ _ H S)|reflexivity].
  Qed.
  Lemma srv_sound s x r : popt (then_ ws nat_srv) s = POk x r -> exists t, s = t ++ r /\ srv_text E x t.
  Proof using OK HE.
    intros H. apply popt_ok in H as [(y & -> & H)|(-> & -> & _)]; [|exists []; split; [auto|constructor]]. unfold NatText.nat_srv, then_ in H. pinv H. apply ret_ok in H as (<- & ->).
    apply ws_sound in P as (g & -> & G). apply kw_sound in P0 as ->. apply ws_sound in P1 as (g1 & -> & G1). apply (refs_exact _ _ _ OK) in P2 as (n & -> & _ & D); [|exact ks]. apply ws_sound in P3 as (g2 & -> & G2).
    apply (refs_exact _ _ _ OK) in P4 as (n' & -> & _ & D'); [|exact ks]. exists (g ++ u "service" ++ g1 ++ n ++ g2 ++ n'). split; [now rewrite <- !app_assoc|]. now constructor.
  Qed.
  Lemma srv_ok x t r : srv_text E x t -> next after_srv r -> popt (then_ ws nat_srv) (t ++ r) = POk x r.
  Proof using OK HE.
    intros T N. pose proof (next_sep _ _ N) as S. destruct T as [|g g1 n a g2 m b G G1 A G2 B].
    - cbn [app]. apply popt_none. eapply next_fail; [exact N|reflexivity|..].
      + intros w r' Iw. unfold NatText.nat_srv. apply pbind_fail, kw_clash. unfold after_srv in Iw. cbn [In] in Iw. repeat (destruct Iw as [<-|Iw]; [reflexivity|]). destruct Iw.
      + intros z r' Z. unfold NatText.nat_srv. apply pbind_fail. now apply kw_eol.
    - destruct (name_nonempty _ _ _ ks A) as (Nn & Fn). destruct (name_nonempty _ _ _ ks B) as (Nm & Fm). rewrite <- !app_assoc. apply popt_some. unfold then_, NatText.nat_srv.
      gapped; [now apply nostart|]. kws. gapped; [now apply freew_noblank|]. eapply pbind_step; [eapply ref_read; eauto using ks; now apply gap_sep|]. gapped; [now apply freew_noblank|].
      eapply pbind_step; [eapply ref_read; eauto using ks|reflexivity].
  Qed.
  Lemma srv_next x t r : srv_text E x t -> next after_srv r -> next after_dst (t ++ r).
  Proof using.
    clear. intros T N. destruct T as [|g g1 n a g2 m b G G1 A G2 B]; [eapply next_weaken; [exact N|now apply incl_tl, incl_refl]|]. rewrite <- !app_assoc. apply next_word; [auto|now left].
  Qed.
  Lemma dst_next x t r : dst_text E x t -> next after_dst r -> next after_mapped (t ++ r).
  Proof using.
    clear. intros T N. destruct T as [|g g1 g2 m tm g3 h th G G1 G2 M G3 H I]; [eapply next_weaken; [exact N|]|].
    - intros w Iw. unfold after_dst in Iw. cbn [In] in Iw. unfold after_mapped. cbn [In]. tauto.
    - rewrite <- !app_assoc. apply next_word; [auto|]. unfold after_mapped. cbn [In]. tauto.
  Qed.

  (** ** Options *)
  Lemma opt_sound s x r : nat_opt s = POk x r -> (exists t, s = t ++ r /\ flag_text x t) \/
    exists g d, x = ODescription d /\ s = u "description" ++ g ++ d ++ r /\ gap g /\ one_line d /\ ~ opens_blank d /\ (r = [] \/ exists q, r = lf ++ q).
  Proof using.
    clear. unfold NatText.nat_opt, choice. cbn [fold_right]. intros H. apply por_sound in H as [H|H]; [left|apply por_sound in H as [H|H]; [right|apply por_sound in H as [H|H]; [left|discriminate H]]].
    - pinv H. apply ret_ok in H as (<- & ->). apply tokens_sound in P as (I & -> & _). exists a. split; [auto|]. constructor. unfold nat_flags in I. cbn [In] in I.
      repeat (destruct I as [<-|I]; [eexists; split; [|reflexivity]; cbn [In]; tauto|]). destruct I.
    - pinv H. apply ret_ok in H as (<- & ->). apply kw_sound in P as ->. apply ws_iff in P0 as (g & G & -> & B). apply toeol_iff in P1 as (-> & O & R). exists g, a1. split; [auto|]. split; [auto|]. split; [auto|]. split; [auto|]. split; [|auto]. rewrite opens_starts.
      intros (c & q & -> & C). apply B. exists c, (q ++ r). auto.
    - pinv H. apply ret_ok in H as (<- & ->). apply tokens_sound in P as (I & -> & _). exists a. split; [auto|]. constructor. destruct I as [<-|[]]. eexists; split; [|reflexivity]; cbn [In]; tauto.
  Qed.
  Lemma tail_sound s l s1 r : many (then_ ws nat_opt) s = POk l s1 -> line_end s1 = POk tt r -> exists t, s = t ++ r /\ tail_text l t.
  Proof using.
    clear. intros H Le. apply many_chain in H. induction H as [s|x l s s0 s1 P _ C IH].
    - apply line_end_sound in Le as (z & -> & Z). exists z. split; [auto|]. apply (TA_flags [] []); [constructor|auto].
    - specialize (IH Le) as (t & -> & T). unfold then_ in P. apply pbind_ok in P as (y & s2 & W & P). apply ws_sound in W as (g & -> & G). apply opt_sound in P as [(w & -> & F)|(g1 & d & -> & -> & G1 & O & B & R)].
      + exists (g ++ w ++ t). split; [now rewrite <- !app_assoc|]. destruct T as [l t z Te Z|l t g2 g1 d Te G2 G1 O B].
        * replace (g ++ w ++ t ++ z) with ((g ++ w ++ t) ++ z) by now rewrite <- !app_assoc. constructor; [now constructor|auto].
        * replace (g ++ w ++ t ++ g2 ++ u "description" ++ g1 ++ d ++ lf) with ((g ++ w ++ t) ++ g2 ++ u "description" ++ g1 ++ d ++ lf) by now rewrite <- !app_assoc.
          change (x :: l ++ [ODescription d]) with ((x :: l) ++ [ODescription d]). apply TA_descr; auto. now apply EA_more.
      + assert (B' : ~ starts is_blank (t ++ r)) by (destruct R as [-> |(q & ->)]; [intros (c & q & [=] & _)|change (~ starts is_blank (10%N :: q)); rewrite starts_cons; discriminate]).
        inversion C as [|a l' s' s1' r' Pa]; subst.
        * destruct R as [R|(q & R)]; rewrite R in Le; [discriminate Le|]. change (line_end (10%N :: q)) with (POk tt q) in Le. injection Le as ->.
          change (lf ++ r) with ([10%N] ++ r) in R. apply app_inv_tail in R as ->. exists (g ++ u "description" ++ g1 ++ d ++ lf). split; [now rewrite <- !app_assoc|]. apply (TA_descr [] []); auto. constructor.
        * unfold then_ in Pa. rewrite (pbind_fail ws) in Pa; [discriminate Pa|]. now apply ws_fail.
  Qed.
  Lemma flag_in x w : flag_text x w -> x = OFlag w /\ (In w nat_flags \/ w = u "route-lookup").
  Proof using. clear. intros [w' (s & I & ->)]. split; [auto|]. unfold nat_flags. cbn [In] in *. repeat (destruct I as [<-|I]; [tauto|]). destruct I. Qed.
  Lemma flag_ok x w r : flag_text x w -> sep_start r -> nat_opt (w ++ r) = POk x r.
  Proof using OK.
    intros F S. apply flag_in in F as (-> & [I| ->]); unfold NatText.nat_opt, choice; cbn [fold_right].
    - apply por_l. eapply pbind_step; [apply (tokens_ok _ _ _ OK); [reflexivity|auto|now apply sep_sepw]|reflexivity].
    - apply por_r; [apply pbind_fail, tokens_clash; reflexivity|]. apply por_r; [apply pbind_fail, kw_clash; reflexivity|]. apply por_l.
      eapply pbind_step; [apply (tokens_ok _ _ _ OK); [reflexivity|now left|now apply sep_sepw]|reflexivity].
  Qed.
  Lemma flags_chain l t r : each flag_text l t -> sep_start r -> chain (then_ ws nat_opt) l (t ++ r) r.
  Proof using OK.
    intros T S. induction T as [|x l g w t G F T IH]; [constructor|]. rewrite <- !app_assoc. eapply Ch_cons; [| |exact IH].
    - unfold then_. gapped; [|apply flag_ok; [auto|eapply each_sep; eauto]]. apply flag_in in F as (_ & [I| ->]); [|now apply nostart]. unfold nat_flags in I. cbn [In] in I.
      repeat (destruct I as [<-|I]; [now apply nostart|]). destruct I.
    - rewrite !app_length. destruct G as (Ng & _). destruct g; [congruence|]. cbn [length]. unfold pystr in *. lia.
  Qed.
  Lemma chain_trans {A} (p : parser A) l l' s s1 r : chain p l s s1 -> chain p l' s1 r -> chain p (l ++ l') s r.
  Proof using. clear. induction 1 as [|a l s s1 s2 P L C IH]; [auto|]. intros H. cbn [app]. econstructor; eauto. Qed.
  Lemma tail_ok l t r : tail_text l t -> exists s1, many (then_ ws nat_opt) (t ++ r) = POk l s1 /\ line_end s1 = POk tt r.
  Proof using OK.
    intros [l' t' z T Z|l' t' g g1 d T G G1 O B]; rewrite <- !app_assoc.
    - exists (z ++ r). split; [|now apply line_end_ok]. apply chain_many; [apply flags_chain; [auto|now apply end_sep]|].
      apply (next_fail _ []); [now apply next_end|reflexivity|intros w r' []|]. intros z' r' Z'. unfold NatText.nat_opt, choice. cbn [fold_right].
      apply por_r; [now apply pbind_fail, tokens_eol|]. apply por_r; [apply pbind_fail; now apply kw_eol|]. apply por_r; [now apply pbind_fail, tokens_eol|reflexivity].
    - exists (lf ++ r). split; [|reflexivity]. apply chain_many.
      + eapply chain_trans; [apply flags_chain; [auto|now apply gap_sep]|]. eapply Ch_cons; [| |constructor].
        * unfold then_. gapped; [now apply nostart|]. unfold NatText.nat_opt, choice. cbn [fold_right]. apply por_r; [apply pbind_fail, tokens_clash; reflexivity|]. apply por_l.
          kws. gapped; [|eapply pbind_step; [now apply toeol_ok|reflexivity]]. destruct d as [|c d]; [change (~ starts is_blank (10%N :: r)); rewrite starts_cons; discriminate|]. rewrite opens_starts in B. cbn [app]. rewrite starts_cons in *. auto.
        * rewrite !app_length. change (length (u "description")) with 11%nat. unfold pystr in *. lia.
      + unfold then_. apply pbind_fail, ws_fail. change (~ starts is_blank (10%N :: r)). rewrite starts_cons. discriminate.
  Qed.
  Lemma tail_next l t r : tail_text l t -> next after_srv (t ++ r).
  Proof using.
    clear. assert (Fn : forall l t r, each flag_text l t -> next after_srv r -> next after_srv (t ++ r)).
    { intros l0 t0 r0 T N. destruct T as [|x l' g w t' G F T]; [auto|]. rewrite <- !app_assoc. apply next_word; [auto|]. apply flag_in in F as (_ & I). unfold nat_flags in I. cbn [In] in I. unfold after_srv. cbn [In].
      intuition (subst; tauto). }
    intros [l' t' z T Z|l' t' g g1 d T G G1 O B]; rewrite <- !app_assoc; eapply Fn; eauto; [now apply next_end|]. apply next_word; [auto|]. unfold after_srv. cbn [In]. tauto.
  Qed.
  Lemma tail_sep l t r : tail_text l t -> sep_start (t ++ r).
  Proof using. clear. intros T. eapply next_sep, tail_next; eauto. Qed.

  (** ** The line *)
  Lemma srv_sep x t r : srv_text E x t -> sep_start r -> sep_start (t ++ r).
  Proof using. clear. intros [|g g1 n a g2 m b G G1 A G2 B] S; [auto|]. rewrite <- app_assoc. now apply gap_sep. Qed.
  Lemma dst_sep x t r : dst_text E x t -> sep_start r -> sep_start (t ++ r).
  Proof using. clear. intros [|g g1 g2 m tm g3 h th G G1 G2 M G3 H I] S; [auto|]. rewrite <- app_assoc. now apply gap_sep. Qed.
  Lemma mem_known {V} (d : dict V) n : dmem d n = true -> is_known d n.
  Proof using. clear. unfold dmem. intros M. destruct (dget d n) as [v|] eqn:D; [now exists v|discriminate M]. Qed.
  Lemma manual_sound s a r : nat_line s = POk a r -> (exists t, s = t ++ r /\ nat_line_text E IF a t) \/ (na_iface a = None /\ (r = [] \/ exists q, r = lf ++ q) /\ exists t, s = t ++ r /\ pix_text IF t).
  Proof using OK HE HIF.
    unfold NatText.nat_line. intros H. apply por_sound in H as [H|H].
    - left. pinv H. apply ret_ok in H as (<- & ->). apply kw_sound in P as ->. apply ws_sound in P0 as (g & -> & G). destruct a2 as (i & i'). eapply pair_sound in P1 as (n & n' & -> & I & I'); eauto.
      apply pos_sound in P2 as (tp & -> & Tp). apply ws_sound in P3 as (g1 & -> & G1). destruct a9. destruct (tail_sound _ _ _ _ P7 P8) as (to & -> & To).
      apply srv_sound in P6 as (tv & -> & Tv). apply dst_sound in P5 as (td & -> & Td); [|eapply srv_sep; eauto using tail_sep].
      unfold NatText.nat_src in P4. assert (S : sep_start (td ++ tv ++ to ++ r)) by (eapply dst_sep; eauto; eapply srv_sep; eauto using tail_sep).
      apply por_sound in P4 as [P4|P4]; pinv P4; apply ret_ok in P4 as (<- & ->); apply kw_sound in P as ->; apply ws_sound in P0 as (g2 & -> & G2); apply kw_sound in P1 as ->; apply ws_sound in P2 as (g3 & -> & G3);
        destruct (real_sound _ _ _ _ _ P3 P5) as (tr & -> & Tr); apply ws_sound in P5 as (g4 & -> & G4).
      + apply mapped_dynamic_sound in P6 as (tm & -> & Tm); [|auto]. cbn [fst snd].
        exists (u "nat" ++ g ++ u "(" ++ n ++ u "," ++ n' ++ u ")" ++ tp ++ g1 ++ u "source" ++ g2 ++ u "dynamic" ++ g3 ++ tr ++ g4 ++ tm ++ td ++ tv ++ to). split; [now rewrite <- !app_assoc|].
        eapply (NL_manual E IF g n i n' i' _ tp g1 g2 false); eauto.
      + apply mapped_static_sound in P6 as (tm & -> & Tm & _); [|auto]. cbn [fst snd].
        exists (u "nat" ++ g ++ u "(" ++ n ++ u "," ++ n' ++ u ")" ++ tp ++ g1 ++ u "source" ++ g2 ++ u "static" ++ g3 ++ tr ++ g4 ++ tm ++ td ++ tv ++ to). split; [now rewrite <- !app_assoc|].
        eapply (NL_manual E IF g n i n' i' _ tp g1 g2 true); eauto.
    - right. pinv H. apply ret_ok in H as (<- & ->). split; [auto|]. apply kw_sound in P as ->. apply ws_sound in P0 as (g & -> & G). destruct a2. apply char_ok in P1. subst. apply ids_sound in P2 as (M & -> & _). destruct a4. apply char_ok in P3. subst.
      apply toeol_iff in P4 as (-> & O & R). split; [auto|]. match goal with M : dmem IF ?n = true |- _ => exists (u "nat" ++ g ++ u "(" ++ n ++ u ")" ++ a5) end. split; [now rewrite <- !app_assoc|]. constructor; auto.
      now apply mem_known.
  Qed.
  Lemma manual_ok a t r : nat_line_text E IF a t -> nat_line (t ++ r) = POk a r.
  Proof using OK HE HIF.
    intros [g n i n' i' pos tp g1 g2 static g3 x tr g4 m tm d td v tv o to G I I' Tp G1 G2 G3 Tr G4 Tm Td Tv To]. rewrite <- !app_assoc. unfold NatText.nat_line. apply por_l.
    kws. gapped; [now apply nostart|]. eapply pbind_step; [eapply pair_ok; eauto|].
    destruct (pos_ok pos tp g1 (g2 ++ (if static then u "static" else u "dynamic") ++ g3 ++ tr ++ g4 ++ tm ++ td ++ tv ++ to ++ r) Tp G1) as (p & Hp & ->).
    eapply pbind_step; [exact Hp|]. gapped; [now apply nostart|].
    pose proof (tail_next _ _ r To) as N1. pose proof (srv_next _ _ _ Tv N1) as N2. pose proof (dst_next _ _ _ Td N2) as N3. pose proof (next_sep _ _ N3) as S3.
    assert (Src : nat_src (u "source" ++ g2 ++ (if static then u "static" else u "dynamic") ++ g3 ++ tr ++ g4 ++ tm ++ td ++ tv ++ to ++ r) = POk (static, (x, m)) (td ++ tv ++ to ++ r)).
    { unfold NatText.nat_src. destruct static.
      - apply por_r.
        + kws. gapped; [now apply nostart|]. apply pbind_fail, kw_clash. reflexivity.
        + kws. gapped; [now apply nostart|]. kws. gapped; [eapply real_word; eauto|]. eapply pbind_step; [apply (real_ok _ _ _ _ Tr G4); eapply mapped_node_word; eauto|].
          gapped; [eapply mapped_node_word; eauto|]. eapply pbind_step; [|reflexivity]. apply mapped_static_ok; [auto|auto|]. intros _ _. unfold then_.
          eapply next_fail; [exact N3|reflexivity|..].
          * intros w r' Iw. apply kw_clash. unfold after_mapped in Iw. cbn [In] in Iw. repeat (destruct Iw as [<-|Iw]; [reflexivity|]). destruct Iw.
          * intros z r' Z. now apply kw_eol.
      - apply por_l. kws. gapped; [now apply nostart|]. kws. gapped; [eapply real_word; eauto|]. eapply pbind_step; [apply (real_ok _ _ _ _ Tr G4); eapply mapped_node_word; eauto|].
        gapped; [eapply mapped_node_word; eauto|]. eapply pbind_step; [|reflexivity]. now apply mapped_dynamic_ok. }
    eapply pbind_step; [exact Src|]. eapply pbind_step; [apply (dst_ok _ _ _ Td N2)|]. eapply pbind_step; [apply (srv_ok _ _ _ Tv N1)|].
    destruct (tail_ok _ _ r To) as (s1 & M & L). eapply pbind_step; [exact M|]. eapply pbind_step; [exact L|]. reflexivity.
  Qed.
  Lemma pix_ok t r : pix_text IF t -> r = [] \/ (exists q, r = lf ++ q) -> nat_line (t ++ r) = POk (mknatast None false false (RAny, MAny) None None []) r.
  Proof using OK HIF.
    intros [g n q G (i & D) O] R. rewrite <- !app_assoc. unfold NatText.nat_line. destruct (iface_class isalpha isalnum isspace OK) as (K1 & K2).
    assert (Hp : headin (in_class [44; 41]%N) (41%N :: q ++ r)) by (eexists; eexists; split; [reflexivity|cbn; auto]).
    assert (Nb : ~ starts is_blank (u "(" ++ n ++ u ")" ++ q ++ r)) by now apply nostart.
    apply por_r.
    - kws. gapped; [auto|]. apply pbind_fail. unfold ObjText.iface_pair. apply pbind_fail. unfold Ids.nat_interfaces.
      change (u "(" ++ n ++ u ")" ++ q ++ r) with (40%N :: n ++ 41%N :: q ++ r). eapply pbind_step; [now apply char_ok|].
      assert (Hn : exists i', iface_named IF n i').
      { destruct (str_eqb_spec n (u "any")) as [->|Na]; [exists (inl tt); now left|exists (inr i); right; eauto]. }
      destruct Hn as (i' & Hn). eapply pbind_step; [eapply nat_iface_complete; eauto|]. reflexivity.
    - kws. gapped; [auto|]. change (u "(" ++ n ++ u ")" ++ q ++ r) with (40%N :: n ++ 41%N :: q ++ r). eapply pbind_step; [now apply char_ok|].
      eapply pbind_step; [apply (ids_complete _ _ (in_class [44; 41]%N)); auto; [intros m M; apply (HIF m M)|eapply mem_get; eauto]|].
      eapply pbind_step; [now apply char_ok|]. eapply pbind_step; [apply toeol_iff; split; [reflexivity|auto]|reflexivity].
  Qed.
End Lines.
