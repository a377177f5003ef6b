(** Object definitions as text: what is read is what is written. *)
From Coq Require Import Lia String.
From Verif.Model Require Import Base Ip Hosts Groups Rules Nat Iface Peg Ids AddrText Ports AclText Define GroupText ObjText.
From Verif.Spec Require Import AddrSpec RefSpec AddrTextSpec CafTextSpec CafMeanSpec AclTextSpec GroupTextSpec ObjTextSpec.
From Verif.Proofs Require Import GroupOps DictFacts PegFacts AddrTextFacts CafTextFacts TokFacts CafMean LineFacts AclTextFacts AclOptFacts GroupTextFacts.
From Verif.Props Require Import Refs AddrText AclText.
Local Open Scope list_scope.

(** ** What comes next on a line: its end, or a gap and one of the words. *)
Definition next (L : list pystr) (r : pystr) : Prop :=
  (exists z r', end_text z /\ r = z ++ r') \/ (exists g w r', gap g /\ In w L /\ r = g ++ w ++ r').
Lemma next_sep L r : next L r -> sep_start r.
Proof. intros [(z & r' & Z & ->)|(g & w & r' & G & _ & ->)]; [now apply end_sep|now apply gap_sep]. Qed.
Lemma next_end L z r : end_text z -> next L (z ++ r).
Proof. left; eauto. Qed.
Lemma next_word L g w r : gap g -> In w L -> next L (g ++ w ++ r).
Proof. right; eauto 6. Qed.
Lemma next_weaken L L' r : next L r -> incl L L' -> next L' r.
Proof. intros [H|(g & w & r' & G & I & ->)] S; [now left|right]. exists g, w, r'. auto. Qed.
Definition word_start (w : pystr) : bool := match w with c :: _ => negb (is_blank c) | [] => false end.
Lemma word_start_ok w r : word_start w = true -> ~ starts is_blank (w ++ r).
Proof. destruct w as [|c w]; [discriminate|]. cbn [word_start app]. intros H. rewrite starts_cons. now apply negb_true_iff in H as ->. Qed.
Lemma next_fail {A} (p : parser A) L r : next L r -> forallb word_start L = true ->
  (forall w r', In w L -> p (w ++ r') = PFail) -> (forall z r', eol_text z -> p (z ++ r') = PFail) -> then_ ws p r = PFail.
Proof.
  intros [(z & r' & Z & ->)|(g & w & r' & G & I & ->)] B H Hz; unfold then_.
  - apply end_word in Z as (g & e & -> & [-> |G] & Z).
    + apply pbind_fail, ws_fail. now apply eol_noblank.
    + rewrite <- app_assoc. eapply pbind_step; [apply ws_gap; auto; now apply eol_noblank|auto].
  - rewrite forallb_forall in B. eapply pbind_step; [apply ws_gap; [auto|apply word_start_ok; auto]|auto].
Qed.

Section Obj.
  Context (isalpha isalnum isspace : N -> bool) (OK : classes_ok isalpha isalnum isspace).
  Context (py_int : pystr -> option Z)
          (PI1 : forall n, n <> [] -> forallb AddrText.is_digit n = true -> py_int n <> None)
          (PI2 : forall n, In n port_code -> py_int n = None).
  Variables (E : env) (HE : env_ok E) (IF : dict ifnames) (HIF : ifaces_ok isalnum IF).
  Notation kw := (kw isalpha isalnum).
  Notation tokens := (tokens isalpha isalnum).
  Notation reference := (reference isalpha isalnum).
  Notation port := (port isalpha isalnum).
  Notation iface_pair := (iface_pair isalpha isalnum IF).
  Notation fallback := (fallback isalpha isalnum).
  Notation opt_fallback := (opt_fallback isalpha isalnum).
  Notation pool_option := (pool_option isalpha isalnum).
  Notation pat_pool := (pat_pool isalpha isalnum E).
  Notation nat_mapped := (nat_mapped isalpha isalnum E).
  Notation nat_options := (nat_options isalpha isalnum).
  Notation nat_service := (nat_service isalpha isalnum).
  Notation object_nat := (object_nat isalpha isalnum E IF).
  Notation network_object := (network_object isalpha isalnum isspace E IF).
  Notation service_object := (service_object isalpha isalnum py_int).
  Ltac env := destruct HE as (Kn & Kno & Kng & Kso & Ksg & Kpg & Kig & Kpr & Kt & Kv & C1 & C2 & C3 & C4 & C5 & C6).
  Notation kwws_step := (kwws_step isalpha isalnum isspace OK).

  Lemma kw_eol w z r : clash (u w) [10%N] = true -> clash (u w) [13%N] = true -> eol_text z -> kw w (z ++ r) = PFail.
  Proof using. clear. intros C1 C2 [-> | ->]; [now apply kw_clash|]. change ([13%N; 10%N] ++ r) with ([13%N] ++ 10%N :: r). now apply kw_clash. Qed.
  Lemma tokens_eol l z r : forallb (fun w => clash w [10%N] && clash w [13%N]) l = true -> eol_text z -> tokens l (z ++ r) = PFail.
  Proof using.
    clear. intros C Z. assert (D : forall v, v = [10%N] \/ v = [13%N] -> forallb (fun w => clash w v) l = true).
    { rewrite forallb_forall in C. intros v V. apply forallb_forall. intros w I. specialize (C w I). apply andb_true_iff in C as (A & B). destruct V as [-> | ->]; auto. }
    destruct Z as [-> | ->]; [apply tokens_clash; auto|]. change ([13%N; 10%N] ++ r) with ([13%N] ++ 10%N :: r). apply tokens_clash; auto.
  Qed.

  (** ** Interfaces *)
  Lemma iface_named_of n i : iface_named IF n i <-> iface_of IF n (match i with inl _ => None | inr i => Some i end).
  Proof using.
    clear. unfold iface_named, iface_of. destruct i as [[]|i].
    - split; [intros [(-> & _)|(_ & v & _ & [=])]; auto|intros [(-> & _)|(_ & v & _ & [=])]; auto].
    - split; [intros [(_ & [=])|(N & v & D & [= ->])]; right; eauto|intros [(_ & [=])|(N & v & D & [= ->])]; right; eauto].
  Qed.
  Lemma iface_class : (forall c, in_class [44; 41]%N c -> isalnum c = false) /\ (isalpha 97%N = true /\ isalnum 97%N = true /\ isalnum 110%N = true /\ isalnum 121%N = true).
  Proof using OK.
    split; [intros c [<-|[<-|[]]]; rewrite (alnum_ok _ _ _ OK); reflexivity|]. rewrite !(alnum_ok _ _ _ OK), (alpha_ok _ _ _ OK); auto.
  Qed.
  Lemma pair_sound s i j r : iface_pair s = POk (i, j) r -> exists n m, s = u "(" ++ n ++ u "," ++ m ++ u ")" ++ r /\ iface_of IF n i /\ iface_of IF m j.
  Proof using OK HIF.
    unfold ObjText.iface_pair. intros H. pinv H. destruct a as (i' & j'). apply ret_ok in H as ([= <- <-] & ->). destruct iface_class as (K1 & K2).
    apply C26_nat_interfaces in P as (n & m & -> & N & M); auto. exists n, m. split; [auto|]. now rewrite iface_named_of in N, M.
  Qed.
  Lemma pair_ok n m i j r : iface_of IF n i -> iface_of IF m j -> iface_pair (u "(" ++ n ++ u "," ++ m ++ u ")" ++ r) = POk (i, j) r.
  Proof using OK HIF.
    intros N M. unfold ObjText.iface_pair. destruct iface_class as (K1 & K2).
    set (f := fun i : option ifnames => match i with None => inl tt | Some i => inr i end).
    assert (Ff : forall i, match f i with inl _ => None | inr i => Some i end = i) by (intros [|]; reflexivity).
    eapply pbind_step; [apply (C26_nat_interfaces isalpha isalnum IF _ (f i) (f j) r); auto|].
    - exists n, m. split; [auto|]. now rewrite !iface_named_of, !Ff.
    - cbn [fst snd]. now rewrite !Ff.
  Qed.

  (** ** Fallback, pools *)
  Lemma ipv6_sound s x r : popt (then_ ws (kw "ipv6")) s = POk x r -> exists t, s = t ++ r /\ opt_ipv6_text t.
  Proof using.
    clear. intros H. apply popt_ok in H as [([] & -> & H)|(-> & -> & _)]; [|exists []; split; [auto|now left]].
    unfold then_ in H. pinv H. apply ws_sound in P as (g & -> & G). apply kw_sound in H as ->. exists (g ++ u "ipv6"). split; [now rewrite <- app_assoc|right; eauto].
  Qed.
  Lemma ipv6_ok t r L : opt_ipv6_text t -> next L r -> forallb (fun w => word_start w && clash (u "ipv6") w) L = true ->
    exists x, popt (then_ ws (kw "ipv6")) (t ++ r) = POk x r.
  Proof using OK.
    intros [-> |(g & G & ->)] N C.
    - exists None. apply popt_none. eapply next_fail; [exact N|..].
      + rewrite forallb_forall in *. intros w I. specialize (C w I). now apply andb_true_iff in C.
      + intros w r' I. rewrite forallb_forall in C. specialize (C w I). apply andb_true_iff in C as (_ & C). now apply kw_clash.
      + intros. now apply kw_eol.
    - exists (Some tt). apply popt_some. unfold then_. rewrite <- app_assoc. eapply pbind_step; [apply ws_gap; [auto|now apply nostart]|].
      apply kw_ok. apply (sep_stop _ _ _ OK). eapply next_sep; eauto.
  Qed.
  Lemma fallback_sound s x r : opt_fallback s = POk x r -> exists t, s = t ++ r /\ fallback_text t.
  Proof using.
    clear. unfold ObjText.opt_fallback. intros H. apply popt_ok in H as [([] & -> & H)|(-> & -> & _)]; [|exists []; split; [auto|now left]].
    unfold then_, ObjText.fallback in H. pinv H. apply ret_ok in H as (_ & ->). apply ws_sound in P as (g & -> & G). apply kw_sound in P0 as ->. apply ipv6_sound in P1 as (t & -> & T).
    exists (g ++ u "interface" ++ t). split; [now rewrite <- !app_assoc|right; eauto].
  Qed.
  Definition after_mapped : list pystr := [u "service"; u "dns"; u "route-lookup"; u "no-proxy-arp";
    u "destination"; u "net-to-net"; u "unidirectional"; u "inactive"; u "description"].
  Lemma ipv6_next t r L : opt_ipv6_text t -> next L r -> next (u "ipv6" :: L) (t ++ r).
  Proof using. clear. intros [-> |(g & G & ->)] N; [eapply next_weaken; eauto; now apply incl_tl, incl_refl|]. rewrite <- app_assoc. apply next_word; [auto|now left]. Qed.
  Lemma fallback_ok t r : fallback_text t -> next after_mapped r -> exists x, opt_fallback (t ++ r) = POk x r.
  Proof using OK.
    intros [-> |(g & t' & G & T & ->)] N; unfold ObjText.opt_fallback.
    - exists None. apply popt_none. eapply next_fail; [exact N|reflexivity|..].
      + intros w r' I. unfold ObjText.fallback. apply pbind_fail. apply kw_clash. unfold after_mapped in I. cbn [In] in I. repeat (destruct I as [<-|I]; [reflexivity|]). destruct I.
      + intros. unfold ObjText.fallback. apply pbind_fail. now apply kw_eol.
    - exists (Some tt). apply popt_some. unfold then_, ObjText.fallback. rewrite <- !app_assoc. eapply pbind_step; [apply ws_gap; [auto|now apply nostart]|].
      eapply pbind_step; [apply kw_ok, (sep_stop _ _ _ OK); eapply next_sep, ipv6_next; eauto|]. destruct (ipv6_ok t' r _ T N) as (x & X); [reflexivity|].
      eapply pbind_step; [exact X|reflexivity].
  Qed.
  Lemma fallback_next t r : fallback_text t -> next after_mapped r -> next (u "interface" :: after_mapped) (t ++ r).
  Proof using. clear. intros [-> |(g & t' & G & T & ->)] N; [eapply next_weaken; eauto; now apply incl_tl, incl_refl|]. rewrite <- !app_assoc. apply next_word; [auto|now left]. Qed.

  Lemma each_sound {X} (p : parser X) (P : X -> pystr -> Prop) s l r : (forall s x r, p s = POk x r -> exists t, s = t ++ r /\ P x t) ->
    many (then_ ws p) s = POk l r -> exists t, s = t ++ r /\ each P l t.
  Proof using.
    clear. intros H. revert s. induction l as [|x l IH]; intros s M.
    - apply many_inv in M as ->. exists []. split; [auto|constructor].
    - apply many_inv in M as (s1 & Q & _ & M). unfold then_ in Q. pinv Q. apply ws_sound in P0 as (g & -> & G). apply H in Q as (t & -> & T). apply IH in M as (t' & -> & T').
      exists (g ++ t ++ t'). split; [now rewrite <- !app_assoc|now constructor].
  Qed.
  Lemma each_ok {X} (p : parser X) (P : X -> pystr -> Prop) l t r : each P l t ->
    (forall x t, P x t -> word_start t = true) -> then_ ws p r = PFail ->
    (forall x t l' t', P x t -> each P l' t' -> p (t ++ t' ++ r) = POk x (t' ++ r)) ->
    many (then_ ws p) (t ++ r) = POk l r.
  Proof using.
    clear. intros T W F H. induction T as [|x l g t t' G Px T IH]; [now apply many_stop|]. rewrite <- !app_assoc.
    eapply many_step; [unfold then_; eapply pbind_step; [apply ws_gap; [auto|eapply word_start_ok; eauto]|eapply H; eauto]| |exact IH].
    rewrite !app_length. destruct g; [now destruct G|cbn; lia].
  Qed.
  Lemma each_next {X} (P : X -> pystr -> Prop) (W L : list pystr) l t r : each P l t -> (forall x t, P x t -> exists w q, In w W /\ t = w ++ q) -> next L r -> next (W ++ L) (t ++ r).
  Proof using.
    clear. intros [|x l' g t0 t' G Px T] H N; [eapply next_weaken; eauto; now apply incl_appr, incl_refl|]. rewrite <- !app_assoc. apply H in Px as (w & q & I & ->).
    rewrite <- !app_assoc. apply next_word; [auto|apply in_app_iff; now left].
  Qed.

  Definition pool_words : list pystr := [u "round-robin"; u "extended"; u "flat"].
  Lemma pool_option_sound s x r : pool_option s = POk x r -> exists t, s = t ++ r /\ pool_option_text t.
  Proof using.
    clear. unfold ObjText.pool_option, choice. cbn [fold_right]. intros H. apply por_sound in H as [H|H].
    { apply kw_sound in H as ->. eexists; split; [reflexivity|now left]. }
    apply por_sound in H as [H|H]; [apply kw_sound in H as ->; eexists; split; [reflexivity|right; now left]|].
    apply por_sound in H as [H|H]; [|discriminate H]. pinv H. apply ret_ok in H as (_ & ->). apply kw_sound in P as ->.
    apply popt_ok in P0 as [([] & -> & H)|(-> & -> & _)].
    - unfold then_ in H. pinv H. apply ws_sound in P as (g & -> & G). apply kw_sound in H as ->.
      exists (u "flat" ++ g ++ u "include-reserve"). split; [now rewrite <- !app_assoc|]. right; right; right. eauto.
    - eexists; split; [reflexivity|]. right; right; now left.
  Qed.
  Lemma pool_option_ok t r : pool_option_text t -> next (pool_words ++ u "interface" :: after_mapped) r -> pool_option (t ++ r) = POk tt r.
  Proof using OK.
    intros T N. unfold ObjText.pool_option, choice. cbn [fold_right]. pose proof (sep_stop _ _ _ OK _ (next_sep _ _ N)) as S.
    destruct T as [-> |[-> |[-> |(g & G & ->)]]].
    - apply por_l. now apply kw_ok.
    - apply por_r; [now apply kw_clash|]. apply por_l. now apply kw_ok.
    - do 2 (apply por_r; [now apply kw_clash|]). apply por_l. eapply pbind_step; [now apply kw_ok|].
      eapply pbind_step; [apply popt_none; eapply next_fail; [exact N|reflexivity|..]|reflexivity].
      + intros w r' I. apply kw_clash. cbn in I. repeat destruct I as [<-|I]; try reflexivity. destruct I.
      + intros. now apply kw_eol.
    - rewrite <- !app_assoc. do 2 (apply por_r; [now apply kw_clash|]). apply por_l. eapply pbind_step; [apply kw_ok, (gap_stop _ _ _ OK), G|].
      eapply pbind_step; [apply popt_some; unfold then_; eapply pbind_step; [apply ws_gap; [auto|now apply nostart]|now apply kw_ok]|reflexivity].
  Qed.
  Lemma pool_word t : pool_option_text t -> exists w q, In w pool_words /\ t = w ++ q.
  Proof using.
    clear. intros [-> |[-> |[-> |(g & G & ->)]]]; [exists (u "round-robin"), []|exists (u "extended"), []|exists (u "flat"), []|exists (u "flat"), (g ++ u "include-reserve")];
    (split; [cbn; tauto|rewrite ?app_nil_r; reflexivity]).
  Qed.
  Lemma pool_options_ok (l : list unit) t r : each (fun _ => pool_option_text) l t -> next (u "interface" :: after_mapped) r -> many (then_ ws pool_option) (t ++ r) = POk l r.
  Proof using OK.
    intros T N. eapply each_ok; [exact T|..].
    - intros ? t0 P. destruct (pool_word _ P) as (w & q & I & ->). cbn in I. destruct I as [<-|[<-|[<-|[]]]]; reflexivity.
    - eapply next_fail; [exact N|reflexivity|..].
      + intros w r' I. unfold ObjText.pool_option, choice. cbn [fold_right]. unfold after_mapped in I. cbn [In] in I.
        repeat (destruct I as [<-|I]; [|]); [..|destruct I]; (repeat (apply por_r; [first [now apply kw_clash|apply pbind_fail; now apply kw_clash]|])); reflexivity.
      + intros z r' Z. unfold ObjText.pool_option, choice. cbn [fold_right]. repeat (apply por_r; [first [now apply kw_eol|apply pbind_fail; now apply kw_eol]|]). reflexivity.
    - intros [] t0 l' t' P T'. apply pool_option_ok; [auto|]. eapply each_next; [exact T'| |exact N]. intros ? t1 P1. now apply pool_word.
  Qed.

  (** ** References *)
  Lemma refs_exact {V} (d : dict V) s v r : keys name_text d -> reference d s = POk v r <-> exists n, s = n ++ r /\ sep_start r /\ dget d n = Some v.
  Proof using OK. intros K. apply C26_reference; [exact (white_alnum _ _ _ OK)|]. intros n M. apply freew_white, letter_name, K, M. Qed.
  Lemma ref_map_fail {V X} (d : dict V) (f : V -> X) s : (let% x := reference d in ret (f x)) s = PFail -> reference d s = PFail.
  Proof using. clear. unfold pbind. destruct (reference d s); [auto|discriminate|discriminate]. Qed.
  Lemma not_read {V} (d : dict V) n r : keys name_text d -> reference d (n ++ r) = PFail -> sep_start r -> ~ is_known d n.
  Proof using OK. intros K F S (x & D). pose proof (proj2 (refs_exact d (n ++ r) x r K) (ex_intro _ n (conj eq_refl (conj S D)))). congruence. Qed.
  Lemma unread {V} (d : dict V) n r : keys name_text d -> freew n -> sep_start r -> ~ is_known d n -> reference d (n ++ r) = PFail.
  Proof using OK.
    intros K F S N. apply (ref_none _ _ _ OK); [intros m M; apply letter_name, K, M|auto|now apply sep_sepw|left].
    destruct (dget d n) eqn:D; [|auto]. exfalso. apply N. eexists; eauto.
  Qed.
  Lemma ref_read {V} (d : dict V) n x r : keys name_text d -> dget d n = Some x -> sep_start r -> reference d (n ++ r) = POk x r.
  Proof using OK. intros K D S. apply refs_exact; eauto. Qed.
  Lemma kno : keys name_text (e_netobj E).
  Proof using HE. env; auto. Qed.
  Lemma kng : keys name_text (e_netgrp E).
  Proof using HE. env; auto. Qed.

  Lemma pool_range_sound s h r : por (let% g := reference (e_netgrp E) in ret (HGrp g)) (let% o := reference (e_netobj E) in ret (HObj o)) s = POk h r ->
    exists n, s = n ++ r /\ pool_range E h n.
  Proof using OK HE.
    intros H. apply por_ok in H as [H|(F & H)]; pinv H; apply ret_ok in H as (<- & ->).
    - apply refs_exact in P as (n & -> & S & D); [|exact kng]. exists n. split; [auto|now constructor].
    - apply ref_map_fail in F. apply refs_exact in P as (n & -> & S & D); [|exact kno]. exists n. split; [auto|]. constructor; [auto|]. eapply not_read; eauto. exact kng.
  Qed.
  Lemma pool_range_ok h n r : pool_range E h n -> sep_start r ->
    por (let% g := reference (e_netgrp E) in ret (HGrp g)) (let% o := reference (e_netobj E) in ret (HObj o)) (n ++ r) = POk h r /\ n <> [] /\ freew n.
  Proof using OK HE.
    intros [m x D|m o D U] S.
    - destruct (name_nonempty _ _ _ kng D). split; [|auto]. apply por_l. eapply pbind_step; [apply ref_read; eauto using kng|reflexivity].
    - destruct (name_nonempty _ _ _ kno D). split; [|auto]. apply por_r; [apply pbind_fail, unread; auto using kng|]. eapply pbind_step; [apply ref_read; eauto using kno|reflexivity].
  Qed.
  Lemma pool_sound s h r : pat_pool s = POk h r -> exists g n l o, s = (u "pat-pool" ++ g ++ n ++ o) ++ r /\ gap g /\ pool_range E h n /\ each (fun _ : unit => pool_option_text) l o.
  Proof using OK HE.
    unfold ObjText.pat_pool. intros H. pinv H. apply ret_ok in H as (<- & ->). apply kw_sound in P as ->. apply ws_sound in P0 as (g & -> & G).
    apply pool_range_sound in P1 as (n & -> & R). apply (each_sound _ (fun _ => pool_option_text)) in P2 as (o & -> & O); [|intros; eapply pool_option_sound; eauto].
    exists g, n, a2, o. split; [now rewrite <- !app_assoc|auto].
  Qed.

  (** ** What the address becomes *)
  Lemma mapped_sound s m r : sep_start r -> nat_mapped s = POk m r -> exists t, s = t ++ r /\ mapped_text E m t.
  Proof using OK HE.
    intros S H. unfold ObjText.nat_mapped, choice in H. cbn [fold_right] in H. apply act_ok in H as (m' & H & A).
    assert (m' = m) by (destruct (network_nat_mapped m'); [now injection A|discriminate]). subst m'.
    assert (FS : forall f r, fallback_text f -> sep_start r -> sep_start (f ++ r)).
    { intros f r' [-> |(g & t & G & _ & ->)] Sr; [auto|]. rewrite <- app_assoc. now apply gap_sep. }
    assert (RF : forall V X (d : dict V) (f : V -> X) s, (let% o := reference d in let% _ := opt_fallback in ret (f o)) s = PFail -> reference d s = PFail).
    { clear. intros V X d f s H. unfold pbind at 1 in H. destruct (reference d s) as [| |v q]; [auto|discriminate|]. exfalso. unfold pbind, ObjText.opt_fallback, popt in H.
      destruct (then_ ws fallback q); discriminate. }
    apply por_ok in H as [H|(F1 & H)].
    { pinv H. apply ret_ok in H as (<- & ->). apply refs_exact in P as (n & -> & _ & D); [|exact kno]. apply fallback_sound in P0 as (f & -> & Tf).
      exists (n ++ f). split; [now rewrite <- app_assoc|now constructor]. }
    apply RF in F1. apply por_ok in H as [H|(F2 & H)].
    { pinv H. apply ret_ok in H as (<- & ->). apply refs_exact in P as (n & -> & Sn & D); [|exact kng]. apply fallback_sound in P0 as (f & -> & Tf).
      exists (n ++ f). split; [now rewrite <- app_assoc|]. constructor; auto. eapply not_read; eauto. exact kno. }
    apply RF in F2.
    assert (U : forall n q, s = n ++ q -> sep_start q -> unknown E n).
    { intros n q -> Sq. split; eapply not_read; eauto using kno, kng. }
    apply por_sound in H as [H|H].
    { pinv H. apply ret_ok in H as (<- & ->). apply ip4_sound in P as (t & -> & V & T). apply fallback_sound in P0 as (f & -> & Tf).
      exists (t ++ f). split; [now rewrite <- app_assoc|]. constructor; auto. eapply U; eauto. }
    apply por_sound in H as [H|H].
    { pinv H. apply ret_ok in H as (<- & ->). apply ip6_sound in P as (t & -> & V & T). apply fallback_sound in P1 as (f & -> & Tf).
      apply popt_ok in P0 as [(d & -> & P0)|(-> & <- & _)].
      - unfold then_ in P0. pinv P0. destruct a0. apply char_ok in P. subst. apply int_iff in P0 as (-> & Nd & Fd & _). cbn [option_map] in A |- *.
        cbn [network_nat_mapped] in A. destruct (mk_Network a (MaskLen (int10 d))) as [h|] eqn:K; [|discriminate A]. clear A.
        assert (Va : valid a) by (eapply address_valid; eauto).
        destruct (network_sound (a, None) (MaskLen (int10 d)) (mkthost (HLeaf h) None) Va Logic.I) as (n & _ & No); [unfold network; cbn [fst snd]; rewrite K; reflexivity|].
        exists (t ++ u "/" ++ d ++ f). split; [now rewrite <- !app_assoc|]. eapply MP_net; eauto. apply decimal_text_spec; auto.
      - exists (t ++ f). split; [now rewrite <- app_assoc|]. constructor; auto. eapply U; eauto. }
    apply por_sound in H as [H|H].
    { pinv H. apply ret_ok in H as (<- & ->). apply kw_sound in P as ->. apply ipv6_sound in P0 as (t & -> & T).
      exists (u "interface" ++ t). split; [now rewrite <- app_assoc|]. constructor; auto. eapply U; [reflexivity|]. destruct T as [-> |(g & G & ->)]; [auto|rewrite <- app_assoc; now apply gap_sep]. }
    apply por_sound in H as [H|H]; [|discriminate H].
    pinv H. apply ret_ok in H as (<- & ->). apply pool_sound in P as (g & n & l & o & -> & G & R & O). apply fallback_sound in P0 as (f & -> & Tf).
    exists (u "pat-pool" ++ g ++ n ++ o ++ f). split; [now rewrite <- !app_assoc|]. econstructor; eauto. eapply U; [now rewrite <- !app_assoc|now apply gap_sep].
  Qed.

  Lemma mapped_word m t : mapped_text E m t -> word_start t = true.
  Proof using HE.
    assert (W : forall n q, n <> [] -> freew n -> word_start (n ++ q) = true).
    { intros n q N F. destruct n as [|c n]; [congruence|]. cbn. destruct (is_blank c) eqn:B; [|auto]. exfalso. apply (freew_noblank (c :: n) q N F). cbn. now rewrite starts_cons. }
    intros [n o f D T|n x f D N T|a t' f A U T|a t' d p n f V A D N T|t' U T|g h n l o f U G R O T]; try reflexivity.
    - destruct (name_nonempty _ _ _ kno D). now apply W.
    - destruct (name_nonempty _ _ _ kng D). now apply W.
    - apply address_hdc in A as (A & B). apply W; [auto|now apply hdc_freew].
    - apply address_hdc in A as (A & B). apply W; [auto|now apply hdc_freew].
  Qed.
  Lemma mapped_ok m t r : mapped_text E m t -> next after_mapped r -> nat_mapped (t ++ r) = POk m r.
  Proof using OK HE.
    intros H N. pose proof (next_sep _ _ N) as Sr. unfold ObjText.nat_mapped, choice. cbn [fold_right]. apply act_ok. exists m.
    assert (FS : forall f, fallback_text f -> sep_start (f ++ r)) by (intros; eapply next_sep, fallback_next; eauto).
    assert (RF : forall V X (d : dict V) (f : V -> X) n q, keys name_text d -> freew n -> sep_start q -> ~ is_known d n ->
      (let% o := reference d in let% _ := opt_fallback in ret (f o)) (n ++ q) = PFail).
    { intros. apply pbind_fail. now apply unread. }
    assert (Fin : forall X (x : X) f, fallback_text f -> (let% _ := opt_fallback in ret x) (f ++ r) = POk x r).
    { intros X x f T. destruct (fallback_ok f r T N) as (y & Y). eapply pbind_step; [exact Y|reflexivity]. }
    destruct H as [n o f D T|n x f D U T|a t' f A U T|a t' d p n f V A D No T|t' U T|g h n l o f U G R O T]; rewrite <- ?app_assoc.
    - split; [|reflexivity]. apply por_l. eapply pbind_step; [apply ref_read; eauto using kno|]. now apply Fin.
    - destruct (name_nonempty _ _ _ kng D). split; [|reflexivity]. apply por_r; [apply RF; auto using kno|]. apply por_l. eapply pbind_step; [apply ref_read; eauto using kng|]. now apply Fin.
    - split; [|reflexivity]. destruct (address_hdc _ _ A) as (Ha & Na). apply hdc_freew in Ha. pose proof (FS f T) as Sf.
      do 2 (apply por_r; [apply RF; auto using kno, kng; apply U|]). unfold address_text in A. destruct a as [[|] v]; cbn [a_ver a_val] in A.
      + destruct A as (L & ->). apply por_l. eapply pbind_step; [apply ip4_ok; auto; now apply sep_no_digit|]. now apply Fin.
      + apply por_r; [apply pbind_fail; eapply ip4_not6; eauto; now apply sep_no_hdc|]. apply por_l.
        eapply pbind_step; [apply ip6_ok; eauto; now apply sep_no_hdc|]. eapply pbind_step; [apply popt_none; unfold then_; apply pbind_fail|now apply Fin].
        destruct Sf as (q & [-> |[-> |[-> | ->]]]); reflexivity.
    - assert (Va : valid a) by (eapply address_valid; eauto). split.
      2: { cbn [network_nat_mapped]. pose proof (network_ok a None (MaskLen p) n Va Logic.I No) as K. unfold network in K. cbn [fst snd] in K. destruct (mk_Network a (MaskLen p)); [reflexivity|discriminate K]. }
      destruct (address_hdc _ _ A) as (Ha & Na). apply hdc_freew in Ha. unfold address_text in A. destruct a as [[|] v]; cbn [a_ver a_val] in A, V; [discriminate V|].
      change (u "/" ++ d ++ f ++ r) with (47%N :: d ++ f ++ r).
      do 2 (apply por_r; [apply pbind_fail, (ref_none _ _ _ OK); [intros ? M; apply letter_name; revert M; (apply kno || apply kng)|auto|apply slash_sepw|right; apply slash_not_sep]|]).
      assert (Nh : ~ starts is_hexdotcolon (47%N :: d ++ f ++ r)) by (rewrite starts_cons; discriminate).
      apply por_r; [apply pbind_fail; eapply ip4_not6; eauto|]. apply por_l. eapply pbind_step; [apply ip6_ok; eauto|]. apply decimal_text_spec in D as (Nd & Fd & <-).
      eapply pbind_step; [apply popt_some; unfold then_; eapply pbind_step; [apply char_ok; reflexivity|]|].
      + apply int_iff. split; [reflexivity|]. split; [auto|]. split; [auto|]. now apply sep_no_digit, FS.
      + cbn [option_map]. now apply Fin.
    - split; [|reflexivity]. assert (St : sep_start (t' ++ r)) by (eapply next_sep, ipv6_next; eauto).
      assert (Fw : freew (u "interface")) by now apply freewb_ok.
      do 2 (apply por_r; [apply RF; auto using kno, kng; apply U|]). apply por_r; [apply pbind_fail, ip4_nodigit; now apply nostart|].
      apply por_r; [apply pbind_fail; exact (ip6_nohex [] 105 (tl (u "interface") ++ t' ++ r) eq_refl eq_refl ltac:(discriminate))|]. apply por_l.
      eapply pbind_step; [apply kw_ok, (sep_stop _ _ _ OK), St|]. destruct (ipv6_ok t' r _ T N) as (x & X); [reflexivity|]. eapply pbind_step; [exact X|reflexivity].
    - split; [|reflexivity]. assert (Sf : next (u "interface" :: after_mapped) (f ++ r)) by (now apply fallback_next).
      assert (So : next (pool_words ++ u "interface" :: after_mapped) (o ++ f ++ r)).
      { eapply each_next; [exact O| |exact Sf]. intros ? t1 P1. now apply pool_word. }
      destruct (pool_range_ok h n _ R (next_sep _ _ So)) as (Rp & Nn & Fn). assert (Fw : freew (u "pat-pool")) by now apply freewb_ok.
      do 2 (apply por_r; [apply RF; auto using kno, kng, gap_sep; apply U|]). apply por_r; [apply pbind_fail, ip4_nodigit; now apply nostart|].
      apply por_r; [apply pbind_fail; exact (ip6_nohex [] 112 (tl (u "pat-pool") ++ g ++ n ++ o ++ f ++ r) eq_refl eq_refl ltac:(discriminate))|].
      apply por_r; [apply pbind_fail; now apply kw_clash|]. apply por_l. eapply (pbind_step _ _ _ h (f ++ r)); [|now apply Fin].
      unfold ObjText.pat_pool. apply kwws_step; [auto|auto using freew_noblank|]. eapply pbind_step; [exact Rp|]. eapply pbind_step; [eapply pool_options_ok; eauto|reflexivity].
  Qed.

  (** ** Options and service *)
  Lemma option_sound s x r : tokens [u "route-lookup"; u "no-proxy-arp"; u "dns"] s = POk x r -> exists t, s = t ++ r /\ nat_option_text x t.
  Proof using.
    clear. intros H. apply tokens_sound in H as (I & -> & _). exists x. split; [auto|]. split; [auto|].
    destruct I as [<-|[<-|[<-|[]]]]; eexists; (split; [|reflexivity]); cbn; auto.
  Qed.
  Definition option_words : list pystr := [u "route-lookup"; u "no-proxy-arp"; u "dns"].
  Lemma option_in x t : nat_option_text x t -> t = x /\ In x option_words.
  Proof using. clear. intros (-> & w & I & ->). split; [auto|]. destruct I as [<-|[<-|[<-|[]]]]; cbn; auto. Qed.
  Lemma options_sound s l r : nat_options s = POk l r -> exists t, s = t ++ r /\ each nat_option_text l t.
  Proof using. clear. apply each_sound. intros; now apply option_sound. Qed.
  Lemma options_next l t z r : each nat_option_text l t -> end_text z -> next option_words (t ++ z ++ r).
  Proof using.
    clear. intros T Z. rewrite <- (app_nil_r option_words). eapply each_next; [exact T| |now apply next_end]. intros x t0 P. apply option_in in P as (-> & I). exists x, []. now rewrite app_nil_r.
  Qed.
  Lemma options_ok l t z r : each nat_option_text l t -> end_text z -> nat_options (t ++ z ++ r) = POk l (z ++ r).
  Proof using OK.
    intros T Z. unfold ObjText.nat_options. eapply each_ok; [exact T|..].
    - intros x t0 P. apply option_in in P as (-> & I). cbn in I. destruct I as [<-|[<-|[<-|[]]]]; reflexivity.
    - apply (next_fail _ []); [now apply next_end|reflexivity|intros ? ? []|]. intros. now apply tokens_eol.
    - intros x t0 l' t' P T'. apply option_in in P as (-> & I). apply (tokens_ok _ _ _ OK); auto. apply sep_sepw. eapply next_sep, options_next; eauto.
  Qed.
  Lemma service_sound s x r : nat_service s = POk x r -> exists t, s = t ++ r /\ nat_service_text x t.
  Proof using.
    clear. unfold ObjText.nat_service. intros H. apply por_sound in H as [H|H]; pinv H; apply ret_ok in H as (<- & ->).
    - apply kw_sound in P as ->. apply ws_sound in P0 as (g & -> & G). apply tokens_sound in P1 as (I & -> & _). apply ws_sound in P2 as (g1 & -> & G1).
      apply port_sound in P3 as (-> & N1). apply ws_sound in P4 as (g2 & -> & G2). apply port_sound in P5 as (-> & N2).
      exists (u "service" ++ g ++ a1 ++ g1 ++ a3 ++ g2 ++ a5). split; [now rewrite <- !app_assoc|]. constructor; auto. destruct I as [<-|[<-|[]]]; eexists; (split; [|reflexivity]); cbn; auto.
    - apply kw_sound in P as ->. eexists. split; [reflexivity|constructor].
  Qed.
  Lemma nat_service_ok x t r : nat_service_text x t -> sep_start r -> nat_service (t ++ r) = POk x r.
  Proof using OK.
    intros H S. unfold ObjText.nat_service. destruct H as [g p g1 a g2 b G W G1 A G2 B|].
    - rewrite <- !app_assoc. destruct (port_name_free _ A), (port_name_free _ B). destruct W as (w & I & ->). apply por_l.
      assert (In (u w) [u "tcp"; u "udp"]) by (destruct I as [<-|[<-|[]]]; cbn; auto).
      apply kwws_step; [auto|destruct I as [<-|[<-|[]]]; now apply nostart|]. apply (tokws_step isalpha isalnum isspace OK); auto using freew_noblank.
      eapply pbind_step; [eapply port_ok; eauto using gap_sep|]. eapply pbind_step; [apply ws_gap; auto using freew_noblank|]. eapply pbind_step; [eapply port_ok; eauto|reflexivity].
    - apply por_r; [apply pbind_fail; now apply kw_clash|]. eapply pbind_step; [apply kw_ok; now apply (sep_stop _ _ _ OK)|reflexivity].
  Qed.

  (** ** NAT lines *)
  Lemma pair_word r : forall n, ~ starts is_blank (u "(" ++ n ++ r).
  Proof using. clear. intros n. now apply nostart. Qed.
  Lemma each_sep {X} (P : X -> pystr -> Prop) l t r : each P l t -> sep_start r -> sep_start (t ++ r).
  Proof using. clear. intros [|x l' g t0 t' G _ _] S; [auto|]. rewrite <- !app_assoc. now apply gap_sep. Qed.
  Lemma nat_line_sound s x r : object_nat s = POk x r -> exists t, s = t ++ r /\ nat_text E IF x t.
  Proof using OK HE HIF.
    unfold ObjText.object_nat. intros H. apply por_sound in H as [H|H].
    - pinv H. apply ret_ok in H as (<- & ->). apply kw_sound in P as ->. apply ws_sound in P0 as (g & -> & G). destruct a1 as (i & j). apply pair_sound in P1 as (n & m & -> & I & J).
      apply ws_sound in P2 as (g1 & -> & G1). apply kw_sound in P3 as ->. apply ws_sound in P4 as (g2 & -> & G2). apply line_end_sound in P7 as (z & -> & Z).
      apply options_sound in P6 as (o & -> & O). apply mapped_sound in P5 as (t & -> & M); [|eapply each_sep; eauto using end_sep].
      eexists. split; [|eapply (NT E IF g n i m j g1 false g2 _ t None []); eauto; [constructor|discriminate]]. now rewrite <- !app_assoc.
    - pinv H. apply ret_ok in H as (<- & ->). apply kw_sound in P as ->. apply ws_sound in P0 as (g & -> & G). destruct a1 as (i & j). apply pair_sound in P1 as (n & m & -> & I & J).
      apply ws_sound in P2 as (g1 & -> & G1). apply kw_sound in P3 as ->. apply ws_sound in P4 as (g2 & -> & G2). apply line_end_sound in P8 as (z & -> & Z).
      apply options_sound in P7 as (o & -> & O). pose proof (each_sep _ _ _ _ O (end_sep z r Z)) as So.
      apply popt_ok in P6 as [(sv & -> & H)|(-> & <- & F)].
      + unfold then_ in H. pinv H. apply ws_sound in P as (g3 & -> & G3). apply service_sound in H as (ts & -> & Ts). apply mapped_sound in P5 as (t & -> & M); [|now apply gap_sep].
        eexists. split; [|eapply (NT E IF g n i m j g1 true g2 _ t (Some sv) (g3 ++ ts)); eauto; [now constructor|discriminate|discriminate]]. now rewrite <- !app_assoc.
      + apply mapped_sound in P5 as (t & -> & M); [|auto].
        eexists. split; [|eapply (NT E IF g n i m j g1 true g2 _ t None []); eauto; [constructor|]]; [now rewrite <- !app_assoc|].
        intros _ _ o' ->. inversion O as [|? ? g3 t3 t3' G3 (-> & _) O']; subst. rewrite <- !app_assoc in F. unfold then_ in F.
        erewrite pbind_step in F; [|apply ws_gap; [auto|now apply nostart]|apply nat_service_ok; [constructor|eapply each_sep; eauto using end_sep]]. discriminate F.
  Qed.
  Lemma nat_line_ok x t r : nat_text E IF x t -> object_nat (t ++ r) = POk x r.
  Proof using OK HE HIF.
    intros [g n i n' i' g1 static g2 m tm s ts o to z G I J G1 G2 M S Sf Nd O Z]. rewrite <- !app_assoc. unfold ObjText.object_nat.
    pose proof (options_next o to z r O Z) as No. pose proof (next_sep _ _ No) as So. pose proof (mapped_word _ _ M) as Mw.
    destruct static.
    - apply por_r.
      { apply kwws_step; [auto|now apply nostart|]. eapply pbind_step; [apply pair_ok; eauto|]. eapply pbind_step; [apply ws_gap; [auto|now apply nostart]|]. apply pbind_fail. now apply kw_clash. }
      apply kwws_step; [auto|now apply nostart|]. eapply pbind_step; [apply pair_ok; eauto|]. eapply pbind_step; [apply ws_gap; [auto|now apply nostart]|].
      apply kwws_step; [auto|now apply word_start_ok|].
      assert (Ns : next after_mapped (ts ++ to ++ z ++ r)).
      { destruct S as [|g3 sv t3 G3 T3]; [eapply next_weaken; eauto; intros w; cbn; tauto|]. rewrite <- app_assoc. destruct T3 as [g4 p g5 a g6 b G4 W G5 A G6 B|]; rewrite <- ?app_assoc; apply next_word; auto; cbn; auto. }
      eapply pbind_step; [apply mapped_ok; eauto|].
      assert (Fs : popt (then_ ws nat_service) (ts ++ to ++ z ++ r) = POk s (to ++ z ++ r)).
      { destruct S as [|g3 sv t3 G3 T3].
        - cbn [app]. apply popt_none. apply (next_fail _ [u "route-lookup"; u "no-proxy-arp"]); [|reflexivity|..].
          + destruct O as [|y l' g3 t3 t3' G3 P3 O']; [cbn [app]; now apply next_end|]. rewrite <- !app_assoc. apply option_in in P3 as (-> & I3). apply next_word; [auto|].
            cbn in I3 |- *. destruct I3 as [I3|[I3|[I3|[]]]]; auto. exfalso. exact (Nd eq_refl eq_refl l' (f_equal (fun y => y :: l') (eq_sym I3))).
          + intros w q [<-|[<-|[]]]; unfold ObjText.nat_service; (apply por_r; apply pbind_fail; now apply kw_clash).
          + intros z' q Z'; unfold ObjText.nat_service; (apply por_r; apply pbind_fail; now apply kw_eol).
        - rewrite <- app_assoc. apply popt_some. unfold then_. eapply pbind_step; [apply ws_gap; [auto|destruct T3; rewrite <- ?app_assoc; now apply nostart]|now apply nat_service_ok]. }
      eapply pbind_step; [exact Fs|]. eapply pbind_step; [apply options_ok; eauto|]. eapply pbind_step; [now apply line_end_ok|reflexivity].
    - specialize (Sf eq_refl). subst s. inversion S; subst. cbn [app]. apply por_l. apply kwws_step; [auto|now apply nostart|]. eapply pbind_step; [apply pair_ok; eauto|].
      eapply pbind_step; [apply ws_gap; [auto|now apply nostart]|]. apply kwws_step; [auto|now apply word_start_ok|].
      eapply pbind_step; [apply mapped_ok; eauto|]. { eapply next_weaken; eauto; intros w; cbn; tauto. }
      eapply pbind_step; [apply options_ok; eauto|]. eapply pbind_step; [now apply line_end_ok|reflexivity].
  Qed.

  (** ** Contents *)
  Lemma fqdn_space x z r : url_text isspace x -> eol_text z -> string_ isspace (x ++ z ++ r) = POk x (z ++ r).
  Proof using OK.
    intros U Z. apply string_iff. split; [auto|]. split; [auto|]. destruct Z as [-> | ->]; cbn [app]; rewrite starts_cons, (space_ok _ _ _ OK); (reflexivity || discriminate).
  Qed.
  Lemma addr_sound s a r : por ip4 ip6 s = POk a r -> exists t, s = t ++ r /\ address_text t a.
  Proof using. clear. intros H. apply por_sound in H as [H|H]; [apply ip4_sound in H as (t & -> & _ & T)|apply ip6_sound in H as (t & -> & _ & T)]; eauto. Qed.
  Lemma addr_ok t a r : address_text t a -> sep_start r -> por ip4 ip6 (t ++ r) = POk a r.
  Proof using.
    clear. intros A S. unfold address_text in A. destruct a as [[|] v]; cbn [a_ver a_val] in A.
    - destruct A as (L & ->). apply por_l. apply ip4_ok; [auto|now apply sep_no_digit].
    - apply por_r; [eapply ip4_not6; eauto; now apply sep_no_hdc|]. apply ip6_ok; [auto|now apply sep_no_hdc].
  Qed.
  Lemma addr_noblank t a r : address_text t a -> ~ starts is_blank (t ++ r).
  Proof using. clear. intros A. apply address_hdc in A as (A & N). apply freew_noblank; [auto|now apply hdc_freew]. Qed.
  Lemma quad_sound s a r : ip4 s = POk a r -> exists v, a = mkaddr V4 v /\ (v < 2 ^ 32)%N /\ s = quad v ++ r.
  Proof using. clear. intros H. apply C50_ip4_read in H as (V & W & -> & _). destruct a as [v n]. cbn [a_ver a_val] in *. subst v. exists n. split; [auto|]. split; [exact W|auto]. Qed.
  Lemma contents_sound s x r : network_object s = POk x r ->
    exists t, s = t ++ r /\ match x with inl a => args_text isspace a t | inr m => nat_text E IF m t end.
  Proof using OK HE HIF.
    unfold ObjText.network_object, choice. cbn [fold_right]. intros H. apply por_sound in H as [H|H]; [pinv H|].
    { apply ret_ok in H as (<- & ->). apply kw_sound in P as ->. apply ws_sound in P0 as (g & -> & G). apply addr_sound in P1 as (t & -> & A). apply nl_sound in P2 as (z & -> & Z).
      exists (u "host" ++ g ++ t ++ z). split; [now rewrite <- !app_assoc|now constructor]. }
    apply por_sound in H as [H|H]; [pinv H|].
    { apply ret_ok in H as (<- & ->). apply kw_sound in P as ->. apply ws_sound in P0 as (g & -> & G). apply quad_sound in P1 as (v & -> & L & ->). apply ws_sound in P2 as (g' & -> & G').
      apply quad_sound in P3 as (m & -> & L' & ->). apply nl_sound in P4 as (z & -> & Z).
      exists (u "subnet" ++ g ++ quad v ++ g' ++ quad m ++ z). split; [now rewrite <- !app_assoc|now constructor]. }
    apply por_sound in H as [H|H]; [pinv H|].
    { apply ret_ok in H as (<- & ->). apply kw_sound in P as ->. apply ws_sound in P0 as (g & -> & G). apply ip6_sound in P1 as (t & -> & V & A). destruct a2. apply char_ok in P2. subst.
      apply int_iff in P3 as (-> & Nd & Fd & _). apply nl_sound in P4 as (z & -> & Z).
      exists (u "subnet" ++ g ++ t ++ u "/" ++ a3 ++ z). split; [now rewrite <- !app_assoc|]. constructor; auto. apply decimal_text_spec; auto. }
    apply por_sound in H as [H|H]; [pinv H|].
    { apply ret_ok in H as (<- & ->). apply kw_sound in P as ->. apply ws_sound in P0 as (g & -> & G). apply ip4_sound in P1 as (t & -> & V & A). apply ws_sound in P2 as (g' & -> & G').
      apply ip4_sound in P3 as (t' & -> & V' & A'). apply nl_sound in P4 as (z & -> & Z).
      exists (u "range" ++ g ++ t ++ g' ++ t' ++ z). split; [now rewrite <- !app_assoc|]. constructor; auto. congruence. }
    apply por_sound in H as [H|H]; [pinv H|].
    { apply ret_ok in H as (<- & ->). apply kw_sound in P as ->. apply ws_sound in P0 as (g & -> & G). apply ip6_sound in P1 as (t & -> & V & A). apply ws_sound in P2 as (g' & -> & G').
      apply ip6_sound in P3 as (t' & -> & V' & A'). apply nl_sound in P4 as (z & -> & Z).
      exists (u "range" ++ g ++ t ++ g' ++ t' ++ z). split; [now rewrite <- !app_assoc|]. constructor; auto. congruence. }
    apply por_sound in H as [H|H]; [pinv H|].
    { apply ret_ok in H as (<- & ->). apply kw_sound in P as ->. apply ws_sound in P0 as (g & -> & G). apply string_iff in P2 as (-> & U & _). apply nl_sound in P3 as (z & -> & Z).
      apply popt_ok in P1 as [(v & -> & H)|(-> & <- & _)].
      - pinv H. apply ret_ok in H as (<- & ->). apply ws_sound in P0 as (g' & -> & G').
        exists (u "fqdn" ++ g ++ match a1 with V4 => u "v4" | V6 => u "v6" end ++ g' ++ a2 ++ z). split; [|now constructor].
        unfold fqdn_limit in P. apply por_sound in P as [P|P]; pinv P; apply ret_ok in P as (<- & ->); match goal with K : AclText.kw _ _ _ _ = _ |- _ => apply kw_sound in K as -> end; now rewrite <- !app_assoc.
      - exists (u "fqdn" ++ g ++ a2 ++ z). split; [now rewrite <- !app_assoc|now constructor]. }
    apply por_sound in H as [H|H]; [pinv H|discriminate H]. apply ret_ok in H as (<- & ->). now apply nat_line_sound in P.
  Qed.
  Lemma limit_none x z r : url_text isspace x -> eol_text z ->
    popt (let% v := fqdn_limit isalpha isalnum in let% _ := ws in ret v) (x ++ z ++ r) = POk None (x ++ z ++ r).
  Proof using OK.
    intros U Z. apply popt_none. pose proof (fqdn_space x z r U Z) as F.
    assert (K : forall w q, url_text isspace (u w) -> kw w (x ++ z ++ r) = POk tt q -> ws q = PFail).
    { intros w q Uw Q. apply kw_sound in Q. apply ws_fail. intros B. rewrite Q in F.
      assert (F' : string_ isspace (u w ++ q) = POk (u w) q).
      { apply string_iff. split; [auto|]. split; [auto|]. destruct B as (c & q' & -> & B). rewrite starts_cons. apply is_blank_spec in B. destruct B as [-> | ->]; rewrite (space_ok _ _ _ OK); (reflexivity || discriminate). }
      rewrite F' in F. injection F as _ ->. now apply (eol_noblank z r). }
    assert (W : forall w, w = "v4"%string \/ w = "v6"%string -> url_text isspace (u w)).
    { intros w H. split; [destruct H as [-> | ->]; discriminate|]. intros c I. destruct H as [-> | ->]; [change (u "v4") with [118; 52]%N in I|change (u "v6") with [118; 54]%N in I];
      destruct I as [<-|[<-|[]]]; now rewrite (space_ok _ _ _ OK). }
    unfold pbind at 1. destruct (fqdn_limit isalpha isalnum (x ++ z ++ r)) as [|e|v q] eqn:Q; [auto| |].
    - exfalso. unfold fqdn_limit, por, pbind in Q. destruct (kw "v4" (x ++ z ++ r)) eqn:Q4; [|now apply kw_noerr in Q4|discriminate Q]. destruct (kw "v6" (x ++ z ++ r)) eqn:Q6; [discriminate Q|now apply kw_noerr in Q6|discriminate Q].
    - apply pbind_fail. unfold fqdn_limit in Q. apply por_sound in Q as [Q|Q]; pinv Q; apply ret_ok in Q as (<- & ->); destruct a; (eapply K; [|eauto]; auto).
  Qed.
  Lemma url_noblank x r : url_text isspace x -> ~ starts is_blank (x ++ r).
  Proof using OK.
    intros (N & H). destruct x as [|c x]; [congruence|]. cbn [app]. rewrite starts_cons. intros B. specialize (H c (or_introl eq_refl)).
    apply is_blank_spec in B. destruct B as [-> | ->]; rewrite (space_ok _ _ _ OK) in H; (reflexivity || discriminate H).
  Qed.
  Lemma args_ok a t r : args_text isspace a t -> network_object (t ++ r) = POk (inl a) r.
  Proof using OK.
    intros H. unfold ObjText.network_object, choice. cbn [fold_right].
    assert (C : forall A w (k : parser A) v q, clash (u w) (u v) = true -> (let% _ := kw w in k) (u v ++ q) = PFail) by (intros; apply pbind_fail; now apply kw_clash).
    destruct H as [g a t z G A Z|g a g' m z G L G' L' Z|g a t d p z G V A D Z|g a t g' b t' z G A G' B V Z|g x z G U Z|g v g' x z G G' U Z]; rewrite <- !app_assoc.
    - apply por_l. apply kwws_step; [auto|eapply addr_noblank; eauto|]. eapply pbind_step; [apply addr_ok; eauto using eol_sep|]. eapply pbind_step; [now apply nl_ok|reflexivity].
    - apply por_r; [now apply C|]. apply por_l. apply kwws_step; [auto|now apply quad_noblank|].
      eapply pbind_step; [apply ip4_ok; auto; now apply sep_no_digit, gap_sep|]. eapply pbind_step; [apply ws_gap; auto; now apply quad_noblank|].
      eapply pbind_step; [apply ip4_ok; auto; now apply sep_no_digit, eol_sep|]. eapply pbind_step; [now apply nl_ok|reflexivity].
    - change (u "/" ++ d ++ z ++ r) with (47%N :: d ++ z ++ r). assert (Nh : ~ starts is_hexdotcolon (47%N :: d ++ z ++ r)) by (rewrite starts_cons; discriminate).
      pose proof (addr_noblank _ _ (47%N :: d ++ z ++ r) A) as Nb. unfold address_text in A. destruct a as [[|] n]; cbn [a_ver a_val] in V, A; [discriminate V|].
      apply por_r; [now apply C|]. apply por_r; [apply kwws_step; [auto|auto|]; apply pbind_fail; eapply ip4_not6; eauto|]. apply por_l. apply kwws_step; [auto|auto|].
      eapply pbind_step; [apply ip6_ok; eauto|]. eapply pbind_step; [apply char_ok; reflexivity|]. apply decimal_text_spec in D as (Nd & Fd & <-).
      eapply pbind_step; [apply int_iff; split; [reflexivity|]; split; [auto|]; split; [auto|]; now apply sep_no_digit, eol_sep|]. eapply pbind_step; [now apply nl_ok|reflexivity].
    - pose proof (addr_noblank _ _ (g' ++ t' ++ z ++ r) A) as Nb. pose proof (addr_noblank _ _ (z ++ r) B) as Nb'. do 3 (apply por_r; [now apply C|]).
      pose proof (gap_sep g' (t' ++ z ++ r) G') as Sg. pose proof (eol_sep z r Z) as Sz.
      unfold address_text in A, B. destruct a as [[|] n], b as [[|] n']; cbn [a_ver a_val] in V, A, B; try discriminate V.
      + destruct A as (L & ->), B as (L' & ->). apply por_l. apply kwws_step; [auto|auto|]. eapply pbind_step; [apply ip4_ok; auto; now apply sep_no_digit|].
        eapply pbind_step; [apply ws_gap; auto|]. eapply pbind_step; [apply ip4_ok; auto; now apply sep_no_digit|]. eapply pbind_step; [now apply nl_ok|reflexivity].
      + apply por_r; [apply kwws_step; [auto|auto|]; apply pbind_fail; eapply ip4_not6; eauto; now apply sep_no_hdc|]. apply por_l. apply kwws_step; [auto|auto|].
        eapply pbind_step; [apply ip6_ok; eauto; now apply sep_no_hdc|]. eapply pbind_step; [apply ws_gap; auto|]. eapply pbind_step; [apply ip6_ok; eauto; now apply sep_no_hdc|].
        eapply pbind_step; [now apply nl_ok|reflexivity].
    - do 5 (apply por_r; [now apply C|]). apply por_l. apply kwws_step; [auto|now apply url_noblank|]. eapply pbind_step; [now apply limit_none|].
      eapply pbind_step; [now apply fqdn_space|]. eapply pbind_step; [now apply nl_ok|reflexivity].
    - do 5 (apply por_r; [now apply C|]). apply por_l. apply kwws_step; [auto|destruct v; now apply nostart|].
      eapply (pbind_step _ _ _ (Some v) (x ++ z ++ r)); [|eapply pbind_step; [now apply fqdn_space|]; eapply pbind_step; [now apply nl_ok|reflexivity]].
      apply popt_some. eapply (pbind_step _ _ _ v (g' ++ x ++ z ++ r)); [|eapply pbind_step; [apply ws_gap; [auto|now apply url_noblank]|reflexivity]].
      unfold fqdn_limit. destruct v; [apply por_l|apply por_r; [apply pbind_fail; now apply kw_clash|]]; (eapply pbind_step; [apply kw_ok, (gap_stop _ _ _ OK), G'|reflexivity]).
  Qed.
  Lemma nat_contents_ok m t r : nat_text E IF m t -> network_object (t ++ r) = POk (inr m) r.
  Proof using OK HE HIF.
    intros H. unfold ObjText.network_object, choice. cbn [fold_right]. pose proof (nat_line_ok _ _ r H) as K. destruct H as [g n i n' i' g1 static g2 m tm s ts o to z G I J G1 G2 M S Sf Nd O Z].
    rewrite <- app_assoc in K |- *. do 6 (apply por_r; [apply pbind_fail; now apply kw_clash|]). apply por_l. eapply pbind_step; [exact K|reflexivity].
  Qed.
  Lemma nat_start m t : nat_text E IF m t -> exists q, t = u "nat" ++ q.
  Proof using. clear. intros []. eauto. Qed.
  Lemma objservice_sound s x r : service_object s = POk x r -> exists t, s = t ++ r /\ objservice_text x t.
  Proof using OK PI1 PI2.
    unfold ObjText.service_object, choice. cbn [fold_right]. intros H. apply por_sound in H as [H|H]; [pinv H|].
    { apply kw_sound in P as ->. apply ws_sound in P0 as (g & -> & G). apply (icmp_service_sound _ _ _ eol_text) in H as (t & -> & T); [|intros; eapply nl_sound; eauto].
      exists (u "service" ++ g ++ t). split; [now rewrite <- !app_assoc|now constructor]. }
    apply por_sound in H as [H|H]; [pinv H|].
    { apply kw_sound in P as ->. apply ws_sound in P0 as (g & -> & G). eapply (port_service_sound _ _ _ OK _ PI1 PI2 eol_text) in H as (t & -> & T).
      exists (u "service" ++ g ++ t). split; [now rewrite <- !app_assoc|now constructor]. }
    apply por_sound in H as [H|H]; [pinv H|discriminate H]. apply ret_ok in H as (<- & ->). apply kw_sound in P as ->. apply ws_sound in P0 as (g & -> & G).
    apply bounded_sound in P1 as (-> & N). apply nl_sound in P2 as (z & -> & Z). exists (u "service" ++ g ++ a1 ++ z). split; [now rewrite <- !app_assoc|now apply OS_int].
  Qed.
  Lemma objservice_ok x t r : objservice_text x t -> service_object (t ++ r) = POk x r.
  Proof using OK PI1 PI2.
    unfold ObjText.service_object, choice. cbn [fold_right]. intros [g s t' G T|g p z G N Z]; rewrite <- !app_assoc.
    - destruct T as [p ty c i z W M Z|p src dst t2 W Po].
      + apply two_words in W. rewrite <- !app_assoc. apply por_l. apply kwws_step; [auto|eapply two_first; eauto|]. eapply (icmp_service_ok _ _ _ OK nl eol_text); eauto using nl_ok, eol_end.
      + apply three_words in W. destruct (ports_head _ _ _ _ Po) as (q & Eq). pose proof (three_first isalpha isalnum p (q ++ r) W) as (N & B). rewrite app_assoc, <- Eq in N, B.
        apply por_r; [apply kwws_step; [auto|auto|]; now apply pbind_fail|]. apply por_l. apply kwws_step; [auto|auto|]. eapply port_service_ok; eauto.
    - pose proof (number_digits _ _ N) as (Np & Fp). assert (Nb : ~ starts is_blank (p ++ z ++ r)) by (apply freew_noblank; [auto|now apply digits_freew]).
      apply por_r; [apply kwws_step; [auto|auto|]; apply pbind_fail; now apply tokens_digit|]. apply por_r; [apply kwws_step; [auto|auto|]; apply pbind_fail; now apply tokens_digit|].
      apply por_l. apply kwws_step; [auto|auto|]. eapply pbind_step; [apply bounded_ok; eauto; now apply eol_nodigit|]. eapply pbind_step; [now apply nl_ok|reflexivity].
  Qed.
End Obj.
