(** IPv6 access lists of an IOS configuration as text. *)
From Coq Require Import Lia String.
From Verif.Model Require Import Base Ip Hosts Groups Iface Peg Ids AddrText Ports AclText IosText.
From Verif.Spec Require Import AddrSpec RefSpec AddrTextSpec CafTextSpec CafMeanSpec AclTextSpec GroupTextSpec ConfigSpec IosTextSpec.
From Verif.Proofs Require Import GroupOps DictFacts MaskFacts PegFacts AddrTextFacts CafTextFacts TokFacts CafMean LineFacts AclTextFacts AclOptFacts GroupTextFacts IosFacts IosNumbers.
From Verif.Props Require Import Refs AddrText CafText AclText IosText.
Local Open Scope list_scope.

Section Ios.
  Context (isalpha isalnum isspace : N -> bool) (OK : classes_ok isalpha isalnum isspace).
  Context (py_int : pystr -> option Z)
          (PI1 : forall n, n <> [] -> forallb AddrText.is_digit n = true -> py_int n <> None)
          (PI2 : forall n, In n port_code -> py_int n = None).
  Variables (E : env) (HE : env_ok E).
  Notation kw := (kw isalpha isalnum).
  Notation tokens := (tokens isalpha isalnum).
  Notation acl_port := (acl_port isalpha isalnum py_int E).
  Notation acl_protocol := (acl_protocol isalpha isalnum E).
  Notation inode6 := (inode6 isalpha isalnum py_int E).
  Notation rule6 := (rule6 isalpha isalnum py_int E).
  Notation item6 := (item6 isalpha isalnum py_int E).
  Notation mode_ := (mode_ isalpha isalnum).

  (** ** One rule after its number *)
  Definition body6 {A} (proto : parser A) (opt : parser iopt) (k : pystr -> A -> anode -> anode -> dict (option pystr) -> pystr -> irule) : parser (pystr -> irule) :=
    let% m := mode_ in let% _ := ws in let% p := proto in let% _ := ws in
    let% s := inode6 in let% _ := ws in let% d := inode6 in let% o := options opt in let% _ := nl in ret (k m p s d o).
  Definition rule_of (m : pystr) (p : aproto) (s d : anode) (o : dict (option pystr)) (id : pystr) : irule := mkirule id None m p s d None o [].
  Lemma rule6_body s : rule6 s = por (body6 acl_protocol (opt6 isalpha isalnum) rule_of)
    (body6 (tokens [u "icmp"; u "icmp6"]) (icmp_opt6 isalpha isalnum) (fun m p => rule_of m (APName p))) s.
  Proof using. reflexivity. Qed.
  Lemma body6_sound {A} (proto : parser A) (opt : parser iopt) k (OT : list iopt -> pystr -> Prop) s f r :
    (forall s l r, many (then_ ws opt) s = POk l r -> exists t, s = t ++ r /\ OT l t) -> body6 proto opt k s = POk f r ->
    exists m g1 s1 p g2 src t1 g3 dst t2 l ot z q, s = m ++ g1 ++ s1 /\ mode_text m /\ gap g1 /\ proto s1 = POk p q /\ q = g2 ++ t1 ++ g3 ++ t2 ++ ot ++ z ++ r /\ gap g2 /\
      inode6_text E src t1 /\ gap g3 /\ inode6_text E dst t2 /\ OT l ot /\ eol_text z /\ f = k m p src dst (opts_of l).
  Proof using OK HE PI1 PI2.
    intros OS H. unfold body6 in H. pinv H. apply ret_ok in H as (<- & ->). apply mode_sound in P as (-> & M). apply ws_sound in P0 as (g1 & -> & G1). apply ws_sound in P2 as (g2 & -> & G2).
    apply (inode6_sound _ _ _ OK _ PI1 PI2 E HE) in P3 as (t1 & -> & T1). apply ws_sound in P4 as (g3 & -> & G3). apply (inode6_sound _ _ _ OK _ PI1 PI2 E HE) in P5 as (t2 & -> & T2).
    unfold options in P6. pinv P6. apply ret_ok in P6 as (<- & ->). apply OS in P as (ot & -> & O). apply nl_iff in P7 as (z & Z & ->).
    eexists a, g1, _, a1, g2, _, t1, g3, _, t2, _, ot, z, _. split; [reflexivity|]. split; [exact M|]. split; [exact G1|]. split; [exact P1|]. split; [now rewrite <- ?app_assoc|]. repeat (split; [eassumption|]). reflexivity.
  Qed.
  Lemma body6_start {A} (proto : parser A) opt k m g1 s1 g2 src t1 g3 dst t2 p q : mode_text m -> gap g1 -> ~ starts is_blank s1 ->
    proto s1 = POk p (g2 ++ t1 ++ g3 ++ t2 ++ q) -> gap g2 -> inode6_text E src t1 -> gap g3 -> inode6_text E dst t2 -> sep_start q -> then_ ws acl_port q = PFail ->
    body6 proto opt k (m ++ g1 ++ s1) = (let% o := options opt in let% _ := nl in ret (k m p src dst o)) q.
  Proof using OK HE PI1 PI2.
    intros M G1 N P G2 S G3 D SQ NP. unfold body6. eapply pbind_step; [apply (mode_ok _ _ _ OK); auto using gap_sepw|]. eapply pbind_step; [apply ws_gap; auto|].
    eapply pbind_step; [exact P|]. eapply pbind_step; [apply ws_gap; auto; eapply inode6_free; eauto|].
    eapply pbind_step; [eapply (inode6_ok _ _ _ OK _ PI1 PI2 E HE); eauto using gap_sep|].
    { apply then_ws_step; auto; [eapply inode6_free; eauto|eapply inode6_no_port; eauto]. }
    eapply pbind_step; [apply ws_gap; auto; eapply inode6_free; eauto|]. eapply pbind_step; [eapply (inode6_ok _ _ _ OK _ PI1 PI2 E HE); eauto|]. reflexivity.
  Qed.
  Lemma icmp_known p : words ["icmp"; "icmp6"]%string p -> In p protocol_codes.
  Proof using. clear. intros (w & [<-|[<-|[]]] & ->); cbn; auto 30. Qed.
  Lemma number_ok n v r : decimal_text n v -> ~ starts AddrText.is_digit r -> int_ (n ++ r) = POk n r.
  Proof using. clear. intros D N. apply int_iff. apply decimal_text_spec in D as (A & B & _). auto. Qed.

  (** ** Items *)
  Lemma item6_sound s f r : item6 s = POk f r -> exists t, s = t ++ r /\ forall id, rule6_text E id (f id) t.
  Proof using OK HE PI1 PI2.
    unfold IosText.item6. intros H. pinv H. apply ret_ok in H as (<- & ->). apply sp_iff in P as ->. apply kw_sound in P0 as ->. apply ws_sound in P1 as (g0 & -> & G0).
    apply int_iff in P2 as (-> & Nn & Fn & _). apply ws_sound in P3 as (g & -> & G). assert (D : decimal_text a2 (int10 a2)) by (apply decimal_text_spec; auto).
    rewrite rule6_body in P4. apply por_sound in P4 as [P4|P4].
    - apply (body6_sound _ _ _ opts6) in P4; [|intros; eapply opts6_sound; eauto]. destruct P4 as (m & g1 & s1 & p & g2 & src & t1 & g3 & dst & t2 & l & ot & z & q & -> & M & G1 & P & -> & G2 & T1 & G3 & T2 & O & Z & ->).
      eapply proto_sound in P; eauto. destruct P as (pt & -> & PT).
      exists (u " sequence" ++ g0 ++ a2 ++ g ++ m ++ g1 ++ pt ++ g2 ++ t1 ++ g3 ++ t2 ++ ot ++ z). split; [now rewrite <- !app_assoc|]. intros id.
      apply (R6_other E id a2 _ g0 g m g1 p pt g2 src t1 g3 dst t2 l ot _ z D); auto. apply opts_of_iff. now rewrite opts_of_snoc.
    - apply (body6_sound _ _ _ messages_text) in P4; [|intros; eapply messages_sound; eauto]. destruct P4 as (m & g1 & s1 & p & g2 & src & t1 & g3 & dst & t2 & l & ot & z & q & -> & M & G1 & P & -> & G2 & T1 & G3 & T2 & O & Z & ->).
      apply tokens_sound in P as (I & -> & _). apply icmp_word in I.
      exists (u " sequence" ++ g0 ++ a2 ++ g ++ m ++ g1 ++ p ++ g2 ++ t1 ++ g3 ++ t2 ++ ot ++ z). split; [now rewrite <- !app_assoc|]. intros id.
      apply (R6_icmp E id a2 _ g0 g m g1 p g2 src t1 g3 dst t2 l ot _ z D); auto. apply opts_of_iff. now rewrite opts_of_snoc.
  Qed.
  Lemma item6_step n v g0 g r f r' : decimal_text n v -> gap g0 -> gap g -> ~ starts is_blank r -> rule6 r = POk f r' ->
    item6 (u " sequence" ++ g0 ++ n ++ g ++ r) = POk (fun id => set_sequence n (f id)) r'.
  Proof using OK.
    intros D G0 G N H. unfold IosText.item6. eapply (pbind_step _ _ _ tt); [apply sp_iff; reflexivity|]. pose proof D as D'. apply decimal_text_spec in D' as (Nn & Fn & _).
    apply (kwws_step isalpha isalnum isspace OK "sequence"); [auto|apply freew_noblank; [auto|now apply digits_freew]|]. eapply pbind_step; [eapply number_ok; [exact D|]; now apply sep_no_digit, gap_sep|].
    eapply pbind_step; [apply ws_gap; auto|]. eapply pbind_step; [exact H|reflexivity].
  Qed.
  Lemma item6_ok id x t r : rule6_text E id x t -> exists f, item6 (t ++ r) = POk f r /\ f id = x.
  Proof using OK HE PI1 PI2.
    intros [n v g0 g m g1 p pt g2 src s g3 dst d l ot o z D G0 G M G1 P G2 S G3 T O L Z|n v g0 g m g1 p g2 src s g3 dst d l ot o z D G0 G M G1 P G2 S G3 T O L Z]; apply opts_of_iff in L; rewrite opts_of_snoc in L; cbn [fst snd] in L; rewrite <- !app_assoc.
    - exists (fun id => set_sequence n (rule_of m p src dst (opts_of l) id)). split; [|now rewrite L]. pose proof (opts6_starts _ _ z r O Z) as TS.
      eapply item6_step; eauto; [now apply mode_start|]. rewrite rule6_body. apply por_l. rewrite (body6_start _ _ _ m g1 (pt ++ g2 ++ s ++ g3 ++ d ++ ot ++ z ++ r) g2 src s g3 dst d p (ot ++ z ++ r)); [|auto|auto|eapply proto_start; eauto|eapply proto_ok; eauto using gap_sep|auto|auto|auto|auto|apply TS|now apply tail_no_port].
      eapply pbind_step; [unfold options; eapply pbind_step; [eapply (opts6_ok _ _ _ OK); eauto|reflexivity]|]. eapply (pbind_step _ _ _ tt r); [apply nl_iff; exists z; split; [exact Z|reflexivity]|reflexivity].
    - exists (fun id => set_sequence n (rule_of m (APName p) src dst (opts_of l) id)). split; [|now rewrite L].
      eapply item6_step; eauto; [now apply mode_start|]. rewrite rule6_body.
      assert (SQ : sep_start (ot ++ z ++ r)) by (eapply messages_sep; eauto). assert (NP : then_ ws acl_port (ot ++ z ++ r) = PFail) by (eapply messages_no_port; eauto).
      assert (A1 : body6 acl_protocol (opt6 isalpha isalnum) rule_of (m ++ g1 ++ p ++ g2 ++ s ++ g3 ++ d ++ ot ++ z ++ r) =
        (let% o := options (opt6 isalpha isalnum) in let% _ := nl in ret (rule_of m (APName p) src dst o)) (ot ++ z ++ r)).
      { apply (body6_start _ _ _ m g1 (p ++ g2 ++ s ++ g3 ++ d ++ ot ++ z ++ r) g2 src s g3 dst d (APName p) (ot ++ z ++ r)); auto; [now apply icmp_word_start|]. eapply proto_ok; eauto using gap_sep. constructor. left. now apply icmp_known. }
      destruct l as [|o0 l].
      + inversion O; subst ot. cbn [app] in *. apply por_l. rewrite A1. assert (K : opts6 [] []) by constructor.
        eapply pbind_step; [unfold options; eapply pbind_step; [eapply (opts6_ok _ _ _ OK [] [] z r); eauto|reflexivity]|]. eapply (pbind_step _ _ _ tt r); [apply nl_iff; exists z; split; [exact Z|reflexivity]|reflexivity].
      + apply por_r.
        * rewrite A1. destruct (messages_no_opts _ _ _ OK _ _ _ _ r O Z) as (K1 & K2). eapply pbind_step; [unfold options; eapply pbind_step; [exact K1|reflexivity]|]. now apply pbind_fail.
        * rewrite (body6_start _ _ _ m g1 (p ++ g2 ++ s ++ g3 ++ d ++ ot ++ z ++ r) g2 src s g3 dst d p (ot ++ z ++ r)); auto; [|now apply icmp_word_start|apply (tokens_ok _ _ _ OK); [reflexivity|now apply icmp_word|now apply gap_sepw]].
          eapply pbind_step; [unfold options; eapply pbind_step; [eapply (messages_ok _ _ _ OK); eauto|reflexivity]|]. eapply (pbind_step _ _ _ tt r); [apply nl_iff; exists z; split; [exact Z|reflexivity]|reflexivity].
  Qed.
  Lemma item6_length id x t : rule6_text E id x t -> 0 < length t.
  Proof using. clear. intros []; cbn; lia. Qed.
  Lemma items6_sound s l r : chain item6 l s r -> exists ts, s = concat ts ++ r /\ forall id, Forall2 (rule6_text E id) (map (fun f => f id) l) ts.
  Proof using OK HE PI1 PI2.
    induction 1 as [|a l s s1 r P L C (ts & -> & F)]; [exists []; split; [auto|constructor]|]. apply item6_sound in P as (t & -> & T).
    exists (t :: ts). cbn [concat]. rewrite <- app_assoc. split; [auto|]. intros id. cbn [map]. constructor; auto.
  Qed.
  Lemma items6_ok id xs ts r : Forall2 (rule6_text E id) xs ts -> exists l, chain item6 l (concat ts ++ r) r /\ map (fun f => f id) l = xs.
  Proof using OK HE PI1 PI2.
    induction 1 as [|x t xs ts T F (l & C & M)]; [exists []; split; [constructor|auto]|]. cbn [concat]. rewrite <- app_assoc. destruct (item6_ok _ _ _ (concat ts ++ r) T) as (f & Pf & <-).
    exists (f :: l). split; [|cbn [map]; now rewrite M]. econstructor; [exact Pf| |exact C]. apply item6_length in T. rewrite (app_length t). clear - T. unfold pystr in *. lia.
  Qed.

  (** ** C62 IPv6 lists *)
  Theorem C62_reads s xs r : ipv6_access_list isalpha isalnum py_int E s = POk xs r -> exists t, s = t ++ r /\ list6_text E xs t.
  Proof using OK HE PI1 PI2.
    unfold ipv6_access_list. intros H. pinv H. apply ret_ok in H as (<- & ->). apply kw_sound in P as ->. apply ws_sound in P0 as (g & -> & G). apply obj_name_sound in P1 as (-> & I).
    apply nl_iff in P2 as (z & Z & ->). unfold many1 in P3. pinv P3. apply ret_ok in P3 as (<- & ->). apply many_chain, items6_sound in P0 as (ts & -> & F). apply item6_sound in P as (t & -> & T).
    exists (u "access-list" ++ g ++ a1 ++ z ++ concat (t :: ts)). split; [cbn [concat]; now rewrite <- !app_assoc|]. apply L6; auto; [now apply chars_name|discriminate|]. cbn [map]. constructor; auto.
  Qed.
  Theorem C62_complete xs t r : list6_text E xs t -> (forall q, r <> 32%N :: q) -> ipv6_access_list isalpha isalnum py_int E (t ++ r) = POk xs r.
  Proof using OK HE PI1 PI2.
    intros [g n z ys ts G N Z Ne F] R. rewrite <- !app_assoc. unfold ipv6_access_list.
    assert (B : ~ starts is_blank (n ++ z ++ concat ts ++ r)).
    { apply chars_name in N as [-> |N]; [now apply (eol_noblank z)|]. apply freew_noblank; [apply N|now apply letter_name]. }
    apply (kwws_step isalpha isalnum isspace OK); [auto|exact B|]. eapply pbind_step; [apply obj_name_chars; [exact N|now apply sep_no_obj, eol_sep]|].
    eapply (pbind_step _ _ _ tt); [apply nl_iff; exists z; split; [exact Z|reflexivity]|].
    assert (S : item6 r = PFail).
    { unfold IosText.item6. apply pbind_fail. unfold sp, char. destruct r as [|c r]; [auto|]. destruct (N.eqb_spec c 32) as [-> |]; [|auto]. now destruct (R r). }
    destruct F as [|x t1 ys ts T F]; [congruence|]. cbn [concat]. rewrite <- app_assoc. destruct (item6_ok _ _ _ (concat ts ++ r) T) as (f & Pf & <-). destruct (items6_ok _ _ _ r F) as (l & Pl & <-).
    eapply (pbind_step _ _ _ (f :: l)); [|reflexivity]. unfold many1. eapply pbind_step; [exact Pf|]. eapply pbind_step; [|reflexivity]. now apply chain_many.
  Qed.
  Theorem C62_unique xs ys t : list6_text E xs t -> list6_text E ys t -> xs = ys.
  Proof using OK HE PI1 PI2.
    intros A B. apply (C62_complete _ _ []) in A; [|discriminate]. apply (C62_complete _ _ []) in B; [|discriminate]. congruence.
  Qed.
End Ios.

(** ** Cases *)
Notation rd60 := (ip_access_list ascii_alpha ascii_alnum C52_int C52_env).
Notation rd61 := (numbered_line ascii_alpha ascii_alnum C52_int C52_env).
Notation rd62 := (ipv6_access_list ascii_alpha ascii_alnum C52_int C52_env).
Definition C60_lines : pystr :=
  line "extended inside-in" ++ line " 5 remark  web servers" ++ line " remark second" ++
  line " 10 permit tcp 10.1.2.0 0.0.0.255 gt 1023 host 10.0.0.80 eq www log established" ++
  line " deny ip 10.0.0.1 255.0.255.0 any".
Definition wild (a : N) : thost := mkthost (HLeaf (LWild (mkaddr V4 a) (mkaddr V4 4278255360))) None.
Definition C60_rules : list irule := [
  mkirule (u "inside-in") (Some (u "extended")) (u "permit") (APName (u "tcp"))
    (mkanode (mkthost (HLeaf (LNet (mknet V4 167838208 24))) None) (Some (PPort (Some (u "gt")) (Some (u "1023")))))
    (mkanode (mkthost (HLeaf (LHost (mkaddr V4 167772240))) None) (Some (PPort (Some (u "eq")) (Some (u "www")))))
    None [(u "log", Some (u "established"))] [u " web servers"; u "second"];
  mkirule (u "inside-in") (Some (u "extended")) (u "deny") (APName (u "ip"))
    (mkanode (wild 167772161) None) IosTextSpec.any_end None [] []].
Example C60_ex1 : rd60 (C60_lines ++ u "end") = POk C60_rules (u "end").
Proof. vm_compute. reflexivity. Qed.
Example C60_ex1' : named_list_text C52_env C60_rules C60_lines.
Proof.
  pose proof C60_ex1 as H. eapply (C60_reads _ _ _ C41_classes _ C52_int1 C52_int2 _ C52_env_ok) in H. destruct H as (t & X & T).
  apply app_inv_tail in X. now rewrite X.
Qed.
Example C60_ex2 : rd60 (line "standard mgmt" ++ line " permit 10.0.0.0 0.255.255.255 log" ++ line " deny any") = POk
  [mkirule (u "mgmt") (Some (u "standard")) (u "permit") (APName (u "ip")) (mkanode (mkthost (HLeaf (LNet (mknet V4 167772160 8))) None) None) IosTextSpec.any_end None [(u "log", None)] [];
   mkirule (u "mgmt") (Some (u "standard")) (u "deny") (APName (u "ip")) IosTextSpec.any_end IosTextSpec.any_end None [] []] [].
Proof. vm_compute. reflexivity. Qed.
(** A bare address takes the next address as its wildcard. *)
Example C60_bare : rd60 (line "extended a" ++ line " permit ip 10.0.0.1 10.0.0.2") = POk [] (line " permit ip 10.0.0.1 10.0.0.2").
Proof. vm_compute. reflexivity. Qed.
(** Remarks after the last rule are not part of the list. *)
Example C60_last_remark : rd60 (line "standard a" ++ line " permit any" ++ line " remark bye") = POk
  [mkirule (u "a") (Some (u "standard")) (u "permit") (APName (u "ip")) IosTextSpec.any_end IosTextSpec.any_end None [] []] (line " remark bye").
Proof. vm_compute. reflexivity. Qed.
(** A DSCP number is not read. *)
Example C60_dscp : rd60 (line "extended a" ++ line " permit ip any any dscp 46") = POk [] (line " permit ip any any dscp 46").
Proof. vm_compute. reflexivity. Qed.

Definition C61_lines : pystr := line "access-list 7 remark old" ++ line "access-list x remark two" ++ line "access-list 110 deny icmp any host 10.0.0.80 echo log-input".
Definition C61_rule : irule := mkirule (u "110") None (u "deny") (APName (u "icmp")) IosTextSpec.any_end
  (mkanode (mkthost (HLeaf (LHost (mkaddr V4 167772240))) None) None) (Some (IcmpType (u "echo") None)) [(u "log-input", None)] [u "old"; u "two"].
Example C61_ex1 : rd61 (C61_lines ++ u "end") = POk C61_rule (u "end").
Proof. vm_compute. reflexivity. Qed.
Example C61_ex1' : numbered_rule_text C52_env C61_rule C61_lines.
Proof.
  pose proof C61_ex1 as H. apply (C61_reads _ _ _ C41_classes _ C52_int1 C52_int2 _ C52_env_ok) in H. destruct H as (t & X & T).
  apply app_inv_tail in X. now rewrite X.
Qed.
Example C61_ex2 : rd61 (line "access-list 1399 permit 10.0.0.4 0.0.0.3") = POk
  (mkirule (u "1399") None (u "permit") (APName (u "ip")) (mkanode (mkthost (HLeaf (LNet (mknet V4 167772164 30))) None) None) IosTextSpec.any_end None [] []) [].
Proof. vm_compute. reflexivity. Qed.
(** A wildcard that is also a netmask is read as the netmask: on IOS this line permits one
    host, here all addresses. *)
Example C61_zero : rd61 (line "access-list 10 permit 10.0.0.1 0.0.0.0") = POk
  (mkirule (u "10") None (u "permit") (APName (u "ip")) (mkanode (mkthost (HLeaf (LNet (mknet V4 0 0))) None) None) IosTextSpec.any_end None [] []) [].
Proof. vm_compute. reflexivity. Qed.
(** And on IOS this one permits all addresses, here one host. *)
Example C61_ones : rd61 (line "access-list 10 permit 10.0.0.1 255.255.255.255") = POk
  (mkirule (u "10") None (u "permit") (APName (u "ip")) (mkanode (mkthost (HLeaf (LNet (mknet V4 167772161 32))) None) None) IosTextSpec.any_end None [] []) [].
Proof. vm_compute. reflexivity. Qed.
(** Standard lists 1400-1999 of IOS are not read. *)
Example C61_1400 : rd61 (line "access-list 1400 permit any") = PFail.
Proof. vm_compute. reflexivity. Qed.
(** Remarks without a rule after them are not read. *)
Example C61_only_remark : rd61 (line "access-list 10 remark x") = PFail.
Proof. vm_compute. reflexivity. Qed.
(** An extended numbered list reads hosts like an ASA: a wildcard is not accepted unless it is an inverse mask. *)
Example C61_wild : exists e, rd61 (line "access-list 110 permit ip 10.0.0.1 0.255.0.255 any") = PErr e.
Proof. eexists. vm_compute. reflexivity. Qed.

Definition C62_lines : pystr := line "access-list v6in" ++ line " sequence 10 permit tcp 2001:db8::/32 host 2001:db8::80 eq www log" ++ line " sequence 20 deny icmp any any nd-ns nd-na".
Definition C62_rules : list irule := [
  mkirule (u "v6in") None (u "permit") (APName (u "tcp")) (mkanode (mkthost (HLeaf (LNet (mknet V6 42540766411282592856903984951653826560 32))) None) None)
    (mkanode (mkthost (HLeaf (LHost (mkaddr V6 42540766411282592856903984951653826688))) None) (Some (PPort (Some (u "eq")) (Some (u "www"))))) None
    [(u "log", None); (u "sequence", Some (u "10"))] [];
  mkirule (u "v6in") None (u "deny") (APName (u "icmp")) IosTextSpec.any_end IosTextSpec.any_end None [(u "nd-ns", None); (u "nd-na", None); (u "sequence", Some (u "20"))] []].
Example C62_ex1 : rd62 (C62_lines ++ u "end") = POk C62_rules (u "end").
Proof. vm_compute. reflexivity. Qed.
Example C62_ex1' : list6_text C52_env C62_rules C62_lines.
Proof.
  pose proof C62_ex1 as H. eapply (C62_reads _ _ _ C41_classes _ C52_int1 C52_int2 _ C52_env_ok) in H. destruct H as (t & X & T).
  apply app_inv_tail in X. now rewrite X.
Qed.
(** The option is read as [log], the rest of the word is not. *)
Example C62_log_input : rd62 (line "access-list a" ++ line " sequence 1 permit ipv6 any any log-input") = PFail.
Proof. vm_compute. reflexivity. Qed.

Print Assumptions C60_reads. Print Assumptions C60_complete. Print Assumptions C60_unique.
Print Assumptions C61_reads. Print Assumptions C61_unique.
Print Assumptions C62_reads. Print Assumptions C62_complete. Print Assumptions C62_unique.
