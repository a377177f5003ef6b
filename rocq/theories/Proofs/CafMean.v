From Coq Require Import Lia String.
From Verif.Model Require Import Base Ip Hosts Groups Rules Caf Peg AddrText CafText.
From Verif.Spec Require Import AddrSpec FilterSpec CafSpec AddrTextSpec CafTextSpec CafMeanSpec.
From Verif.Proofs Require Import MaskFacts PegFacts AddrTextFacts Addr6Facts FilterFacts CafFacts CafTextFacts TokFacts CafParse CafExpr.
Local Open Scope list_scope.

(** *** Addresses and numbers *)
Lemma quad_nocolon n : (n < 2 ^ 32)%N -> ~ In 58%N (quad n).
Proof.
  intros L. assert (K : forall v, (v <= 255)%N -> ~ In 58%N (dec3 v)).
  { intros v Lv I. pose proof (dec3_digits v Lv) as D. rewrite forallb_forall in D. apply D in I. discriminate. }
  assert (A : (n / 2 ^ 24 <= 255)%N) by (apply N.lt_succ_r, N.div_lt_upper_bound; lia).
  assert (M : forall x, (x mod 256 <= 255)%N) by (intros x; pose proof (N.mod_lt x 256); lia).
  unfold quad, dotted. rewrite !in_app_iff. intros H.
  repeat (cbn [In] in H; rewrite ?in_app_iff in H; destruct H as [H|H]; [try discriminate; try (now apply K in H; auto)|]); try discriminate; now apply K in H; auto.
Qed.
Lemma hex_number_ne s n : hex_number s n -> s <> [].
Proof. intros []; [discriminate|]. intros E. now apply app_eq_nil in E as [_ E]. Qed.
Lemma hextets_colon s vs : hextets s vs -> length vs >= 3 -> In 58%N s.
Proof. intros [] L; cbn in L; try lia. apply in_or_app. right. now left. Qed.
Lemma ipv6_colon s n : ipv6_text s n -> In 58%N s.
Proof.
  intros [s' vs H L|s' t hi lo _ _ _].
  - eapply hextets_colon; eauto. lia.
  - apply in_or_app. right. now left.
Qed.
Lemma ip_address_spec t a : ip_address t = Ok a <-> address_text t a.
Proof.
  unfold ip_address, address_text. destruct a as [[|] n]; cbn [a_ver a_val].
  - rewrite <- parse4_spec. destruct (parse4 t) as [m|e] eqn:P.
    + split; [intros [= ->]; auto|intros [= ->]; auto].
    + destruct (parse6 t) as [m|e'] eqn:P6; split; discriminate.
  - rewrite <- parse6_spec. destruct (parse4 t) as [m|e] eqn:P.
    + split; [discriminate|]. intros H. apply parse6_spec in H. apply ipv6_colon in H. apply parse4_spec in P as (L & ->). now apply quad_nocolon in H.
    + destruct (parse6 t) as [m|e'] eqn:P6; split; congruence.
Qed.
Lemma decimal_text_spec m p : decimal_text m p <-> m <> [] /\ forallb is_digit m = true /\ int10 m = p.
Proof.
  split.
  - induction 1 as [c R|s n c D (N & F & E) R].
    + split; [discriminate|]. cbn [forallb]. unfold is_digit. rewrite (proj2 (N.leb_le 48 c)), (proj2 (N.leb_le c 57)) by lia. split; [reflexivity|]. reflexivity.
    + split; [intros H; now apply app_eq_nil in H as [_ H]|]. rewrite forallb_app, F. cbn [forallb].
      unfold is_digit. rewrite (proj2 (N.leb_le 48 c)), (proj2 (N.leb_le c 57)) by lia. split; [reflexivity|].
      unfold int10 in *. rewrite fold_left_app, E. reflexivity.
  - intros (N & F & <-). induction m as [|c m IH] using rev_ind; [congruence|].
    rewrite forallb_app in F. apply andb_true_iff in F as (F & Fc). cbn [forallb] in Fc. rewrite andb_true_r in Fc.
    unfold is_digit in Fc. apply andb_true_iff in Fc as (A & B). apply N.leb_le in A, B.
    unfold int10. rewrite fold_left_app. cbn [fold_left]. destruct m as [|d m].
    + cbn. apply DT_one. lia.
    + apply DT_more; [|lia]. apply IH; [discriminate|auto].
Qed.
Lemma parse4_lt t n : parse4 t = Ok n -> (n < 2 ^ 32)%N.
Proof. intros H. now apply parse4_spec in H. Qed.
Lemma hex_value_lt c v : hex_value c v -> (v < 16)%N.
Proof. intros [(A & ->)|[(A & ->)|(A & ->)]]; lia. Qed.
Lemma hex_number_lt s n : hex_number s n -> (n < 16 ^ N.of_nat (length s))%N.
Proof.
  induction 1 as [c v H|s n c v H IH Hv].
  - apply hex_value_lt in H. cbn. lia.
  - apply hex_value_lt in Hv. rewrite app_length. cbn [length]. replace (N.of_nat (length s + 1)) with (N.succ (N.of_nat (length s))) by lia.
    rewrite N.pow_succ_r'. lia.
Qed.
Lemma hextet_lt s v : hextet s v -> (v < 65536)%N.
Proof.
  intros (H & L). apply hex_number_lt in H. eapply N.lt_le_trans; [exact H|]. change 65536%N with (16 ^ 4)%N. apply N.pow_le_mono_r; lia.
Qed.
Lemma hextets_lt s vs : hextets s vs -> Forall (fun v => (v < 65536)%N) vs.
Proof.
  induction 1 as [s v H|a L|s v t vs H H1 IH].
  - constructor; [eapply hextet_lt; eauto|constructor].
  - constructor; [apply N.div_lt_upper_bound; [lia|]; change (2 ^ 16 * 65536)%N with (2 ^ 32)%N; auto|]. constructor; [|constructor].
    apply N.mod_lt. discriminate.
  - constructor; [eapply hextet_lt; eauto|auto].
Qed.
Lemma plain_lt s vs : plain_hextets s vs -> Forall (fun v => (v < 65536)%N) vs.
Proof. induction 1; constructor; auto; eapply hextet_lt; eauto. Qed.
Lemma number_lt vs : Forall (fun v => (v < 65536)%N) vs -> (number_of vs < 65536 ^ N.of_nat (length vs))%N.
Proof.
  induction vs as [|v vs IH] using rev_ind; intros F; [reflexivity|]. apply Forall_app in F as (F & Fv). inversion Fv as [|? ? Lv _]; subst.
  unfold number_of in *. rewrite fold_left_app. cbn [fold_left]. rewrite app_length. cbn [length]. replace (N.of_nat (length vs + 1)) with (N.succ (N.of_nat (length vs))) by lia.
  rewrite N.pow_succ_r'. specialize (IH F). lia.
Qed.
Lemma ipv6_lt s n : ipv6_text s n -> (n < 2 ^ 128)%N.
Proof.
  intros [s' vs H L|s' t hi lo A B L].
  - apply hextets_lt, number_lt in H. rewrite L in H. exact H.
  - assert (F : Forall (fun v => (v < 65536)%N) (hi ++ repeat 0%N (8 - length hi - length lo) ++ lo)).
    { apply Forall_app. split; [destruct A as [(_ & ->)|A]; [constructor|now apply plain_lt in A]|]. apply Forall_app.
      split; [|destruct B as [(_ & ->)|B]; [constructor|now apply hextets_lt in B]]. apply Forall_forall. intros x I. apply repeat_spec in I. subst. lia. }
    apply number_lt in F. rewrite !app_length, repeat_length in F. replace (length hi + (8 - length hi - length lo + length lo)) with 8 in F by lia. exact F.
Qed.
Lemma address_valid t a : address_text t a -> valid a.
Proof. unfold address_text, valid. destruct a as [[|] n]; cbn; [tauto|]. apply ipv6_lt. Qed.

Lemma net_reads_spec t n : net_reads t n -> net_of_text t = Ok n /\ net_valid n.
Proof.
  intros []; cbn [net_of_text net_valid]; auto.
  - pose proof (address_valid _ _ H). apply ip_address_spec in H. rewrite H. auto.
  - pose proof (address_valid _ _ H). apply ip_address_spec in H. apply decimal_text_spec in H0 as (_ & _ & <-). rewrite H. auto.
Qed.

(** *** Operators *)
Lemma sequence_ext {X} (M M' : X -> Prop) l : (forall o x, In (o, x) l -> M x <-> M' x) -> forall (b b' : Prop -> Prop) (p p' : Prop),
  (forall q q' : Prop, (q <-> q') -> (b q <-> b' q')) -> (p <-> p') -> sequence M b p l <-> sequence M' b' p' l.
Proof.
  induction l as [|(o, x) l IH]; intros HM b b' p p' Hb Hp; cbn; [auto|].
  assert (Hx : M x <-> M' x) by (apply (HM o); now left).
  destruct o; apply IH; try (intros o0 x0 I; apply (HM o0); now right); try tauto.
  - intros q q' Hq. specialize (Hb p p' Hp). tauto.
  - intros q q' Hq. specialize (Hb p p' Hp). tauto.
Qed.
Definition seq_words (l : list (cafop * cval)) : list celem := flat_map (fun x => [EWord (fst x); EVal (snd x)]) l.
Definition last_prod (s : sum) : prod := match s with SProd p => p | SAdd _ _ p => p end.
Definition before_last {A} (D : cval -> A -> Prop) (s : sum) (x : A) (q : Prop) : Prop :=
  match s with SProd _ => q | SAdd s Plus _ => sum_means D s x \/ q | SAdd s Minus _ => sum_means D s x /\ ~ q end.
Lemma seq_sum {A} (D : cval -> A -> Prop) (x : A) : forall l s, exists s', sum_words s' = sum_words s ++ seq_words l /\
  (sum_means D s' x <-> sequence (fun v => D v x) (before_last D s x) (prod_means D (last_prod s) x) l).
Proof.
  induction l as [|(o, v) l IH]; intros s.
  - exists s. split; [now rewrite app_nil_r|]. cbn. destruct s as [p|s [|] p]; cbn; tauto.
  - destruct (IH (grow s o v)) as (s' & E & M). exists s'. split.
    + rewrite E, grow_words, <- app_assoc. reflexivity.
    + rewrite M. cbn [sequence]. destruct o; cbn [grow before_last last_prod prod_means].
      * apply sequence_ext; [reflexivity| |reflexivity]. intros q q' Hq. destruct s as [p|s [|] p]; cbn; tauto.
      * destruct s as [p|s [|] p]; cbn [before_last last_prod prod_means]; (apply sequence_ext; [reflexivity| |reflexivity]); intros q q' Hq; cbn; tauto.
      * apply sequence_ext; [reflexivity| |reflexivity]. intros q q' Hq. destruct s as [p|s [|] p]; cbn; tauto.
Qed.
Lemma prod_clauses p : clauses (block (caf_prod p)) = flat_map (fun e => match e with EVal v => clauses (block v) | EWord _ => [] end) (prod_words p).
Proof.
  induction p as [v|p IH v]; cbn [caf_prod prod_words flat_map block clauses]; [now rewrite app_nil_r|].
  rewrite IH, flat_map_app. cbn [flat_map app]. now rewrite app_nil_r.
Qed.
Lemma sum_clauses s : clauses (block (caf_sum s)) = flat_map (fun e => match e with EVal v => clauses (block v) | EWord _ => [] end) (sum_words s).
Proof.
  induction s as [p|s IH o p]; cbn [caf_sum sum_words block clauses]; [apply prod_clauses|].
  rewrite IH, prod_clauses, flat_map_app. reflexivity.
Qed.
Lemma expr_seq v l : exists w, expr_action (EVal v :: seq_words l) = Ok w /\
  clauses (block w) = clauses (block v) ++ flat_map (fun x => clauses (block (snd x))) l /\
  forall A (sel : rule -> A -> Prop) x, denotes sel (block w) x <->
    sequence (fun v => denotes sel (block v) x) (fun q => q) (denotes sel (block v) x) l.
Proof.
  assert (K : exists s, sum_words s = EVal v :: seq_words l).
  { destruct (seq_sum (fun (_ : cval) (_ : unit) => True) tt l (SProd (PVal v))) as (s & E & _). eauto. }
  destruct K as (s & E). exists (caf_sum s). rewrite <- E. split; [apply expr_action_sum|]. split.
  - rewrite sum_clauses, E. cbn [flat_map]. f_equal. clear. induction l as [|(o, x) l IH]; cbn; [reflexivity|]. now f_equal.
  - intros A sel x. rewrite sum_meaning. destruct (seq_sum (val_denotes sel) x l (SProd (PVal v))) as (s' & E' & M).
    assert (s' = s) by (apply sum_words_inj; now rewrite E, E'). subst s'. rewrite M. cbn [before_last last_prod prod_means].
    assert (B : forall v, val_denotes sel v x <-> denotes sel (block v) x) by (intros []; reflexivity).
    apply sequence_ext; [intros; apply B|tauto|apply B].
Qed.

(** *** Evaluation *)
Fixpoint eval_rest (h : heap) (l : list (cafop * cset)) : result (heap * list (cafop * cval)) :=
  match l with
  | [] => Ok (h, [])
  | (o, x) :: l => do r <- eval_set h x; let '(h, v) := r in
                   do r <- eval_rest h l; let '(h, vs) := r in Ok (h, (o, v) :: vs)
  end.
Fixpoint eval_objs (h : heap) (l : list cobj) : result (heap * list setobj) :=
  match l with
  | [] => Ok (h, [])
  | o :: l => do r <- eval_obj h o; let '(h, v) := r in
              do r <- eval_objs h l; let '(h, vs) := r in Ok (h, v :: vs)
  end.
Lemma eval_set_eq h id l : eval_set h (CS id l) = do r <- eval_objs h l; let '(h, os) := r in set_action h id os.
Proof.
  cbn [eval_set]. assert (K : forall l h, (fix go (h : heap) (l : list cobj) : result (heap * list setobj) :=
    match l with [] => Ok (h, []) | o :: l => do r <- eval_obj h o; let '(h, v) := r in do r <- go h l; let '(h, vs) := r in Ok (h, v :: vs) end) h l = eval_objs h l).
  { clear. induction l as [|o l IH]; intros h; [reflexivity|]. cbn [eval_objs]. destruct (eval_obj h o) as [(h1 & v)|e]; [|reflexivity]. cbn [bind]. now rewrite IH. }
  now rewrite K.
Qed.
Lemma eval_expr_eq h f l : eval_expr h (CE f l) =
  do r <- eval_set h f; let '(h, v) := r in
  do r <- eval_rest h l; let '(h, vs) := r in
  do v <- expr_action (EVal v :: seq_words vs); Ok (h, v).
Proof.
  cbn [eval_expr]. destruct (eval_set h f) as [(h1 & v)|e]; [|reflexivity]. cbn [bind].
  assert (K : forall l h, (fix go (h : heap) (l : list (cafop * cset)) : result (heap * list celem) :=
    match l with [] => Ok (h, []) | (o, x) :: l => do r <- eval_set h x; let '(h, v) := r in do r <- go h l; let '(h, vs) := r in Ok (h, EWord o :: EVal v :: vs) end) h l
    = do r <- eval_rest h l; let '(h, vs) := r in Ok (h, seq_words vs)).
  { clear. induction l as [|(o, x) l IH]; intros h; [reflexivity|]. cbn [eval_rest]. destruct (eval_set h x) as [(h1 & v)|e]; [|reflexivity]. cbn [bind].
    rewrite IH. destruct (eval_rest h1 l) as [(h2 & vs)|e]; reflexivity. }
  rewrite K. destruct (eval_rest h1 l) as [(h2 & vs)|e]; reflexivity.
Qed.

(** A value that means [M], in every later heap. *)
Definition side_ok (h : heap) (x : host) : Prop := term_wf h x /\ wildfree h x.
Definition stands_for (h' : heap) (c : caf) (M : heap -> item -> Prop) : Prop :=
  forall h2, extends h' h2 -> (forall r, In r (clauses c) -> side_ok h2 (r_src r) /\ side_ok h2 (r_dst r)) /\
    forall i, denotes (selects h2) c i <-> M h2 i.
Definition evals {B} (h : heap) (r : result (heap * B)) (c : B -> caf) (M : heap -> item -> Prop) : Prop :=
  exists h' v, r = Ok (h', v) /\ extends h h' /\ acyclic h' /\ stands_for h' (c v) M.

Lemma stands_for_later h h' c M : extends h h' -> stands_for h c M -> stands_for h' c M.
Proof. intros X S h2 X2. apply S. eapply extends_trans; eauto. Qed.

Lemma map_reads l : (forall t, In t l -> exists n, net_reads t n) -> exists ns, map_r net_of_text l = Ok ns /\ Forall2 net_reads l ns.
Proof.
  induction l as [|t l IH]; intros H; [exists []; split; [reflexivity|constructor]|].
  destruct (H t (or_introl eq_refl)) as (n & R). destruct IH as (ns & E & F); [intros; apply H; now right|].
  exists (n :: ns). split; [|now constructor]. cbn [map_r]. apply net_reads_spec in R as (R & _). now rewrite R, E.
Qed.
Definition obj_reads (o : cobj) (so : setobj) : Prop :=
  exists d l ns, o = OIp d l /\ so = SIp d ns /\ Forall2 net_reads l ns.
Lemma eval_objs_clause h objects : (forall o, In o objects -> exists d l, o = OIp d l /\ forall t, In t l -> exists n, net_reads t n) ->
  exists os, eval_objs h objects = Ok (h, os) /\ Forall2 obj_reads objects os.
Proof.
  induction objects as [|o l IH]; intros H; [exists []; split; [reflexivity|constructor]|].
  destruct (H o (or_introl eq_refl)) as (d & ts & -> & R). destruct IH as (os & E & F); [intros; apply H; now right|].
  destruct (map_reads ts R) as (ns & En & Fn). exists (SIp d ns :: os). split.
  - cbn [eval_objs eval_obj]. rewrite En. cbn [bind]. now rewrite E.
  - constructor; [exists d, ts, ns; auto|auto].
Qed.
Lemma net_reads_unique t n n' : net_reads t n -> net_reads t n' -> n = n'.
Proof. intros A B. apply net_reads_spec in A as (A & _), B as (B & _). congruence. Qed.
Lemma written_side h d objects os y : Forall2 obj_reads objects os -> written_selects h d os y <-> side_selects h d objects y.
Proof.
  intros F. unfold written_selects, side_selects.
  assert (A : (forall ns, ~ In (SIp d ns) os) <-> forall l, ~ In (OIp d l) objects).
  { split; intros H x I.
    - destruct (Forall2_In_l _ _ _ _ F I) as (so & Is & d' & l & ns & [= <- <-] & -> & _). now apply H in Is.
    - destruct (Forall2_In_r _ _ _ _ F I) as (o & Io & d' & l & ns & -> & [= <- <-] & _). now apply H in Io. }
  rewrite A. split; intros [H|H]; [now left| |now left|]; right.
  - destruct H as (ns & n & I & In_ & S). destruct (Forall2_In_r _ _ _ _ F I) as (o & Io & d' & l & ns' & -> & [= <- <-] & Fn).
    destruct (Forall2_In_r _ _ _ _ Fn In_) as (t & It & R). exists l, t, n. auto.
  - destruct H as (l & t & n & I & It & R & S). destruct (Forall2_In_l _ _ _ _ F I) as (so & Is & d' & l' & ns & [= <- <-] & -> & Fn).
    destruct (Forall2_In_l _ _ _ _ Fn It) as (n' & In_ & R'). rewrite (net_reads_unique _ _ _ R R') in S. exists ns, n'. auto.
Qed.
Lemma selects_clause h c id objects : r_id c = id -> (forall y, term_selects h (r_src c) y <-> side_selects h Src objects y) ->
  (forall y, term_selects h (r_dst c) y <-> side_selects h Dst objects y) -> forall i, selects h c i <-> clause_selects h id objects i.
Proof.
  intros Eid Hs Hd [r|n]; cbn [selects clause_selects].
  - unfold selects_rule. now rewrite Eid, Hs, Hd.
  - unfold selects_nat.
    assert (K : forall s, selects_side h c s <-> nat_side_selects h objects s).
    { intros s. unfold selects_side, nat_side_selects. split; intros (A & B & C).
      - split; [intros x E; apply Hs; auto|]. split; [intros x E; apply Hd; auto|exact C].
      - split; [intros x E; apply Hs; auto|]. split; [intros x E; apply Hd; auto|exact C]. }
    split; (intros [(s & E & H)|(s & E & H)]; [left|right]; exists s; (split; [auto|now apply K])).
Qed.
Lemma eval_clause h id objects : acyclic h -> (forall o, In o objects -> exists d l, o = OIp d l /\ forall t, In t l -> exists n, net_reads t n) ->
  evals h (eval_set h (CS id objects)) block (fun h2 => clause_selects h2 id objects).
Proof.
  intros A H. rewrite eval_set_eq. destruct (eval_objs_clause h objects H) as (os & E & F). rewrite E. cbn [bind].
  assert (V : Forall obj_valid os).
  { apply Forall_forall. intros so I. destruct (Forall2_In_r _ _ _ _ F I) as (o & _ & d & l & ns & _ & -> & Fn). cbn. apply Forall_forall. intros n In_.
    destruct (Forall2_In_r _ _ _ _ Fn In_) as (t & _ & R). now apply net_reads_spec in R. }
  assert (N : existsb is_expr os = false).
  { apply not_true_iff_false. intros X. apply existsb_exists in X as (so & I & X). destruct (Forall2_In_r _ _ _ _ F I) as (o & _ & d & l & ns & _ & -> & _). discriminate. }
  destruct (set_action_clause h id os A V N) as (h' & r & Er & Eid & X & A' & S & D). exists h', (VRule r).
  split; [auto|]. split; [auto|]. split; [auto|]. intros h2 X2. cbn [block clauses denotes].
  destruct (written_selection h2 Src os (r_src r) V (fun l => S h2 l X2)) as (Ws & Ss).
  destruct (written_selection h2 Dst os (r_dst r) V (fun l => D h2 l X2)) as (Wd & Sd). split.
  - intros r' [<-|[]]. split; auto.
  - apply selects_clause; [auto| |]; intros y; [rewrite Ss|rewrite Sd]; now apply written_side.
Qed.

Lemma set_means_clause h i id objects : (forall e, objects <> [OExpr e]) -> set_means h i (CS id objects) = clause_selects h id objects i.
Proof. intros N. destruct objects as [|[d l|e] [|o objects]]; try reflexivity. now destruct (N e). Qed.

Lemma eval_ok : forall e, readable e -> forall h, acyclic h -> evals h (eval_expr h e) block (fun h2 i => expr_means h2 i e).
Proof.
  refine (fix IHe e (R : readable e) {struct R} := _
          with IHs x (R : readable_set x) {struct R} : forall h, acyclic h -> evals h (eval_set h x) block (fun h2 i => set_means h2 i x) := _
          for IHe).
  - intros h A. destruct R as [f l Rf Rl]. rewrite eval_expr_eq.
    destruct (IHs f Rf h A) as (h1 & v & E1 & X1 & A1 & S1). rewrite E1. cbn [bind].
    assert (K : exists h2 vs, eval_rest h1 l = Ok (h2, vs) /\ extends h1 h2 /\ acyclic h2 /\
      Forall2 (fun x y => fst x = fst y /\ stands_for h2 (block (snd y)) (fun h2 i => set_means h2 i (snd x))) l vs).
    { clear E1 X1 S1. revert h1 A1. induction Rl as [|(o, x) l Rx Rl IHl]; intros h1 A1.
      - exists h1, []. split; [reflexivity|]. split; [apply extends_refl|]. split; [auto|constructor].
      - destruct (IHs x Rx h1 A1) as (h2 & w & E2 & X2 & A2 & S2). destruct (IHl h2 A2) as (h3 & vs & E3 & X3 & A3 & F).
        exists h3, ((o, w) :: vs). cbn [eval_rest]. rewrite E2. cbn [bind]. rewrite E3. split; [reflexivity|].
        split; [eapply extends_trans; eauto|]. split; [auto|]. constructor; [|auto]. split; [reflexivity|]. cbn [snd]. eapply stands_for_later; eauto. }
    destruct K as (h2 & vs & E2 & X2 & A2 & F). rewrite E2. cbn [bind]. destruct (expr_seq v vs) as (w & Ew & Cw & Dw). rewrite Ew. cbn [bind].
    exists h2, w. split; [reflexivity|]. split; [eapply extends_trans; eauto|]. split; [auto|]. intros h3 X3.
    apply (stands_for_later _ _ _ _ X2) in S1. destruct (S1 h3 X3) as (W1 & M1). split.
    + intros r I. rewrite Cw in I. apply in_app_or in I as [I|I]; [auto|]. apply in_flat_map in I as (y & Iy & I).
      destruct (Forall2_In_r _ _ _ _ F Iy) as (x & _ & _ & S). now apply (proj1 (S h3 X3)).
    + intros i. rewrite Dw. cbn [expr_means]. clear Ew Cw Dw E2 W1. specialize (M1 i).
      assert (G : forall (b b' : Prop -> Prop) (p p' : Prop), (forall q q' : Prop, (q <-> q') -> (b q <-> b' q')) -> (p <-> p') ->
        sequence (fun v => denotes (selects h3) (block v) i) b p vs <-> sequence (set_means h3 i) b' p' l).
      { clear M1. induction F as [|(o, x) (o', y) l vs (Eo & S) F IHF]; intros b b' p p' Hb Hp; cbn [sequence]; [auto|].
        cbn [fst snd] in *. subst o'. destruct (S h3 X3) as (_ & M). specialize (M i). inversion Rl; subst.
        destruct o; (apply IHF; [assumption| |tauto]).
        - intros q q' Hq. specialize (Hb p p' Hp). tauto.
        - exact Hb.
        - intros q q' Hq. specialize (Hb p p' Hp). tauto. }
      apply G; [tauto|auto].
  - intros h A. destruct R as [id e Re|id objects H].
    + rewrite eval_set_eq. cbn [eval_objs eval_obj]. destruct (IHe e Re h A) as (h1 & v & E1 & X1 & A1 & S1). rewrite E1. cbn [bind].
      exists h1, (VCaf (wrap v)). split; [reflexivity|]. split; [auto|]. split; [auto|]. intros h2 X2. cbn [block].
      destruct (S1 h2 X2) as (W & M). destruct v; cbn [wrap clauses denotes block] in *; auto.
    + destruct (eval_clause h id objects A H) as (h1 & v & E1 & X1 & A1 & S1). exists h1, v. split; [auto|]. split; [auto|]. split; [auto|].
      intros h2 X2. destruct (S1 h2 X2) as (W & M). split; [auto|]. intros i. rewrite set_means_clause; [auto|].
      intros e ->. destruct (H (OExpr e) (or_introl eq_refl)) as (d & l & [=] & _).
Qed.

(** *** Only readable expressions are read *)
Definition mask_ok (t : nettext) : Prop :=
  match t with TAddr _ (Some m) => m <> [] /\ forallb is_digit m = true | _ => True end.
Fixpoint expr_nets (e : cexpr) : list nettext :=
  match e with CE f l => set_nets f ++ flat_map (fun x => set_nets (snd x)) l end
with set_nets (x : cset) : list nettext :=
  match x with CS _ l => flat_map obj_nets l end
with obj_nets (o : cobj) : list nettext :=
  match o with OIp _ l => l | OExpr e => expr_nets e end.

Lemma text_masks isalnum isspace :
  (forall e s r, expr_text isalnum isspace e s r -> forall t, In t (expr_nets e) -> mask_ok t) /\
  (forall l s r, ops_text isalnum isspace l s r -> forall t, In t (flat_map (fun x => set_nets (snd x)) l) -> mask_ok t) /\
  (forall x s r, set_text isalnum isspace x s r -> forall t, In t (set_nets x) -> mask_ok t) /\
  (forall l s r, objs_text isalnum isspace l s r -> forall t, In t (flat_map obj_nets l) -> mask_ok t).
Proof.
  assert (NM : forall l s r, nets_text isalnum isspace l s r -> forall t, In t l -> mask_ok t).
  { assert (N1 : forall n s r, net_text isalnum isspace n s r -> mask_ok n).
    { intros n s r [w s' r' _|a s' r' _ _|a m s' s1 r' _ (s2 & _ & _ & N & D & _)]; cbn; auto. }
    induction 1 as [n s r H|n l s s1 r H H1 IH]; intros t I; [destruct I as [<-|[]]; eauto|]. destruct I as [<-|I]; eauto. }
  apply (caf_text_ind isalnum isspace (fun e s r _ => forall t, In t (expr_nets e) -> mask_ok t)
    (fun l s r _ => forall t, In t (flat_map (fun x => set_nets (snd x)) l) -> mask_ok t)
    (fun x s r _ => forall t, In t (set_nets x) -> mask_ok t)
    (fun l s r _ => forall t, In t (flat_map obj_nets l) -> mask_ok t)); cbn [expr_nets set_nets obj_nets flat_map snd].
  - intros f l s s1 r _ IH1 _ IH2 t I. apply in_app_or in I as [I|I]; auto.
  - intros _ t [].
  - intros o x l s s1 s2 r _ _ IH1 _ IH2 t I. apply in_app_or in I as [I|I]; auto.
  - auto.
  - intros _ t [].
  - auto.
  - intros d ns l s s1 s2 s3 r _ _ Nt _ IH t I. apply in_app_or in I as [I|I]; eauto.
  - intros e l s s1 s2 s3 r _ _ IHe _ _ IH t I. apply in_app_or in I as [I|I]; eauto.
Qed.
Lemma map_r_inv {A B} (f : A -> result B) l l' : map_r f l = Ok l' -> Forall2 (fun a b => f a = Ok b) l l'.
Proof.
  revert l'. induction l as [|a l IH]; cbn [map_r]; intros l' H; [injection H as <-; constructor|].
  destruct (f a) as [b|e] eqn:E; [|discriminate]. cbn [bind] in H. destruct (map_r f l) as [bs|e] eqn:El; [|discriminate]. injection H as <-. constructor; auto.
Qed.
Lemma net_reads_conv t n l : mask_ok t -> net_of_text t = Ok n -> network_action n = Ok l -> net_reads t n.
Proof.
  intros M E L. destruct t as [[]|a [m|]]; cbn [net_of_text] in E; try (injection E as <-; constructor).
  - destruct (ip_address a) as [x|] eqn:A; [|discriminate]. injection E as <-. apply ip_address_spec in A. destruct M as (N & D).
    econstructor; [exact A|apply decimal_text_spec; auto|]. apply address_valid in A.
    destruct (N.leb_spec (int10 m) (bits (a_ver x))); [auto|]. exfalso. cbn [network_action] in L. destruct (mk_Network_char x (MaskLen (int10 m)) A I) as [_ F].
    rewrite F in L; [discriminate|]. intros (p & D'). destruct D' as (? & ?). cbn in *; lia.
  - destruct (ip_address a) as [x|] eqn:A; [|discriminate]. injection E as <-. apply ip_address_spec in A. now constructor.
Qed.

Lemma net_action_inv h ns h' x : net_action h ns = Ok (h', x) -> Forall (fun n => exists l, network_action n = Ok l) ns.
Proof.
  unfold net_action. destruct (map_r network_action ns) as [ls|e] eqn:E; [|discriminate]. intros _. apply map_r_inv in E.
  clear h h' x. induction E; constructor; eauto.
Qed.
(** The ip terms of a list of objects all have valid networks if the list was handled. *)
Lemma set_objects_inv : forall os h h' vs, set_objects h os = Ok (h', vs) -> ~ In SComment os ->
  (forall d ns, In (SIp d ns) os -> Forall (fun n => exists l, network_action n = Ok l) ns) /\
  Forall2 (fun o v => match o, v with SIp d _, VIp d' _ => d = d' | SExpr v, VExpr c => c = wrap v | _, _ => False end) os vs.
Proof.
  induction os as [|o os IH]; cbn [set_objects]; intros h h' vs H N; [injection H as <- <-; split; [intros ? ? []|constructor]|].
  destruct o as [|d ns|v].
  - exfalso. apply N. now left.
  - destruct (net_action h ns) as [(h1 & x)|e] eqn:A; [|discriminate]. cbn [bind] in H. destruct (set_objects h1 os) as [(h2 & vs')|e] eqn:S; [|discriminate].
    injection H as <- <-. destruct (IH _ _ _ S) as (K & F); [intros I; apply N; now right|]. split; [|constructor; auto].
    intros d' ns' [[= <- <-]|I]; [eapply net_action_inv; eauto|eauto].
  - destruct (set_objects h os) as [(h2 & vs')|e] eqn:S; [|discriminate]. injection H as <- <-. destruct (IH _ _ _ S) as (K & F); [intros I; apply N; now right|].
    split; [|constructor; auto]. intros d' ns' [[=]|I]; eauto.
Qed.
Lemma eval_readable : forall e h h' v, (forall t, In t (expr_nets e) -> mask_ok t) -> eval_expr h e = Ok (h', v) -> readable e.
Proof.
  refine (fix IHe e := _ with IHs x : forall h h' v, (forall t, In t (set_nets x) -> mask_ok t) -> eval_set h x = Ok (h', v) -> readable_set x := _ for IHe).
  - destruct e as [f l]. intros h h' v M E. rewrite eval_expr_eq in E. cbn [expr_nets] in M.
    destruct (eval_set h f) as [(h1 & v1)|] eqn:E1; [|discriminate]. cbn [bind] in E.
    destruct (eval_rest h1 l) as [(h2 & vs)|] eqn:E2; [|discriminate]. clear E. constructor.
    + eapply IHs; [|exact E1]. intros t I. apply M, in_or_app. now left.
    + assert (M' : forall t, In t (flat_map (fun x => set_nets (snd x)) l) -> mask_ok t) by (intros t I; apply M, in_or_app; now right).
      clear M E1. revert h1 h2 vs E2 M'. induction l as [|(o, x) l IHl]; intros h1 h2 vs E2 M'; constructor.
      * cbn [eval_rest] in E2. destruct (eval_set h1 x) as [(h3 & v3)|] eqn:E3; [|discriminate]. eapply (IHs x); [|exact E3].
        intros t I. apply M'. cbn [flat_map snd]. apply in_or_app. now left.
      * cbn [eval_rest] in E2. destruct (eval_set h1 x) as [(h3 & v3)|] eqn:E3; [|discriminate]. cbn [bind] in E2.
        destruct (eval_rest h3 l) as [(h4 & vs4)|] eqn:E4; [|discriminate]. eapply IHl; [exact E4|].
        intros t I. apply M'. cbn [flat_map snd]. apply in_or_app. now right.
  - destruct x as [id l]. intros h h' v M E. rewrite eval_set_eq in E. cbn [set_nets] in M.
    destruct (eval_objs h l) as [(h1 & os)|] eqn:E1; [|discriminate]. cbn [bind] in E.
    assert (K : Forall2 (fun o so => match o with
        | OIp d ts => exists ns, so = SIp d ns /\ Forall2 (fun t n => net_of_text t = Ok n) ts ns
        | OExpr e => readable e /\ exists w, so = SExpr w end) l os).
    { clear E. revert h h1 os E1 M. induction l as [|o l IHl]; intros h h1 os E1 M; cbn [eval_objs] in E1; [injection E1 as <- <-; constructor|].
      destruct (eval_obj h o) as [(h2 & so)|] eqn:Eo; [|discriminate]. cbn [bind] in E1. destruct (eval_objs h2 l) as [(h3 & os')|] eqn:El; [|discriminate].
      injection E1 as <- <-. constructor.
      - destruct o as [d ts|e]; cbn [eval_obj] in Eo.
        + destruct (map_r net_of_text ts) as [ns|] eqn:En; [|discriminate]. injection Eo as <- <-. exists ns. split; [auto|]. now apply map_r_inv.
        + destruct (eval_expr h e) as [(h4 & w)|] eqn:Ee; [|discriminate]. injection Eo as <- <-. split; [|eauto].
          eapply (IHe e); [|exact Ee]. intros t I. apply M. cbn [flat_map obj_nets]. apply in_or_app. now left.
      - eapply IHl; [exact El|]. intros t I. apply M. cbn [flat_map]. apply in_or_app. now right. }
    clear E1. unfold set_action in E. destruct (set_objects h1 os) as [(h2 & vs)|] eqn:S; [|discriminate]. cbn [bind] in E.
    assert (NC : ~ In SComment os).
    { intros I. destruct (Forall2_In_r _ _ _ _ K I) as (o & _ & H). destruct o; [destruct H as (ns & [=] & _)|destruct H as (_ & w & [=])]. }
    destruct (set_objects_inv _ _ _ _ S NC) as (V & F).
    assert (C : (exists c, vs = [VExpr c]) \/ exists ip, ip_terms vs = Ok ip).
    { destruct vs as [|[d x|c] vs]; [right; exists []; reflexivity| |].
      - right. destruct (ip_terms (VIp d x :: vs)); [eauto|discriminate].
      - destruct vs; [eauto|discriminate]. }
    destruct C as [(c & ->)|(ip & Ip)].
    + inversion F as [|so v' os' vs' Hso F' E1 E2]; subst. inversion F'; subst. inversion K as [|o so' l' os' Ho K' E1 E2]; subst. inversion K'; subst.
      destruct so as [|d ns|w]; try contradiction. destruct o as [d ts|e]; [destruct Ho as (ns & [=] & _)|]. destruct Ho as (R & _). now constructor.
    + apply RS_clause. intros o I. destruct (Forall2_In_l _ _ _ _ K I) as (so & Is & Ho). destruct o as [d ts|e].
      * exists d, ts. split; [auto|]. intros t It. destruct Ho as (ns & -> & Fn). destruct (Forall2_In_l _ _ _ _ Fn It) as (n & In_ & En).
        specialize (V _ _ Is). rewrite Forall_forall in V. destruct (V n In_) as (lf & Lf). exists n. eapply net_reads_conv; eauto.
        apply M. apply in_flat_map. exists (OIp d ts). auto.
      * exfalso. destruct Ho as (_ & w & ->). clear -Is F Ip. revert ip Ip. induction F as [|o v os vs Hov F IH]; intros ip Ip; [destruct Is|].
        destruct Is as [->|Is].
        -- destruct v as [d x|c]; [contradiction|discriminate].
        -- destruct v as [d x|c]; [|discriminate]. cbn [ip_terms] in Ip. destruct (ip_terms vs) as [ip'|] eqn:Ei; [|discriminate]. eapply IH; eauto.
Qed.
