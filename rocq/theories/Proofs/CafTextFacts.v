From Coq Require Import Lia String.
From Verif.Model Require Import Base Ip Hosts Groups Rules Caf Peg AddrText CafText.
From Verif.Spec Require Import AddrSpec FilterSpec CafSpec AddrTextSpec CafTextSpec.
From Verif.Proofs Require Import PegFacts AddrTextFacts Addr6Facts.
Local Open Scope list_scope.

(** ** Closures *)
Lemma many_f_mono {A} (p : parser A) : forall n m s, length s < n -> length s < m -> many_f n p s = many_f m p s.
Proof.
  induction n as [|n IH]; intros m s Ln Lm; [lia|]. destruct m as [|m]; [lia|].
  cbn [many_f]. destruct (p s) as [|e|a r]; try reflexivity. destruct (Nat.ltb_spec (length r) (length s)); [|reflexivity].
  rewrite (IH m r) by lia. reflexivity.
Qed.
Lemma many_unfold {A} (p : parser A) s : many p s =
  match p s with
  | PFail => POk [] s
  | PErr e => PErr e
  | POk a r => if (length r <? length s)%nat then
      match many p r with POk l r' => POk (a :: l) r' | PFail => PFail | PErr e => PErr e end
      else POk [] s
  end.
Proof.
  unfold many. cbn [many_f]. destruct (p s) as [|e|a r]; try reflexivity.
  destruct (Nat.ltb_spec (length r) (length s)) as [L|]; [|reflexivity].
  rewrite (many_f_mono p (length s) (S (length r)) r) by lia. reflexivity.
Qed.
Lemma many_stop {A} (p : parser A) s : p s = PFail -> many p s = POk [] s.
Proof. intros H. now rewrite many_unfold, H. Qed.
Lemma many_step {A} (p : parser A) s a r l r' : p s = POk a r -> length r < length s -> many p r = POk l r' ->
  many p s = POk (a :: l) r'.
Proof. intros H L M. rewrite many_unfold, H. apply Nat.ltb_lt in L. now rewrite L, M. Qed.
(** The iterations of a closure. *)
Inductive chain {A} (p : parser A) : list A -> pystr -> pystr -> Prop :=
| Ch_nil s : chain p [] s s
| Ch_cons a l s s1 r : p s = POk a s1 -> length s1 < length s -> chain p l s1 r -> chain p (a :: l) s r.
Lemma many_chain {A} (p : parser A) s l r : many p s = POk l r -> chain p l s r.
Proof.
  remember (length s) as n eqn:E. assert (L : length s <= n) by lia. clear E. revert s l L.
  induction n as [|n IH]; intros s l L H; rewrite many_unfold in H; destruct (p s) as [|e|a s1] eqn:P; try discriminate; try (injection H as <- <-; constructor);
    destruct (Nat.ltb_spec (length s1) (length s)); try (injection H as <- <-; constructor).
  - lia.
  - destruct (many p s1) as [|e|l1 r1] eqn:M; try discriminate. injection H as <- <-. econstructor; eauto. apply IH; [lia|auto].
Qed.
Lemma chain_many {A} (p : parser A) l s r : chain p l s r -> p r = PFail -> many p s = POk l r.
Proof. induction 1 as [|a l s s1 r P L C IH]; intros F; [now apply many_stop|]. eapply many_step; eauto. Qed.
Lemma many_inv {A} (p : parser A) s l r : many p s = POk l r ->
  match l with
  | [] => s = r
  | a :: l' => exists s1, p s = POk a s1 /\ length s1 < length s /\ many p s1 = POk l' r
  end.
Proof.
  rewrite many_unfold. destruct (p s) as [|e|a s1] eqn:P; try discriminate; [intros [= <- <-]; reflexivity|].
  destruct (Nat.ltb_spec (length s1) (length s)); [|intros [= <- <-]; reflexivity].
  destruct (many p s1) as [|e|l1 r1] eqn:M; try discriminate. intros [= <- <-]. eauto.
Qed.

(** ** Address patterns *)
Definition three (a b c : N) : bool :=
  Bool.eqb (octet3 a b c) (existsb (fun v => str_eqb [a; b; c] (dec3 v) && (100 <=? v)%N) upto255).
Lemma three_checks : forallb (fun a => forallb (fun b => forallb (three a b) digits) digits) digits = true.
Proof. vm_compute. reflexivity. Qed.
Lemma octet3_digits a b c : octet3 a b c = true -> is_digit a = true /\ is_digit b = true /\ is_digit c = true.
Proof.
  unfold octet3, in_range, is_digit. rewrite !orb_true_iff, !andb_true_iff, !N.eqb_eq, !N.leb_le. lia.
Qed.
Lemma dec3_digits v : (v <= 255)%N -> forallb is_digit (dec3 v) = true.
Proof.
  intros L. assert (K : forallb (fun n => forallb is_digit (dec3 n)) upto255 = true) by (vm_compute; reflexivity).
  rewrite forallb_forall in K. apply (K v (upto255_In v L)).
Qed.
Lemma dec3_long v : (100 <= v)%N -> length (dec3 v) = 3.
Proof. intros L. unfold dec3. destruct (N.ltb_spec v 10); [lia|]. destruct (N.ltb_spec v 100); [lia|]. reflexivity. Qed.
Lemma octet3_spec a b c : octet3 a b c = true <-> exists v, (100 <= v <= 255)%N /\ [a; b; c] = dec3 v.
Proof.
  assert (K : is_digit a = true -> is_digit b = true -> is_digit c = true ->
    octet3 a b c = existsb (fun v => str_eqb [a; b; c] (dec3 v) && (100 <=? v)%N) upto255).
  { intros Da Db Dc. pose proof three_checks as T. rewrite forallb_forall in T. specialize (T a (digit_In a Da)).
    rewrite forallb_forall in T. specialize (T b (digit_In b Db)). rewrite forallb_forall in T. specialize (T c (digit_In c Dc)).
    now apply Bool.eqb_prop in T. }
  split.
  - intros H. destruct (octet3_digits _ _ _ H) as (Da & Db & Dc). rewrite (K Da Db Dc) in H.
    apply existsb_exists in H as (v & I & E). apply andb_true_iff in E as (E & L). apply str_eqb_eq in E. apply N.leb_le in L.
    exists v. split; [|auto]. unfold upto255 in I. apply in_map_iff in I as (k & <- & I). apply in_seq in I. lia.
  - intros (v & L & E). assert (D : forallb is_digit [a; b; c] = true) by (rewrite E; apply dec3_digits; lia).
    cbn [forallb] in D. rewrite !andb_true_iff in D. destruct D as (Da & Db & Dc & _). rewrite (K Da Db Dc).
    apply existsb_exists. exists v. split; [apply upto255_In; lia|]. apply andb_true_iff. split; [now apply str_eqb_eq|apply N.leb_le; lia].
Qed.
Lemma octet_shape d : octet_text d <->
  (exists a, d = [a] /\ is_digit a = true) \/ (exists a b, d = [a; b] /\ is_digit a = true /\ is_digit b = true) \/
  (exists a b c, d = [a; b; c] /\ octet3 a b c = true).
Proof.
  unfold octet_text. split.
  - intros [(F & [L|L])|(v & L & E)].
    + destruct d as [|a [|]]; try discriminate. left. exists a. cbn [forallb] in F. rewrite andb_true_r in F. auto.
    + destruct d as [|a [|b [|]]]; try discriminate. right. left. exists a, b. cbn [forallb] in F. rewrite andb_true_r, andb_true_iff in F. tauto.
    + right. right. pose proof (dec3_long v (proj1 L)) as L3. rewrite <- E in L3. destruct d as [|a [|b [|c [|]]]]; try discriminate.
      exists a, b, c. split; [auto|]. apply octet3_spec. exists v. auto.
  - intros [(a & -> & D)|[(a & b & -> & Da & Db)|(a & b & c & -> & O)]].
    + left. cbn [forallb length]. rewrite D. auto.
    + left. cbn [forallb length]. rewrite Da, Db. auto.
    + right. apply octet3_spec in O as (v & L & E). exists v. auto.
Qed.
Lemma octet_digits d : octet_text d -> d <> [] /\ forallb is_digit d = true.
Proof.
  rewrite octet_shape. intros [(a & -> & D)|[(a & b & -> & Da & Db)|(a & b & c & -> & O)]].
  - cbn [forallb length]. rewrite D. split; [discriminate|auto].
  - cbn [forallb length]. rewrite Da, Db. split; [discriminate|auto].
  - apply octet3_digits in O as (Da & Db & Dc). cbn [forallb length]. rewrite Da, Db, Dc. split; [discriminate|auto].
Qed.
Lemma dot_not_digit : is_digit 46 = false. Proof. reflexivity. Qed.
Lemma octet3_false a b c : is_digit a && is_digit b && is_digit c = false -> octet3 a b c = false.
Proof.
  intros H. destruct (octet3 a b c) eqn:E; [|reflexivity]. apply octet3_digits in E as (A & B & C). rewrite A, B, C in H. discriminate.
Qed.
Lemma octet_dot_spec s a r : octet_dot s = Some (a, r) <-> octet_text a /\ s = a ++ 46%N :: r.
Proof.
  split.
  - intros H. rewrite octet_shape. unfold octet_dot in H.
    destruct s as [|x [|y [|z [|w s]]]]; try discriminate.
    + destruct (is_digit x && (y =? dot)%N) eqn:E; [|discriminate]. apply andb_true_iff in E as (Dx & Ey). apply N.eqb_eq in Ey. injection H as <- <-. subst y. split; [eauto|reflexivity].
    + destruct (is_digit x && is_digit y && (z =? dot)%N) eqn:E.
      * rewrite !andb_true_iff in E. destruct E as ((Dx & Dy) & Ez). apply N.eqb_eq in Ez. injection H as <- <-. subst z. split; [right; left; eauto|reflexivity].
      * destruct (is_digit x && (y =? dot)%N) eqn:E2; [|discriminate]. apply andb_true_iff in E2 as (Dx & Ey). apply N.eqb_eq in Ey. injection H as <- <-. subst y. split; [eauto|reflexivity].
    + destruct (octet3 x y z && (w =? dot)%N) eqn:E0.
      * apply andb_true_iff in E0 as (O & Ew). apply N.eqb_eq in Ew. injection H as <- <-. subst w. split; [right; right; exists x, y, z; auto|reflexivity].
      * destruct (is_digit x && is_digit y && (z =? dot)%N) eqn:E.
        -- rewrite !andb_true_iff in E. destruct E as ((Dx & Dy) & Ez). apply N.eqb_eq in Ez. injection H as <- <-. subst z. split; [right; left; eauto|reflexivity].
        -- destruct (is_digit x && (y =? dot)%N) eqn:E2; [|discriminate]. apply andb_true_iff in E2 as (Dx & Ey). apply N.eqb_eq in Ey. injection H as <- <-. subst y. split; [eauto|reflexivity].
  - intros (O & ->). apply octet_shape in O as [(x & -> & D)|[(x & y & -> & Dx & Dy)|(x & y & z & -> & O)]]; cbn [app].
    + unfold octet_dot. destruct r as [|y [|z r]].
      * rewrite D. reflexivity.
      * rewrite dot_not_digit, andb_false_r, D. reflexivity.
      * rewrite (octet3_false x 46 y) by (rewrite dot_not_digit, andb_false_r; reflexivity). cbn [andb]. rewrite dot_not_digit, andb_false_r, D. reflexivity.
    + unfold octet_dot. destruct r as [|z r].
      * rewrite Dx, Dy. reflexivity.
      * rewrite (octet3_false x y 46) by (rewrite dot_not_digit, andb_false_r; reflexivity). cbn [andb]. rewrite Dx, Dy. reflexivity.
    + unfold octet_dot. rewrite O. reflexivity.
Qed.
Lemma octet_end_spec s d r : octet_end s = Some (d, r) <->
  octet_text d /\ s = d ++ r /\ (forall x r', r = x :: r' -> ~ octet_text (d ++ [x])).
Proof.
  assert (N1 : forall x y, is_digit y = false -> ~ octet_text ([x] ++ [y])).
  { intros x y D O. apply octet_digits in O as (_ & O). cbn [forallb app] in O. rewrite D, andb_false_r in O. discriminate. }
  assert (N2 : forall x y z, octet3 x y z = false -> ~ octet_text ([x; y] ++ [z])).
  { intros x y z D O. cbn [app] in O. apply octet_shape in O as [(a & E & _)|[(a & b & E & _)|(a & b & c & E & O)]]; try discriminate.
    injection E as -> -> ->. congruence. }
  assert (N3 : forall x y z w, ~ octet_text ([x; y; z] ++ [w])).
  { intros x y z w O. cbn [app] in O. apply octet_shape in O as [(a & E & _)|[(a & b & E & _)|(a & b & c & E & O)]]; discriminate. }
  split.
  - intros H. rewrite octet_shape. unfold octet_end in H. destruct s as [|x [|y [|z s]]]; try discriminate.
    + destruct (is_digit x) eqn:D; [|discriminate]. injection H as <- <-. split; [eauto|]. split; [reflexivity|]. discriminate.
    + destruct (is_digit x) eqn:D; [|discriminate]. destruct (is_digit y) eqn:Dy; cbn [andb] in H; injection H as <- <-.
      * split; [right; left; eauto|]. split; [reflexivity|discriminate].
      * split; [eauto|]. split; [reflexivity|]. intros q r' [= <- <-]. now apply N1.
    + destruct (octet3 x y z) eqn:O.
      * injection H as <- <-. split; [right; right; exists x, y, z; auto|]. split; [reflexivity|]. intros q r' _. apply N3.
      * destruct (is_digit x) eqn:D; [|discriminate]. destruct (is_digit y) eqn:Dy; cbn [andb] in H; injection H as <- <-.
        -- split; [right; left; eauto|]. split; [reflexivity|]. intros q r' [= <- <-]. now apply N2.
        -- split; [eauto|]. split; [reflexivity|]. intros q r' [= <- <-]. now apply N1.
  - intros (O & -> & M). apply octet_shape in O as [(x & -> & D)|[(x & y & -> & Dx & Dy)|(x & y & z & -> & O)]]; cbn [app].
    + assert (Z : forall q r', r = q :: r' -> is_digit q = false).
      { intros q r' E. destruct (is_digit q) eqn:Dq; [|reflexivity]. exfalso. apply (M q r' E). apply octet_shape. right. left. exists x, q. auto. }
      unfold octet_end. destruct r as [|y [|z r]].
      * rewrite D. reflexivity.
      * rewrite (Z y [] eq_refl), andb_false_r, D. reflexivity.
      * rewrite octet3_false by (rewrite (Z y _ eq_refl), andb_false_r; reflexivity). rewrite (Z y _ eq_refl), andb_false_r, D. reflexivity.
    + unfold octet_end. destruct r as [|z r]; [rewrite Dx, Dy; reflexivity|].
      destruct (octet3 x y z) eqn:O; [|rewrite Dx, Dy; reflexivity]. exfalso. apply (M z r eq_refl). apply octet_shape. right. right. exists x, y, z. auto.
    + unfold octet_end. rewrite O. reflexivity.
Qed.
Lemma ip4_pat_spec s t r : ip4_pat s = POk t r <-> s = t ++ r /\ addr4_text t r.
Proof.
  unfold ip4_pat, addr4_text. split.
  - intros H. destruct (octet_dot s) as [(a & s1)|] eqn:Ea; [|discriminate]. destruct (octet_dot s1) as [(b & s2)|] eqn:Eb; [|discriminate].
    destruct (octet_dot s2) as [(c & s3)|] eqn:Ec; [|discriminate]. destruct (octet_end s3) as [(d & s4)|] eqn:Ed; [|discriminate].
    injection H as <- <-. apply octet_dot_spec in Ea as (Oa & ->), Eb as (Ob & ->), Ec as (Oc & ->). apply octet_end_spec in Ed as (Od & -> & M).
    split; [unfold dot; repeat (rewrite <- app_assoc; cbn [app]); reflexivity|]. exists a, b, c, d. repeat (split; [assumption|]). split; [reflexivity|auto].
  - intros (-> & a & b & c & d & Oa & Ob & Oc & Od & -> & M). repeat (rewrite <- app_assoc; cbn [app]).
    rewrite (proj2 (octet_dot_spec _ a _)) by (split; [auto|reflexivity]).
    rewrite (proj2 (octet_dot_spec _ b _)) by (split; [auto|reflexivity]).
    rewrite (proj2 (octet_dot_spec _ c _)) by (split; [auto|reflexivity]).
    rewrite (proj2 (octet_end_spec _ d r)) by auto. reflexivity.
Qed.
Lemma ip4_pat_noerr s e : ip4_pat s <> PErr e.
Proof. unfold ip4_pat. repeat match goal with |- context [match ?x with _ => _ end] => destruct x end; discriminate. Qed.

Lemma starts_cons f c s : starts f (c :: s) <-> f c = true.
Proof. split; [intros (c' & s' & [= <- <-] & H); auto|intros H; exists c, s; auto]. Qed.
Lemma not_starts f s : ~ starts f s <-> s = [] \/ exists c s', s = c :: s' /\ f c = false.
Proof.
  destruct s as [|c s]; [split; [auto|intros _ (c & s & [=] & _)]|]. rewrite starts_cons. split.
  - intros H. right. exists c, s. split; [auto|]. now destruct (f c).
  - intros [[=]|(c' & s' & [= <- <-] & H)]. congruence.
Qed.
Lemma span_iff f s a b : span f s = (a, b) <-> s = a ++ b /\ forallb f a = true /\ ~ starts f b.
Proof.
  split.
  - intros H. revert a b H. induction s as [|c s IH]; cbn; intros a b H.
    + injection H as <- <-. split; [auto|]. split; [auto|]. intros (c & s & [=] & _).
    + destruct (f c) eqn:F.
      * destruct (span f s) as [a' b']. injection H as <- <-. destruct (IH a' b' eq_refl) as (-> & A & B). split; [auto|]. cbn. rewrite F. auto.
      * injection H as <- <-. split; [auto|]. split; [auto|]. rewrite starts_cons. congruence.
  - intros (-> & A & B). revert A. induction a as [|c a IH]; cbn; intros A.
    + destruct b as [|c b]; [reflexivity|]. rewrite starts_cons in B. cbn. destruct (f c); [congruence|reflexivity].
    + apply andb_true_iff in A as (F & A). rewrite F. now rewrite (IH A).
Qed.
Lemma ip6_pat_spec s t r : ip6_pat s = POk t r <-> s = t ++ r /\ addr6_text t r.
Proof.
  unfold ip6_pat, addr6_text. split.
  - intros H. destruct (span is_hex s) as [a s1] eqn:S1. apply span_iff in S1 as (-> & A & _).
    destruct s1 as [|c s2]; [discriminate|]. destruct (N.eqb_spec c colon) as [->|]; [|discriminate].
    destruct (span is_hexdotcolon s2) as [b r2] eqn:S2. apply span_iff in S2 as (-> & B & M).
    destruct b as [|b0 b]; [discriminate|]. injection H as <- <-. split; [now rewrite <- app_assoc|].
    exists a, (b0 :: b). repeat (split; [first [assumption|discriminate|reflexivity]|]). auto.
  - intros (-> & a & b & A & Nb & B & -> & M). rewrite <- app_assoc. cbn [app].
    rewrite (proj2 (span_iff is_hex _ a (58%N :: b ++ r))).
    + change (N.eqb 58 colon) with true. cbv iota. rewrite (proj2 (span_iff is_hexdotcolon _ b r)) by auto. destruct b; [congruence|reflexivity].
    + split; [reflexivity|]. split; [auto|]. rewrite starts_cons. discriminate.
Qed.
Lemma ip6_pat_noerr s e : ip6_pat s <> PErr e.
Proof. unfold ip6_pat. repeat match goal with |- context [match ?x with _ => _ end] => destruct x end; discriminate. Qed.
Lemma digit_hex c : is_digit c = true -> is_hex c = true.
Proof. unfold is_hex. intros ->. reflexivity. Qed.
Lemma addr46 t r t' r' : t ++ r = t' ++ r' -> addr4_text t r -> addr6_text t' r' -> False.
Proof.
  intros E (a & b & c & d & Oa & _ & _ & _ & -> & _) (x & y & X & _ & _ & -> & _).
  rewrite <- !app_assoc in E. cbn [app] in E. apply octet_digits in Oa as (_ & Da).
  assert (S1 : span is_hex (a ++ 46%N :: ((b ++ 46%N :: c ++ 46%N :: d) ++ r)) = (a, 46%N :: ((b ++ 46%N :: c ++ 46%N :: d) ++ r))).
  { apply span_iff. split; [auto|]. split; [|rewrite starts_cons; discriminate]. apply forallb_forall. intros q I. rewrite forallb_forall in Da. apply digit_hex, Da, I. }
  assert (S2 : span is_hex (x ++ 58%N :: y ++ r') = (x, 58%N :: y ++ r')).
  { apply span_iff. split; [auto|]. split; [auto|rewrite starts_cons; discriminate]. }
  rewrite <- E, <- !app_assoc in S2. rewrite <- !app_assoc in S1. cbn [app] in S1, S2. rewrite S1 in S2. discriminate.
Qed.
