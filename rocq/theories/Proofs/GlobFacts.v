(** fnmatchcase computes the declarative glob relation. *)
From Coq Require Import Lia ZifyBool ZifyNat ZifyN.
From Verif.Model Require Import Base Fnmatch.
From Verif.Spec Require Import GlobSpec.
Local Open Scope N_scope.

(** ** Set texts as lists of items *)
Inductive citem := ISng (c : N) | IRng (lo hi : N).
Fixpoint readI (s : pystr) : list citem :=
  match s with
  | [] => []
  | x :: r =>
      match r with
      | d :: y :: r' => if d =? dash then IRng x y :: readI r' else ISng x :: readI r
      | _ => ISng x :: readI r
      end
  end.
Definition addp (a : pystr) (l : list pystr) : list pystr :=
  match l with h :: t => (a ++ h) :: t | [] => [a] end.
Fixpoint tc (is : list citem) : list pystr :=
  match is with
  | [] => [[]]
  | ISng c :: is' => addp [c] (tc is')
  | IRng lo hi :: is' => [lo] :: addp [hi] (tc is')
  end.
Definition good (i : citem) : bool := match i with ISng _ => true | IRng lo hi => lo <=? hi end.
Definition pair_of (i : citem) : N * N := match i with ISng c => (c, c) | IRng lo hi => (lo, hi) end.
Definition render (i : citem) : list (N * bool) :=
  match i with ISng c => [(c, false)] | IRng lo hi => [(lo, false); (dash, true); (hi, false)] end.

Lemma readI_rng x y r : readI (x :: dash :: y :: r) = IRng x y :: readI r.
Proof. reflexivity. Qed.
Lemma readI_sng x r : (forall hi s', r <> dash :: hi :: s') -> readI (x :: r) = ISng x :: readI r.
Proof.
  intros H. destruct r as [|d [|y r']]; try reflexivity. cbn [readI].
  destruct (d =? dash) eqn:E; [|reflexivity]. apply N.eqb_eq in E. subst. now destruct (H y r').
Qed.
Lemma dash_dec (r : pystr) : (exists hi s', r = dash :: hi :: s') \/ (forall hi s', r <> dash :: hi :: s').
Proof.
  destruct r as [|d [|y r']]; try (right; discriminate).
  destruct (N.eq_dec d dash) as [->|n]; [left; eauto|right; congruence].
Qed.
Lemma read_ind (P : pystr -> Prop) :
  P [] -> (forall x y r, P r -> P (x :: dash :: y :: r)) ->
  (forall x r, (forall hi s', r <> dash :: hi :: s') -> P r -> P (x :: r)) ->
  forall s, P s.
Proof.
  intros H0 H1 H2. assert (forall n s, (length s <= n)%nat -> P s) as A.
  { induction n as [|n IH]; intros [|x r] L; auto; [inversion L|].
    cbn in L. destruct (dash_dec r) as [(y & r' & ->)|N].
    - apply H1, IH. cbn in L. lia.
    - apply H2; auto. apply IH. lia. }
  intros s. eapply A. reflexivity.
Qed.

Lemma listed_items s c : listed s c <-> exists i, In i (readI s) /\ fst (pair_of i) <= c <= snd (pair_of i).
Proof.
  induction s as [|x y r IH|x r N IH] using read_ind.
  - split; [intros H; inversion H|intros (i & [] & _)].
  - rewrite readI_rng. split.
    + intros H. inversion H as [? ? ? ? Hc|? ? ? ? Hc|? ? Hc|? ? ? Hc ?]; subst.
      * exists (IRng x y). split; [now left|exact Hc].
      * destruct IH as [IH _]. destruct (IH Hc) as (i & A & B). exists i. split; [now right|auto].
      * exfalso; eapply Hc; reflexivity.
      * exfalso; eapply Hc; reflexivity.
    + intros (i & [<-|A] & B); [now apply L_range|]. apply L_range_skip, IH. eauto.
  - rewrite readI_sng by auto. split.
    + intros H. inversion H as [? ? ? ? Hc|? ? ? ? Hc|? ? Hc|? ? ? Hc Hd]; subst.
      * exfalso; eapply N; reflexivity.
      * exfalso; eapply N; reflexivity.
      * exists (ISng c). split; [now left|cbn; lia].
      * destruct IH as [IH _]. destruct (IH Hd) as (i & A & B). exists i. split; [now right|auto].
    + intros (i & [<-|A] & B).
      * cbn in B. replace c with x by lia. now apply L_char.
      * apply L_char_skip, IH; eauto.
Qed.

(** ** Chunks *)
Lemma close_cons a l : l <> [] -> l <> [[]] ->
  close_chunks (a :: l) = do r <- close_chunks l; Ok (a :: r).
Proof.
  intros H0 H1. unfold close_chunks, pystr in *. change (rev (a :: l)) with (rev l ++ [a]).
  rewrite <- (rev_involutive l) in H0, H1.
  destruct (rev l) as [|x [|p r]] eqn:E.
  - now elim H0.
  - destruct x; [now elim H1|reflexivity].
  - destruct x; [|reflexivity]. cbn [app bind]. f_equal.
    change ((p ++ [c_dash]) :: r ++ [a]) with (((p ++ [c_dash]) :: r) ++ [a]). now rewrite rev_app_distr.
Qed.
Lemma chunks_nonempty k acc s : chunks_go k acc s <> [].
Proof.
  revert k acc. induction s as [|c s IH]; intros k acc; cbn [chunks_go]; [discriminate|].
  destruct k; [|apply IH]. destruct (c =? c_dash); [discriminate|apply IH].
Qed.
Lemma chunks_not_empty k x acc s : chunks_go k (x :: acc) s <> [[]].
Proof.
  revert k x acc. induction s as [|d s IH]; intros k x acc; cbn.
  - destruct (rev acc); discriminate.
  - destruct k; [|apply IH]. destruct (d =? c_dash); [|apply IH].
    destruct (rev acc); discriminate.
Qed.
Lemma addp_addp a b l : addp a (addp b l) = addp (a ++ b) l.
Proof. destruct l; cbn; [reflexivity|now rewrite app_assoc]. Qed.
Lemma tc_nonempty is : tc is <> [].
Proof. destruct is as [|[c|lo hi] is]; cbn; try discriminate. destruct (tc is); discriminate. Qed.

Lemma chunks_tc n : forall s x acc, (length s <= n)%nat ->
  close_chunks (chunks_go 0 (x :: acc) s) = Ok (addp (rev acc) (tc (readI (x :: s)))).
Proof.
  induction n as [|n IH]; intros s x acc L.
  - destruct s; [|inversion L]. cbn. unfold close_chunks. cbn.
    destruct (rev acc ++ [x]) eqn:E; [now apply app_eq_nil in E as [_ ?]|reflexivity].
  - destruct s as [|c s].
    { cbn. unfold close_chunks. cbn.
      destruct (rev acc ++ [x]) eqn:E; [now apply app_eq_nil in E as [_ ?]|reflexivity]. }
    cbn in L. cbn [chunks_go]. destruct (c =? c_dash) eqn:E.
    + apply N.eqb_eq in E. subst c.
      destruct s as [|y [|z s]].
      * cbn. unfold close_chunks. cbn. now rewrite <- app_assoc.
      * cbn. reflexivity.
      * change (chunks_go 2 [] (y :: z :: s)) with (chunks_go 0 [z; y] s).
        rewrite close_cons; [|apply chunks_nonempty|apply chunks_not_empty].
        rewrite IH by (cbn in L; lia). cbn [bind].
        change c_dash with dash. rewrite readI_rng. reflexivity.
    + rewrite IH by lia. rewrite (readI_sng x).
      * cbn [tc rev]. rewrite addp_addp. reflexivity.
      * intros hi s' H. injection H as -> ->. discriminate E.
Qed.

Lemma tc_shape is : match tc is with [] => False | h :: t => (h = [] -> t = []) /\ Forall (fun c => c <> []) t end.
Proof.
  induction is as [|[c|lo hi] is IH]; cbn; auto.
  - destruct (tc is) as [|h t]; cbn; [auto|]. destruct IH as [_ F]. split; [discriminate|auto].
  - destruct (tc is) as [|h t]; cbn; [contradiction|]. destruct IH as [_ F].
    split; [discriminate|]. constructor; [discriminate|auto].
Qed.

Lemma merge_addp c l l' : match l with [] => False | h :: t => h = [] -> t = [] end ->
  merge_chunks l = Ok l' -> merge_chunks (addp [c] l) = Ok (addp [c] l').
Proof.
  destruct l as [|h t]; [contradiction|]. intros Hh. cbn [addp merge_chunks app].
  destruct (merge_chunks t) as [r|e]; [|discriminate]. cbn [bind]. destruct r as [|d r'].
  - intros H. injection H as <-. reflexivity.
  - destruct h as [|h0 h].
    + cbn. discriminate.
    + change (rev (c :: h0 :: h)) with (rev (h0 :: h) ++ [c]).
      destruct (rev (h0 :: h)) as [|x rh] eqn:E; [cbn in E; now apply app_eq_nil in E as [_ ?]|].
      cbn [app]. destruct d as [|y d']; [discriminate|].
      destruct (y <? x); intros H; injection H as <-; reflexivity.
Qed.

Lemma merge_tc is : merge_chunks (tc is) = Ok (tc (filter good is)).
Proof.
  induction is as [|[c|lo hi] is IH]; cbn [tc filter good].
  - reflexivity.
  - apply merge_addp; auto. pose proof (tc_shape is). destruct (tc is); tauto.
  - cbn [merge_chunks].
    assert (A : merge_chunks (addp [hi] (tc is)) = Ok (addp [hi] (tc (filter good is)))).
    { apply merge_addp; auto. pose proof (tc_shape is). destruct (tc is); tauto. }
    rewrite A. cbn [bind]. pose proof (tc_shape (filter good is)) as Sh.
    destruct (tc (filter good is)) as [|h t] eqn:E; [contradiction|]. cbn [addp app rev].
    destruct (hi <? lo) eqn:C.
    + replace (lo <=? hi) with false by lia. cbn. now rewrite E.
    + replace (lo <=? hi) with true by lia. cbn [tc]. rewrite E. reflexivity.
Qed.

Lemma join_addp c l : l <> [] -> join_chunks (addp [c] l) = (c, false) :: join_chunks l.
Proof. destruct l as [|h [|h' t]]; [congruence|reflexivity|reflexivity]. Qed.
Lemma join_tc is : join_chunks (tc is) = flat_map render is.
Proof.
  induction is as [|[c|lo hi] is IH]; cbn [tc flat_map render].
  - reflexivity.
  - rewrite join_addp by apply tc_nonempty. now rewrite IH.
  - cbn [join_chunks]. destruct (addp [hi] (tc is)) eqn:E.
    + destruct (tc is); discriminate E.
    + rewrite <- E, join_addp by apply tc_nonempty. cbn. now rewrite IH.
Qed.

Definition starts_false (t : list (N * bool)) : Prop := match t with (_, true) :: _ => False | _ => True end.
Lemma render_starts is : starts_false (flat_map render is).
Proof. destruct is as [|[]]; exact I. Qed.

Lemma items_render is : Forall (fun i => good i = true) is ->
  class_items (flat_map render is) = Ok (map pair_of is).
Proof.
  induction is as [|i is IH]; intros F; [reflexivity|]. inversion F; subst.
  specialize (IH H2). destruct i as [c|lo hi]; cbn [flat_map render app map pair_of].
  - cbn [class_items]. rewrite IH. pose proof (render_starts is) as R.
    destruct (flat_map render is) as [|[d []] [|[y b] t]]; cbn in R; try contradiction; reflexivity.
  - cbn [class_items]. cbn in H1. replace (hi <? lo) with false by lia. now rewrite IH.
Qed.

(** ** The set text *)
Definition rd (s : pystr) : list citem :=
  match s with c :: s' => if c =? bang then ISng bang :: readI s' else readI s | [] => [] end.

Lemma readI_nodash s : existsb (N.eqb c_dash) s = false -> readI s = map ISng s.
Proof.
  induction s as [|x s IH]; [reflexivity|]. cbn [existsb]. rewrite orb_false_iff. intros [H1 H2].
  rewrite readI_sng; [cbn; now rewrite IH|]. intros hi s' ->. discriminate H2.
Qed.

Lemma class_text_eq stuff : class_text stuff = Ok (flat_map render (filter good (rd stuff))).
Proof.
  unfold class_text. destruct (existsb (N.eqb c_dash) stuff) eqn:E.
  - destruct stuff as [|c s]; [discriminate|]. cbn [rd]. destruct (N.eqb_spec c bang) as [->|N].
    + cbn [existsb] in E. change (c_dash =? bang) with false in E. cbn [orb] in E.
      destruct s as [|d s]; [discriminate E|].
      change (bang =? c_bang) with true. cbn match.
      change (chunks_go 2 [] (bang :: d :: s)) with (chunks_go 0 [d; bang] s).
      rewrite (chunks_tc (length s)) by lia. cbn [bind].
      change (addp (rev [bang]) (tc (readI (d :: s)))) with (tc (ISng bang :: readI (d :: s))).
      rewrite merge_tc. cbn [bind]. now rewrite join_tc.
    + replace (c =? c_bang) with false by (symmetry; now apply N.eqb_neq).
      change (chunks_go 1 [] (c :: s)) with (chunks_go 0 [c] s).
      rewrite (chunks_tc (length s)) by lia. cbn [bind rev].
      replace (addp [] (tc (readI (c :: s)))) with (tc (readI (c :: s)))
        by (destruct (tc (readI (c :: s))) eqn:T; [now apply tc_nonempty in T|reflexivity]).
      rewrite merge_tc. cbn [bind]. now rewrite join_tc.
  - f_equal. destruct stuff as [|c s]; [reflexivity|].
    assert (A : rd (c :: s) = map ISng (c :: s)).
    { cbn [rd]. destruct (N.eqb_spec c bang) as [->|N].
      - cbn [existsb] in E. apply orb_false_iff in E as [_ E]. cbn [map]. f_equal. now apply readI_nodash.
      - now apply readI_nodash. }
    rewrite A. clear. induction (c :: s) as [|x l IH]; [reflexivity|]. cbn. now rewrite <- IH.
Qed.

Lemma Forall_filter_good is : Forall (fun i => good i = true) (filter good is).
Proof. apply Forall_forall. intros i H. now apply filter_In in H. Qed.

Lemma pairs_listed s c :
  existsb (fun i => (fst i <=? c) && (c <=? snd i)) (map pair_of (filter good (readI s))) = true <-> listed s c.
Proof.
  rewrite listed_items, existsb_exists. split.
  - intros (p & A & B). apply in_map_iff in A as (i & <- & A). apply filter_In in A as [A _].
    exists i. split; [auto|lia].
  - intros (i & A & B). exists (pair_of i). split; [|lia]. apply in_map, filter_In. split; auto.
    destruct i; cbn in *; lia.
Qed.

Lemma hidden_head (s : pystr) : (forall s', s <> bang :: s') -> ~ hidden_bang s ->
  match filter good (readI s) with
  | [] => True
  | i :: _ => fst (pair_of i) <> bang
  end.
Proof.
  revert s. apply (read_ind (fun s => (forall s', s <> bang :: s') -> ~ hidden_bang s -> match filter good (readI s) with [] => True | i :: _ => fst (pair_of i) <> bang end)); [|intros x y r IH|intros x r N IH]; intros H1 H2.
  - exact I.
  - rewrite readI_rng. cbn [filter good]. assert (x <> bang) by (intros ->; eapply H1; reflexivity).
    destruct (x <=? y) eqn:E; [exact H|]. apply IH.
    + intros s' ->. apply H2. apply HB_here; [lia|auto].
    + intros A. apply H2. apply HB_skip; [lia|auto|auto].
  - rewrite readI_sng by auto. cbn. intros ->. eapply H1. reflexivity.
Qed.

Lemma class_piece_ok stuff : stuff <> [] -> exists x, class_piece stuff = Ok x.
Proof.
  intros Hn. unfold class_piece. rewrite class_text_eq. cbn [bind].
  destruct (flat_map render (filter good (rd stuff))) as [|[c b] t] eqn:E; [eauto|].
  destruct (filter good (rd stuff)) as [|i is] eqn:Ef; [discriminate|].
  pose proof (Forall_filter_good (rd stuff)) as F. rewrite Ef in F.
  destruct (c =? c_bang) eqn:Ec.
  - destruct t as [|p t']; [eauto|].
    assert (exists is', class_items (p :: t') = Ok is') as [is' ->]; [|cbn; eauto].
    destruct i as [d|lo hi]; cbn in E.
    + injection E as E0 E1 E. rewrite <- E. inversion F; subst. rewrite items_render by auto. eauto.
    + injection E as E0 E1 E2 E. subst p t'. inversion F; subst.
      assert (G : exists q, class_items ((hi, false) :: flat_map render is) = Ok q).
      { change ((hi, false) :: flat_map render is) with (flat_map render (ISng hi :: is)).
        rewrite items_render; [eauto|]. constructor; auto. }
      destruct G as [q Hq].
      assert (G2 : forall R, class_items ((dash, true) :: (hi, false) :: R) =
                   do r <- class_items ((hi, false) :: R); Ok ((dash, dash) :: r)) by reflexivity.
      cbn [app flat_map] in *. rewrite G2, Hq. cbn. eauto.
  - rewrite <- E, items_render by auto. cbn. eauto.
Qed.

Lemma class_piece_exact stuff x c : stuff <> [] -> ~ hidden_bang stuff -> class_piece stuff = Ok x ->
  (piece_ok x c = true <-> set_has stuff c).
Proof.
  intros Hn Hh. unfold class_piece. rewrite class_text_eq. cbn [bind].
  destruct stuff as [|c0 s]; [congruence|]. cbn [rd].
  destruct (N.eqb_spec c0 bang) as [->|Nb].
  - cbn [filter good flat_map render app]. change (bang =? c_bang) with true. cbn match.
    intros H.
    assert (A : piece_ok x c = true <-> ~ listed s c).
    { rewrite <- pairs_listed. pose proof (Forall_filter_good (readI s)) as F.
      destruct (flat_map render (filter good (readI s))) as [|p t] eqn:E.
      - injection H as <-. destruct (filter good (readI s)) as [|[]]; try discriminate E. cbn. split; auto.
      - rewrite <- E, items_render in H by auto. cbn in H. injection H as <-. cbn [piece_ok].
        destruct (existsb _ _); cbn; intuition congruence. }
    rewrite A. split; [now constructor|]. intros B; inversion B; subst; auto. exfalso; eapply H0; reflexivity.
  - assert (Hb : forall s', c0 :: s <> bang :: s') by (intros s' E; injection E; auto).
    pose proof (hidden_head _ Hb Hh) as Hd. pose proof (Forall_filter_good (readI (c0 :: s))) as F.
    intros H.
    assert (A : piece_ok x c = true <-> listed (c0 :: s) c).
    { rewrite <- pairs_listed. destruct (filter good (readI (c0 :: s))) as [|i is] eqn:E.
      - cbn in H. injection H as <-. cbn. intuition discriminate.
      - destruct (flat_map render (i :: is)) as [|[d b] t] eqn:Er; [destruct i; discriminate Er|].
        assert (d <> bang) by (destruct i; cbn in Er, Hd; injection Er; congruence).
        replace (d =? c_bang) with false in H by (symmetry; now apply N.eqb_neq).
        rewrite <- Er, items_render in H by auto. cbn [bind] in H. injection H as <-. cbn [piece_ok].
        destruct (existsb _ _); cbn; intuition congruence. }
    rewrite A. split; [now constructor|]. intros B; inversion B; subst; auto. congruence.
Qed.

(** ** Brackets *)
Lemma until_close_some s a b : until_close s = Some (a, b) -> s = a ++ rbracket :: b /\ ~ In rbracket a.
Proof.
  revert a b. induction s as [|c s IH]; intros a b; cbn; [discriminate|].
  destruct (N.eqb_spec c c_close) as [->|n].
  - intros H; injection H as <- <-. split; [reflexivity|auto].
  - destruct (until_close s) as [[a' b']|]; [|discriminate]. intros H; injection H as <- <-.
    destruct (IH _ _ eq_refl) as [-> N]. split; [reflexivity|]. intros [E|E]; [now apply n|auto].
Qed.
Lemma until_close_none s : until_close s = None -> ~ In rbracket s.
Proof.
  induction s as [|c s IH]; cbn; [auto|]. destruct (N.eqb_spec c c_close) as [->|n]; [discriminate|].
  destruct (until_close s) as [[a' b']|]; [discriminate|]. intros _ [E|E]; [now apply n|now apply IH].
Qed.
Lemma first_occ (a b a' b' : pystr) x : a ++ x :: b = a' ++ x :: b' -> ~ In x a -> (length a <= length a')%nat.
Proof.
  revert a'. induction a as [|y a IH]; intros a' E N; cbn; [lia|].
  destruct a' as [|z a']; cbn in *.
  - injection E as -> _. exfalso; auto.
  - injection E as -> E. apply IH in E; [lia|auto].
Qed.

Lemma bracket_close_some s a b : bracket_close s = Some (a, b) ->
  s = a ++ rbracket :: b /\ a <> [] /\ forall a' b', s = a' ++ rbracket :: b' -> a' <> [] -> (length a <= length a')%nat.
Proof.
  destruct s as [|c s]; cbn [bracket_close]; [discriminate|].
  destruct (N.eqb_spec c c_close) as [->|n].
  - unfold keep. destruct (until_close s) as [[x y]|] eqn:E; [|discriminate].
    intros H; injection H as <- <-. apply until_close_some in E as [-> N].
    split; [reflexivity|]. split; [discriminate|]. intros [|c' a'] b' E Hn; [congruence|].
    injection E as _ E. apply first_occ in E; [cbn; lia|auto].
  - intros E. apply until_close_some in E as [E N]. split; [auto|]. split.
    + intros ->. injection E as -> _. now apply n.
    + intros a' b' E' _. rewrite E in E'. now apply first_occ in E'.
Qed.
Lemma bracket_close_none s : bracket_close s = None -> forall a b, s = a ++ rbracket :: b -> a = [].
Proof.
  destruct s as [|c s]; cbn [bracket_close]; intros H a b E.
  - destruct a; discriminate E.
  - destruct a as [|c' a]; [reflexivity|]. injection E as E0 E.
    exfalso. destruct (N.eqb_spec c c_close) as [_|n].
    + unfold keep in H. destruct (until_close s) as [[]|] eqn:U; [discriminate|].
      apply (until_close_none _ U). rewrite E. apply in_or_app. right. now left.
    + apply (until_close_none _ H). right. rewrite E. apply in_or_app. right. now left.
Qed.

Lemma bracket_some p a b : bracket p = Some (a, b) -> brackets p a b.
Proof.
  destruct p as [|c p]; cbn [bracket]; [discriminate|]. destruct (N.eqb_spec c c_bang) as [->|n].
  - unfold keep. destruct (bracket_close p) as [[x y]|] eqn:E; [|discriminate].
    intros H; injection H as <- <-. apply bracket_close_some in E as (-> & N & M).
    split; [reflexivity|]. split; [split; [discriminate|congruence]|].
    intros [|c' a'] b' E [H1 H2]; [congruence|]. injection E as <- E. cbn.
    apply M in E; [lia|]. intros ->. now apply H2.
  - intros E. apply bracket_close_some in E as (E & N & M). split; [auto|]. split.
    + split; [auto|]. intros ->. injection E as -> _. now apply n.
    + intros a' b' E' [H1 _]. eapply M; eauto.
Qed.
Lemma bracket_none p : bracket p = None -> forall a b, ~ brackets p a b.
Proof.
  intros H a b (E & (H1 & H2) & _). destruct p as [|c p]; [destruct a; discriminate E|].
  cbn [bracket] in H. destruct (N.eqb_spec c c_bang) as [->|n].
  - unfold keep in H. destruct (bracket_close p) as [[]|] eqn:U; [discriminate|].
    destruct a as [|c' a]; [congruence|]. injection E as <- E.
    apply (bracket_close_none _ U) in E. subst a. now apply H2.
  - apply (bracket_close_none _ H) in E. auto.
Qed.
Lemma brackets_fun p a b a' b' : brackets p a b -> brackets p a' b' -> a = a' /\ b = b'.
Proof.
  intros (E & T & M) (E' & T' & M').
  assert (L : length a = length a') by (pose proof (M _ _ E' T'); pose proof (M' _ _ E T); lia).
  rewrite E in E'. clear - L E'. revert a' L E'. induction a as [|x a IH]; intros [|y a'] L E; try discriminate L.
  - injection E as ->. auto.
  - injection E as -> E. injection L as L. destruct (IH _ L E) as [-> ->]. auto.
Qed.
Lemma bracket_length p a b : brackets p a b -> (length b < length p)%nat.
Proof. intros (-> & _). rewrite app_length. cbn. lia. Qed.

(** ** Pieces *)
Inductive gp : list (option piece) -> pystr -> Prop :=
| GP_nil : gp [] []
| GP_star l s1 s2 : gp l s2 -> gp (None :: l) (s1 ++ s2)
| GP_one x l c s : piece_ok x c = true -> gp l s -> gp (Some x :: l) (c :: s).

Lemma gp_star_inv l s : gp (None :: l) s -> exists s1 s2, s = s1 ++ s2 /\ gp l s2.
Proof. intros H. inversion H; subst. eauto. Qed.
Lemma gp_one_inv x l s : gp (Some x :: l) s -> exists c s', s = c :: s' /\ piece_ok x c = true /\ gp l s'.
Proof. intros H. inversion H; subst. eauto. Qed.
Lemma gp_star_more l s1 s2 : gp (None :: l) s2 -> gp (None :: l) (s1 ++ s2).
Proof. intros H. inversion H; subst. rewrite app_assoc. now constructor. Qed.
Lemma gp_star_star l s : gp (None :: None :: l) s <-> gp (None :: l) s.
Proof.
  split; intros H.
  - inversion H; subst. now apply gp_star_more.
  - change s with ([] ++ s). now constructor.
Qed.

Lemma fixed_gp f rest s : gp (map Some f ++ rest) s <-> exists s', fixed f s = Some s' /\ gp rest s'.
Proof.
  revert s. induction f as [|x f IH]; intros s; cbn [map app fixed].
  - split; [eauto|]. now intros (s' & E & H); injection E as <-.
  - destruct s as [|c s].
    + split; [intros H; inversion H|intros (s' & E & _); discriminate E].
    + destruct (piece_ok x c) eqn:E.
      * rewrite <- IH. split; [intros H; now inversion H|intros H; now constructor].
      * split; [intros H; inversion H; congruence|intros (s' & H & _); discriminate].
Qed.
Lemma fixed_suffix f s s' : fixed f s = Some s' -> exists a, s = a ++ s' /\ length a = length f.
Proof.
  revert s. induction f as [|x f IH]; intros s; cbn.
  - intros E; injection E as <-. now exists [].
  - destruct s as [|c s]; [discriminate|]. destruct (piece_ok x c); [|discriminate].
    intros E. destruct (IH _ E) as (a & -> & L). exists (c :: a). cbn. auto.
Qed.

Lemma suffix_longer (a a' b b' : pystr) : a ++ b = a' ++ b' -> (length a <= length a')%nat -> exists d, b = d ++ b'.
Proof.
  revert a'. induction a as [|x a IH]; intros a' E L.
  - exists a'. auto.
  - destruct a' as [|y a']; [cbn in L; lia|]. injection E as -> E. apply (IH a'); auto. cbn in L. lia.
Qed.

Lemma leftmost_gp f l s :
  gp (None :: map Some f ++ None :: l) s <-> exists s', leftmost f s = Some s' /\ gp (None :: l) s'.
Proof.
  split.
  - intros H. apply gp_star_inv in H as (s1 & s2 & -> & H). apply fixed_gp in H as (s' & E & G).
    induction s1 as [|c s1 IH]; cbn [app].
    + exists s'. destruct s2; cbn [leftmost]; now rewrite E.
    + cbn [leftmost]. destruct (fixed f (c :: s1 ++ s2)) as [r|] eqn:E2.
      * exists r. split; [reflexivity|].
        apply fixed_suffix in E as (a & -> & L). apply fixed_suffix in E2 as (a' & E2 & L').
        destruct (suffix_longer a' (c :: s1 ++ a) r s') as [d ->].
        { rewrite <- E2. now rewrite <- app_comm_cons, app_assoc. }
        { cbn. rewrite app_length. lia. }
        now apply gp_star_more.
      * exact IH.
  - intros (s' & E & G). revert E. induction s as [|c s IH]; cbn [leftmost].
    + destruct (fixed f []) as [r|] eqn:E2; [|discriminate]. intros E; injection E as ->.
      change (@nil N) with (@nil N ++ []). constructor. apply fixed_gp. eauto.
    + destruct (fixed f (c :: s)) as [r|] eqn:E2.
      * intros E; injection E as ->. change (c :: s) with ([] ++ c :: s). constructor. apply fixed_gp. eauto.
      * intros E. apply (gp_star_more _ [c]). auto.
Qed.

Lemma final_gp f s : final f s = true <-> gp (None :: map Some f) s.
Proof.
  rewrite <- (app_nil_r (map Some f)). induction s as [|c s IH]; cbn [final].
  - split.
    + destruct (fixed f []) as [[|]|] eqn:E; try discriminate. intros _.
      change (@nil N) with (@nil N ++ []). constructor. apply fixed_gp. exists []. split; [auto|constructor].
    + intros H. apply gp_star_inv in H as (s1 & s2 & H1 & H2). symmetry in H1. apply app_eq_nil in H1 as [-> ->].
      apply fixed_gp in H2 as (s' & E & G). inversion G; subst. now rewrite E.
  - split.
    + destruct (fixed f (c :: s)) as [[|]|] eqn:E.
      * intros _. change (c :: s) with ([] ++ c :: s). constructor. apply fixed_gp. exists []. split; [auto|constructor].
      * intros H. apply (gp_star_more _ [c]). now apply IH.
      * intros H. apply (gp_star_more _ [c]). now apply IH.
    + intros H. apply gp_star_inv in H as (s1 & s2 & H1 & H2). destruct s1 as [|c' s1].
      * cbn in H1. subst s2. apply fixed_gp in H2 as (s' & E & G). inversion G; subst. now rewrite E.
      * injection H1 as <- ->. assert (G : final f (s1 ++ s2) = true) by (apply IH; now constructor).
        destruct (fixed f (c :: s1 ++ s2)) as [[|]|]; auto.
Qed.

Lemma run_eq l f rest : run l = (f, rest) ->
  l = map Some f ++ rest /\ match rest with Some _ :: _ => False | _ => True end.
Proof.
  revert f rest. induction l as [|[x|] l IH]; intros f rest; cbn.
  - intros H; injection H as <- <-. auto.
  - destruct (run l) as [a b]. intros H; injection H as <- <-. destruct (IH _ _ eq_refl) as [-> ?]. auto.
  - intros H; injection H as <- <-. auto.
Qed.

Lemma match_stars_gp k : forall l s, (length l < k)%nat -> match l with Some _ :: _ => False | _ => True end ->
  (match_stars k l s = true <-> gp l s).
Proof.
  induction k as [|k IH]; intros l s L Hl; [lia|]. cbn [match_stars].
  destruct l as [|[x|] l]; [|contradiction|].
  - destruct s; [split; auto; constructor|split; [discriminate|intros H; inversion H]].
  - destruct (run l) as [f rest] eqn:R. apply run_eq in R as [-> Hr].
    destruct rest as [|[x|] rest]; [|contradiction|].
    + rewrite app_nil_r. apply final_gp.
    + rewrite leftmost_gp. cbn in L. rewrite app_length in L. cbn in L.
      destruct (leftmost f s) as [s'|].
      * rewrite IH; [|cbn; lia|exact I]. split; [eauto|]. now intros (q & E & G); injection E as <-.
      * split; [discriminate|]. now intros (q & E & _).
Qed.

Lemma regex_gp l s : regex_match l s = true <-> gp l s.
Proof.
  unfold regex_match. destruct (run l) as [f rest] eqn:R. apply run_eq in R as [-> Hr].
  rewrite fixed_gp. destruct (fixed f s) as [s'|].
  - rewrite match_stars_gp; [|lia|auto]. split; [eauto|]. now intros (q & E & G); injection E as <-.
  - split; [discriminate|]. now intros (q & E & _).
Qed.

(** ** The whole pattern *)
Lemma regular_tail c p : regular (c :: p) -> regular p.
Proof. intros H a s b E. apply (H (c :: a) s b). now rewrite E. Qed.
Lemma regular_after c p a b : p = a ++ b -> regular (c :: p) -> regular b.
Proof. intros -> H a' s b' ->. apply (H (c :: a ++ a') s b'). cbn. now rewrite <- app_assoc. Qed.

Lemma pieces_ok k : forall p, exists l, pieces k p = Ok l.
Proof.
  induction k as [|k IH]; intros p; [exists []; reflexivity|]. destruct p as [|c p]; [exists []; reflexivity|].
  cbn [pieces]. destruct (IH p) as [l Hl]. destruct (c =? c_star); [rewrite Hl; cbn; eauto|].
  destruct (c =? c_quest); [rewrite Hl; cbn; eauto|].
  destruct (c =? c_open).
  - destruct (bracket p) as [[a b]|] eqn:B.
    + apply bracket_some in B as (_ & (N & _) & _). destruct (class_piece_ok a N) as [x ->].
      destruct (IH b) as [l' ->]. cbn. eauto.
    + rewrite Hl; cbn; eauto.
  - rewrite Hl; cbn; eauto.
Qed.

Lemma pieces_glob k : forall p l, (length p <= k)%nat -> regular p -> pieces k p = Ok l ->
  forall s, gp l s <-> glob p s.
Proof.
  induction k as [|k IH]; intros p l L R H s.
  - destruct p; [|cbn in L; lia]. injection H as <-. split; intros A; inversion A; constructor.
  - destruct p as [|c p].
    { injection H as <-. split; intros A; inversion A; constructor. }
    cbn in L. cbn [pieces] in H.
    assert (Hp : forall l', pieces k p = Ok l' -> forall s, gp l' s <-> glob p s).
    { intros l' E. apply IH; [lia|now apply regular_tail in R|auto]. }
    assert (Litg : forall l', c <> star -> c <> quest -> (c = lbracket -> forall a b, ~ brackets p a b) ->
              pieces k p = Ok l' -> forall s, gp (Some (PLit c) :: l') s <-> glob (c :: p) s).
    { clear H. intros l' n1 n2 n3 E s'. split.
      - intros H. apply gp_one_inv in H as (c0 & s0 & -> & H1 & H4). cbn in H1.
        apply N.eqb_eq in H1. subst c0. apply Hp in H4; auto.
        destruct (N.eq_dec c lbracket) as [->|n]; [apply G_open; auto|apply G_lit; auto].
      - intros H. inversion H; subst; try (exfalso; now apply n1); try (exfalso; now apply n2).
        + exfalso. eapply n3; eauto.
        + constructor; [apply N.eqb_refl|]. eapply Hp; eauto.
        + constructor; [apply N.eqb_refl|]. eapply Hp; eauto. }
    destruct (N.eqb_spec c c_star) as [->|n1].
    { destruct (pieces k p) as [r|] eqn:E; [|discriminate]. cbn [bind] in H.
      assert (G : gp l s <-> gp (None :: r) s).
      { destruct r as [|[x|] r]; injection H as <-; try reflexivity. symmetry. apply gp_star_star. }
      rewrite G. split.
      - intros A; inversion A; subst. apply G_star. eapply Hp; eauto.
      - intros A; inversion A; subst; try (match goal with H : c_star <> _ |- _ => exfalso; now apply H end). constructor. eapply Hp; eauto. }
    destruct (N.eqb_spec c c_quest) as [->|n2].
    { destruct (pieces k p) as [r|] eqn:E; [|discriminate]. cbn [bind] in H. injection H as <-. split.
      - intros A; inversion A; subst. apply G_any. eapply Hp; eauto.
      - intros A; inversion A; subst; try (match goal with H : c_quest <> _ |- _ => exfalso; now apply H end). constructor; [reflexivity|]. eapply Hp; eauto. }
    destruct (N.eqb_spec c c_open) as [->|n3].
    + destruct (bracket p) as [[a b]|] eqn:B.
      * apply bracket_some in B. destruct (class_piece a) as [x|] eqn:Ex; [|discriminate].
        destruct (pieces k b) as [r|] eqn:E; [|discriminate]. cbn [bind] in H. injection H as <-.
        pose proof (bracket_length _ _ _ B) as Lb.
        assert (Hh : ~ hidden_bang a). { destruct B as (-> & _). apply (R [] a b). reflexivity. }
        assert (Ha : a <> []) by (destruct B as (_ & (? & _) & _); auto).
        assert (Rb : regular b).
        { destruct B as (B & _). apply (regular_after c_open p (a ++ [rbracket])); auto. now rewrite <- app_assoc. }
        assert (Hb : forall s, gp r s <-> glob b s) by (apply IH; auto; lia).
        split.
        -- intros A. apply gp_one_inv in A as (c0 & s0 & -> & A1 & A2). apply (G_set p a b); [auto| |now apply Hb].
           eapply class_piece_exact; eauto.
        -- intros A; inversion A as [| | |? ? ? ? ? B1 B2 B3|? ? B1 B2|? ? ? B1 B2 B3 B4]; subst; try (exfalso; congruence).
           ++ destruct (brackets_fun _ _ _ _ _ B B1) as [<- <-]. constructor; [|now apply Hb].
              eapply class_piece_exact; eauto.
           ++ exfalso. eapply B1; eauto.
           ++ exfalso. now apply B3.
      * destruct (pieces k p) as [r|] eqn:E; [|discriminate]. cbn [bind] in H. injection H as <-.
        apply Litg; auto. intros _. now apply bracket_none.
    + destruct (pieces k p) as [r|] eqn:E; [|discriminate]. cbn [bind] in H. injection H as <-.
      apply Litg; auto.
Qed.

Theorem fnmatchcase_total name pat : exists b, fnmatchcase name pat = Ok b.
Proof. unfold fnmatchcase. destruct (pieces_ok (length pat) pat) as [l ->]. cbn. eauto. Qed.

Theorem fnmatchcase_glob name pat : regular pat ->
  exists b, fnmatchcase name pat = Ok b /\ (b = true <-> glob pat name).
Proof.
  intros R. unfold fnmatchcase. destruct (pieces_ok (length pat) pat) as [l E]. rewrite E. cbn [bind].
  eexists. split; [reflexivity|]. rewrite regex_gp. apply (pieces_glob (length pat)); auto.
Qed.

(** Patterns without a hyphen, or without an exclamation mark, are regular. *)
Lemma no_dash_regular p : ~ In dash p -> regular p.
Proof.
  intros N a s b -> H. apply N. apply in_or_app. right. right. apply in_or_app. left.
  inversion H; subst; right; now left.
Qed.
Lemma no_bang_regular p : ~ In bang p -> regular p.
Proof.
  intros N a s b -> H. apply N. apply in_or_app. right. right. apply in_or_app. left.
  induction H; cbn; [tauto|]. do 3 right. apply IHhidden_bang. intros H2.
  apply N. apply in_app_iff in H2 as [H2|[H2|H2]]; apply in_app_iff; auto.
  - now right; left.
  - right. right. apply in_app_iff in H2 as [H2|H2]; apply in_app_iff; auto. left. cbn. auto.
Qed.
