(** The stable insertion sort that stands for Python's [sorted]. *)
From Coq Require Import Lia ZifyBool ZifyNat ZifyN Permutation Sorted.
From Verif.Model Require Import Base Ip.
Local Open Scope N_scope.

Section SortFacts.
  Context {A : Type} (lt : A -> A -> bool).
  Definition le (x y : A) : Prop := lt y x = false.
  Hypothesis le_total : forall x y, le x y \/ le y x.
  Hypothesis le_trans : forall x y z, le x y -> le y z -> le x z.

  Lemma insert_perm x l : Permutation (x :: l) (insert lt x l).
  Proof.
    induction l as [|y l IH]; simpl; auto. destruct (lt y x); auto.
    rewrite perm_swap. now constructor.
  Qed.

  Lemma sorted_perm l : Permutation l (sorted lt l).
  Proof.
    induction l as [|x l IH]; simpl; auto. rewrite <- insert_perm. now constructor.
  Qed.

  Lemma insert_sorted x l : StronglySorted le l -> StronglySorted le (insert lt x l).
  Proof.
    induction l as [|y l IH]; simpl; intros S.
    - repeat constructor.
    - inversion S as [|? ? S' F]; subst. destruct (lt y x) eqn:E.
      + constructor; auto. apply Forall_forall. intros z Hz.
        apply (Permutation_in _ (Permutation_sym (insert_perm x l))) in Hz. destruct Hz as [<-|Hz].
        * destruct (le_total y x) as [L|L]; auto. unfold le in L. congruence.
        * rewrite Forall_forall in F. auto.
      + constructor; auto. constructor; [exact E|]. apply Forall_forall. intros z Hz.
        rewrite Forall_forall in F. eapply le_trans; [exact E|]. auto.
  Qed.

  Lemma sorted_sorted l : StronglySorted le (sorted lt l).
  Proof. induction l as [|x l IH]; simpl; [constructor|]. now apply insert_sorted. Qed.

  (** Stability: the elements equivalent to any given key keep their order. *)
  Definition same_key (x y : A) : bool := negb (lt x y) && negb (lt y x).

  Lemma same_key_trans x y z : same_key x y = true -> lt y z = true -> same_key x z = false.
  Proof.
    unfold same_key. intros H L. destruct (lt x z) eqn:E; auto. simpl.
    apply andb_true_iff in H. destruct H as [H1 H2].
    assert (lt y z = false) as F; [|congruence].
    apply negb_true_iff in H1, H2. eapply le_trans with (y := x); [exact E|exact H2].
  Qed.

  Lemma insert_filter k x l :
    filter (same_key k) (insert lt x l) = filter (same_key k) (x :: l).
  Proof.
    induction l as [|y l IH]; auto. cbn [insert]. destruct (lt y x) eqn:E; auto.
    cbn [filter]. cbn [filter] in IH. rewrite IH. destruct (same_key k x) eqn:Kx, (same_key k y) eqn:Ky; auto.
    rewrite (same_key_trans k y x Ky E) in Kx. discriminate.
  Qed.

  Lemma sorted_stable k l : filter (same_key k) (sorted lt l) = filter (same_key k) l.
  Proof.
    induction l as [|x l IH]; auto. cbn [sorted]. rewrite insert_filter. cbn [filter]. now rewrite IH.
  Qed.

  Lemma insert_id x l : StronglySorted le (x :: l) -> insert lt x l = x :: l.
  Proof.
    destruct l as [|y l]; auto. intros S. inversion S as [|? ? S' F]; subst.
    inversion F as [|? ? L F']; subst. simpl. unfold le in L. now rewrite L.
  Qed.

  Lemma sorted_id l : StronglySorted le l -> sorted lt l = l.
  Proof.
    induction l as [|x l IH]; intros S; auto. simpl. inversion S; subst. rewrite IH by auto.
    now apply insert_id.
  Qed.

  Lemma sorted_idem l : sorted lt (sorted lt l) = sorted lt l.
  Proof. apply sorted_id, sorted_sorted. Qed.
End SortFacts.

Lemma Nltb_total x y : le N.ltb x y \/ le N.ltb y x.
Proof. unfold le. lia. Qed.
Lemma Nltb_trans x y z : le N.ltb x y -> le N.ltb y z -> le N.ltb x z.
Proof. unfold le. lia. Qed.

Lemma dedup_sorted_in l x : In x (dedup_sorted l) <-> In x l.
Proof.
  induction l as [|a l IH]; [tauto|]. cbn [dedup_sorted]. destruct l as [|b l'].
  - tauto.
  - destruct (N.eqb_spec a b) as [->|Ne].
    + rewrite IH. simpl. tauto.
    + simpl. rewrite IH. simpl. tauto.
Qed.

Lemma dedup_sorted_strict l : StronglySorted (le N.ltb) l -> StronglySorted N.lt (dedup_sorted l).
Proof.
  induction l as [|a l IH]; intros S; [constructor|]. cbn [dedup_sorted].
  inversion S as [|? ? S' F]; subst. destruct l as [|b l']; [repeat constructor|].
  destruct (N.eqb_spec a b) as [->|Ne]; [now apply IH|].
  constructor; [now apply IH|]. apply Forall_forall. intros z Hz. rewrite dedup_sorted_in in Hz.
  inversion F as [|? ? L F']; subst. unfold le in L.
  destruct Hz as [<-|Hz]; [lia|].
  inversion S' as [|? ? S'' F'']; subst. rewrite Forall_forall in F''. specialize (F'' z Hz).
  unfold le in F''. lia.
Qed.

Lemma sorted_set_in l x : In x (sorted_set l) <-> In x l.
Proof.
  unfold sorted_set. rewrite dedup_sorted_in. split; apply Permutation_in.
  - apply Permutation_sym, sorted_perm.
  - apply sorted_perm.
Qed.

Lemma sorted_set_strict l : StronglySorted N.lt (sorted_set l).
Proof. apply dedup_sorted_strict, sorted_sorted; [exact Nltb_total|exact Nltb_trans]. Qed.
