(** Total correctness rule for [run_loop]. *)
From Coq Require Import Lia ZifyBool ZifyNat ZifyN.
From Verif.Model Require Import Base.
Local Open Scope N_scope.

Section Loop.
  Context {S A : Type} (step : S -> result (step_out S A)).
  Variables (I : S -> Prop) (Q : A -> Prop) (mu : S -> N).
  Hypothesis Hstep : forall s, I s ->
    (exists a, step s = Ok (SDone a) /\ Q a) \/
    (exists s', step s = Ok (SMore s') /\ I s' /\ mu s' < mu s).

  Lemma iter2_total k : forall s, I s ->
    (exists a, iter2 k step s = Ok (SDone a) /\ Q a) \/
    (exists s', iter2 k step s = Ok (SMore s') /\ I s' /\ mu s' + 2 ^ N.of_nat k <= mu s).
  Proof.
    induction k as [|k IH]; intros s Is; cbn [iter2].
    - destruct (Hstep s Is) as [(a & E & q)|(s' & E & Is' & L)]; [left; eauto|right].
      exists s'. split; auto. split; auto. change (2 ^ N.of_nat 0) with 1. lia.
    - destruct (IH s Is) as [(a & E & q)|(s' & E & Is' & L)]; rewrite E; [left; eauto|].
      destruct (IH s' Is') as [(a & E' & q)|(s'' & E' & Is'' & L')]; [left; eauto|right].
      exists s''. split; auto. split; auto.
      rewrite Nat2N.inj_succ, N.pow_succ_r'. lia.
  Qed.

  Lemma run_loop_total k s : I s -> mu s < 2 ^ N.of_nat k ->
    exists a, run_loop k step s = Ok a /\ Q a.
  Proof.
    intros Is L. unfold run_loop.
    destruct (iter2_total k s Is) as [(a & E & q)|(s' & E & Is' & L')]; rewrite E; [eauto|lia].
  Qed.
End Loop.
