(** C44: format auto-detection. *)
From Coq Require Import String.
From Verif.Model Require Import Base Detect.

Section C44.
  Context {C O : Type}.
  Implicit Types (fwsm ios pfsense : @fparser C O).

  (** The outcome for a text, whatever the three parsers are: the first one that accepts
      the text with a line feed appended decides; ValueError exactly if all refuse. *)
  Theorem C44_detect fwsm ios pfsense s f o :
    o <> BadOptions ->
    let t := s ++ [10%N] in
    let r := from_string (acl_parse fwsm ios pfsense) (DStr s) f o in
    (forall c, r = Ok c <->
       fwsm t f o = Ok c \/
       (exists e, fwsm t f o = Err e) /\ ios t f o = Ok c \/
       (exists e, fwsm t f o = Err e) /\ (exists e, ios t f o = Err e) /\ pfsense t f o = Ok c) /\
    (forall e, r = Err e <->
       e = ValueError /\ (exists e, fwsm t f o = Err e) /\ (exists e, ios t f o = Err e) /\ (exists e, pfsense t f o = Err e)).
  Proof.
    intros B t r. subst r. unfold from_string, acl_parse. fold t.
    assert (G : forall A B D : result C,
      (forall c, match A with Ok c => Ok c | Err _ => match B with Ok c => Ok c | Err _ =>
                   match D with Ok c => Ok c | Err _ => Err ValueError end end end = Ok c <->
         A = Ok c \/ (exists e, A = Err e) /\ B = Ok c \/ (exists e, A = Err e) /\ (exists e, B = Err e) /\ D = Ok c) /\
      (forall e, match A with Ok c => Ok c | Err _ => match B with Ok c => Ok c | Err _ =>
                   match D with Ok c => Ok c | Err _ => Err ValueError end end end = Err e <->
         e = ValueError /\ (exists e, A = Err e) /\ (exists e, B = Err e) /\ (exists e, D = Err e))).
    { intros [a|x] [b|y] [d|z]; (split; intros q; split; intros H);
        repeat match goal with
               | H : exists _, _ |- _ => destruct H
               | H : _ /\ _ |- _ => destruct H
               | H : _ \/ _ |- _ => destruct H
               end; try congruence; subst; eauto 10; injection H; intros; subst; eauto 10. }
    destruct o as [|o|]; [| |congruence]; apply G.
  Qed.

  (** Arguments of the wrong type are refused before any parser runs. *)
  Theorem C44_wrong_arguments fwsm ios pfsense s d f o :
    from_string (acl_parse fwsm ios pfsense) (DStr s) f BadOptions = Err AssertionError /\
    from_string (acl_parse fwsm ios pfsense) DOther f o = Err AssertionError /\
    (d = DOther -> from_string fwsm d f o = Err AssertionError).
  Proof. repeat split. intros ->. reflexivity. Qed.

  (** A class for one format asks its own parser only: its result or exception is passed on. *)
  Theorem C44_single_format (p : @fparser C O) s f o :
    from_string p (DStr s) f o = p (s ++ [10%N]) f o.
  Proof. reflexivity. Qed.

  (** A parser that accepts everything hides the formats after it. *)
  Theorem C44_shadowing fwsm ios ios' pfsense pfsense' s f o c :
    o <> BadOptions -> fwsm (s ++ [10%N]) f o = Ok c ->
    from_string (acl_parse fwsm ios pfsense) (DStr s) f o =
    from_string (acl_parse fwsm ios' pfsense') (DStr s) f o.
  Proof. intros B H. unfold from_string, acl_parse. destruct o; [| |congruence]; cbn; now rewrite H. Qed.
End C44.

(** Witness: three toy formats. *)
Definition ex_fwsm : @fparser nat unit := fun s _ _ => if str_eqb s (u "a" ++ [10%N]) then Ok 1%nat else Err FailedParse.
Definition ex_ios : @fparser nat unit := fun s _ _ => if str_eqb s (u "b" ++ [10%N]) then Ok 2%nat else Err AssertionError.
Definition ex_pf : @fparser nat unit := fun s _ _ => Err KeyError.
Example ex_detect :
  from_string (acl_parse ex_fwsm ex_ios ex_pf) (DStr (u "b")) None NoOptions = Ok 2%nat /\
  from_string (acl_parse ex_fwsm ex_ios ex_pf) (DStr (u "c")) None NoOptions = Err ValueError.
Proof. split; reflexivity. Qed.

Print Assumptions C44_detect.
Print Assumptions C44_wrong_arguments.
Print Assumptions C44_single_format.
Print Assumptions C44_shadowing.
