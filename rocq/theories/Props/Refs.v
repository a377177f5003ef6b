(** C26: references resolve to exactly the named object. *)
From Coq Require Import String Lia.
From Verif.Model Require Import Base Iface Peg Ids.
From Verif.Spec Require Import RefSpec.
From Verif.Proofs Require Import PegFacts.
Local Open Scope list_scope.

Section C26.
  (** whatever [str.isalpha] and [str.isalnum] say beyond the characters named below *)
  Context (isalpha isalnum : N -> bool) {V : Type} (table : dict V).

  (** A reference in the text is read exactly if the text goes on with a known name and a
      separator, and yields the object of that name, leaving the text after the name. *)
  Theorem C26_reference s v r :
    (forall c, white c -> isalnum c = false) ->
    (forall n, dmem table n = true -> freeof white n) ->
    reference isalpha isalnum table s = POk v r <->
    exists n, s = n ++ r /\ sep_start r /\ dget table n = Some v.
  Proof.
    intros A F. apply (ref_exact isalpha isalnum white (por ws nl) sep_start table s v r); auto.
    - apply sep_parse.
    - apply sep_noerr.
    - intros q (r' & [-> | [-> | [-> | ->]]]); eexists; eexists; (split; [reflexivity|cbn; tauto]).
  Qed.

  (** Otherwise the reference is refused softly: no exception is raised, whatever the text. *)
  Theorem C26_reference_total s :
    (forall c, white c -> isalnum c = false) ->
    (forall n, dmem table n = true -> freeof white n) ->
    (exists v r, reference isalpha isalnum table s = POk v r) \/ reference isalpha isalnum table s = PFail.
  Proof.
    intros A F. destruct (reference isalpha isalnum table s) as [|e|v r] eqn:E; eauto.
    assert (P := ref_exact isalpha isalnum white (por ws nl) sep_start table s).
    assert (D : forall v : V, False).
    { intros v. destruct (P v [] (sep_parse) (sep_noerr)) as [_ H]; auto; [|exact (H e E)].
      intros q (r' & [-> | [-> | [-> | ->]]]); eexists; eexists; (split; [reflexivity|cbn; tauto]). }
    destruct table as [|[k v] t]; [|destruct (D v)].
    cbn in E. discriminate.
  Qed.

  (** The same for a name of an IPv6 address, which "/" follows. *)
  Theorem C26_name_slash s v r :
    isalnum 47%N = false ->
    (forall n, dmem table n = true -> freeof (in_class [47%N]) n) ->
    name_slash isalpha isalnum table s = POk v r <->
    exists n r', s = n ++ r /\ r = 47%N :: r' /\ dget table n = Some v.
  Proof.
    intros A F.
    assert (H := ref_exact isalpha isalnum (in_class [47%N]) (char 47) (fun q => exists r', q = 47%N :: r') table s v r).
    destruct H as [H _]; auto.
    - intros q. split; intros (x & E); exists x; [apply char_ok in E|apply char_ok]; auto.
    - intros q e. unfold char. destruct q; [discriminate|]. destruct (N.eqb _ _); discriminate.
    - intros q (r' & ->). eexists; eexists; (split; [reflexivity|cbn; tauto]).
    - intros c [<-|[]]. auto.
    - unfold name_slash. rewrite H. split; intros (n & H1); [destruct H1 as (E & (r' & E1) & G)|destruct H1 as (r' & E & E1 & G)]; eauto 10.
  Qed.

  (** The interface pair of a NAT line is read as written, if no interface is named "any"
      and a punctuation character. *)
  Theorem C26_nat_interfaces s i j r :
    (forall c, in_class [44; 41]%N c -> isalnum c = false) ->
    isalpha 97%N = true /\ isalnum 97%N = true /\ isalnum 110%N = true /\ isalnum 121%N = true ->
    (forall m, dmem table m = true -> freeof (in_class [44; 41]%N) m /\ clear_of_any isalnum m) ->
    nat_interfaces isalpha isalnum table s = POk (i, j) r <->
    exists n m, s = u "(" ++ n ++ u "," ++ m ++ u ")" ++ r /\ iface_named table n i /\ iface_named table m j.
  Proof. intros A B F. now apply nat_interfaces_exact. Qed.
End C26.

(** Letters and digits of ASCII, for the examples. *)
Definition ex_alpha (c : N) : bool := (N.leb 97 c && N.leb c 122) || (N.leb 65 c && N.leb c 90).
Definition ex_alnum (c : N) : bool := ex_alpha c || (N.leb 48 c && N.leb c 57).

(** An interface whose name is "any", a dash and more is never found in a NAT line. *)
Theorem C26_nat_interfaces_refuted :
  exists (table : dict nat) s, dget table (u "any-dmz") = Some 1%nat /\
    s = u "(any-dmz,inside)" /\ dget table (u "inside") = Some 0%nat /\
    nat_interfaces ex_alpha ex_alnum table s = PFail.
Proof.
  exists [(u "inside", 0%nat); (u "any-dmz", 1%nat)], (u "(any-dmz,inside)"). repeat split.
Qed.

(** Witnesses: names that are prefixes of each other, of a longer unknown name, of nothing. *)
Definition ex_table : dict nat := [(u "srv", 0%nat); (u "srv-1", 1%nat); (u "srv-10", 2%nat); (u "srv.x", 3%nat)].
Example ex_ref1 : reference ex_alpha ex_alnum ex_table (u "srv-1 eq 80") = POk 1%nat (u " eq 80").
Proof. reflexivity. Qed.
Example ex_ref2 : reference ex_alpha ex_alnum ex_table (u "srv-100 eq 80") = PFail.
Proof. reflexivity. Qed.
Example ex_ref3 : reference ex_alpha ex_alnum ex_table (u "srv eq 80") = POk 0%nat (u " eq 80").
Proof. reflexivity. Qed.
Example ex_hyp1 : (forall c, white c -> ex_alnum c = false) /\
  (forall n, dmem ex_table n = true -> freeof white n).
Proof.
  split.
  - intros c [<-|[<-|[<-|[<-|[]]]]]; reflexivity.
  - intros n H. apply DictFacts.dmem_true in H. cbn in H.
    repeat destruct H as [<-|H]; try tauto;
      intros c I [<-|[<-|[<-|[<-|[]]]]]; cbn in I; intuition discriminate.
Qed.
Example ex_nat : nat_interfaces ex_alpha ex_alnum [(u "in", 0%nat); (u "in-side", 1%nat)] (u "(in-side,any) static")
  = POk (inr 1%nat, inl tt) (u " static").
Proof. reflexivity. Qed.

Print Assumptions C26_reference.
Print Assumptions C26_reference_total.
Print Assumptions C26_name_slash.
Print Assumptions C26_nat_interfaces.
Print Assumptions C26_nat_interfaces_refuted.
