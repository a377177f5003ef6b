(** C41: the filter language as text. *)
From Coq Require Import Lia String.
From Verif.Model Require Import Base Ip Hosts Groups Rules Caf Peg AddrText CafText.
From Verif.Spec Require Import AddrSpec FilterSpec CafSpec AddrTextSpec CafTextSpec CafMeanSpec CafShow.
From Verif.Proofs Require Import PegFacts AddrTextFacts Addr6Facts FilterFacts CafFacts CafTextFacts TokFacts CafParse CafExpr CafMean CafShowFacts.
Local Open Scope list_scope.

Section Text.
  Context (isalpha isalnum isspace : N -> bool) (OK : classes_ok isalpha isalnum isspace).
  Notation caf_read := (caf_read isalpha isalnum isspace).
  Notation written_as := (written_as isalnum isspace).

  (** A text has at most one reading. *)
  Theorem C41_reading_unique : forall s e e', written_as e s -> written_as e' s -> e = e'.
  Proof. intros s e e' A B. apply (p_grammar_spec _ _ _ OK) in A, B. congruence. Qed.

  (** A text is accepted exactly if it is the text of an expression whose networks can
      be read and whose sets do not mix ip terms and parentheses. *)
  Theorem C41_accepted : forall h s, acyclic h ->
    (exists r, caf_read h s = Ok r) <-> exists e, written_as e s /\ readable e.
  Proof.
    intros h s A. unfold CafText.caf_read. split.
    - intros ((h' & c) & H). destruct (p_grammar isalpha isalnum isspace s) as [e|] eqn:P; [|discriminate]. cbn [bind] in H.
      apply (p_grammar_spec _ _ _ OK) in P. exists e. split; [auto|]. destruct (eval_expr h e) as [(h1 & v)|] eqn:E; [|discriminate].
      eapply eval_readable; [|exact E]. destruct P as (r & P & _). eapply (proj1 (text_masks isalnum isspace)); eauto.
    - intros (e & W & R). apply (p_grammar_spec _ _ _ OK) in W. rewrite W. cbn [bind].
      destruct (eval_ok e R h A) as (h' & v & E & _). rewrite E. cbn. eauto.
  Qed.

  (** What is read selects what the text means. *)
  Theorem C41_meaning : forall h s e h' c, acyclic h -> written_as e s -> caf_read h s = Ok (h', c) ->
    extends h h' /\ acyclic h' /\
    (forall r, In r (clauses c) -> term_wf h' (r_src r) /\ wildfree h' (r_src r) /\ term_wf h' (r_dst r) /\ wildfree h' (r_dst r)) /\
    forall i, denotes (selects h') c i <-> expr_means h' i e.
  Proof.
    intros h s e h' c A W H. assert (R : readable e).
    { destruct (proj1 (C41_accepted h s A) (ex_intro _ _ H)) as (e' & W' & R). now rewrite (C41_reading_unique _ _ _ W W'). }
    apply (p_grammar_spec _ _ _ OK) in W. unfold CafText.caf_read in H. rewrite W in H. cbn [bind] in H.
    destruct (eval_ok e R h A) as (h1 & v & E & X & A1 & S). rewrite E in H. cbn [bind] in H. injection H as <- <-.
    split; [auto|]. split; [auto|]. destruct (S h1 (extends_refl h1)) as (Wf & M). split.
    - intros r I. assert (I' : In r (clauses (block v))) by (destruct v; exact I). destruct (Wf r I') as ((? & ?) & (? & ?)). auto.
    - intros i. rewrite <- M. destruct v; reflexivity.
  Qed.

  (** Every other text is refused, as a syntax error if it is not the text of an
      expression. *)
  Theorem C41_syntax_error : forall h s, ~ (exists e, written_as e s) -> caf_read h s = Err FailedParse.
  Proof.
    intros h s N. unfold CafText.caf_read. destruct (p_grammar isalpha isalnum isspace s) as [e|x] eqn:P.
    - exfalso. apply N. exists e. now apply (p_grammar_spec _ _ _ OK).
    - apply (p_grammar_err _ _ _ OK) in P. now subst.
  Qed.

  (** Every expression over clauses can be written with explicit parentheses; reading the
      text back gives an object that selects the same rules and NAT entries, with set
      union, intersection and difference for the three operators. *)
  Theorem C41_roundtrip : forall h f, acyclic h -> printable f ->
    exists h' c, caf_read h (show f) = Ok (h', c) /\ extends h h' /\ acyclic h' /\
                 forall i, denotes (selects h') c i <-> fmeans h' f i.
  Proof.
    intros h f A P. pose proof (show_written _ _ _ OK f P) as W.
    destruct (proj2 (C41_accepted h (show f) A)) as ((h' & c) & E); [exists (tree f); split; [exact W|now apply tree_readable]|].
    destruct (C41_meaning h (show f) (tree f) h' c A W E) as (X & A' & _ & M).
    exists h', c. split; [auto|]. split; [auto|]. split; [auto|]. intros i. rewrite M. now apply tree_means.
  Qed.
End Text.
Print Assumptions C41_reading_unique.
Print Assumptions C41_accepted.
Print Assumptions C41_meaning.
Print Assumptions C41_syntax_error.
Print Assumptions C41_roundtrip.

(** The hypothesis on the character classes holds of the ASCII ones. *)
Definition ascii_alnum (c : N) : bool := ascii_alpha c || is_digit c.
Example C41_classes : classes_ok ascii_alpha ascii_alnum ascii_space.
Proof. intros c _. split; [|split]; reflexivity. Qed.
Notation read := (caf_read ascii_alpha ascii_alnum ascii_space (mkheap (fun _ => mkgroup [] [] [] []) 0)).

(** A nested expression, its text, and what is read from it. *)
Definition C41_f : fexpr :=
  FOp Except (FClause (Some (u "out*")) [(Src, [NtNet {| a_ver := V4; a_val := 167772160 |} 8; NtAny6])])
             (FOp Intersect (FClause None [(Dst, [NtHost {| a_ver := V6; a_val := 1 |}])]) (FClause None [])).
Example C41_text :
  printable C41_f /\
  show C41_f = u "(id out* ip src 10.0.0.0/8 any6) except (( ip dst 0000:0000:0000:0000:0000:0000:0000:0001) intersect ())" /\
  match read (show C41_f) with Ok (_, c) => exists a b d, c = CBlock (COp Except a (CBlock (COp Intersect b d))) | Err _ => False end.
Proof.
  split; [|split; [vm_compute; reflexivity|lazy; repeat eexists]].
  cbn [printable C41_f]. split; [|split]; (split; [|]).
  - intros p [= <-]. split; [discriminate|reflexivity].
  - intros d l [[= <- <-]|[]]. split; [discriminate|]. repeat constructor; vm_compute; discriminate.
  - discriminate.
  - intros d l [[= <- <-]|[]]. split; [discriminate|]. repeat constructor; vm_compute; discriminate.
  - discriminate.
  - intros d l [].
Qed.

Example C41_heap : acyclic (mkheap (fun _ => mkgroup [] [] [] []) 0).
Proof. exists (fun _ => 0). intros g m []. Qed.

(** Texts with surprising readings. *)
(* "union" with nothing after it: the missing operand is a clause without terms, which
   selects every rule. *)
Example C41_empty_operand : match read (u "ip src 1.2.3.4 union") with Ok (_, CBlock (COp Union _ (CClause r))) => r_id r = None /\ r_src r = HLeaf LAny /\ r_dst r = HLeaf LAny | _ => False end.
Proof. lazy. repeat split. Qed.
(* an octet over 255 is split: the text after it cannot be read *)
Example C41_octet_split : read (u "ip src 1.2.3.256") = Err FailedParse.
Proof. lazy. reflexivity. Qed.
(* a comment that ends in two stars is not closed there *)
Example C41_comment_stars : read (u "/* x **/ ip src any") = Err FailedParse.
Proof. lazy. reflexivity. Qed.
Example C41_comment_swallows :
  match read (u "/* x **/ ip src 1.2.3.4 /* y */ id a"), read (u "id a") with
  | Ok (_, a), Ok (_, b) => a = b | _, _ => False end.
Proof. lazy. reflexivity. Qed.
(* an octet with a leading zero is matched but is no address *)
Example C41_leading_zero : read (u "ip src 01.2.3.4") = Err ValueError.
Proof. lazy. reflexivity. Qed.
