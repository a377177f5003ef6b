(** Parsers that never raise. *)
From Coq Require Import Lia String.
From Verif.Model Require Import Base Ip Hosts Groups Rules Nat Iface Peg Ids AddrText Ports AclText Define GroupText ObjText LineText NatText.
From Verif.Proofs Require Import PegFacts LineFacts GroupTextFacts.
Local Open Scope list_scope.

Definition never {A} (p : parser A) : Prop := forall s e, p s <> PErr e.
Lemma never_bind {A B} (p : parser A) (f : A -> parser B) : never p -> (forall a, never (f a)) -> never (pbind p f).
Proof. intros P F s e. unfold pbind. destruct (p s) as [|e'|a r] eqn:Q; [discriminate|now apply P in Q|apply F]. Qed.
Lemma never_por {A} (p q : parser A) : never p -> never q -> never (por p q).
Proof. intros P Q s e. unfold por. destruct (p s) as [|e'|a r] eqn:X; [apply Q|now apply P in X|discriminate]. Qed.
Lemma never_popt {A} (p : parser A) : never p -> never (popt p).
Proof. intros P s e. unfold popt. destruct (p s) as [|e'|a r] eqn:X; [discriminate|now apply P in X|discriminate]. Qed.
Lemma never_ret {A} (a : A) : never (ret a).
Proof. intros s e. discriminate. Qed.
Lemma never_fail {A} : never (@fail A).
Proof. intros s e. discriminate. Qed.
Lemma never_choice {A} (l : list (parser A)) : (forall p, In p l -> never p) -> never (choice l).
Proof.
  induction l as [|p l IH]; intros H; [apply never_fail|]. unfold choice. cbn [fold_right]. apply never_por; [apply H; now left|]. apply IH. intros q I. apply H. now right.
Qed.
Lemma never_many {A} (p : parser A) : never p -> never (many p).
Proof.
  intros P. assert (F : forall n, never (many_f n p)); [|intros s; unfold many; apply F].
  induction n as [|n IH]; intros s e; cbn [many_f]; [discriminate|]. destruct (p s) as [|e'|a r] eqn:X; [discriminate|now apply P in X|].
  destruct (length r <? length s)%nat; [|discriminate]. destruct (many_f n p r) as [|e'|l r'] eqn:Y; [discriminate|now apply IH in Y|discriminate].
Qed.
Lemma never_then {A B} (p : parser A) (q : parser B) : never p -> never q -> never (then_ p q).
Proof. intros P Q. unfold then_. now apply never_bind. Qed.
Lemma never_look {A} (p : parser A) : never p -> never (look p).
Proof. intros P s e. unfold look. destruct (p s) as [|e'|a r] eqn:X; [discriminate|now apply P in X|discriminate]. Qed.
Lemma never_ws : never ws.
Proof. intros r e. unfold ws, pbind, pat1, ret. destruct (span is_blank r) as ([|c a] & b); discriminate. Qed.
Lemma never_char c : never (char c).
Proof. intros [|d s] e; cbn; [discriminate|]. destruct (N.eqb d c); discriminate. Qed.
Lemma never_sp : never sp.
Proof. exact sp_noerr. Qed.
Lemma never_int : never int_.
Proof. exact int_noerr. Qed.
Lemma never_toeol : never toeol.
Proof. intros s e. unfold toeol, pat0. destruct (span not_lf s); discriminate. Qed.
Lemma never_nl : never nl.
Proof. unfold nl. apply never_bind; [apply never_popt, never_char|intros _; apply never_char]. Qed.
Section Words.
  Context (isalpha isalnum : N -> bool).
  Lemma never_kw w : never (kw isalpha isalnum w). Proof. intros s e. apply kw_noerr. Qed.
  Lemma never_tokens l : never (tokens isalpha isalnum l). Proof. intros s e. apply tokens_noerr. Qed.
  Lemma never_ids {V} (d : dict V) : never (ids isalpha isalnum d). Proof. intros s e. apply ids_noerr. Qed.
  Lemma never_line_end : never line_end.
  Proof. unfold line_end. apply never_bind; [apply never_popt, never_ws|intros _; apply never_nl]. Qed.
  Lemma never_ref {V} (d : dict V) : never (reference isalpha isalnum d).
  Proof.
    intros s e H. unfold reference, act, pbind in H. destruct (look _ s) as [|e'|x s1] eqn:L; [discriminate H| |].
    - revert L. apply never_look. apply never_bind; [apply never_ids|]. intros _ ? ?. apply sep_noerr.
    - destruct (ids isalpha isalnum d s1) as [|e'|n r] eqn:I; [discriminate H|now apply ids_noerr in I|]. apply ids_sound in I as (M & _). unfold subscript, dmem in *. destruct (dget d n); discriminate.
  Qed.
End Words.

(** Structural search. *)
Ltac never := repeat first
  [ apply never_ret | apply never_fail | apply never_ws | apply never_char | apply never_sp | apply never_int | apply never_toeol | apply never_nl | apply never_line_end
  | apply never_kw | apply never_tokens | apply never_ids | apply never_ref
  | (match goal with |- never (then_ _ _) => apply never_then | |- never (popt _) => apply never_popt | |- never (many _) => apply never_many | |- never (look _) => apply never_look | |- never (por _ _) => apply never_por end)
  | (match goal with |- never (choice _) => apply never_choice end; let p := fresh in let I := fresh in intros p I; cbn [In] in I; repeat (destruct I as [<-|I]); [..|destruct I])
  | (match goal with |- never (pbind _ _) => apply never_bind; [|intros ?] end) ].
Section Nats.
  Context (isalpha isalnum : N -> bool) (E : env) (IF : dict ifnames).
  Lemma never_iface_pair : never (iface_pair isalpha isalnum IF).
  Proof.
    assert (N : never (nat_iface isalpha isalnum IF)).
    { intros s e H. unfold nat_iface, act, pbind in H. destruct (por _ _ s) as [|e'|n r] eqn:P; [discriminate H| |].
      - revert P. apply never_por; [intros s' e''; apply token_noerr|apply never_ids].
      - destruct (str_eqb n (u "any")) eqn:Q; [discriminate H|]. apply por_sound in P as [P|P].
        + apply token_ok in P as (-> & _). discriminate Q.
        + apply ids_sound in P as (M & _). unfold bind, subscript, dmem in *. destruct (dget IF n); discriminate. }
    unfold iface_pair, nat_interfaces. never; apply N.
  Qed.
  Lemma never_pool : never (pat_pool isalpha isalnum E).
  Proof. unfold pat_pool, pool_option. never. Qed.
  Lemma never_nat_line : never (nat_line isalpha isalnum E IF).
  Proof.
    unfold nat_line, nat_pos, nat_src, nat_dst, nat_srv, nat_opt, mapped_static, mapped_dynamic, real_node, opt_fallback, fallback.
    never; apply never_iface_pair || apply never_pool.
  Qed.
End Nats.
