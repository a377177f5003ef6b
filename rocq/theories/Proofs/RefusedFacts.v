(** Lemmas on Spec/RefusedSpec.v. *)
From Coq Require Import Lia String Arith.
From Verif.Model Require Import Base Ip Peg Ids AddrText AclText.
From Verif.Spec Require Import AddrSpec AddrTextSpec CafTextSpec CafMeanSpec AclTextSpec GroupTextSpec LineTextSpec RefusedSpec.
From Verif.Proofs Require Import PegFacts AddrTextFacts CafTextFacts TokFacts CafMean LineFacts AclTextFacts GroupTextFacts.
From Verif.Props Require Import AddrText.
Local Open Scope list_scope.

Lemma line_app a b : one_line (a ++ b) <-> one_line a /\ one_line b.
Proof. unfold one_line. rewrite in_app_iff. tauto. Qed.
Lemma line_split a b c r : one_line a -> one_line b -> a ++ lf ++ r = b ++ c -> exists b', a = b ++ b' /\ c = b' ++ lf ++ r.
Proof.
  revert a. induction b as [|x b IH]; intros a A B E; [exists a; auto|]. destruct a as [|y a].
  - cbn [app lf] in E. injection E as <- _. destruct B. now left.
  - injection E as <- E. apply IH in E as (b' & -> & ->); [exists b'; auto| |]; intros I; [apply A|apply B]; now right.
Qed.
Lemma octet_line o : octet_text o -> one_line o.
Proof.
  intros [(F & _)|(v & R & ->)] I; [rewrite forallb_forall in F; apply F in I; discriminate I|]. assert (X : forall x, In x (dec3 v) -> x <> 10%N); [|now apply X in I].
  intros x. unfold dec3. destruct (v <? 10)%N; [|destruct (v <? 100)%N]; cbn; intros X; repeat (destruct X as [<-|X]; [lia|]); destruct X.
Qed.
Lemma addr4_line t r : addr4_text t r -> one_line t.
Proof.
  intros (a & b & c & d & A & B & C & D & -> & _). apply octet_line in A, B, C, D.
  do 3 (apply line_app; split; [auto|]; apply (line_app [46%N]); split; [intros [[=]|[]]|]). auto.
Qed.
Lemma addr4_more t q r : addr4_text t q <-> addr4_text t (q ++ lf ++ r).
Proof.
  split; intros (a & b & c & d & A & B & C & D & -> & N); exists a, b, c, d; repeat (split; [auto|]); intros x r' E.
  - destruct q as [|y q]; [|injection E as <- E; eauto]. injection E as <- _. intros O. apply octet_line in O. apply O. apply in_or_app. right. now left.
  - subst q. eapply N. reflexivity.
Qed.
Lemma addr6_line t r : addr6_text t r -> one_line t.
Proof.
  intros (a & b & Fa & Nb & Fb & -> & Nr) I. apply in_app_or in I as [I|[I|I]].
  - rewrite forallb_forall in Fa. apply Fa in I. discriminate I.
  - discriminate I.
  - rewrite forallb_forall in Fb. apply Fb in I. discriminate I.
Qed.
Lemma addr6_more t q r : addr6_text t q <-> addr6_text t (q ++ lf ++ r).
Proof.
  split; intros (a & b & Fa & Nb & Fb & -> & Nr); exists a, b; repeat (split; [auto|]); intros (c & x & E & C); apply Nr.
  - destruct q as [|y q]; [injection E as <- _; discriminate C|]. injection E as <- _. now exists y, q.
  - subst q. now exists c, (x ++ lf ++ r).
Qed.
Lemma ip4_raises q r e : one_line q -> ip4 (q ++ lf ++ r) = PErr e <-> e = ValueError /\ malformed4 q.
Proof.
  intros O. rewrite C50_ip4_raises. split; intros (-> & t & x & E & T & a & d & b & Et & D & Z); (split; [reflexivity|]).
  - apply line_split in E as (q' & -> & ->); [|auto|eapply addr4_line; eauto]. apply addr4_more in T. exists t, q'. split; [auto|]. split; [auto|]. exists a, d, b. split; [auto|]. split; [now apply is_digit_spec|auto].
  - subst q. exists t, (x ++ lf ++ r). split; [now rewrite <- app_assoc|]. split; [now apply addr4_more|]. exists a, d, b. split; [auto|]. split; [now apply is_digit_spec|auto].
Qed.
Lemma ip6_raises q r e : one_line q -> ip6 (q ++ lf ++ r) = PErr e <-> e = ValueError /\ malformed6 q.
Proof.
  intros O. rewrite C50_ip6_raises. split; intros (-> & t & x & E & T & N); (split; [reflexivity|]).
  - apply line_split in E as (q' & -> & ->); [|auto|eapply addr6_line; eauto]. apply addr6_more in T. exists t, q'. auto.
  - subst q. exists t, (x ++ lf ++ r). split; [now rewrite <- app_assoc|]. split; [now apply addr6_more|auto].
Qed.
Lemma malformed4_lf q r : malformed4 q -> malformed4 (q ++ lf ++ r).
Proof. intros (t & x & -> & T & Z). exists t, (x ++ lf ++ r). split; [now rewrite <- app_assoc|]. split; [now apply addr4_more|auto]. Qed.
Lemma malformed4_end q : malformed4 q -> malformed4 (q ++ lf).
Proof. intros M. rewrite <- (app_nil_r lf). now apply malformed4_lf. Qed.
Lemma malformed4_raises q r : malformed4 (q ++ lf) -> ip4 (q ++ lf ++ r) = PErr ValueError.
Proof.
  intros (t & x & E & T & a & d & b & Et & D & Z). apply C50_ip4_raises. split; [reflexivity|]. assert (X : exists y, x = y ++ lf).
  { destruct x as [|c x _] using rev_ind.
    - exfalso. rewrite app_nil_r in E. apply addr4_line in T. apply T. rewrite <- E. apply in_or_app. right. now left.
    - rewrite app_assoc in E. apply app_inj_tail in E as (_ & <-). eauto. }
  destruct X as (y & ->). exists t, (y ++ lf ++ r). split; [rewrite app_assoc in E; apply app_inv_tail in E; subst q; now rewrite <- app_assoc|].
  split; [apply addr4_more; apply (addr4_more t y []); now rewrite app_nil_r|]. exists a, d, b. split; [auto|]. split; [now apply is_digit_spec|auto].
Qed.
Lemma malformed4_noblank q r : malformed4 q -> ~ starts is_blank (q ++ r).
Proof.
  intros (t & x & -> & (a & b & c & d & A & _ & _ & _ & -> & _) & _). destruct a as [|y a].
  - exfalso. destruct A as [(_ & [A|A])|(v & R & A)]; try discriminate A. unfold dec3 in A. destruct (v <? 10)%N; [|destruct (v <? 100)%N]; discriminate A.
  - cbn [app]. rewrite starts_cons. assert (D : is_digit y = true); [|intros B; apply is_digit_spec in D; apply is_blank_spec in B; unfold digit in D; lia].
    destruct A as [(A & _)|(v & R & A)]; [cbn in A; now apply andb_true_iff in A|]. unfold dec3 in A. apply is_digit_spec. unfold digit. assert (v / 100 < 3)%N by (apply N.div_lt_upper_bound; lia).
    replace (v <? 10)%N with false in A by (symmetry; apply N.ltb_ge; lia). replace (v <? 100)%N with false in A by (symmetry; apply N.ltb_ge; lia). injection A as -> _. lia.
Qed.
Lemma malformed6_noblank q r : malformed6 q -> ~ starts is_blank (q ++ r).
Proof.
  intros (t & x & -> & (a & b & Fa & _ & _ & -> & _) & _). destruct a as [|y a]; cbn [app]; rewrite starts_cons; intros B; apply is_blank_spec in B; [destruct B; discriminate|].
  cbn [forallb] in Fa. destruct B as [-> | ->]; discriminate Fa.
Qed.
Lemma pbind_perr {A B} (p : parser A) (f : A -> parser B) s e : p s = PErr e -> pbind p f s = PErr e.
Proof. intros H. unfold pbind. now rewrite H. Qed.
Lemma por_err {A} (p q : parser A) s e : por p q s = PErr e -> p s = PErr e \/ q s = PErr e.
Proof. unfold por. destruct (p s); auto; discriminate. Qed.
Lemma por_perr {A} (p q : parser A) s e : p s = PErr e -> por p q s = PErr e.
Proof. unfold por. now intros ->. Qed.
Lemma pbind_err {A B} (p : parser A) (f : A -> parser B) s e : pbind p f s = PErr e -> p s = PErr e \/ exists a r, p s = POk a r /\ f a r = PErr e.
Proof. unfold pbind. destruct (p s) as [|e'|a r] eqn:Q; [discriminate| |]; intros H; [left; now injection H as ->|right; eauto]. Qed.
