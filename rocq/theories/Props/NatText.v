(** C56: manual NAT lines of ASA configurations as text.
    Every line of Spec/NatTextSpec.v is read as what it stands for (C56_complete, C56_pix),
    whatever is read is such a line (C56_reads), and a text has one meaning and one extent
    (C56_unique).  The NAT object that results is that of C47 (C56_object). *)
From Coq Require Import Lia String.
From Verif.Model Require Import Base Ip Hosts Groups Rules Nat Iface Peg Ids AddrText Ports AclText Define GroupText ObjText LineText NatText.
From Verif.Spec Require Import AddrSpec RefSpec AddrTextSpec CafTextSpec CafMeanSpec AclTextSpec GroupTextSpec ObjTextSpec LineTextSpec NatTextSpec.
From Verif.Proofs Require Import PegFacts TokFacts LineFacts AclTextFacts GroupTextFacts ObjTextFacts LineTextFacts NatTextFacts NoErr.
From Verif.Spec Require NatSpec.
From Verif.Props Require Import Refs CafText AclText ObjText Nat.
Local Open Scope list_scope.

Definition at_end (r : pystr) : Prop := r = [] \/ exists q, r = lf ++ q.

Section ManualLines.
  Context (isalpha isalnum isspace : N -> bool) (OK : classes_ok isalpha isalnum isspace).
  Variables (E : env) (HE : env_ok E) (IF : dict ifnames) (HIF : ifaces_ok isalnum IF).
  Notation nat_line := (NatText.nat_line isalpha isalnum E IF).
  Notation nat_command := (nat_command isalpha isalnum E IF).

  (** C56: what is read is a NAT line; of the PIX form nothing is kept. *)
  Theorem C56_reads : forall s a r, nat_line s = POk a r ->
    (exists t, s = t ++ r /\ nat_line_text E IF a t) \/
    (na_iface a = None /\ at_end r /\ exists t, s = t ++ r /\ pix_text IF t).
  Proof using OK HE HIF. intros s a r H. eapply manual_sound; eauto. Qed.
  (** C56: every NAT line is read as what it stands for, whatever follows it. *)
  Theorem C56_complete : forall a t r, nat_line_text E IF a t -> nat_line (t ++ r) = POk a r.
  Proof using OK HE HIF. intros. eapply manual_ok; eauto. Qed.
  Theorem C56_unique : forall a a' t t' r r', nat_line_text E IF a t -> nat_line_text E IF a' t' -> t ++ r = t' ++ r' -> a = a' /\ t = t' /\ r = r'.
  Proof using OK HE HIF.
    intros a a' t t' r r' T T' Eq. pose proof (C56_complete _ _ r T) as A. rewrite Eq, (C56_complete _ _ r' T') in A. injection A as -> ->. split; [auto|]. split; [|auto]. now apply app_inv_tail in Eq.
  Qed.
  (** C56: a line of the PIX form is accepted, and no NAT object is made of it. *)
  Theorem C56_pix : forall t r, pix_text IF t -> at_end r -> nat_command (t ++ r) = POk None r.
  Proof using OK HE HIF. intros t r T R. unfold NatText.nat_command, act. eapply pbind_step; [eapply pix_ok; eauto|]. reflexivity. Qed.
  (** C56: a NAT object comes from a line, and is what the line says (C47). *)
  Theorem C56_object : forall s n r, nat_command s = POk (Some n) r <->
    exists a t, s = t ++ r /\ nat_line_text E IF a t /\ nat_action a = Ok (Some n).
  Proof using OK HE HIF.
    intros s n r. unfold NatText.nat_command. split.
    - intros H. apply act_ok in H as (a & P & A). destruct (C56_reads _ _ _ P) as [(t & -> & T)|(N & _)]; [exists a, t; auto|]. unfold nat_action in A. rewrite N in A. discriminate A.
    - intros (a & t & -> & T & A). apply act_ok. exists a. split; [now apply C56_complete|auto].
  Qed.
  (** C56: the only lines that are refused with an error are static ones whose services are
      not one port each, on the same side. *)
  Theorem C56_refused : forall s e, nat_command s = PErr e <->
    e = AttributeError /\ exists a t r, s = t ++ r /\ nat_line_text E IF a t /\ na_static a = true /\ forall x m, ~ NatSpec.services_of true (na_service a) x m.
  Proof using OK HE HIF.
    intros s e. unfold NatText.nat_command, act. split.
    - intros H. unfold pbind in H. destruct (nat_line s) as [|e'|a r] eqn:L; [discriminate H|now apply never_nat_line in L|].
      destruct (nat_action a) as [n|e'] eqn:A; [discriminate H|]. injection H as ->. destruct (C47_manual_nat_refused a) as [(n & X)|(X & St & Sv)]; rewrite A in X; [discriminate X|]. injection X as ->.
      split; [auto|]. destruct (C56_reads _ _ _ L) as [(t & -> & T)|(N & _)]; [exists a, t, r; auto|]. unfold nat_action in A. rewrite N in A. discriminate A.
    - intros (-> & a & t & r & -> & T & St & Sv). eapply pbind_step; [exact (C56_complete _ _ r T)|]. cbv beta. destruct (C47_manual_nat_refused a) as [(n & X)|(X & _)]; [|now rewrite X]. exfalso.
      destruct n as [n|].
      + destruct (C47_manual_nat a n X) as (ri & mi & x & m & _ & _ & _ & _ & _ & _ & _ & _ & V). rewrite St in V. exact (Sv _ _ V).
      + destruct T. unfold nat_action in X. cbn [na_iface na_static na_service] in X. destruct (nat_services static v) as [[? ?]|]; cbn [bind] in X; [|discriminate X]. destruct (nat_opts_of _ _ _). discriminate X.
  Qed.
End ManualLines.

(** ** Examples *)
Notation rn := (NatText.nat_line ascii_alpha ascii_alnum C52_env C54_ifaces).
Notation rnc := (nat_command ascii_alpha ascii_alnum C52_env C54_ifaces).
Definition C56_in : option ifnames := Some (mkifnames (u "Vlan1") (Some (u "inside"))).
Definition C56_out : option ifnames := Some (mkifnames (u "Vlan2") (Some (u "outside"))).
Definition C56_srv : host := HObj (mkobj (u "srv.1") [] None [LHost (mkaddr V4 1)]).
Definition C56_line : pystr := line "nat (inside,outside) after-auto 3 source static srv.1 interface destination static dmz-hosts  dmz-hosts service dns dns no-proxy-arp route-lookup description web, and inactive".
Definition C56_dns : natsvc := mknatsvc (u "udp") None (Some (NPort (PPort (Some (u "eq")) (Some (u "53"))))).
Definition C56_ast : nat_ast := mknatast (Some (C56_in, C56_out)) true true (RNode C56_srv, MIface) (Some (MNode (HGrp 0%nat), HGrp 0%nat)) (Some (C56_dns, C56_dns))
  [OFlag (u "no-proxy-arp"); OFlag (u "route-lookup"); ODescription (u "web, and inactive")].
Example C56_ex1 : rn (C56_line ++ u "x") = POk C56_ast (u "x").
Proof. vm_compute. reflexivity. Qed.
Example C56_ex1' : nat_line_text C52_env C54_ifaces C56_ast C56_line.
Proof.
  pose proof C56_ex1 as H. eapply (C56_reads _ _ _ C41_classes _ C52_env_ok _ C54_ifaces_ok) in H as [(t & X & T)|([=] & _)]. apply app_inv_tail in X. now rewrite X.
Qed.
Example C56_ex2 : rn (line "nat (any,outside) source dynamic any pat-pool dmz-hosts round-robin interface inactive ") =
  POk (mknatast (Some (None, C56_out)) false false (RAny, MNode (HGrp 0%nat)) None None [OFlag (u "inactive")]) [].
Proof. vm_compute. reflexivity. Qed.
(** Services that are no single port on the same side: refused. *)
Definition C56_env2 : env := mkenv [] [(u "srv.1", mkobj (u "srv.1") [] None [LHost (mkaddr V4 1)])] []
  [(u "ip", mksvcobj (u "ip") [] (mkservice (u "ip") None None None None))] [] [] [] [] [] [].
Example C56_ex3 : nat_command ascii_alpha ascii_alnum C56_env2 C54_ifaces (line "nat (inside,outside) source static srv.1 srv.1 service ip ip") = PErr AttributeError.
Proof. vm_compute. reflexivity. Qed.
(** The PIX form. *)
Example C56_ex4 : rnc (u "nat (inside) 1 10.0.0.0 255.0.0.0" ++ lf) = POk None lf.
Proof. vm_compute. reflexivity. Qed.
Example C56_ex4' : pix_text C54_ifaces (u "nat (inside) 1 10.0.0.0 255.0.0.0").
Proof.
  change (u "nat (inside) 1 10.0.0.0 255.0.0.0") with (u "nat" ++ u " " ++ u "(" ++ u "inside" ++ u ")" ++ u " 1 10.0.0.0 255.0.0.0"). constructor.
  - split; [discriminate|]. intros c [<-|[]]. now left.
  - eexists. reflexivity.
  - intros I. repeat (destruct I as [I|I]; [discriminate I|]). destruct I.
Qed.

(** ** Findings *)
(** An object whose name starts like the word ipv6 cannot be the destination after the
    mapped destination "interface". *)
Definition C56_env6 : env := mkenv [] [(u "ipv6-srv", mkobj (u "ipv6-srv") [] None [LHost (mkaddr V6 1)])] [] [] [] [] [] [] [] [].
Example C56_ipv6_name : nat_command ascii_alpha ascii_alnum C56_env6 C54_ifaces
  (line "nat (inside,outside) source static any any destination static interface ipv6-srv") = PFail.
Proof. vm_compute. reflexivity. Qed.
(** An option after a description is part of the description. *)
Example C56_description_last : rn (line "nat (inside,outside) source dynamic any interface description d inactive") =
  POk (mknatast (Some (C56_in, C56_out)) false false (RAny, MIface) None None [ODescription (u "d inactive")]) [].
Proof. vm_compute. reflexivity. Qed.
(** One interface in parentheses makes any line the PIX form: it is dropped without a word. *)
Example C56_dropped : rnc (u "nat (inside) source static srv.1 srv.1" ++ lf) = POk None lf.
Proof. vm_compute. reflexivity. Qed.

Print Assumptions C56_reads.
Print Assumptions C56_complete.
Print Assumptions C56_unique.
Print Assumptions C56_pix.
Print Assumptions C56_object.
Print Assumptions C56_refused.
