(** C75: printed addresses and networks are written in the canonical way, and read back as
    what they were. *)
From Coq Require Import NArith List Lia Bool Arith String.
From Verif.Model Require Import Base Ip Ports Peg AddrText AclText AddrStr.
From Verif.Spec Require Import AddrSpec AddrTextSpec CafTextSpec CafMeanSpec AddrStrSpec.
From Verif.Proofs Require Import MaskFacts AddrTextFacts Addr6Facts CafMean CafTextFacts CafShowFacts AclTextFacts AddrStrFacts.
From Verif.Props Require Import AddrText.
Import ListNotations.
Local Open Scope list_scope.
Local Open Scope N_scope.

Lemma dec_go_spec fuel : forall n acc, n < 10 ^ N.of_nat fuel -> (0 < fuel)%nat ->
  exists s, dec_go fuel n acc = s ++ acc /\ plain_decimal s n.
Proof.
  induction fuel as [|k IH]; intros n acc L P; [lia|]. cbn [dec_go].
  assert (M : n mod 10 < 10) by (apply N.mod_lt; discriminate).
  destruct (N.ltb_spec n 10) as [Lt|Ge].
  - exists [48 + n mod 10]. split; [reflexivity|]. rewrite N.mod_small by auto. split.
    + assert (D : decimal_text [48 + n] (48 + n - 48)) by (apply DT_one; lia). now replace (48 + n - 48) with n in D by lia.
    + now intros t [= _ <-].
  - assert (Dm : n = 10 * (n / 10) + n mod 10) by (apply N.div_mod; discriminate).
    assert (Q : n / 10 < 10 ^ N.of_nat k). { apply N.div_lt_upper_bound; [discriminate|]. rewrite <- N.pow_succ_r', <- Nat2N.inj_succ. exact L. }
    destruct k as [|k]; [cbn in Q; lia|]. destruct (IH (n / 10) (48 + n mod 10 :: acc) Q) as (s & E & D & S); [lia|].
    exists (s ++ [48 + n mod 10]). split; [rewrite E, <- app_assoc; reflexivity|]. split.
    + assert (T : decimal_text (s ++ [48 + n mod 10]) (10 * (n / 10) + (48 + n mod 10 - 48))) by (apply DT_more; [auto|lia]).
      replace (10 * (n / 10) + (48 + n mod 10 - 48)) with n in T by lia. exact T.
    + intros t Et. destruct s as [|c s]; [apply decimal_text_spec in D as (N & _); congruence|]. injection Et as -> Et.
      rewrite (S s eq_refl) in D. apply decimal_text_spec in D as (_ & _ & D). unfold int10, digit_val in D. cbn [fold_left] in D.
      exfalso. assert (n / 10 = 0) by (rewrite <- D; reflexivity). lia.
Qed.
Lemma dec_str_spec n : plain_decimal (dec_str n) n.
Proof.
  unfold dec_str. destruct (dec_go_spec (S (N.size_nat n)) n []) as (s & E & D); [|lia|rewrite E, app_nil_r; exact D].
  assert (P : n < 2 ^ N.of_nat (N.size_nat n)).
  { destruct n as [|p]; [reflexivity|]. cbn [N.size_nat]. pose proof (N.size_gt (N.pos p)) as G. cbn [N.size] in G.
    replace (N.of_nat (Pos.size_nat p)) with (N.pos (Pos.size p)); [exact G|]. clear. induction p as [p IH|p IH|]; cbn [Pos.size Pos.size_nat]; [..|reflexivity]; rewrite Nat2N.inj_succ, <- IH; lia. }
  rewrite Nat2N.inj_succ. eapply N.lt_le_trans; [exact P|]. transitivity (10 ^ N.of_nat (N.size_nat n)).
  - apply N.pow_le_mono_l. lia.
  - apply N.pow_le_mono_r; lia.
Qed.
Lemma dec_str_dec3 : forallb (fun v => str_eqb (dec_str v) (dec3 v)) upto255 = true.
Proof. vm_compute. reflexivity. Qed.

(** IPv4 addresses are written as four decimal numbers without leading zeros. *)
Theorem C75_ipv4_form : forall n, n < 2 ^ 32 -> addr_str (mkaddr V4 n) = quad n.
Proof.
  intros n L. cbn [addr_str a_ver a_val]. unfold str4, bytes4, quad, dotted. cbn [map str_join].
  assert (T : n / 2 ^ 24 < 256) by (apply N.div_lt_upper_bound; [discriminate|exact L]).
  rewrite (N.mod_small (n / 2 ^ 24)) by exact T.
  assert (E : forall v, v < 256 -> dec_str v = dec3 v).
  { intros v Lv. pose proof dec_str_dec3 as F. rewrite forallb_forall in F. apply str_eqb_eq, F, upto255_In. lia. }
  assert (M : forall x, x mod 256 < 256) by (intros x; apply N.mod_lt; discriminate).
  rewrite !E by auto. reflexivity.
Qed.

(** IPv6 addresses are written in the recommended form. *)
Theorem C75_ipv6_form : forall n, n < 2 ^ 128 ->
  exists vs, length vs = 8%nat /\ Forall (fun v => v < 65536) vs /\ number_of vs = n /\ canonical6 (addr_str (mkaddr V6 n)) vs.
Proof.
  intros n L. destruct (words6_ok n L) as (A & B & C). exists (words6 n). repeat split; auto.
  cbn [addr_str a_ver a_val]. apply compress_text; [auto|]. intros E. now rewrite E in A.
Qed.

Lemma plain_hex_hextet s v : v < 65536 -> plain_hex s v -> hextet s v.
Proof.
  intros L (H & P & _). pose proof H as H'. apply hex_number_spec in H' as (N & F & E). split; [auto|]. revert L. rewrite E.
  clear H E N. intros L. destruct s as [|c s]; [cbn; lia|]. destruct (Nat.leb_spec (length (c :: s)) 4) as [|Gt]; [auto|]. exfalso.
  destruct (N.eq_dec c 48) as [->|C]; [rewrite (P s eq_refl) in Gt; cbn in Gt; lia|].
  assert (G : forall t a, fold_left (fun a c => 16 * a + hex_val c) t a >= a * 16 ^ N.of_nat (length t)).
  { clear. induction t as [|x t IH]; intros a; [cbn; lia|]. cbn [fold_left length]. specialize (IH (16 * a + hex_val x)). rewrite Nat2N.inj_succ, N.pow_succ_r' by lia. nia. }
  unfold int16 in L. cbn [fold_left] in L. specialize (G s (16 * 0 + hex_val c)). cbn [length] in Gt.
  assert (V : 1 <= hex_val c).
  { cbn [forallb] in F. apply andb_true_iff in F as (F & _). unfold is_hex, is_digit, hex_val in *. rewrite !orb_true_iff, !andb_true_iff, !N.leb_le in F.
    destruct (N.leb_spec c 57); [lia|]. destruct (N.leb_spec c 70); lia. }
  assert (16 ^ 4 <= 16 ^ N.of_nat (length s)) by (apply N.pow_le_mono_r; lia). change (16 ^ 4) with 65536 in *. nia.
Qed.
Lemma groups_hextets s vs : Forall (fun v => v < 65536) vs -> groups_text s vs -> hextets s vs /\ plain_hextets s vs.
Proof.
  intros F G. induction G as [s v H|s v t vs H G IH]; inversion F; subst.
  - split; constructor; now apply plain_hex_hextet.
  - destruct IH as (A & B); [auto|]. split; constructor; auto; now apply plain_hex_hextet.
Qed.
Lemma canonical_ipv6 s vs : length vs = 8%nat -> Forall (fun v => v < 65536) vs -> canonical6 s vs -> ipv6_text s (number_of vs).
Proof.
  intros L F C. destruct C as [s vs G _|s t hi n lo Gh Gl Le _].
  - apply T6_full; [now apply groups_hextets|auto].
  - rewrite !Forall_app in F. destruct F as (Fh & _ & Fl). rewrite !app_length, repeat_length in L.
    replace n with (8 - length hi - length lo)%nat by lia. apply T6_short; [| |lia].
    + destruct Gh as [|G]; [auto|right]. now apply groups_hextets.
    + destruct Gl as [|G]; [auto|right]. now apply groups_hextets.
Qed.
Lemma addr_str_text a : valid a -> address_text (addr_str a) a.
Proof.
  intros V. destruct a as [[|] n]; unfold address_text; cbn [a_ver a_val]; unfold valid in V; cbn in V.
  - split; [exact V|]. now apply C75_ipv4_form.
  - destruct (C75_ipv6_form n V) as (vs & L & F & <- & C). now apply canonical_ipv6.
Qed.

(** Every printed address is read back as this address, by [ipaddress.ip_address] and by
    the grammars. *)
Theorem C75_reads_back : forall a, valid a -> ip_address (addr_str a) = Ok a.
Proof. intros a V. now apply ip_address_spec, addr_str_text. Qed.
Theorem C75_read_in_text : forall a r, valid a -> ~ starts is_hexdotcolon r ->
  (if ver_eqb (a_ver a) V4 then ip4 else ip6) (addr_str a ++ r) = POk a r.
Proof.
  intros a r V N. pose proof (addr_str_text a V) as T. destruct a as [[|] n]; cbn [a_ver ver_eqb].
  - apply C50_ip4_read. split; [reflexivity|]. split; [exact V|]. split; [now rewrite C75_ipv4_form by exact V|].
    intros (x & r' & -> & D & _). apply N. rewrite starts_cons. unfold is_hexdotcolon. now rewrite digit_hex.
  - apply C50_ip6_read. split; [reflexivity|]. exists (addr_str (mkaddr V6 n)). split; [reflexivity|]. split; [exact T|auto].
Qed.

(** A printed network is an address and a prefix length with a slash between them, and
    reads back as this network. *)
Theorem C75_network : forall n, net_wf n ->
  exists t p, net_str n = t ++ 47 :: p /\ address_text t (mkaddr (n_ver n) (n_addr n)) /\ plain_decimal p (n_plen n) /\
    ip_network_text t p = Ok n.
Proof.
  intros n W. pose proof W as (Lp & La & _). exists (addr_str (mkaddr (n_ver n) (n_addr n))), (dec_str (n_plen n)). split; [reflexivity|].
  split; [now apply addr_str_text|]. pose proof (dec_str_spec (n_plen n)) as D. split; [exact D|]. destruct D as (D & _).
  unfold ip_network_text. rewrite C75_reads_back by exact La. cbn [bind]. apply decimal_text_spec in D as (N & F & E). unfold read_mask.
  rewrite F, E. destruct (dec_str (n_plen n)); [congruence|]. cbn [is_empty negb andb]. now apply ip_network_aligned.
Qed.

(** Different addresses, and different networks, are printed differently. *)
Theorem C75_distinct : (forall a b, valid a -> valid b -> addr_str a = addr_str b -> a = b) /\
  (forall m n, net_wf m -> net_wf n -> net_str m = net_str n -> m = n).
Proof.
  assert (A : forall a b, valid a -> valid b -> addr_str a = addr_str b -> a = b).
  { intros a b Va Vb E. pose proof (C75_reads_back a Va) as R. rewrite E, C75_reads_back in R by auto. congruence. }
  split; [exact A|]. intros m n Wm Wn E. pose proof Wm as (_ & Vm & _). pose proof Wn as (_ & Vn & _). unfold net_str in E.
  assert (S : forall x, valid x -> ~ In 47 (addr_str x)).
  { intros x V I. destruct (address_hdc _ _ (addr_str_text x V)) as (F & _). rewrite forallb_forall in F. apply F in I. discriminate I. }
  assert (K : forall (a b p q : pystr), ~ In 47 a -> ~ In 47 b -> (a ++ 47 :: p = b ++ 47 :: q) -> a = b /\ p = q).
  { clear. induction a as [|x a IH]; intros [|y b] p q Na Nb H; cbn in H.
    - now injection H.
    - injection H as <- _. exfalso. apply Nb. now left.
    - injection H as -> _. exfalso. apply Na. now left.
    - injection H as <- H. apply IH in H as (-> & ->); auto; intros I; [apply Na|apply Nb]; now right. }
  change (u "/" ++ dec_str (n_plen m)) with (47 :: dec_str (n_plen m)) in E. change (u "/" ++ dec_str (n_plen n)) with (47 :: dec_str (n_plen n)) in E.
  apply K in E as (Ea & Ep); auto. apply A in Ea; auto. injection Ea as Ev En.
  destruct (dec_str_spec (n_plen m)) as (Dm & _). destruct (dec_str_spec (n_plen n)) as (Dn & _). rewrite Ep in Dm.
  apply decimal_text_spec in Dm as (_ & _ & Dm). apply decimal_text_spec in Dn as (_ & _ & Dn).
  assert (Epl : n_plen m = n_plen n) by congruence. clear - Ev En Epl. destruct m, n. cbn in *. congruence.
Qed.

(** Examples: an IPv4 network; the first of two equally long runs is shortened; a single
    zero is not; runs at both ends; the address with zeros only. *)
Example C75_ex1 : net_str (mknet V4 (10 * 2 ^ 24) 8) = u "10.0.0.0/8".
Proof. vm_compute. reflexivity. Qed.
Example C75_ex2 : map (fun l => str_join (u ":") (compress (map hex16 l)))
    [[8193; 3512; 0; 0; 1; 0; 0; 1]; [1; 0; 2; 3; 4; 5; 6; 7]; [0; 0; 0; 0; 0; 0; 0; 1]; [65152; 0; 0; 0; 0; 0; 0; 0]; [0; 0; 0; 0; 0; 0; 0; 0]] =
  [u "2001:db8::1:0:0:1"; u "1:0:2:3:4:5:6:7"; u "::1"; u "fe80::"; u "::"].
Proof. vm_compute. reflexivity. Qed.
Example C75_ex3 : match ip_address (u "2001:DB8:0:0:1::1") with Ok a => addr_str a | Err _ => [] end = u "2001:db8::1:0:0:1".
Proof. vm_compute. reflexivity. Qed.
Print Assumptions C75_ipv4_form.
Print Assumptions C75_ipv6_form.
Print Assumptions C75_reads_back.
Print Assumptions C75_read_in_text.
Print Assumptions C75_network.
Print Assumptions C75_distinct.
