(** C64: interfaces of an IOS configuration as text. *)
From Coq Require Import Lia String.
From Verif.Model Require Import Base Ip Hosts Groups Iface Peg Ids AddrText Ports AclText Define GroupText LineText FileText IosText IosFile.
From Verif.Spec Require Import AddrSpec RefSpec AddrTextSpec CafTextSpec CafMeanSpec AclTextSpec GroupTextSpec ObjTextSpec LineTextSpec IosTextSpec IosFileSpec.
From Verif.Proofs Require Import DictFacts PegFacts CafTextFacts CafMean LineFacts AclTextFacts GroupTextFacts LineTextFacts IosFacts IosLineFacts.
From Verif.Props Require Import CafText AclText.
Local Open Scope list_scope.

Section Interface.
  Context (isalpha isalnum isspace : N -> bool) (OK : classes_ok isalpha isalnum isspace).
  Notation reads := (ios_interface isalpha isalnum isspace).
  Notation text := (ios_iface_text isalnum isspace).

  (** C64: what is read as an interface is one, each line kept or not as the specification
      says.  The text ends with a line end, as the text of a file does. *)
  Theorem C64_reads : forall s a l r, (exists s', s = s' ++ lf) -> reads s = POk (a, l) r ->
    exists t, s = t ++ r /\ text clean_detail a l t.
  Proof using OK. intros s a l r (s' & E) H. apply (interface_sound _ _ _ OK) in H; [auto|right; eauto]. Qed.
  (** C64: every interface is read, up to the first line that is not indented, unless an
      address line has a malformed address. *)
  Theorem C64_complete : forall a l t r, text clean_detail a l t -> (forall q, r <> 32%N :: q) -> reads (t ++ r) = POk (a, l) r.
  Proof using OK. intros a l t r T N. apply (interface_ok _ _ _ OK); [auto|]. intros (q & E). now apply (N q). Qed.
  (** C64: a text is one interface only. *)
  Theorem C64_unique : forall a l a' l' t, text clean_detail a l t -> text clean_detail a' l' t -> a = a' /\ l = l'.
  Proof using OK.
    intros a l a' l' t T T'. apply (C64_complete _ _ _ []) in T; [|discriminate]. apply (C64_complete _ _ _ []) in T'; [|discriminate]. rewrite T in T'. injection T' as -> ->. auto.
  Qed.
  (** C64: nothing is lost: there are as many details as indented lines. *)
  Theorem C64_lines : forall fine a l t, text fine a l t -> exists h ts, t = h ++ lf ++ concat ts /\ one_line h /\ length ts = length l /\
    Forall (fun x => exists y, x = u " " ++ y ++ lf /\ one_line y) ts.
  Proof using OK.
    intros fine a l t [g a' z l' t' G U Z T]. assert (K : exists h, u "interface" ++ g ++ a' ++ z = h ++ lf /\ one_line h).
    { assert (O : one_line (u "interface" ++ g ++ a')).
      { rewrite !line_app. split; [now apply word_line|]. split; [now apply gap_line|]. intros I. apply U in I. unfold is_true in I. rewrite (TokFacts.space_ok _ _ _ OK) in I; (reflexivity || discriminate I). }
      destruct Z as [-> | ->].
      - exists (u "interface" ++ g ++ a'). rewrite <- !app_assoc. auto.
      - exists ((u "interface" ++ g ++ a') ++ [13%N]). rewrite <- !app_assoc. split; [auto|]. rewrite !app_assoc. apply line_app. rewrite <- app_assoc. split; [auto|]. intros [[=]|[]]. }
    destruct K as (h & E & O). exists h. assert (X : exists ts, t' = concat ts /\ length ts = length l' /\ Forall (fun x => exists y, x = u " " ++ y ++ lf /\ one_line y) ts).
    { clear -T. induction T as [|d x l ts K _ (xs & -> & L & F)|x l ts O' _ _ _ (xs & -> & L & F)].
      - exists []. auto.
      - apply kept_line in K as (y & -> & Oy). exists ((u " " ++ y ++ lf) :: xs). split; [cbn [concat]; now rewrite <- !app_assoc|]. split; [cbn; now rewrite L|]. constructor; eauto.
      - exists ((u " " ++ x ++ lf) :: xs). split; [cbn [concat]; now rewrite <- !app_assoc|]. split; [cbn; now rewrite L|]. constructor; eauto. }
    destruct X as (ts & -> & L & F). exists ts. split; [|auto]. rewrite (app_assoc h), <- E, <- !app_assoc. reflexivity.
  Qed.
End Interface.
(** [iface_init] of what is read is what Props/Iface.v speaks about. *)

(** ** Examples *)
Notation ri := (ios_interface ascii_alpha ascii_alnum ascii_space).
Definition C64_lines_ex : pystr := line "interface GigabitEthernet0/1.20" ++ line " description to the office" ++ line " encapsulation dot1Q 20" ++
  line " ip address 10.1.0.1 255.255.255.0" ++ line " ip address 10.2.0.1 255.255.255.0 secondary" ++ line " ip access-group from-office in" ++ line " no ip redirects" ++
  line " ipv6 address 2001:db8::1/64" ++ line " ipv6 address fe80::1 link-local" ++ line " ipv6 traffic-filter from-office6 in" ++
  line " switchport trunk allowed vlan 10,20-30" ++ line " switchport trunk allowed vlan add 40" ++ line " switchport mode trunk".
Definition C64_details : list ifdetail :=
  [DDescription (u "to the office"); DNone; DAddr4 (mkaddr V4 167837697) 4294967040; DAddr4 (mkaddr V4 167903233) 4294967040; DGroup4 (u "from-office") (u "in"); DNone;
   DAddr6 (mkaddr V6 42540766411282592856903984951653826561) (Some 64%N); DAddr6 (mkaddr V6 338288524927261089654018896841347694593) None; DGroup6 (u "from-office6") (u "in");
   DTrunkSet [Vlan (u "10"); VlanRange (u "20") (u "30")]; DTrunkAdd [Vlan (u "40")]; DSwMode (u "trunk")].
Example C64_ex : ri (C64_lines_ex ++ line "!") = POk (u "GigabitEthernet0/1.20", C64_details) (line "!").
Proof. vm_compute. reflexivity. Qed.
Example C64_ex_text : ios_iface_text ascii_alnum ascii_space clean_detail (u "GigabitEthernet0/1.20") C64_details C64_lines_ex.
Proof.
  pose proof C64_ex as H. apply (C64_reads _ _ _ C41_classes) in H as (t & E & T); [|exists (C64_lines_ex ++ u "!"); now rewrite <- app_assoc]. apply app_inv_tail in E. now rewrite E.
Qed.
(** A line that lists VLANs with a comma at the end is dropped, and so is an address of
    the form eui-64. *)
Example C64_comma : ri (line "interface Gi1" ++ line " switchport trunk allowed vlan 10,") = POk (u "Gi1", [DNone]) [].
Proof. vm_compute. reflexivity. Qed.
Example C64_eui : ri (line "interface Gi1" ++ line " ipv6 address 2001:db8::/64 eui-64") = POk (u "Gi1", [DNone]) [].
Proof. vm_compute. reflexivity. Qed.
Example C64_malformed : ri (line "interface Gi1" ++ line " ip address 10.0.0.01 255.255.255.0") = PErr ValueError.
Proof. vm_compute. reflexivity. Qed.
Print Assumptions C64_reads.
Print Assumptions C64_complete.
Print Assumptions C64_unique.
Print Assumptions C64_lines.
