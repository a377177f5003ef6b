(** C70: a text of unknown format is read as the first format it is written in.
    C71: a file is read as the text its bytes encode. *)
From Coq Require Import Lia String.
From Verif.Model Require Import Base Ip Hosts Groups Rules Caf Nat Iface Peg Ids AddrText Ports AclText Define GroupText ObjText LineText NatText FileText FileFilter IosText IosFile IosFilter Pfsense PfFile CafText Detect Auto.
From Verif.Spec Require Import AddrSpec AddrTextSpec RefSpec CafSpec CafMeanSpec CafTextSpec AclTextSpec GroupTextSpec ObjTextSpec FilterSpec LineTextSpec FileTextSpec FileFilterSpec IosFileSpec IosFilterSpec PfFilterSpec AutoSpec.
From Verif.Proofs Require Import PegFacts TokFacts CafTextFacts LineFacts AclTextFacts LineTextFacts FileTextFacts Utf8Facts.
From Verif.Props Require Import CafText AclText Detect FileText FileFilter IosFileText IosFilter PfFile PfFilter.
Local Open Scope list_scope.

Section Auto.
  Context (isalpha isalnum isspace : N -> bool) (OK : classes_ok isalpha isalnum isspace).
  Context (py_int : pystr -> option Z)
          (PI1 : forall n, n <> [] -> forallb AddrText.is_digit n = true -> py_int n <> None)
          (PI2 : forall n, In n port_code -> py_int n = None).
  Notation command_ := (command_ isalpha isalnum isspace py_int).
  Notation icommand_ := (icommand_ isalpha isalnum isspace py_int).
  Notation commands := (commands isalpha isalnum isspace py_int).
  Notation icommands := (icommands isalpha isalnum isspace py_int).
  Notation parse_file := (parse_file isalpha isalnum isspace py_int).
  Notation ios_parse := (ios_parse isalpha isalnum isspace py_int).

  Lemma not_alpha_33 : isalpha 33%N = false.
  Proof using OK. destruct (OK 33%N ltac:(reflexivity)) as (-> & _). reflexivity. Qed.
  Lemma asa_bang T q r : one_line q -> command_ T (u "!" ++ q ++ lf ++ r) = POk CSkipped r.
  Proof using OK.
    intros O. unfold FileText.command_, choice. cbn [fold_right].
    do 12 (apply por_r; [lazy; reflexivity|]). apply por_l.
    eapply pbind_step; [|reflexivity]. unfold ignored, choice, skip_table. cbn [map fold_right].
    apply por_r; [lazy; reflexivity|]. apply por_l. unfold skip_line, shape_rest.
    eapply pbind_step; [instantiate (2 := tt); instantiate (1 := q ++ lf ++ r); lazy; now rewrite not_alpha_33|]. eapply pbind_step; [|reflexivity].
    eapply pbind_step; [apply (toeol_ok q r O)|reflexivity].
  Qed.
  Lemma ios_bang T q r : one_line q -> icommand_ T (u "!" ++ q ++ lf ++ r) = POk INothing r.
  Proof using OK.
    intros O. unfold IosFile.icommand_, choice. cbn [fold_right].
    do 8 (apply por_r; [lazy; reflexivity|]). apply por_l.
    eapply pbind_step; [|reflexivity]. unfold ios_ignored, choice, ios_skip_1. cbn [map fold_right app].
    repeat (apply por_r; [lazy; reflexivity|]). apply por_l. unfold ios_skip.
    eapply pbind_step; [instantiate (2 := tt); instantiate (1 := q ++ lf ++ r); lazy; now rewrite not_alpha_33|]. eapply pbind_step; [|reflexivity].
    eapply pbind_step; [apply (toeol_ok q r O)|reflexivity].
  Qed.
  Lemma asa_empty T r : command_ T (lf ++ r) = POk CEmpty r.
  Proof using. lazy. reflexivity. Qed.
  Lemma asa_angle T r : command_ T (u "<" ++ r) = PFail.
  Proof using. lazy. reflexivity. Qed.
  Lemma ios_angle T r : icommand_ T (u "<" ++ r) = PFail.
  Proof using. lazy. reflexivity. Qed.
  Lemma ios_empty T r : icommand_ T (lf ++ r) = POk INothing r.
  Proof using. lazy. reflexivity. Qed.
  Lemma asa_version T r : command_ T (u "version" ++ r) = PFail.
  Proof using. lazy. reflexivity. Qed.

  (** After comments the commands start with whatever comes next. *)
  Lemma asa_comments c : comments c -> forall r, (forall T, command_ T r = PFail) -> r <> [] -> forall fuel T, (length c < fuel)%nat ->
    exists cs ms T', commands fuel T (c ++ r) = POk (cs, ms, T') r /\ (c = [] -> cs = []).
  Proof using OK. clear PI1 PI2.
    induction 1 as [|t C IH|q t O C IH]; intros r F N fuel T L; (destruct fuel as [|fuel]; [inversion L|]); cbn [FileText.commands].
    - cbn [app]. rewrite F. exists [], [], T. auto.
    - rewrite <- app_assoc, asa_empty. cbn [learn FileText.learn]. unfold counted.
      assert (Lt : (length (t ++ r) <? length (lf ++ t ++ r))%nat = true) by (apply Nat.ltb_lt; cbn; unfold pystr in *; lia). rewrite Lt.
      destruct (IH r F N fuel (mktables (tb_names T) (tb_netobj T) (tb_svcobj T) (tb_world T) (tb_time T) (tb_if T) (S (tb_count T)))) as (cs & ms & T' & -> & _); [cbn in L; unfold pystr in *; lia|].
      eexists _, _, _. split; [reflexivity|discriminate].
    - rewrite <- !app_assoc, asa_bang by auto. cbn [learn FileText.learn]. unfold counted.
      assert (Lt : (length (t ++ r) <? length (u "!" ++ q ++ lf ++ t ++ r))%nat = true) by (apply Nat.ltb_lt; rewrite !app_length; change (length (u "!")) with 1%nat; unfold pystr in *; lia). rewrite Lt.
      destruct (IH r F N fuel (mktables (tb_names T) (tb_netobj T) (tb_svcobj T) (tb_world T) (tb_time T) (tb_if T) (S (tb_count T)))) as (cs & ms & T' & -> & _); [rewrite !app_length in L; change (length (u "!")) with 1%nat in L; change (length lf) with 1%nat in L; unfold pystr in *; lia|].
      eexists _, _, _. split; [reflexivity|discriminate].
  Qed.
  Lemma ios_comments c : comments c -> forall r, (forall T, icommand_ T r = PFail) -> forall fuel T, (length c < fuel)%nat ->
    exists cs ms T', icommands fuel T (c ++ r) = POk (cs, ms, T') r.
  Proof using OK. clear PI1 PI2.
    induction 1 as [|t C IH|q t O C IH]; intros r F fuel T L; (destruct fuel as [|fuel]; [inversion L|]); cbn [IosFile.icommands].
    - cbn [app]. rewrite F. exists [], [], T. auto.
    - rewrite <- app_assoc, ios_empty. cbn [ilearn IosFile.ilearn]. unfold icounted.
      assert (Lt : (length (t ++ r) <? length (lf ++ t ++ r))%nat = true) by (apply Nat.ltb_lt; cbn; unfold pystr in *; lia). rewrite Lt.
      destruct (IH r F fuel (mkitables (it_world T) (it_if T) (S (it_count T)))) as (cs & ms & T' & ->); [cbn in L; unfold pystr in *; lia|].
      eexists _, _, _. reflexivity.
    - rewrite <- !app_assoc, ios_bang by auto. cbn [ilearn IosFile.ilearn]. unfold icounted.
      assert (Lt : (length (t ++ r) <? length (u "!" ++ q ++ lf ++ t ++ r))%nat = true) by (apply Nat.ltb_lt; rewrite !app_length; change (length (u "!")) with 1%nat; unfold pystr in *; lia). rewrite Lt.
      destruct (IH r F fuel (mkitables (it_world T) (it_if T) (S (it_count T)))) as (cs & ms & T' & ->); [rewrite !app_length in L; change (length (u "!")) with 1%nat in L; change (length lf) with 1%nat in L; unfold pystr in *; lia|].
      eexists _, _, _. reflexivity.
  Qed.
  Lemma asa_refuses c r : comments c -> (forall T, command_ T (r ++ lf) = PFail) -> parse_file (c ++ r) = Err FailedParse.
  Proof using OK. clear PI1 PI2.
    intros C F. unfold FileText.parse_file. change [10%N] with lf. rewrite <- app_assoc.
    destruct (asa_comments c C (r ++ lf) F ltac:(now destruct r) (S (length (c ++ r ++ lf))) no_tables) as (cs & ms & T' & -> & _); [rewrite app_length; unfold pystr in *; lia|].
    destruct cs; [auto|]. destruct (r ++ lf) eqn:E; [now destruct r|reflexivity].
  Qed.
  Lemma ios_refuses c r : comments c -> (forall T, icommand_ T (u "<" ++ r ++ lf) = PFail) -> ios_parse (c ++ u "<" ++ r) = Err FailedParse.
  Proof using OK. clear PI1 PI2.
    intros C F. unfold IosFile.ios_parse. change [10%N] with lf. rewrite <- !app_assoc.
    destruct (ios_comments c C _ F (S (length (c ++ u "<" ++ r ++ lf))) no_itables) as (cs & ms & T' & ->); [rewrite app_length; unfold pystr in *; lia|].
    destruct cs; auto.
  Qed.

  Context (xml_read : pystr -> result xml) (unescape : pystr -> pystr)
          (ip_addr : pystr -> option addr) (ip_net : pystr -> pystr -> result net) (AV : addresses_valid ip_addr ip_net)
          (to_time : option pystr -> result Z) (strip : pystr -> pystr)
          (ip_net_strict : pystr -> bool) (download : option pystr -> option (list pystr)).
  Notation auto_parse := (auto_parse isalpha isalnum isspace py_int xml_read unescape ip_addr ip_net to_time strip ip_net_strict download).
  Notation auto_file := (auto_file isalpha isalnum isspace py_int xml_read unescape ip_addr ip_net to_time strip ip_net_strict download).
  Notation pf_parse o := (pf_parse unescape py_int ip_addr ip_net to_time strip ip_net_strict download (fetch_of o)).
  Notation acl_filter := (acl_filter isalpha isalnum isspace).
  Notation reads_as := (reads_as isalnum isspace).
  Notation named_well := (named_well isalnum).
  Notation written_as := (written_as isalnum isspace).

  Lemma removelast_lf (data : pystr) : removelast (data ++ [10%N]) = data.
  Proof using. apply removelast_last. Qed.
  Lemma auto_eq data f o : o <> BadOptions -> auto_parse data f o =
    match parse_file data with
    | Ok (cs, ms, T) => Ok (CAsa cs ms T)
    | Err _ => match ios_parse data with
               | Ok (cs, ms, T) => Ok (CIos cs ms T)
               | Err _ => match (do root <- xml_read (data ++ lf); pf_parse o root) with
                          | Ok (cfg, s) => Ok (CPf cfg s)
                          | Err _ => Err ValueError
                          end
               end
    end.
  Proof using.
    clear. intros B. unfold Auto.auto_parse, from_string, acl_parse, first_ok, asa_parser, ios_parser, pf_parser. rewrite removelast_lf. change [10%N] with lf.
    destruct o; [| |congruence]; (destruct (parse_file data) as [((cs & ms) & T)|]; [reflexivity|]); cbn [bind]; (destruct (ios_parse data) as [((cs & ms) & T)|]; [reflexivity|]); cbn [bind];
      (destruct (xml_read _) as [root|]; [|reflexivity]); cbn [bind]; (match goal with |- context[PfFile.pf_parse ?a ?b ?c ?d ?e ?f ?g ?h ?i ?j] => destruct (PfFile.pf_parse a b c d e f g h i j) as [(cfg & s)|] end; reflexivity).
  Qed.

  (** C70: a text that is written as an ASA/FWSM configuration is read as one, even if
      other formats would accept it. *)
  Theorem C70_asa : forall data f o cs ms T, o <> BadOptions -> reads_as data (CAsa cs ms T) -> well_named isalnum cs -> auto_parse data f o = Ok (CAsa cs ms T).
  Proof using OK PI1 PI2.
    intros data f o cs ms T B H W. inversion H as [? ? ? F|]; subst. rewrite auto_eq by auto. now rewrite (C57_complete _ _ _ OK _ PI1 PI2 _ _ _ _ F W).
  Qed.
  (** C70: a text that is written as an IOS configuration is read as one unless the ASA/FWSM
      reader accepts it; and the ASA/FWSM reader refuses every text in which a line with
      the word "version" comes first after comments. *)
  Theorem C70_ios : forall data f o cs ms T, o <> BadOptions -> reads_as data (CIos cs ms T) -> iwell_named cs ->
    auto_parse data f o = Ok (CIos cs ms T) \/ exists cs' ms' T', auto_parse data f o = Ok (CAsa cs' ms' T') /\ parse_file data = Ok (cs', ms', T').
  Proof using OK PI1 PI2.
    intros data f o cs ms T B H W. inversion H as [|? ? ? F N]; subst. rewrite auto_eq by auto. destruct (parse_file data) as [((cs' & ms') & T')|]; [right; eauto|left].
    now rewrite (C65_complete _ _ _ OK _ PI1 PI2 _ _ _ _ F W N).
  Qed.
  Theorem C70_version : forall c q f o, comments c -> o <> BadOptions ->
    parse_file (c ++ u "version" ++ q) = Err FailedParse /\
    (forall cs ms T, reads_as (c ++ u "version" ++ q) (CIos cs ms T) -> iwell_named cs -> auto_parse (c ++ u "version" ++ q) f o = Ok (CIos cs ms T)).
  Proof using OK PI1 PI2.
    intros c q f o C B. assert (P : parse_file (c ++ u "version" ++ q) = Err FailedParse) by (apply asa_refuses; [auto|intros T; rewrite <- app_assoc; apply asa_version]).
    split; [exact P|]. intros cs ms T R W. destruct (C70_ios _ f o _ _ _ B R W) as [H|(cs' & ms' & T' & _ & E)]; [auto|congruence].
  Qed.
  (** C70: what the reader returns is written in the text. *)
  Theorem C70_reads : forall data f o c, o <> BadOptions -> auto_parse data f o = Ok c -> named_well c ->
    match c with
    | CAsa _ _ _ | CIos _ _ _ => reads_as data c
    | CPf cfg s => exists root, xml_read (data ++ lf) = Ok root /\ pf_parse o root = Ok (cfg, s)
    end.
  Proof using OK PI1 PI2.
    intros data f o c B H W. rewrite auto_eq in H by auto. destruct (parse_file data) as [((cs & ms) & T)|] eqn:P.
    { injection H as <-. constructor. now apply (C57_reads _ _ _ OK _ PI1 PI2). }
    destruct (ios_parse data) as [((cs & ms) & T)|] eqn:Q.
    { injection H as <-. apply (C65_reads _ _ _ OK _ PI1 PI2) in Q as (F & N); [|exact W]. now constructor. }
    destruct (xml_read (data ++ lf)) as [root|]; [|discriminate H]. cbn [bind] in H. destruct (pf_parse o root) as [(cfg & s)|] eqn:R; [|discriminate H]. injection H as <-. eauto.
  Qed.
  (** C70: a text that starts with an angle bracket, comments or empty lines before it or
      not, is no ASA or IOS configuration: the XML reader decides, and every failure is a
      ValueError. *)
  Theorem C70_xml : forall c q f o, comments c -> o <> BadOptions ->
    (forall x, auto_parse (c ++ u "<" ++ q) f o = Ok x <-> exists root cfg s, xml_read ((c ++ u "<" ++ q) ++ lf) = Ok root /\ pf_parse o root = Ok (cfg, s) /\ x = CPf cfg s) /\
    (forall e, auto_parse (c ++ u "<" ++ q) f o = Err e -> e = ValueError).
  Proof using OK.
    intros c q f o C B. rewrite auto_eq by auto.
    rewrite asa_refuses by (auto; intros T; rewrite <- app_assoc; apply asa_angle). rewrite ios_refuses by (auto; intros T; apply ios_angle).
    destruct (xml_read _) as [root|e0] eqn:X; cbn [bind]; [destruct (pf_parse o root) as [(cfg & s)|] eqn:R|]; (split; [intros x; split; [intros H; try discriminate H; injection H as <-; eauto 8|intros (root' & cfg' & s' & A & A' & ->)]|intros ee EE]); try congruence.
  Qed.
  (** C70: ValueError means that no reader accepts the text. *)
  Theorem C70_none : forall data f o, o <> BadOptions ->
    auto_parse data f o = Err ValueError <->
    (exists e, parse_file data = Err e) /\ (exists e, ios_parse data = Err e) /\ (exists e, (do root <- xml_read (data ++ lf); pf_parse o root) = Err e).
  Proof using.
    clear. intros data f o B. rewrite auto_eq by auto.
    destruct (parse_file data) as [((cs & ms) & T)|e1]; [split; [discriminate|intros ((e & H) & _); discriminate H]|].
    destruct (ios_parse data) as [((cs & ms) & T)|e2]; [split; [discriminate|intros (_ & (e & H) & _); discriminate H]|].
    destruct (do root <- xml_read (data ++ lf); pf_parse o root) as [(cfg & s)|e3]; [split; [discriminate|intros (_ & _ & e & H); discriminate H]|split; eauto 10].
  Qed.

  (** C70: without options the aliases of a pfSense configuration that are URL tables are
      fetched. *)
  Theorem C70_default : forall data f, auto_parse data f NoOptions = auto_parse data f (Options true).
  Proof using. clear. intros data f. reflexivity. Qed.

  (** C70: filtering a configuration of unknown format keeps exactly the entries the
      expression means. *)
  Theorem C70_filter : forall data f o c query e, o <> BadOptions -> auto_parse data f o = Ok c -> named_well c ->
    written_as e query -> readable e -> (forall id, In id (expr_ids e) -> id_regular id) -> comparable c e ->
    exists limit, forall k, limit <= k -> exists l, acl_filter k c query = Ok l /\ NoDup l /\
      forall x, In x l <-> exists i, config_entry c x i /\ expr_means (config_groups c) i e.
  Proof using OK PI1 PI2 AV.
    intros data f o c query e B H W Q R I K. rewrite auto_eq in H by auto. destruct (parse_file data) as [((cs & ms) & T)|] eqn:P.
    { injection H as <-. destruct (C59_filter _ _ _ OK _ PI1 PI2 _ _ _ _ _ _ P W Q R I) as (limit & L). exists limit. intros k Lk. destruct (L k Lk) as (l & E & N & M).
      exists l. unfold FileFilter.file_filter in E. rewrite P in E. cbn [bind] in E. auto. }
    destruct (ios_parse data) as [((cs & ms) & T)|] eqn:P'.
    { injection H as <-. destruct (C67_filter _ _ _ OK _ PI1 PI2 _ _ _ _ _ _ P' W Q R I K) as (limit & L). exists limit. intros k Lk. destruct (L k Lk) as (l & E & N & M).
      exists l. unfold IosFilter.ios_filter in E. rewrite P' in E. cbn [bind] in E. auto. }
    destruct (xml_read (data ++ lf)) as [root|]; [|discriminate H]. cbn [bind] in H. destruct (pf_parse o root) as [(cfg & s)|] eqn:R'; [|discriminate H]. injection H as <-.
    destruct (C69_filter _ _ _ _ AV _ _ _ _ _ _ _ _ OK _ _ _ _ _ R' Q R I K) as (limit & L). exists limit. intros k Lk. destruct (L k Lk) as (l & E & N & M).
    exists l. unfold PfFile.pf_config_filter in E. rewrite R' in E. cbn [bind] in E. auto.
  Qed.
  Theorem C70_filter_refused : forall data f o c query, o <> BadOptions -> auto_parse data f o = Ok c -> named_well c ->
    ~ (exists e, written_as e query /\ readable e) -> exists err, forall k, acl_filter k c query = Err err.
  Proof using OK PI1 PI2 AV.
    intros data f o c query B H W Q. rewrite auto_eq in H by auto. destruct (parse_file data) as [((cs & ms) & T)|] eqn:P.
    { injection H as <-. destruct (C59_refused _ _ _ OK _ PI1 PI2 _ _ _ _ _ P W Q) as (err & L). exists err. intros k. destruct (L k) as (E & _).
      unfold FileFilter.file_filter in E. rewrite P in E. exact E. }
    destruct (ios_parse data) as [((cs & ms) & T)|] eqn:P'.
    { injection H as <-. destruct (C67_refused _ _ _ OK _ PI1 PI2 _ _ _ _ _ P' W Q) as (err & L). exists err. intros k. specialize (L k).
      unfold IosFilter.ios_filter in L. rewrite P' in L. exact L. }
    destruct (xml_read (data ++ lf)) as [root|]; [|discriminate H]. cbn [bind] in H. destruct (pf_parse o root) as [(cfg & s)|] eqn:R'; [|discriminate H]. injection H as <-.
    destruct (C69_refused _ _ _ _ AV _ _ _ _ _ _ _ _ OK _ _ _ _ R' Q) as (err & L). exists err. intros k. specialize (L k). unfold PfFile.pf_config_filter in L. rewrite R' in L. exact L.
  Qed.

  (** C71: a file with the bytes of a text, with a byte order mark or not, is read like the
      text; any other file is refused with a ValueError. *)
  Theorem C71_file : forall bytes data name o, file_bytes data bytes -> auto_file bytes name o = auto_parse data (Some name) o.
  Proof using. clear. intros bytes data name o H. unfold Auto.auto_file. apply sig_iff in H. now rewrite H. Qed.
  Theorem C71_refused : forall bytes name o, (forall data, ~ file_bytes data bytes) -> auto_file bytes name o = Err ValueError.
  Proof using.
    clear. intros bytes name o H. unfold Auto.auto_file. destruct (decode_sig bytes) as [data|e] eqn:D; [apply sig_iff in D; now destruct (H data)|].
    apply sig_err in D as ->. reflexivity.
  Qed.
  (** C71: the name of the file does not matter. *)
  Theorem C71_name : forall bytes data n n' o, auto_file bytes n o = auto_file bytes n' o /\ auto_parse data (Some n) o = auto_parse data None o.
  Proof using. clear. intros bytes data n n' o. split; [unfold Auto.auto_file; destruct (decode_sig bytes) as [d|]; [|reflexivity]; cbn [bind]|]; destruct o; reflexivity. Qed.
End Auto.

(** C71: bytes are the bytes of at most one text, and every text of Unicode characters has
    bytes. *)
Theorem C71_unique : forall l s s', file_bytes s l -> file_bytes s' l -> s = s'.
Proof. intros l s s' H H'. apply sig_iff in H, H'. congruence. Qed.
Theorem C71_total : forall s, (exists l, utf8_text s l) <-> Forall scalar s.
Proof.
  intros s. split.
  - intros (l & H). induction H as [|c b s l C _ IH]; constructor; [|auto]. destruct C; split; lia.
  - induction 1 as [|c s (L & N) _ (l & IH)]; [exists []; constructor|]. 
    assert (E : exists b, utf8_char c b) by (destruct (N.lt_ge_cases c 0x80); [eexists; now constructor|]; destruct (N.lt_ge_cases c 0x800); [eexists; now apply U8_2|]; destruct (N.lt_ge_cases c 0x10000); [eexists; now apply U8_3|eexists; now apply U8_4]).
    destruct E as (b & B). exists (b ++ l). now constructor.
Qed.

(** ** Examples *)
Definition C70_xml_read (t : pystr) : result xml := match t with 60%N :: _ => Ok C68_doc | _ => Err ValueError end.
Definition C70_read (data : pystr) : result aclconfig :=
  auto_parse ascii_alpha ascii_alnum ascii_space C52_int C70_xml_read (fun x => x) C68_addr C68_net (fun _ => Err ValueError) (fun x => x) (fun _ => false) (fun _ => None) data None NoOptions.
Definition C70_kind (r : result aclconfig) : result nat :=
  match r with Ok (CAsa _ _ _) => Ok 1 | Ok (CIos _ _ _) => Ok 2 | Ok (CPf _ _) => Ok 3 | Err e => Err e end.
Example C70_ex : C70_kind (C70_read C57_data) = Ok 1 /\ C70_kind (C70_read C65_data) = Ok 2 /\ C70_kind (C70_read (u "<pfsense/>")) = Ok 3 /\ C70_kind (C70_read (u "#")) = Err ValueError.
Proof. repeat split; vm_compute; reflexivity. Qed.
(** The hypotheses of C70_asa, C70_ios and C70_version are met. *)
Example C70_ex_asa : exists cs ms T, reads_as ascii_alnum ascii_space C57_data (CAsa cs ms T) /\ well_named ascii_alnum cs.
Proof. destruct C57_ex1 as (cs & ms & T & H & _ & W). exists cs, ms, T. split; [|auto]. constructor. apply (C57_reads _ _ _ C41_classes _ C52_int1 C52_int2 _ _ _ _ H W). Qed.
Example C70_ex_ios : exists q cs ms T, C65_data = [] ++ u "version" ++ q /\ reads_as ascii_alnum ascii_space C65_data (CIos cs ms T) /\ iwell_named cs /\ comments (line "!" ++ line "! rtr1" ++ lf).
Proof.
  destruct C65_ex1 as (cs & ms & T & H & _ & W). eexists _, cs, ms, T. split; [reflexivity|]. split; [|split; [auto|]].
  - apply (C65_reads _ _ _ C41_classes _ C52_int1 C52_int2) in H as (F & N); [|auto]. now constructor.
  - apply (CM_mark []); [intros []|]. apply (CM_mark (u " rtr1")); [intros I; repeat (destruct I as [I|I]; [discriminate I|]); destruct I|]. apply CM_empty, CM_nil.
Qed.
(** An IOS configuration without rules is read as an ASA configuration: the route and the
    rules bound to the interface are lost. *)
Definition C70_lost : pystr :=
  line "hostname rtr1" ++ line "interface Vlan10" ++ line " ip address 10.9.0.1 255.255.255.0" ++ line " ip access-group IN in" ++
  line "!" ++ u "ip route 0.0.0.0 0.0.0.0 192.0.2.1".
Example C70_ex_lost :
  C70_kind (C70_read C70_lost) = Ok 1 /\
  match ios_parse ascii_alpha ascii_alnum ascii_space C52_int C70_lost with Ok (cs, _, _) => map ikind_of cs = [2; 4; 0; 7] | Err _ => False end /\
  match parse_file ascii_alpha ascii_alnum ascii_space C52_int C70_lost with Ok (cs, _, _) => map kind_of cs = [0; 0; 7; 7] | Err _ => False end.
Proof. repeat split; vm_compute; reflexivity. Qed.
(** C71: the euro sign; a mark; a byte that is none. *)
Example C71_ex : file_bytes (u "!" ++ [8364%N]) ([239; 187; 191] ++ [33; 226; 130; 172])%N /\ file_bytes (u "!" ++ [8364%N]) [33; 226; 130; 172]%N /\
  (forall s, ~ file_bytes s [33; 237; 160; 128]%N).
Proof. split; [|split]; [apply sig_iff; reflexivity..|]. intros s H. apply sig_iff in H. discriminate H. Qed.

Print Assumptions C70_asa.
Print Assumptions C70_ios.
Print Assumptions C70_version.
Print Assumptions C70_reads.
Print Assumptions C70_xml.
Print Assumptions C70_none.
Print Assumptions C70_filter.
Print Assumptions C70_filter_refused.
Print Assumptions C71_file.
Print Assumptions C71_refused.
Print Assumptions C71_name.
Print Assumptions C71_unique.
Print Assumptions C71_total.
