(** C78: the web application shows what was uploaded last. *)
From Coq Require Import Lia String.
From Verif.Model Require Import Base Ip Hosts Groups Rules Caf Nat Iface Peg Ids AddrText Ports AclText Define GroupText ObjText LineText NatText FileText FileFilter IosText IosFile IosFilter Pfsense PfFile CafText Detect Auto Resolve AutoResolve Server.
From Verif.Model Require Config.
From Verif.Spec Require IosTextSpec.
From Verif.Spec Require Import AddrSpec AddrTextSpec GroupSpec RefSpec CafSpec CafMeanSpec CafTextSpec AclTextSpec GroupTextSpec ObjTextSpec FilterSpec LineTextSpec FileTextSpec FileConfigSpec ConfigSpec FileFilterSpec IosFileSpec IosConfigSpec IosFilterSpec PfSpec PfFileSpec PfFilterSpec AutoSpec PipelineSpec ResolveSpec AutoResolveSpec ServerSpec.
From Verif.Proofs Require Import AndFacts GroupFacts DictFacts CafExpr PfFacts FileGood PfIface ExpandGood ShownFacts Utf8Facts.
From Verif.Proofs Require GroupOps.
From Verif.Props Require Config Define Ifaces FileConfig IosConfig.
From Verif.Props Require Import Filter CafText AclText Detect FileText FileFilter IosFileText IosFilter PfAliases PfFile PfFilter Auto Resolve Pipeline AutoResolve.
Local Open Scope list_scope.

(** ** A result, once obtained, does not depend on how many calls may be nested *)
Lemma fold_mono {A S} (f g : S -> A -> result S) : (forall s a s', f s a = Ok s' -> g s a = Ok s') ->
  forall l s s', fold_r f l s = Ok s' -> fold_r g l s = Ok s'.
Proof.
  intros H. induction l as [|a l IH]; intros s s' E; cbn [fold_r] in *; [exact E|]. destruct (f s a) as [s1|] eqn:F; [|discriminate]. rewrite (H _ _ _ F). cbn [bind] in *. auto.
Qed.
Lemma expand_r_mono {X} (sub : X -> option gid) h : forall k k' l r, k <= k' -> expand_r sub h k l = Ok r -> expand_r sub h k' l = Ok r.
Proof.
  induction k as [|k IH]; intros k' l r L E; [discriminate|]. destruct k' as [|k']; [lia|]. revert r E. cbn [expand_r]. induction l as [|x l IHl]; intros r E; [exact E|]. destruct (sub x) as [g|].
  - destruct (expand_r sub h k (objs h g)) as [a|] eqn:A; [|discriminate]. rewrite (IH k' _ _ ltac:(lia) A). cbn [bind] in *.
    match type of E with bind ?z _ = _ => destruct z as [b|] eqn:B; [|discriminate] end. rewrite (IHl _ eq_refl). exact E.
  - cbn [bind] in *. match type of E with bind ?z _ = _ => destruct z as [b|] eqn:B; [|discriminate] end. rewrite (IHl _ eq_refl). exact E.
Qed.
Lemma expand_all_mono {X} (K : gkind X) k k' h gs h' : k <= k' -> expand_all K k h gs = Ok h' -> expand_all K k' h gs = Ok h'.
Proof.
  intros L. apply fold_mono. intros s g s' E. unfold expand_in in *. destruct (expand_r (k_sub K) s k (objs s g)) as [l|] eqn:A; [|discriminate]. now rewrite (expand_r_mono _ _ _ _ _ _ L A).
Qed.
Lemma acl_expand_mono k k' c c' : k <= k' -> acl_expand k c = Ok c' -> acl_expand k' c = Ok c'.
Proof.
  intros L. unfold acl_expand, config_expand. intros E.
  repeat match type of E with
  | bind (bind (expand_all ?K k ?h ?g) _) _ = _ =>
      let A := fresh "A" in destruct (expand_all K k h g) eqn:A; [|discriminate]; rewrite (expand_all_mono K k k' _ _ _ L A); cbn [bind] in *
  end. exact E.
Qed.

Lemma and_r_mono (a b a' b' : result bool) x : (forall x, a = Ok x -> a' = Ok x) -> (forall x, b = Ok x -> b' = Ok x) -> and_r a b = Ok x -> and_r a' b' = Ok x.
Proof. intros A B. destruct a as [[]|]; cbn [and_r]; try discriminate; rewrite (A _ eq_refl); cbn [and_r bind]; auto. Qed.
Lemma rule_and_mono k k' h r i b : k <= k' -> rule_and k h r i = Ok b -> rule_and k' h r i = Ok b.
Proof.
  intros L. destruct i as [r'|n]; cbn [rule_and].
  - destruct (ids_and (r_id r) (r_id r')) as [[]|]; cbn [bind]; auto. apply and_r_mono; intros x; now apply and_mono.
  - apply any_r_mono. intros s x _. unfold nat_side_and. destruct s as [s|]; [|auto]. destruct (node_of (ns_src s)) as [o|]; cbn [bind]; [|auto]. destruct (node_of (ns_dst s)) as [o'|]; cbn [bind]; [|auto].
    destruct o, o'; auto; [apply and_r_mono; intros y| |]; now apply and_mono.
Qed.
Lemma caf_run_mono k k' h get c : k <= k' -> forall rules l, caf_run k h get c rules = Ok l -> caf_run k' h get c rules = Ok l.
Proof.
  intros L. induction c as [r|c IH|o a IHa b IHb]; intros rules l; cbn [caf_run].
  - apply fold_mono. intros s x s' E. destruct (any_r (fun i => rule_and k h i (get x)) [r]) as [hit|] eqn:A; [|discriminate].
    erewrite any_r_mono; [exact E| |exact A]. intros i b _. now apply rule_and_mono.
  - apply IH.
  - intros E. destruct (caf_run k h get a rules) as [x|] eqn:A; [|discriminate]. rewrite (IHa _ _ A). cbn [bind] in *. destruct (caf_run k h get b rules) as [y|] eqn:B; [|discriminate]. now rewrite (IHb _ _ B).
Qed.
Lemma config_filter_mono k k' h get c rules nats l : k <= k' -> config_filter k h get c rules nats = Ok l -> config_filter k' h get c rules nats = Ok l.
Proof.
  intros L E. unfold config_filter in *. destruct (caf_run k h get c rules) as [x|] eqn:A; [|discriminate]. rewrite (caf_run_mono _ _ _ _ _ L _ _ A). cbn [bind] in *.
  destruct (caf_run k h get c (concat nats)) as [y|] eqn:B; [|discriminate]. now rewrite (caf_run_mono _ _ _ _ _ L _ _ B).
Qed.

(** ** Arguments *)
Lemma given_asks a : (given a = None /\ ~ asks a) \/ (exists s, given a = Some s /\ a = Some s /\ asks a).
Proof.
  unfold asks. destruct a as [[|x s]|]; cbn [given]; [left|right|left].
  - split; [reflexivity|]. intros (_ & N). now apply N.
  - exists (x :: s). repeat split; discriminate.
  - split; [reflexivity|]. intros (N & _). now apply N.
Qed.

Section Server.
  Context (isalpha isalnum isspace : N -> bool) (OK : classes_ok isalpha isalnum isspace).
  Context (py_int : pystr -> option Z)
          (PI1 : forall n, n <> [] -> forallb AddrText.is_digit n = true -> py_int n <> None)
          (PI2 : forall n, In n port_code -> py_int n = None).
  Context (xml_read : pystr -> result xml) (unescape : pystr -> pystr)
          (ip_addr : pystr -> option addr) (ip_net : pystr -> pystr -> result net) (AV : addresses_valid ip_addr ip_net)
          (to_time : option pystr -> result Z) (strip : pystr -> pystr)
          (ip_net_strict : pystr -> bool) (download : option pystr -> option (list pystr)).
  Notation auto_parse := (auto_parse isalpha isalnum isspace py_int xml_read unescape ip_addr ip_net to_time strip ip_net_strict download).
  Notation auto_file := (auto_file isalpha isalnum isspace py_int xml_read unescape ip_addr ip_net to_time strip ip_net_strict download).
  Notation acl_filter := (acl_filter isalpha isalnum isspace).
  Notation named_well := (named_well isalnum).
  Notation written_as := (written_as isalnum isspace).
  Notation after := (after isalpha isalnum isspace py_int xml_read unescape ip_addr ip_net to_time strip ip_net_strict download).
  Notation answer := (answer isalpha isalnum isspace py_int xml_read unescape ip_addr ip_net to_time strip ip_net_strict download).
  Notation serve := (serve isalpha isalnum isspace py_int xml_read unescape ip_addr ip_net to_time strip ip_net_strict download).

  (** A file with these bytes is read as this configuration; URL tables are not fetched. *)
  Definition reads (bytes : list N) (c : aclconfig) : Prop :=
    exists data, file_bytes data bytes /\ auto_parse data None (Options false) = Ok c.
  Notation latest := (latest reads).
  Notation uploads := (uploads reads).

  Lemma reads_file bytes f c : reads bytes c <-> auto_file bytes f (Options false) = Ok c.
  Proof using.
    clear. split.
    - intros (data & B & H). rewrite (C71_file _ _ _ _ _ _ _ _ _ _ _ _ _ _ _ _ B). rewrite <- H. now apply C71_name.
    - unfold Auto.auto_file. destruct (decode_sig bytes) as [data|] eqn:D; [|discriminate]. cbn [bind]. intros H. exists data. split; [now apply sig_iff|]. rewrite <- H. symmetry. now apply (C71_name _ _ _ _ _ _ _ _ _ _ _ _ [] data f f).
  Qed.
  Lemma file_err bytes f e : auto_file bytes f (Options false) = Err e -> e = ValueError.
  Proof using.
    clear. unfold Auto.auto_file. destruct (decode_sig bytes) as [data|e'] eqn:D; cbn [bind].
    - rewrite auto_eq by discriminate. destruct (parse_file _ _ _ _ _) as [((cs & ms) & T)|]; [discriminate|]. destruct (ios_parse _ _ _ _ _) as [((cs & ms) & T)|]; [discriminate|].
      match goal with |- match ?z with _ => _ end = _ -> _ => destruct z as [(cfg & s)|] end; [discriminate|]. now intros [= <-].
    - intros [= <-]. now apply sig_err in D.
  Qed.
  Lemma named bytes c n : reads bytes c -> (called c n <-> n = config_name c).
  Proof using.
    clear. intros (data & _ & H). apply auto_cases in H as [(cs & ms & T & -> & P)|[(cs & ms & T & -> & P)|(cfg & s & root & -> & P)]]; [| | |discriminate]; cbn [called config_name].
    - destruct (FileConfig.C58_contents _ _ _ _ _ _ _ _ P) as (_ & _ & _ & E1 & E2). unfold name_parts. rewrite E1, E2. reflexivity.
    - destruct (IosConfig.C66_contents _ _ _ _ _ _ _ _ P) as (_ & _ & E1 & E2 & _). unfold name_parts. rewrite E1, E2. reflexivity.
    - now rewrite (C68_name _ _ _ _ _ _ _ _ _ _ _ _ P).
  Qed.
  Lemma upload_file r n c : uploads r n c <-> exists bytes f, r = Add bytes f /\ auto_file bytes f (Options false) = Ok c /\ n = config_name c.
  Proof using.
    clear. split.
    - intros U. inversion U as [bytes f c0 n0 R K]; subst. exists bytes, f. split; [reflexivity|]. split; [now apply reads_file|]. now apply (named _ _ _ R).
    - intros (bytes & f & -> & E & ->). apply reads_file in E. econstructor; [exact E|]. now apply (named _ _ _ E).
  Qed.

  (** ** The shelf holds the latest uploads *)
  Section Requests.
  Context (objects : aclconfig -> store * (nat -> nat)) (order : nat -> list elem -> list elem) (depth : nat).
  Notation after := (after objects order depth).
  Notation answer := (answer objects order depth).
  Notation serve := (serve objects order depth).
  Lemma after_snoc h r : after (h ++ [r]) = fst (serve (after h) r).
  Proof using. clear. unfold Server.after. now rewrite fold_left_app. Qed.
  Lemma serve_get d r n c : dget (fst (serve d r)) n = Some c <-> uploads r n c \/ (dget d n = Some c /\ forall c', ~ uploads r n c').
  Proof using.
    clear. destruct r as [|bytes f|name exp caf]; cbn [Server.serve fst].
    - split; [intros E; right; split; [exact E|intros c' U; inversion U]|intros [U|(E & _)]; [inversion U|exact E]].
    - unfold Server.add. destruct (auto_file bytes f (Options false)) as [c0|e] eqn:E.
      + cbn [fst]. rewrite dget_dset. destruct (GroupOps.str_eqb_spec (config_name c0) n) as [<-|X].
        * split; [intros [= <-]; left; apply upload_file; eauto|]. intros [U|(_ & N)]; [apply upload_file in U as (b' & f' & [= <- <-] & E' & _); congruence|]. exfalso. apply (N c0), upload_file. eauto.
        * split; [intros G; right; split; [exact G|]; intros c' U; apply upload_file in U as (b' & f' & [= <- <-] & E' & ->); congruence|].
          intros [U|(G & _)]; [|exact G]. apply upload_file in U as (b' & f' & [= <- <-] & E' & ->). congruence.
      + assert (Nu : forall c', ~ uploads (Add bytes f) n c') by (intros c' U; apply upload_file in U as (b' & f' & [= <- <-] & E' & _); congruence).
        assert (Sd : fst (match e with TypeError => (d, ToIndex) | _ => (d, Failed e) end) = d) by (destruct e; reflexivity). rewrite Sd.
        split; [intros G; right; auto|]. intros [U|(G & _)]; [destruct (Nu _ U)|exact G].
    - split; [intros E; right; split; [exact E|intros c' U; inversion U]|intros [U|(E & _)]; [inversion U|exact E]].
  Qed.
  Lemma latest_snoc h r n c : latest (h ++ [r]) n c <-> uploads r n c \/ (latest h n c /\ forall c', ~ uploads r n c').
  Proof using.
    clear. split.
    - intros [before x later E U N]. destruct later as [|y later] using rev_ind.
      + apply app_inj_tail in E as (-> & ->). now left.
      + clear IHlater. assert (E' : h ++ [r] = (before ++ x :: later) ++ [y]) by (rewrite E, <- app_assoc; reflexivity). apply app_inj_tail in E' as (-> & ->). right. split.
        * econstructor; [reflexivity|exact U|]. intros r' c' I. apply N, in_or_app. now left.
        * intros c'. apply N, in_or_app. right. now left.
    - intros [U|([before x later -> U N] & Nr)].
      + econstructor; [reflexivity|exact U|]. intros r' c' [].
      + exists before x (later ++ [r]); [now rewrite <- app_assoc|exact U|]. intros r' c' I. apply in_app_or in I as [I|[<-|[]]]; auto.
  Qed.
  Lemma after_latest h n c : dget (after h) n = Some c <-> latest h n c.
  Proof using.
    clear. revert c. induction h as [|r h IH] using rev_ind; intros c.
    - split; [discriminate|]. intros [before x later E _ _]. destruct before; discriminate.
    - rewrite after_snoc, serve_get, latest_snoc, IH. reflexivity.
  Qed.

  (** C78: an upload is accepted exactly if its bytes are a file that is read; the answer
      leads to the page of its name.  Any other upload ends with a ValueError that nothing
      catches. *)
  Theorem C78_upload : forall history bytes filename,
    (forall c n, reads bytes c -> called c n -> answer history (Add bytes filename) = ToShow n) /\
    ((forall c, ~ reads bytes c) -> answer history (Add bytes filename) = Failed ValueError).
  Proof using.
    clear. intros history bytes f. unfold Server.answer. cbn [Server.serve]. unfold Server.add. split.
    - intros c n R K. apply (named _ _ _ R) in K as ->. apply (reads_file bytes f) in R. now rewrite R.
    - intros N. destruct (auto_file bytes f (Options false)) as [c|e] eqn:E; [apply reads_file in E; destruct (N _ E)|]. apply file_err in E as ->. reflexivity.
  Qed.
  (** C78: the index page lists exactly the names of accepted uploads, each once. *)
  Theorem C78_index : forall history, exists l, answer history Index = Names l /\ NoDup l /\ forall n, In n l <-> exists c, latest history n c.
  Proof using.
    clear. intros history. eexists. split; [reflexivity|]. split.
    - induction history as [|r h IH] using rev_ind; [constructor|]. rewrite after_snoc. destruct r as [|bytes f|]; cbn [Server.serve fst]; auto. unfold Server.add.
      destruct (auto_file bytes f (Options false)) as [c|e]; [|destruct e; exact IH]. cbn [fst]. now apply dset_nodup.
    - intros n. assert (K : In n (map fst (after history)) <-> dget (after history) n <> None) by (rewrite dget_none; destruct (in_dec str_dec n (map fst (after history))); tauto). rewrite K. split; [destruct (dget (after history) n) as [c|] eqn:E; [intros _; exists c; now apply after_latest|intros N; now destruct N]|intros (c & L); apply after_latest in L; congruence].
  Qed.
  (** C78: a page is missing exactly if nothing was accepted under its name. *)
  Theorem C78_missing : forall history n exp caf, answer history (Show n exp caf) = NotFound <-> forall c, ~ latest history n c.
  Proof using.
    clear. intros history n exp caf. unfold Server.answer. cbn [Server.serve snd]. unfold Server.show. destruct (dget (after history) n) as [c|] eqn:E.
    - split; [|intros N; apply after_latest in E; destruct (N _ E)]. intros A. exfalso.
      destruct (match given exp with Some _ => acl_expand depth c | None => Ok c end) as [c'|]; [|discriminate]. destruct (match given caf with Some s => _ | None => _ end) as (a & b). discriminate A.
    - split; [|reflexivity]. intros _ c L. apply after_latest in L. congruence.
  Qed.
  (** C78: looking at pages changes nothing: expanded groups are not kept. *)
  Theorem C78_kept : forall h1 h2 n exp caf r, answer (h1 ++ Show n exp caf :: h2) r = answer (h1 ++ h2) r /\ answer (h1 ++ Index :: h2) r = answer (h1 ++ h2) r.
  Proof using. clear. intros. unfold Server.answer, Server.after. rewrite !fold_left_app. split; reflexivity. Qed.
  End Requests.

  (** ** Pages *)
  Lemma shows_config bytes c exp : reads bytes c -> named_well c ->
    exists limit c', shows exp c c' /\ (c' = c \/ expanded c c') /\
      forall k, limit <= k -> (match given exp with Some _ => acl_expand k c | None => Ok c end) = Ok c'.
  Proof using OK PI1 PI2 AV.
    intros (data & _ & H) W. destruct (given_asks exp) as [(-> & N)|(s & -> & _ & A)].
    - exists 0, c. split; [split; [tauto|auto]|]. auto.
    - destruct (C72_expand _ _ _ OK _ PI1 PI2 _ _ _ _ AV _ _ _ _ data None (Options false) c ltac:(discriminate) H W) as (limit & L). destruct (L limit (le_n _)) as (c' & E & X & _).
      exists limit, c'. split; [split; [auto|tauto]|]. split; [auto|]. intros k Lk. eapply acl_expand_mono; eassumption.
  Qed.
  Lemma show_eq objects order depth history n c exp caf c' : latest history n c ->
    (match given exp with Some _ => acl_expand depth c | None => Ok c end) = Ok c' ->
    answer objects order depth history (Show n exp caf) =
      let (selection, warning) := match given caf with Some s => select isalpha isalnum isspace objects order depth c' s | None => (None, None) end in Shown (mkpage c' selection warning).
  Proof using.
    clear. intros L E. unfold Server.answer. cbn [Server.serve snd]. unfold Server.show. apply (after_latest objects order depth) in L. rewrite L, E. reflexivity.
  Qed.
  Lemma latest_reads history n c : latest history n c -> exists bytes, reads bytes c.
  Proof using. clear. intros [before r later _ U _]. inversion U; subst. eauto. Qed.

  (** C78: the page of a name shows the configuration uploaded last under it, with its groups
      expanded if that is asked for, whatever happened before. *)
  Theorem C78_shown : forall history n c exp caf, latest history n c -> named_well c -> ~ asks caf ->
    exists limit c', shows exp c c' /\ forall objects order depth, limit <= depth ->
      answer objects order depth history (Show n exp caf) = Shown (mkpage c' None None).
  Proof using OK PI1 PI2 AV.
    intros history n c exp caf L W N. destruct (latest_reads _ _ _ L) as (bytes & R). destruct (shows_config _ _ exp R W) as (limit & c' & Sh & _ & E).
    exists limit, c'. split; [exact Sh|]. intros objects order depth Ld. rewrite (show_eq _ _ _ _ _ _ _ _ _ L (E _ Ld)). destruct (given_asks caf) as [(-> & _)|(s & _ & _ & A)]; [reflexivity|tauto].
  Qed.

  (** C78: with a filter it selects exactly the entries of that configuration that the
      expression means.  There is a warning exactly if one of them is a rule of a list bound
      in an interface block of IOS. *)
  Theorem C78_selects : forall history n c exp query e, latest history n c -> named_well c -> query <> [] ->
    written_as e query -> readable e -> (forall id, In id (expr_ids e) -> id_regular id) -> comparable c e ->
    exists c', shows exp c c' /\
      forall objects netgrp other, shown c' (fst (objects c')) (snd (objects c')) netgrp other -> finitely_many c' (fst (objects c')) (snd (objects c')) ->
      exists limit, forall order depth, any_order order -> limit <= depth ->
      exists selection warning, answer objects order depth history (Show n exp (Some query)) = Shown (mkpage c' (Some selection) warning) /\
        (warning = Some TypeError /\ (exists x r a, config_entry c' x (Rules.IRule r) /\ expr_means (config_groups c') (Rules.IRule r) e /\ r_id r = Some a /\ bound_in c' a) \/
         warning = None /\ ~ (exists x r a, config_entry c' x (Rules.IRule r) /\ expr_means (config_groups c') (Rules.IRule r) e /\ r_id r = Some a /\ bound_in c' a) /\
         forall x i, config_entry c' x i -> (In (EObj (snd (objects c') x)) selection <-> expr_means (config_groups c') i e)).
  Proof using OK PI1 PI2 AV.
    intros history n c exp query e L W Nq Q Rd Ir Cm. destruct (latest_reads _ _ _ L) as (bytes & R). destruct (shows_config _ _ exp R W) as (l1 & c' & Sh & X & Ex).
    destruct R as (data & _ & H). assert (NB : Options false <> BadOptions) by discriminate.
    exists c'. split; [exact Sh|]. intros objects netgrp other So Fi.
    assert (F : exists limit, forall k, limit <= k -> exists l, acl_filter k c' query = Ok l /\ NoDup l /\ forall x, In x l <-> exists i, config_entry c' x i /\ expr_means (config_groups c') i e).
    { destruct (same_entries c c' X) as (Ec & _). rewrite Ec. destruct X as [->|X].
      - exact (C70_filter _ _ _ OK _ PI1 PI2 _ _ _ _ AV _ _ _ _ data None (Options false) c query e NB H W Q Rd Ir Cm).
      - exact (C72_filter _ _ _ OK _ PI1 PI2 _ _ _ _ AV _ _ _ _ data None (Options false) c c' query e NB H W X Q Rd Ir Cm). }
    destruct F as (l2 & F). destruct (F l2 (le_n _)) as (l & El & _ & Sl).
    assert (Fn : forall x i j, config_entry c' x i -> config_entry c' x j -> i = j) by (destruct (entries_of _ _ _ OK _ PI1 PI2 _ _ _ _ AV _ _ _ _ data None (Options false) c c' NB H W X) as (Fn & _); exact Fn).
    assert (En : forall x, In x l -> exists i, config_entry c' x i) by (intros x I; apply Sl in I as (i & A & _); eauto).
    destruct (C73_fails _ _ _ OK _ PI1 PI2 _ _ _ _ AV _ _ _ _ data None (Options false) c c' NB H W X _ _ _ _ So Fi l En) as (l3 & Fa).
    set (bad := exists x r a, config_entry c' x (Rules.IRule r) /\ expr_means (config_groups c') (Rules.IRule r) e /\ r_id r = Some a /\ bound_in c' a).
    assert (Bd : (exists x r a, In x l /\ config_entry c' x (Rules.IRule r) /\ r_id r = Some a /\ bound_in c' a) <-> bad).
    { unfold bad. split; intros (x & r & a & A).
      - destruct A as (I & A & B). apply Sl in I as (i & A' & M). rewrite (Fn _ _ _ A' A) in M. exists x, r, a. auto.
      - destruct A as (A & M & B). exists x, r, a. split; [apply Sl; eauto|auto]. }
    assert (Sel : forall depth order, l2 <= depth -> select isalpha isalnum isspace objects order depth c' query =
      match acl_resolve c' (fst (objects c')) (snd (objects c')) order depth l with (after, Err e) => (Some after, Some e) | (_, Ok selection) => (Some selection, None) end).
    { intros depth order Ld. unfold select. rewrite filter_eq in El |- *. destruct (caf_read isalpha isalnum isspace (config_groups c') query) as [(h & x)|]; [|discriminate]. cbn [bind] in *. now rewrite (config_filter_mono _ _ _ _ _ _ _ _ Ld El). }
    assert (Gq : given (Some query) = Some query) by (destruct query; [now destruct Nq|reflexivity]).
    assert (D : snd (acl_resolve c' (fst (objects c')) (snd (objects c')) (fun _ l => l) (l1 + l2 + l3) l) = Err TypeError \/ snd (acl_resolve c' (fst (objects c')) (snd (objects c')) (fun _ l => l) (l1 + l2 + l3) l) <> Err TypeError).
    { destruct (snd (acl_resolve _ _ _ _ _ _)) as [|[]]; first [now left|now right]. }
    destruct D as [D|D].
    - exists (l1 + l2 + l3). intros order depth O Ld. assert (B0 : bad) by (apply Bd, (Fa (fun _ l => l) (l1 + l2 + l3)); [intros k z; reflexivity|lia|exact D]).
      pose proof (proj2 (Fa order depth O ltac:(lia)) (proj2 Bd B0)) as E. rewrite (show_eq _ _ _ _ _ _ _ _ _ L (Ex depth ltac:(lia))), Gq, Sel by lia.
      destruct (acl_resolve c' _ _ order depth l) as (after & res). cbn [snd] in E. subst res. exists after, (Some TypeError). split; [reflexivity|]. left. auto.
    - assert (NB0 : ~ bad) by (intros B0; apply D, (Fa (fun _ l => l) (l1 + l2 + l3)); [intros k z; reflexivity|lia|now apply Bd]).
      destruct (C73_result _ _ _ OK _ PI1 PI2 _ _ _ _ AV _ _ _ _ data None (Options false) c c' NB H W X _ _ _ _ So Fi l En) as (l4 & Re).
      { intros x r a I A Ia Bi. apply NB0, Bd. exists x, r, a. auto. }
      exists (l1 + l2 + l3 + l4). intros order depth O Ld. destruct (Re order depth O ltac:(lia)) as (after & res & E & S1 & _).
      rewrite (show_eq _ _ _ _ _ _ _ _ _ L (Ex depth ltac:(lia))), Gq, Sel by lia. rewrite E. exists res, None. split; [reflexivity|]. right. split; [reflexivity|]. split; [exact NB0|].
      intros x i A. rewrite (S1 _ _ A), Sl. split; [intros (j & A' & M); now rewrite (Fn _ _ _ A A')|eauto].
  Qed.

  (** C78: a text that is no filter expression is reported; the configuration is shown
      without a selection. *)
  Theorem C78_no_filter : forall history n c exp query, latest history n c -> named_well c -> query <> [] ->
    ~ (exists e, written_as e query /\ readable e) ->
    exists limit c' err, shows exp c c' /\ forall objects order depth, limit <= depth ->
      answer objects order depth history (Show n exp (Some query)) = Shown (mkpage c' None (Some err)).
  Proof using OK PI1 PI2 AV.
    intros history n c exp query L W Nq Q. destruct (latest_reads _ _ _ L) as (bytes & R). destruct (shows_config _ _ exp R W) as (limit & c' & Sh & X & Ex).
    destruct R as (data & _ & H).
    assert (A : acyclic (config_groups c')).
    { destruct (parsed_good _ _ _ OK _ PI1 PI2 _ _ _ _ AV _ _ _ _ data None (Options false) c ltac:(discriminate) H W) as (G & _). assert (OA : forall h, heap_ok h -> acyclic h) by (intros h0 G0; pose proof (good_acyclic _ (ok_tables h0 G0)) as A; cbn [only_groups tb_world w_net snd] in A; exact A).
      destruct X as [->|X]; [exact (OA _ G)|].
      destruct (expanded_frame _ _ X) as (_ & _ & _ & E4 & E5). destruct X as (_ & F & _). rewrite <- E4, <- E5 in F.
      destruct (tables_listed _ _ _ _ _ _ _ _ _ _ _ _ data None (Options false) c ltac:(discriminate) H) as (It & _). apply (class_same _ _ _ (fun g => In g (gt_network (group_tables c)))) in F; [|intros g; symmetry; apply It].
      exact (OA _ (flat_ok _ _ _ G F)). }
    destruct (caf_read isalpha isalnum isspace (config_groups c') query) as [r|err] eqn:E; [exfalso; apply Q; apply (C41_accepted _ _ _ OK _ query A); eauto|].
    exists limit, c', err. split; [exact Sh|]. intros objects order depth Ld. rewrite (show_eq _ _ _ _ _ _ _ _ _ L (Ex depth Ld)).
    assert (Gq : given (Some query) = Some query) by (destruct query; [now destruct Nq|reflexivity]). rewrite Gq. unfold select. rewrite filter_eq, E. reflexivity.
  Qed.
  Lemma same_meaning bytes c c' e : reads bytes c -> named_well c -> expanded c c' -> readable e -> without_ANY e \/ no_any_objects (config_groups c) ->
    forall i, expr_means (config_groups c) i e <-> expr_means (config_groups c') i e.
  Proof using OK PI1 PI2 AV.
    intros (data & _ & H) W X R A. assert (B : Options false <> BadOptions) by discriminate. destruct (parsed_good _ _ _ OK _ PI1 PI2 _ _ _ _ AV _ _ _ _ data None (Options false) c B H W) as (G & _).
    destruct (expanded_frame _ _ X) as (_ & _ & _ & E4 & E5). destruct X as (_ & F & _). rewrite <- E4, <- E5 in F.
    destruct (tables_listed _ _ _ _ _ _ _ _ _ _ _ _ data None (Options false) c B H) as (It & _). apply (class_same _ _ _ (fun g => In g (gt_network (group_tables c)))) in F; [|intros g; symmetry; apply It].
    intros i. apply (expr_ext _ _ i (item_srcs i ++ item_dsts i) (fun _ J => J)). intros t n y Int Rt _. apply (net_flat _ _ _ G F). destruct A as [A|A]; [left|now right].
    inversion Rt; subst; try (repeat split; discriminate); destruct (A _ Int) as (A1 & A2 & A3); congruence.
  Qed.
  (** C78: expanding the groups changes neither the warning nor which entries are selected,
      unless the filter asks for ANY and a group holds "any" objects. *)
  Theorem C78_same : forall history n c exp exp' query e, latest history n c -> named_well c -> query <> [] ->
    written_as e query -> readable e -> (forall id, In id (expr_ids e) -> id_regular id) -> comparable c e ->
    without_ANY e \/ no_any_objects (config_groups c) -> ~ asks exp -> asks exp' ->
    exists c', expanded c c' /\
      forall objects netgrp other netgrp' other',
      shown c (fst (objects c)) (snd (objects c)) netgrp other -> finitely_many c (fst (objects c)) (snd (objects c)) ->
      shown c' (fst (objects c')) (snd (objects c')) netgrp' other' -> finitely_many c' (fst (objects c')) (snd (objects c')) ->
      exists limit, forall order depth, any_order order -> limit <= depth ->
      exists selection selection' warning,
        answer objects order depth history (Show n exp (Some query)) = Shown (mkpage c (Some selection) warning) /\
        answer objects order depth history (Show n exp' (Some query)) = Shown (mkpage c' (Some selection') warning) /\
        (warning = None -> forall x i, config_entry c x i -> (In (EObj (snd (objects c) x)) selection <-> In (EObj (snd (objects c') x)) selection')).
  Proof using OK PI1 PI2 AV.
    intros history n c exp exp' query e L W Nq Q Rd Ir Cm A Nx Ax. destruct (latest_reads _ _ _ L) as (bytes & R).
    destruct (C78_selects history n c exp query e L W Nq Q Rd Ir Cm) as (c0 & S0 & P0). rewrite (proj2 S0 Nx) in P0. clear S0 c0.
    destruct (C78_selects history n c exp' query e L W Nq Q Rd Ir Cm) as (c' & S1 & P1). apply (fun S => proj1 S Ax) in S1.
    exists c'. split; [exact S1|]. intros objects netgrp other netgrp' other' So Fi So' Fi'.
    destruct (P0 objects netgrp other So Fi) as (l0 & Q0), (P1 objects netgrp' other' So' Fi') as (l1 & Q1). exists (l0 + l1). intros order depth O Ld.
    destruct (Q0 order depth O ltac:(lia)) as (s & w & E & M), (Q1 order depth O ltac:(lia)) as (s' & w' & E' & M').
    pose proof (same_meaning _ _ _ e R W S1 Rd A) as D. destruct (same_entries c c' (or_intror S1)) as (Ec & _ & Bc). rewrite Ec in M'.
    destruct M as [(-> & B)|(-> & NB & M)], M' as [(-> & B')|(-> & NB' & M')].
    - exists s, s', (Some TypeError). split; [exact E|]. split; [exact E'|discriminate].
    - exfalso. apply NB'. destruct B as (x & r & a & B1 & B2 & B3 & B4). exists x, r, a. split; [exact B1|]. split; [now apply D|]. split; [exact B3|now apply Bc].
    - exfalso. apply NB. destruct B' as (x & r & a & B1 & B2 & B3 & B4). exists x, r, a. split; [exact B1|]. split; [now apply D|]. split; [exact B3|now apply Bc].
    - exists s, s', None. split; [exact E|]. split; [exact E'|]. intros _ x i I. rewrite (M x i I), (M' x i I). apply D.
  Qed.
End Server.


(** ** Examples *)
Notation ex_reads := (reads ascii_alpha ascii_alnum ascii_space C52_int C70_xml_read (fun x => x) C68_addr C68_net (fun _ => Err ValueError) (fun x => x) (fun _ => false) (fun _ => None)).
Definition ex_objects (c : aclconfig) : store * (nat -> nat) := (show_store (config_groups c) (c_get c), eid).
Definition ex_answer := answer ascii_alpha ascii_alnum ascii_space C52_int C70_xml_read (fun x => x) C68_addr C68_net (fun _ => Err ValueError) (fun x => x) (fun _ => false) (fun _ => None)
  ex_objects (fun _ l => l) 50.
(** What a page shows: the kind of file, the members of the groups, how many are selected,
    the warning. *)
Definition page_of (r : response) : option (result nat * list (list host) * option (result (list nat)) * option exn) :=
  match r with Shown (mkpage c s w) => Some (C70_kind (Ok c), members_of (Ok c), option_map (fun s => objects_of (Ok s)) s, w) | _ => None end.
Definition named_asa (h d : pystr) : pystr := u "hostname " ++ h ++ lf ++ u "domain-name " ++ d ++ lf ++ u "access-list IN extended permit ip any any".

(** Configurations without a host name and a domain name are all named ".": the second
    replaces the first.  The upload of something else is an error and changes nothing. *)
Definition C78_two := [Add C73_text (u "a"); Add C72_nested (u "b"); Add (u "#") (u "c")].
Example C78_ex1 :
  ex_answer [] (Add C73_text (u "a")) = ToShow (u ".") /\ ex_answer [] (Add (u "#") (u "a")) = Failed ValueError /\ ex_answer [] (Add [255]%N (u "a")) = Failed ValueError /\
  ex_answer C78_two Index = Names [u "."] /\ ex_answer C78_two (Show (u "x") None None) = NotFound /\
  option_map (fun p => fst (fst (fst p))) (page_of (ex_answer [Add C73_text (u "a")] (Show (u ".") None None))) = Some (Ok 2) /\
  option_map (fun p => fst (fst (fst p))) (page_of (ex_answer C78_two (Show (u ".") None None))) = Some (Ok 1).
Proof. repeat split; vm_compute; reflexivity. Qed.
(** The name does not tell the host name from the domain name. *)
Example C78_ex2 : ex_answer [] (Add (named_asa (u "a.b") (u "c")) []) = ToShow (u "a.b.c") /\ ex_answer [] (Add (named_asa (u "a") (u "b.c")) []) = ToShow (u "a.b.c") /\
  ex_answer [Add (named_asa (u "a") (u "b")) []; Add C72_nested []; Add (named_asa (u "c") (u "d")) []] Index = Names [u "a.b"; u "."; u "c.d"].
Proof. repeat split; vm_compute; reflexivity. Qed.
(** "exp=0" expands, too, and only what is shown. *)
Example C78_ex3 :
  option_map (fun p => snd (fst (fst p))) (page_of (ex_answer C78_two (Show (u ".") (Some (u "0")) None))) =
    Some [map HLeaf [LHost (mkaddr V4 167772241); LHost (mkaddr V4 167772240)]; map HLeaf [LHost (mkaddr V4 167772161); LHost (mkaddr V4 167772241); LHost (mkaddr V4 167772240)]]%N /\
  ex_answer (C78_two ++ [Show (u ".") (Some (u "1")) None]) (Show (u ".") None None) = ex_answer C78_two (Show (u ".") None None) /\
  option_map (fun p => snd (fst (fst p))) (page_of (ex_answer C78_two (Show (u ".") (Some []) None))) <>
  option_map (fun p => snd (fst (fst p))) (page_of (ex_answer C78_two (Show (u ".") (Some (u "0")) None))).
Proof. 
  split; [vm_compute; reflexivity|]. split; [|vm_compute; discriminate].
  match goal with |- ?f (?h ++ [Show ?n ?e ?c]) ?r = _ => transitivity (f (h ++ []) r); [exact (proj1 (C78_kept _ _ _ _ _ _ _ _ _ _ _ _ _ _ _ h [] n e c r))|now rewrite app_nil_r] end.
Qed.
(** A filter, one that selects a rule of a bound list, and a text that is none. *)
Example C78_ex4 :
  option_map (fun p => (snd (fst p), snd p)) (page_of (ex_answer [Add C73_text []] (Show (u ".") None (Some (u "id FREE"))))) = Some (Some (Ok [eid 1; eid 2; 0; grp_id 0; 2]), None) /\
  option_map snd (page_of (ex_answer [Add C73_text []] (Show (u ".") None (Some (u "id IN"))))) = Some (Some TypeError) /\
  option_map (fun p => (snd (fst p), snd p)) (page_of (ex_answer [Add C73_text []] (Show (u ".") None (Some (u "id"))))) = Some (None, Some FailedParse) /\
  option_map (fun p => (snd (fst p), snd p)) (page_of (ex_answer [Add C73_text []] (Show (u ".") None (Some [])))) = Some (None, None).
Proof. repeat split; lazy; reflexivity. Qed.
(** The hypotheses of C78_selects, C78_shown and C78_same are met. *)
Example C78_ex5 : exists c e, latest ex_reads C78_two (u ".") c /\ named_well ascii_alnum c /\
  written_as ascii_alnum ascii_space e (u "ip dst 10.0.0.80") /\ readable e /\ (forall id, In id (expr_ids e) -> id_regular id) /\ comparable c e /\ without_ANY e /\ no_any_objects (config_groups c) /\
  asks (Some (u "1")) /\ ~ asks None /\
  exists c', expanded c c' /\ exists objects netgrp other netgrp' other',
    shown c (fst (objects c)) (snd (objects c)) netgrp other /\ finitely_many c (fst (objects c)) (snd (objects c)) /\
    shown c' (fst (objects c')) (snd (objects c')) netgrp' other' /\ finitely_many c' (fst (objects c')) (snd (objects c')).
Proof.
  destruct C72_ex3 as (c & c1 & e & R & W & _ & Q & Rd & Ir & Cm & A & N). exists c, e.
  assert (F : auto_parse ascii_alpha ascii_alnum ascii_space C52_int C70_xml_read (fun x => x) C68_addr C68_net (fun _ => Err ValueError) (fun x => x) (fun _ => false) (fun _ => None) C72_nested None (Options false) = Ok c).
  { rewrite <- R. vm_compute. reflexivity. }
  assert (B : ex_reads C72_nested c) by (exists C72_nested; split; [apply sig_iff; vm_compute; reflexivity|exact F]).
  split.
  { apply LT with [Add C73_text (u "a")] (Add C72_nested (u "b")) [Add (u "#") (u "c")].
    - reflexivity.
    - apply UP; [exact B|]. apply (named _ _ _ _ _ _ _ _ _ _ _ _ _ _ _ B). clear - R. destruct C72_r1 as [d|] eqn:E; [|discriminate E]. unfold C72_r1 in E. injection E as <-.
      assert (X : match C70_read C72_nested with Ok c => config_name c | Err _ => [] end = u ".") by (vm_compute; reflexivity). rewrite R in X. now symmetry.
    - intros r' c' [<-|[]] U. inversion U as [by_ f k n Rb Kb]; subst. apply (reads_file _ _ _ _ _ _ _ _ _ _ _ _ _ (u "c")) in Rb. vm_compute in Rb. discriminate Rb. }
  split; [exact W|]. do 6 (split; [assumption|]). split; [split; discriminate|]. split; [intros (X & _); now apply X|].
  assert (NB : Options false <> BadOptions) by discriminate.
  destruct (C72_expand _ _ _ C41_classes _ C52_int1 C52_int2 _ _ _ _ C69_library _ _ _ _ C72_nested None (Options false) c NB F W) as (k & L). destruct (L k (le_n _)) as (c' & _ & X & _). exists c'. split; [exact X|].
  pose proof (objects_given _ _ _ C41_classes _ C52_int1 C52_int2 _ _ _ _ C69_library _ _ _ _ C72_nested None (Options false) c c NB F W (or_introl eq_refl)) as (S & Fi).
  pose proof (objects_given _ _ _ C41_classes _ C52_int1 C52_int2 _ _ _ _ C69_library _ _ _ _ C72_nested None (Options false) c c' NB F W (or_intror X)) as (S' & Fi').
  exists (fun d => (show_store (config_groups d) (c_get c), eid)), grp_id, rest, grp_id, rest. cbn [fst snd]. auto.
Qed.
(** The hypotheses of C78_no_filter are met, and a file that is none. *)
Example C78_ex6 : ~ (exists e, written_as ascii_alnum ascii_space e (u "id") /\ readable e) /\ forall c, ~ ex_reads (u "#") c.
Proof.
  split.
  - intros (e & Q & _). apply (p_grammar_spec _ _ _ C41_classes) in Q. assert (X : exists err, p_grammar ascii_alpha ascii_alnum ascii_space (u "id") = Err err) by (eexists; lazy; reflexivity). destruct X as (err & X). rewrite X in Q. discriminate Q.
  - intros c R. apply (reads_file _ _ _ _ _ _ _ _ _ _ _ _ _ []) in R. vm_compute in R. discriminate R.
Qed.

Print Assumptions C78_upload.
Print Assumptions C78_index.
Print Assumptions C78_missing.
Print Assumptions C78_kept.
Print Assumptions C78_shown.
Print Assumptions C78_selects.
Print Assumptions C78_no_filter.
Print Assumptions C78_same.
