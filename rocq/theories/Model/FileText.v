(** A whole ASA/FWSM configuration as text: the commands of lib/acltk/fwsm.bnf:4-28 with the
    tables they fill (lib/acltk/aclSemantics.py:65-71,112-194,505-533,
    lib/acltk/fwsmSemantics.py:29-32) and ACLConfig.fromString for the class fwsmConfig
    (lib/acltk/aclObjects.py:1275-1281, lib/acltk/fwsmObjects.py:13-32). *)
From Coq Require Import String.
From Verif.Model Require Import Base Ip Hosts Groups Rules Nat Iface Peg Ids AddrText Ports AclText Define GroupText ObjText LineText NatText.
From Verif.Model Require Config.
Local Open Scope list_scope.

(** ** Lines that are skipped: fwsm.bnf:219-314 *)
(** What follows the word: anything; blanks and anything; nothing, or blanks and anything;
    nothing.  The flag: indented lines may follow ([ignored_indent]). *)
Inductive shape := SAny | SSpaced | SMaybe | SAlone.
Definition skip_table : list (string * shape * bool) := [
  (":", SAny, false); ("!", SAny, false); ("aaa-server", SSpaced, true); ("aaa", SSpaced, false);
  ("app-agent", SAny, false); ("arp-inspection", SSpaced, false); ("arp", SSpaced, false);
  ("asdm", SSpaced, false); ("auth-prompt", SSpaced, false); ("boot", SAny, false);
  ("call-home", SAny, true); ("class-map", SSpaced, true); ("clock", SAny, false);
  ("console", SSpaced, false); ("command-alias", SAny, false); ("Cryptochecksum:", SAny, false);
  ("crypto", SSpaced, true); ("dhcpd", SSpaced, false); ("dhcprelay", SSpaced, false);
  ("dns-guard", SAny, false); ("dns", SAny, true); ("dynamic-access-policy-record", SSpaced, true);
  ("enable", SAny, false); ("eou", SSpaced, false); ("established", SSpaced, false);
  ("failover", SMaybe, false); ("firewall", SAny, false); ("flow-export", SAny, false);
  ("fragment", SAny, false); ("ftp", SAny, false); ("global", SSpaced, false);
  ("group-policy", SSpaced, true); ("hpm", SAny, false); ("http", SSpaced, false); ("icmp", SSpaced, false);
  ("ipv6", SSpaced, false); ("ip", SSpaced, false); ("license", SSpaced, true); ("ldap", SSpaced, true);
  ("logging", SSpaced, false); ("mac-address-table", SAny, false); ("mac-address", SAny, false);
  ("management-access", SAny, false); ("monitor-interface", SSpaced, false); ("mtu", SSpaced, false);
  ("multicast-routing", SAny, false); ("nac-policy", SAny, true); ("names", SAlone, false);
  ("nat-control", SAny, false); ("no", SAny, false); ("ntp", SSpaced, false); ("pager", SSpaced, false);
  ("passwd", SAny, false); ("password-policy", SSpaced, false); ("policy-map", SSpaced, true);
  ("privilege", SSpaced, false); ("prompt", SSpaced, false); ("resource", SAny, false);
  ("router", SSpaced, true); ("route", SSpaced, false); ("same-security-traffic", SAny, false);
  ("service-module", SSpaced, false); ("service-policy", SSpaced, false); ("service", SSpaced, false);
  ("sla", SSpaced, true); ("snmp-map", SSpaced, true); ("snmp-server", SSpaced, false);
  ("smtp-server", SSpaced, false); ("ssh", SSpaced, true); ("ssl", SSpaced, false);
  ("static", SSpaced, false); ("sysopt", SSpaced, false); ("tcp-map", SSpaced, true);
  ("telnet", SSpaced, false); ("terminal", SSpaced, false); ("tftp-server", SSpaced, false);
  ("threat-detection", SSpaced, false); ("timeout", SSpaced, false); ("tls-proxy", SSpaced, false);
  ("tunnel-group-map", SSpaced, false); ("tunnel-group", SSpaced, true); ("user-identity", SSpaced, false);
  ("username", SSpaced, true); ("url-cache", SSpaced, false); ("virtual", SAny, false);
  ("vpdn", SAny, false); ("vpn-group-policy", SAny, false); ("vpn", SAny, true); ("webvpn", SAny, true);
  ("xlate-bypass", SAny, false); ("xlate", SSpaced, false)]%string.

Section FileText.
  Context (isalpha isalnum isspace : N -> bool) (py_int : pystr -> option Z).
  Notation kw := (kw isalpha isalnum).

  Definition shape_rest (k : shape) : parser unit :=
    match k with
    | SAny => let% _ := toeol in nl
    | SSpaced => let% _ := ws in let% _ := toeol in nl
    | SMaybe => let% _ := popt (then_ ws toeol) in nl
    | SAlone => nl
    end.
  (** [[NL] /^ [^\n]*/ NL]; the pattern is only tried at the start of a line. *)
  Definition indent_line : parser unit := let% _ := popt nl in let% _ := sp in let% _ := toeol in nl.
  Definition skip_line (e : string * shape * bool) : parser unit :=
    match e with (w, k, b) =>
      let% _ := kw w in let% _ := shape_rest k in if b then (let% _ := many indent_line in ret tt) else ret tt
    end.
  Definition ignored : parser unit := choice (map skip_line skip_table).

  (** ** Commands *)
  Inductive command :=
  | CSimple (x : simple) | CObject (d : objdef) | CGroup (d : anydef)
  | CRule (x : aclrule) | CEthertype | CRemarks (l : list pystr)
  | CNat (n : option natobj) | CSkipped | CEmpty.

  (** The tables of aclParser (aclSemantics.py:506-518); [tb_count]: the commands read so
      far, by which interfaces and time ranges are numbered. *)
  Record tables := mktables {
    tb_names : dict nameobj; tb_netobj : dict netobj; tb_svcobj : dict svcobj; tb_world : world;
    tb_time : dict nat; tb_if : dict ifnames; tb_count : nat }.
  Definition no_tables : tables := mktables [] [] [] world_init [] [] 0.
  Definition env_of (T : tables) : env :=
    mkenv (tb_names T) (tb_netobj T) (fst (w_net (tb_world T))) (tb_svcobj T) (fst (w_service (tb_world T)))
      (fst (w_port (tb_world T))) (fst (w_icmp (tb_world T))) (fst (w_proto (tb_world T))) (tb_time T) [].

  (** command: fwsm.bnf:14-28 *)
  Definition command_ (T : tables) : parser command :=
    let E := env_of T in
    let simple (p : parser simple) := let% x := p in ret (CSimple x) in
    choice [
      simple version; simple (hostname isalpha isalnum); simple (domain_name isalpha isalnum);
      simple (interface_ isalpha isalnum isspace); simple (name isalpha isalnum); simple (time_range isalpha isalnum isspace);
      (let% d := object_ isalpha isalnum isspace py_int E (tb_if T) in ret (CObject d));
      (let% d := object_group isalpha isalnum py_int E in ret (CGroup d));
      (let% x := access_list isalpha isalnum isspace py_int E in ret (match x with Some x => CRule x | None => CEthertype end));
      (let% l := many1 (access_list_remark isalpha isalnum) in ret (CRemarks l));
      simple (access_group isalpha isalnum);
      (let% n := nat_command isalpha isalnum E (tb_if T) in ret (CNat n));
      (let% _ := ignored in ret CSkipped);
      (let% _ := nl in ret CEmpty)].

  (** What a command leaves in the list the grammar returns. *)
  Inductive made :=
  | MVersion (v : pystr) | MHostname (n : pystr) | MDomain (n : pystr) | MName (n : nameobj)
  | MBind (name dir iface : pystr) | MIface (i : interface) | MTime (n : pystr) (l : list timeobj)
  | MNetObj (p : netobj) (nat : option natobj) | MSvcObj (o : svcobj) | MGroup (d : anydef) (g : gid)
  | MRule (x : aclrule) | MNat (n : natobj) | MNothing.
  (** The number the next group of a class gets. *)
  Definition next_gid (w : world) (d : anydef) : gid :=
    match d with
    | DNet _ => h_next (snd (w_net w)) | DPort _ => h_next (snd (w_port w)) | DService _ => h_next (snd (w_service w))
    | DProto _ => h_next (snd (w_proto w)) | DIcmp _ => h_next (snd (w_icmp w))
    end.
  Definition ifnames_of (i : interface) : ifnames := mkifnames (if_alias i) (if_nameif i).
  Definition counted (T : tables) (m : made) : result (tables * made) :=
    Ok (mktables (tb_names T) (tb_netobj T) (tb_svcobj T) (tb_world T) (tb_time T) (tb_if T) (S (tb_count T)), m).
  (** The semantic actions that learn: interface 65-71, time_range 121-126, object_type
      124-160 and object_group_type 167-194 of aclSemantics.py, name of fwsmSemantics.py:29-32;
      the rest of the actions ran while the command was read. *)
  Definition learn (T : tables) (c : command) : result (tables * made) :=
    match c with
    | CSimple (SVersion v) => counted T (MVersion v)
    | CSimple (SHostname n) => counted T (MHostname n)
    | CSimple (SDomain n) => counted T (MDomain n)
    | CSimple (SBind n d i) => counted T (MBind n d i)
    | CSimple (SGlobal _) => counted T MNothing
    | CSimple (SName n) =>
        counted (mktables (dset (tb_names T) (nm_host n) n) (tb_netobj T) (tb_svcobj T) (tb_world T) (tb_time T) (tb_if T) (tb_count T)) (MName n)
    | CSimple (SInterface a l) =>
        do i <- iface_init (tb_count T) a l;
        let t := dset (tb_if T) a (ifnames_of i) in
        let t := match if_nameif i with Some n => dset t n (ifnames_of i) | None => t end in
        counted (mktables (tb_names T) (tb_netobj T) (tb_svcobj T) (tb_world T) (tb_time T) t (tb_count T)) (MIface i)
    | CSimple (STime n l) =>
        counted (mktables (tb_names T) (tb_netobj T) (tb_svcobj T) (tb_world T) (dset (tb_time T) n (tb_count T)) (tb_if T) (tb_count T)) (MTime n l)
    | CObject (ONet n d b) =>
        do x <- network_object_def (dget (tb_netobj T)) n d b;
        let '(_, p, nat) := x in
        let t := if dmem (tb_netobj T) n then tb_netobj T else dset (tb_netobj T) n p in
        counted (mktables (tb_names T) t (tb_svcobj T) (tb_world T) (tb_time T) (tb_if T) (tb_count T)) (MNetObj p nat)
    | CObject (OSvc n d s) =>
        let o := mksvcobj n d s in
        let t := if dmem (tb_svcobj T) n then tb_svcobj T else dset (tb_svcobj T) n o in
        counted (mktables (tb_names T) (tb_netobj T) t (tb_world T) (tb_time T) (tb_if T) (tb_count T)) (MSvcObj o)
    | CGroup d =>
        do w <- define_any (tb_world T) d;
        counted (mktables (tb_names T) (tb_netobj T) (tb_svcobj T) w (tb_time T) (tb_if T) (tb_count T)) (MGroup d (next_gid (tb_world T) d))
    | CRule x => counted T (MRule x)
    | CNat (Some n) => counted T (MNat n)
    | CNat None | CEthertype | CRemarks _ | CSkipped | CEmpty => counted T MNothing
    end.

  (** [{command ~}+]: fwsm.bnf:4-7.  The fuel is more than the length of the text; a command
      that reads nothing would end the closure. *)
  Fixpoint commands (fuel : nat) (T : tables) (s : pystr) : pres (list command * list made * tables) :=
    match fuel with
    | O => POk ([], [], T) s
    | S fuel' =>
        match command_ T s with
        | PFail => POk ([], [], T) s
        | PErr e => PErr e
        | POk c r =>
            match learn T c with
            | Err e => PErr e
            | Ok (T', m) =>
                if (length r <? length s)%nat then
                  match commands fuel' T' r with
                  | POk (cs, ms, T'') r' => POk (c :: cs, m :: ms, T'') r'
                  | PFail => PFail
                  | PErr e => PErr e
                  end
                else POk ([], [], T) s
            end
        end
    end.
  (** fromString: a line feed is appended; [$] asks for the end of the text. *)
  Definition parse_file (data : pystr) : result (list command * list made * tables) :=
    let s := data ++ [10%N] in
    match commands (S (length s)) no_tables s with
    | POk (_ :: _, _, _) (_ :: _) | PFail | POk ([], _, _) _ => Err FailedParse
    | POk x [] => Ok x
    | PErr e => Err e
    end.

  (** ** The configuration: ACLConfig.__init__ over the list; objects are numbered by their
      position. *)
  Definition item_of (k : nat) (m : made) : Config.citem :=
    match m with
    | MVersion v => Config.KVersion v | MHostname n => Config.KHostname n | MDomain n => Config.KDomain n
    | MName _ => Config.KName k | MBind n d i => Config.KAccessGroup i n d | MIface _ => Config.KIface k
    | MTime n _ => Config.KTime n k
    | MNetObj p nat => Config.KNetObj (o_name p) k (match nat with Some _ => Some k | None => None end)
    | MSvcObj o => Config.KSvcObj (so_name o) k
    | MGroup (DNet d) g => Config.KNetGrp (gd_name d) g | MGroup (DPort d) g => Config.KPortGrp (gd_name d) g
    | MGroup (DService d) g => Config.KSvcGrp (gd_name d) g | MGroup (DProto d) g => Config.KProtoGrp (gd_name d) g
    | MGroup (DIcmp d) g => Config.KIcmpGrp (gd_name d) g
    | MRule _ => Config.KRule k | MNat n => Config.KNat k (nat_opts n) | MNothing => Config.KOther
    end.
  Fixpoint items_from (k : nat) (l : list made) : list Config.citem :=
    match l with [] => [] | m :: l' => item_of k m :: items_from (S k) l' end.
  Definition iface_store (l : list made) (k : nat) : interface :=
    match nth_error l k with Some (MIface i) => i | _ => mkiface [] [] [] None None None [] end.
  Definition config_of (ms : list made) : Config.config := Config.build (iface_store ms) (items_from 0 ms).
  Definition file_config (data : pystr) : result (Config.config * list made * tables) :=
    do x <- parse_file data;
    let '(_, ms, T) := x in
    Ok (config_of ms, ms, T).
End FileText.
