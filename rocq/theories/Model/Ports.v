(** Ports, port ranges and numeric literals (aclObjects.py:760-914,
    aclSemantics.py:219-235, 284-292). *)
From Coq Require Import String.
From Verif.Model Require Import Base Ip Hosts Groups.
Local Open Scope N_scope.

(** ** Decimal literals: the grammar's [int] is /[0-9]+/ (acl.bnf:7); Python's [int()] of
    such a text. *)
Definition is_digit (c : N) : bool := (48 <=? c) && (c <=? 57).
Definition digits (s : pystr) : bool := match s with [] => false | _ => forallb is_digit s end.
Definition dec_from (acc : N) (s : pystr) : N := fold_left (fun a c => 10 * a + (c - 48)) s acc.
Definition dec (s : pystr) : N := dec_from 0 s.

(** protocol_int, port_int, icmp_type_int, icmp_code_int: aclSemantics.py:219-235.  All of
    them return the text they were given. *)
Definition bounded_int (top : N) (s : pystr) : result pystr :=
  if dec s <=? top then Ok s else Err AssertionError.
Definition protocol_int (s : pystr) : result pystr := bounded_int 255 s.
Definition port_int (s : pystr) : result pystr := bounded_int (2 ^ 16 - 1) s.
Definition icmp_type_int (s : pystr) : result pystr := bounded_int (2 ^ 8 - 1) s.
Definition icmp_code_int (s : pystr) : result pystr := bounded_int (2 ^ 8 - 1) s.

(** ** Port 872-899.  [num] is the parsed text or None; [-1] only occurs in comparisons
    with None. *)
Record port := mkport { p_op : option pystr; p_num : option pystr }.
Definition opt_or (o : option pystr) : pystr := match o with Some s => s | None => [] end.

(** A component of the compared tuples: None, a text, or the number -1. *)
Inductive pyval := VNone | VStr (s : pystr) | VInt (z : Z).
Definition val_eqb (a b : pyval) : bool :=
  match a, b with
  | VNone, VNone => true
  | VStr s, VStr t => str_eqb s t
  | VInt x, VInt y => Z.eqb x y
  | _, _ => false
  end.
(** [<]: TypeError unless both are texts or both numbers *)
Definition val_ltb (a b : pyval) : result bool :=
  match a, b with
  | VStr s, VStr t => Ok (str_ltb s t)
  | VInt x, VInt y => Ok (Z.ltb x y)
  | _, _ => Err TypeError
  end.
Definition num_val (n : option pystr) : pyval := match n with Some s => VStr s | None => VNone end.

(** [(self.op or "", self.num)] and the tuple of the right-hand side (None: ("", -1)) *)
Definition port_tuple (p : port) : pystr * pyval := (opt_or (p_op p), num_val (p_num p)).
Definition rhs_tuple (o : option port) : pystr * pyval :=
  match o with None => ([], VInt (-1)) | Some p => port_tuple p end.
(** Python's tuple comparison: equal up to the first differing position. *)
Definition tuple_eqb (a b : pystr * pyval) : bool := str_eqb (fst a) (fst b) && val_eqb (snd a) (snd b).
Definition tuple_ltb (a b : pystr * pyval) : result bool :=
  if negb (str_eqb (fst a) (fst b)) then Ok (str_ltb (fst a) (fst b))
  else if negb (val_eqb (snd a) (snd b)) then val_ltb (snd a) (snd b)
  else Ok false.

(** __eq__ 881-886, __lt__ 891-897; the others from functools.total_ordering
    (_gt_from_lt, _le_from_lt, _ge_from_lt) and __ne__ 888-889. *)
Definition port_eq (p : port) (o : option port) : bool := tuple_eqb (port_tuple p) (rhs_tuple o).
Definition port_lt (p : port) (o : option port) : result bool := tuple_ltb (port_tuple p) (rhs_tuple o).
Definition port_le (p : port) (o : option port) : result bool :=
  do r <- port_lt p o; Ok (r || port_eq p o).
Definition port_gt (p : port) (o : option port) : result bool :=
  do r <- port_lt p o; Ok (negb r && negb (port_eq p o)).
Definition port_ge (p : port) (o : option port) : result bool :=
  do r <- port_lt p o; Ok (negb r).

(** Membership in a Python set or dict of ports: same hash ([id], 899, the object's
    number) and then identity or [==]. *)
Definition port_in_set (x : nat * port) (s : list (nat * port)) : bool :=
  existsb (fun y => Nat.eqb (fst x) (fst y) && (Nat.eqb (fst x) (fst y) || port_eq (snd y) (Some (snd x)))) s.
Definition port_set_add (x : nat * port) (s : list (nat * port)) : list (nat * port) :=
  if port_in_set x s then s else s ++ [x].

(** ** PortRange.__init__ 902-911.  [py_int]: Python's [int] on texts ([None] =
    ValueError), a parameter; [int(None)] is a TypeError. *)
Section Range.
  Variable py_int : pystr -> option Z.
  Definition port_range (start stop : option pystr) : result pmember :=
    match start with
    | None => Err TypeError
    | Some a =>
        match py_int a with
        | None => Ok (PRange start stop)
        | Some _ =>
            match stop with
            | None => Err TypeError
            | Some b =>
                match py_int b with
                | None => Ok (PRange start stop)
                | Some _ => if str_ltb a b then Ok (PRange start stop) else Err AssertionError
                end
            end
        end
    end.

  (** ** port_group_object (acl.bnf:386-391): the AST of the three lines.  In the [eq] line
      the port is not named, so [ast.port] is None (an AST gives None for a key that no
      alternative of the rule names). *)
  Inductive port_line := LEq (port : pystr) | LRange (start stop : pystr) | LGroup (g : gid).
  Record port_ast := mkportast {
    pa_type : pystr; pa_op : option pystr; pa_port : option pystr;
    pa_begin : option pystr; pa_end : option pystr; pa_object : option gid }.
  Definition port_line_ast (l : port_line) : port_ast :=
    match l with
    | LEq _ => mkportast (u "port-object") (Some (u "eq")) None None None None
    | LRange a b => mkportast (u "port-object") (Some (u "range")) None (Some a) (Some b) None
    | LGroup g => mkportast (u "group-object") None None None None (Some g)
    end.
  (** aclSemantics.py:284-292 *)
  Definition port_group_object (a : port_ast) : result (option pmember) :=
    if str_eqb (pa_type a) (u "port-object") then
      if match pa_op a with Some o => str_eqb o (u "range") | None => false end
      then do r <- port_range (pa_begin a) (pa_end a); Ok (Some r)
      else Ok (Some (PPort (pa_op a) (pa_port a)))
    else if str_eqb (pa_type a) (u "group-object") then
      match pa_object a with Some g => Ok (Some (PGrp g)) | None => Ok None end
    else Ok None.
End Range.

(** ** PortUtil 760-869 *)

(** str.strip() on ASCII text *)
Definition is_space (c : N) : bool := ((9 <=? c) && (c <=? 13)) || ((28 <=? c) && (c <=? 32)).
Fixpoint lstrip (s : pystr) : pystr :=
  match s with [] => [] | c :: s' => if is_space c then lstrip s' else s end.
Definition strip (s : pystr) : pystr := rev (lstrip (rev (lstrip s))).
(** str.split(c) *)
Fixpoint split (c : N) (s : pystr) : list pystr :=
  match s with
  | [] => [[]]
  | x :: s' => if x =? c then [] :: split c s'
               else match split c s' with w :: ws => (x :: w) :: ws | [] => [[x]] end
  end.

Record serv := mkserv { s_name : pystr; s_protocol : pystr; s_port : N }.

(** [services] 858-869, one line; [None]: the unpacking into four parts fails (ValueError) *)
Definition service_line (line : pystr) : option (list serv) :=
  let line := strip line in
  match line with
  | [] => Some []
  | _ =>
      match map strip (split 124 line) with
      | [name; protocol; port; description] =>
          Some (map (fun p => mkserv (hd [] (split 32 name)) p (dec port)) (split 44 protocol))
      | _ => None
      end
  end.
Fixpoint services_of (lines : list pystr) : option (list serv) :=
  match lines with
  | [] => Some []
  | l :: ls => match service_line l, services_of ls with
               | Some a, Some b => Some (a ++ b)
               | _, _ => None
               end
  end.

(** getservbyname 851-855 on a table; [proto.toupper()] does not exist on texts. *)
Fixpoint getservbyname (table : list serv) (name : pystr) (proto : option pystr) : result (option N) :=
  match table with
  | [] => Ok None
  | s :: table' =>
      if str_eqb (s_name s) name then
        match proto with None => Ok (Some (s_port s)) | Some _ => Err AttributeError end
      else getservbyname table' name proto
  end.

(** The text [_servnames] 761-849, verbatim. *)
Definition servnames : pystr := u "
	aol			|	TCP      	|	5190 	|	America Online
	bgp			|	TCP      	|	179  	|	Border Gateway Protocol, RFC 1163
	biff			|	UDP      	|	512  	|	Used by mail system to notify users that new mail is received
	bootpc			|	UDP      	|	68   	|	Bootstrap Protocol Client
	bootps			|	UDP      	|	67   	|	Bootstrap Protocol Server
	chargen			|	TCP      	|	19   	|	Character Generator
	citrix-ica		|	TCP      	|	1494 	|	Citrix Independent Computing Architecture (ICA) protocol
	cmd			|	TCP      	|	514  	|	Similar to exec except that cmd has automatic authentication
	ctiqbe			|	TCP      	|	2748 	|	Computer Telephony Interface Quick Buffer Encoding
	daytime			|	TCP      	|	13   	|	Day time, RFC 867
	discard			|	TCP,UDP  	|	9    	|	Discard
	domain			|	TCP,UDP  	|	53   	|	DNS
	dnsix			|	UDP      	|	195  	|	DNSIX Session Management Module Audit Redirector
	echo			|	TCP,UDP  	|	7    	|	Echo
	exec			|	TCP      	|	512  	|	Remote process execution
	finger			|	TCP      	|	79   	|	Finger
	ftp			|	TCP      	|	21   	|	File Transfer Protocol (control port)
	ftp-data		|	TCP      	|	20   	|	File Transfer Protocol (data port)
	gopher			|	TCP      	|	70   	|	Gopher
	https			|	TCP      	|	443  	|	HTTP over SSL
	h323              	|	TCP      	|	1720 	|	H.323 call signalling
	hostname          	|	TCP      	|	101  	|	NIC Host Name Server
	ident             	|	TCP      	|	113  	|	Ident authentication service
	imap4             	|	TCP      	|	143  	|	Internet Message Access Protocol, version 4
	irc               	|	TCP      	|	194  	|	Internet Relay Chat protocol
	isakmp            	|	UDP      	|	500  	|	Internet Security Association and Key Management Protocol
	kerberos          	|	TCP,UDP  	|	750  	|	Kerberos
	klogin            	|	TCP      	|	543  	|	KLOGIN
	kshell            	|	TCP      	|	544  	|	Korn Shell
	ldap              	|	TCP      	|	389  	|	Lightweight Directory Access Protocol
	ldaps             	|	TCP      	|	636  	|	Lightweight Directory Access Protocol (SSL)
	lpd               	|	TCP      	|	515  	|	Line Printer Daemon - printer spooler
	login             	|	TCP      	|	513  	|	Remote login
	lotusnotes        	|	TCP      	|	1352 	|	IBM Lotus Notes
	mobile-ip         	|	UDP      	|	434  	|	MobileIP-Agent
	nameserver        	|	UDP      	|	42   	|	Host Name Server
	netbios-ns        	|	UDP      	|	137  	|	NetBIOS Name Service
	netbios-dgm       	|	UDP      	|	138  	|	NetBIOS Datagram Service
	netbios-ssn       	|	TCP      	|	139  	|	NetBIOS Session Service
	nntp              	|	TCP      	|	119  	|	Network News Transfer Protocol
	ntp               	|	UDP      	|	123  	|	Network Time Protocol
	pcanywhere-status 	|	UDP      	|	5632 	|	pcAnywhere status
	pcanywhere-data   	|	TCP      	|	5631 	|	pcAnywhere data
	pim-auto-rp       	|	TCP,UDP  	|	496  	|	Protocol Independent Multicast, reverse path flooding, dense mode
	pop2              	|	TCP      	|	109  	|	Post Office Protocol - Version 2
	pop3              	|	TCP      	|	110  	|	Post Office Protocol - Version 3
	pptp              	|	TCP      	|	1723 	|	Point-to-Point Tunneling Protocol
	radius            	|	UDP      	|	1645 	|	Remote Authentication Dial-In User Service
	radius-acct       	|	UDP      	|	1646 	|	Remote Authentication Dial-In User Service (accounting)
	rip               	|	UDP      	|	520  	|	Routing Information Protocol
	secureid-udp      	|	UDP      	|	5510 	|	SecureID over UDP
	smtp              	|	TCP      	|	25   	|	Simple Mail Transport Protocol
	snmp              	|	UDP      	|	161  	|	Simple Network Management Protocol
	snmptrap          	|	UDP      	|	162  	|	Simple Network Management Protocol - Trap
	sqlnet       		|	TCP      	|	1521 	|	Structured Query Language Network
	ssh          		|	TCP      	|	22   	|	Secure Shell
	sunrpc (rpc) 		|	TCP,UDP  	|	111  	|	Sun Remote Procedure Call
	syslog       		|	UDP      	|	514  	|	System Log
	tacacs       		|	TCP,UDP  	|	49   	|	Terminal Access Controller Access Control System Plus
	talk         		|	TCP,UDP  	|	517  	|	Talk
	telnet       		|	TCP      	|	23   	|	RFC 854 Telnet
	tftp         		|	UDP      	|	69   	|	Trivial File Transfer Protocol
	time         		|	UDP      	|	37   	|	Time
	uucp         		|	TCP      	|	540  	|	UNIX-to-UNIX Copy Program
	who          		|	UDP      	|	513  	|	Who
	whois        		|	TCP      	|	43   	|	Who Is
	www          		|	TCP      	|	80  	|	World Wide Web
	xdmcp        		|	UDP      	|	177  	|	X Display Manager Control Protocol
	echo			|	ICMP		|	8	|
	echo-reply		| 	ICMP 		| 	0 	|
	information-reply 	| 	ICMP 		| 	16 	|
	information-request	| 	ICMP 		| 	15 	|
	mask-reply		| 	ICMP 		|  	18 	|
	mask-request 		| 	ICMP		|  	17 	|
	mobile-redirect 	| 	ICMP		|  	32 	|
	parameter-problem 	|	ICMP		|  	12 	|
	redirect		|	ICMP		|  	5 	|
	router-advertisement	|	ICMP		|  	9 	|
	router-solicitation	|	ICMP		|  	10 	|
	source-quench		|	ICMP		|  	4 	|
	time-exceeded		|	ICMP		|  	11 	|
	timestamp-reply 	|	ICMP		|  	14 	|
	timestamp-request 	|	ICMP		|  	13 	|
	unreachable 		|	ICMP		|  	3 	|
	traceroute		|	ICMP		| 	30	|
	".
Definition service_table : option (list serv) := services_of (split 10 servnames).

(** The names the grammar accepts as ports (acl.bnf port_code). *)
Definition port_code : list pystr := map u [
  "xdmcp";
  "www";
  "whois";
  "who";
  "uucp";
  "time";
  "tftp";
  "telnet";
  "talk";
  "tacacs";
  "syslog";
  "sunrpc";
  "ssh";
  "sqlnet";
  "snmptrap";
  "snmp";
  "smtp";
  "sip";
  "secureid-udp";
  "rtsp";
  "rsh";
  "rpc";
  "rip";
  "radius-acct";
  "radius";
  "pptp";
  "pop3";
  "pop2";
  "pim-auto-rp";
  "pcanywhere-status";
  "pcanywhere-data";
  "ntp";
  "non500-isakmp";
  "nntp";
  "nfs";
  "netbios-ssn";
  "netbios-ss";
  "netbios-ns";
  "netbios-dgm";
  "nameserver";
  "mobile-ip";
  "lpd";
  "lotusnotes";
  "login";
  "ldaps";
  "ldap";
  "kshell";
  "klogin";
  "kerberos";
  "isakmp";
  "irc";
  "imap4";
  "ident";
  "https";
  "http";
  "hostname";
  "h323";
  "gopher";
  "ftp-data";
  "ftp";
  "finger";
  "exec";
  "echo";
  "domain";
  "dnsix";
  "discard";
  "daytime";
  "ctiqbe";
  "cmd";
  "citrix-ica";
  "chargen";
  "bootps";
  "bootpc";
  "biff";
  "bgp";
  "aol"]%string.
