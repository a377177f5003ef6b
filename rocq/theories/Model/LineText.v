(** The other commands of an ASA/FWSM configuration as text: version, hostname, domain-name,
    name, access-group, interface and time-range (lib/acltk/fwsm.bnf:9-42,86-89,
    lib/acltk/acl.bnf:12-36,420-480) with the semantic actions of lib/acltk/aclSemantics.py
    and lib/acltk/fwsmSemantics.py. *)
From Coq Require Import String.
From Verif.Model Require Import Base Ip Hosts Groups Iface Peg Ids AddrText Ports AclText GroupText.
Local Open Scope list_scope.

(** datetime.time and datetime.datetime, as far as used: CPython 3.11 datetime.py
    _check_time_fields, _check_date_fields, _is_leap, _days_in_month. *)
Record tod := mktod { t_hour : N; t_minute : N }.
Record moment := mkmoment { m_tod : tod; m_day : N; m_month : N; m_year : N }.
Definition check_time (h m : N) : result tod :=
  if (h <=? 23)%N && (m <=? 59)%N then Ok (mktod h m) else Err ValueError.
Definition is_leap (y : N) : bool :=
  (y mod 4 =? 0)%N && (negb (y mod 100 =? 0)%N || (y mod 400 =? 0)%N).
Definition days_in_month (y m : N) : N :=
  if (m =? 2)%N && is_leap y then 29 else nth (N.to_nat m) [0; 31; 28; 31; 30; 31; 30; 31; 31; 30; 31; 30; 31]%N 0%N.
Definition check_moment (h mi d mo y : N) : result moment :=
  if (1 <=? y)%N && (1 <=? d)%N && (d <=? days_in_month y mo)%N then do t <- check_time h mi; Ok (mkmoment t d mo y)
  else Err ValueError.

(** TimeRangeObjectAbsolute, TimeRangeObjectPeriodic, aclObjects.py:989-1018 *)
Inductive timeobj :=
| TAbsolute (start stop : option moment)
| TPeriodic (days : list pystr) (start : tod) (edays : option pystr) (stop : tod).

(** What a command says. *)
Inductive simple :=
| SVersion (v : pystr) | SHostname (n : pystr) | SDomain (n : pystr) | SName (n : nameobj)
| SBind (name dir iface : pystr) | SGlobal (name : pystr)
| SInterface (alias : pystr) (details : list ifdetail)
| STime (name : pystr) (l : list timeobj).

Definition day_names : list pystr := map u ["Monday"; "Tuesday"; "Wednesday"; "Thursday"; "Friday"; "Saturday"; "Sunday"]%string.
Definition month_names : list pystr := map u ["January"; "February"; "March"; "April"; "May"; "June"; "July"; "August";
  "September"; "October"; "November"; "December"]%string.
(** aclSemantics.py:87-104 month *)
Fixpoint index_of (n : pystr) (l : list pystr) : N :=
  match l with [] => 0 | m :: l' => if str_eqb m n then 0 else N.succ (index_of n l') end%N.
Definition month_number (n : pystr) : N := N.succ (index_of n month_names).

(** A pattern without name guard. *)
Definition lit (t : pystr) : parser pystr := fun s => match strip_prefix t s with Some r => POk t r | None => PFail end.
(** [[0-9]{1,2}], [[0-9]{4}] *)
Definition digits12 : parser pystr := fun s =>
  match s with
  | a :: b :: s' => if is_digit a then if is_digit b then POk [a; b] s' else POk [a] (b :: s') else PFail
  | [a] => if is_digit a then POk [a] [] else PFail
  | [] => PFail
  end.
Definition digits4 : parser pystr := fun s =>
  match s with
  | a :: b :: c :: d :: s' => if is_digit a && is_digit b && is_digit c && is_digit d then POk [a; b; c; d] s' else PFail
  | _ => PFail
  end.

Section LineText.
  Context (isalpha isalnum isspace : N -> bool).
  Notation kw := (kw isalpha isalnum).
  Notation tokens := (tokens isalpha isalnum).
  Notation string_ := (string_ isspace).

  (** fwsm.bnf:9-12 version, aclSemantics.py:62-63 *)
  Definition version : parser simple := por
    (let% a := lit (u "ASA Version ") in let% b := toeol in let% _ := nl in ret (SVersion (a ++ b)))
    (let% a := lit (u "FWSM Version ") in let% b := toeol in let% _ := nl in ret (SVersion (a ++ b))).
  (** acl.bnf:13-15 hostname *)
  Definition hostname : parser simple :=
    let% _ := kw "hostname" in let% _ := ws in let% n := identifier in let% _ := nl in ret (SHostname n).
  (** acl.bnf:17-19 domain_name: the end of the line is not part of it. *)
  Definition domain_name : parser simple :=
    let% _ := kw "domain-name" in let% _ := ws in let% n := identifier in ret (SDomain n).
  (** fwsm.bnf:40-42 name, fwsmSemantics.py:29-32 *)
  Definition name : parser simple :=
    let% _ := kw "name" in let% _ := ws in let% a := por ip4 ip6 in let% _ := ws in let% n := identifier in
    let% d := popt (let% _ := ws in let% _ := kw "description" in pat1 not_lf) in let% _ := nl in
    ret (SName (mkname n a d)).
  (** fwsm.bnf:86-89 access_group, fwsmSemantics.py:78-83 *)
  Definition access_group : parser simple := por
    (let% _ := kw "access-group" in let% _ := ws in let% n := obj_name in let% _ := ws in let% d := obj_name in let% _ := ws in
     let% _ := kw "interface" in let% _ := ws in let% i := obj_name in let% _ := line_end in ret (SBind n d i))
    (let% _ := kw "access-group" in let% _ := ws in let% n := obj_name in let% _ := ws in let% _ := kw "global" in
     let% _ := line_end in ret (SGlobal n)).

  (** fwsm.bnf:30-37 interface_detail, aclSemantics.py:73-76 *)
  Definition detail_descr : parser ifdetail :=
    let% _ := kw "description" in let% _ := ws in let% t := toeol in let% _ := nl in ret (DDescription t).
  Definition detail_nameif : parser ifdetail :=
    let% _ := kw "nameif" in let% _ := ws in let% n := identifier in let% _ := line_end in ret (DNameif n).
  Definition detail_ip4 : parser ifdetail :=
    let% _ := kw "ip" in let% _ := ws in let% _ := kw "address" in let% _ := ws in
    let% a := ip4 in let% _ := ws in let% m := ip4 in let% _ := ws in let% _ := kw "standby" in let% _ := ws in
    let% _ := ip4 in let% _ := line_end in ret (DAddr4 a (a_val m)).
  Definition detail_ip6 : parser ifdetail :=
    let% _ := kw "ipv6" in let% _ := ws in let% _ := kw "address" in let% _ := ws in
    let% a := ip6 in let% _ := char 47 in let% m := int_ in let% _ := ws in let% _ := kw "standby" in let% _ := ws in
    let% _ := ip6 in let% _ := line_end in ret (DAddr6 a (Some (int10 m))).
  Definition detail_other : parser ifdetail :=
    let% _ := popt (let% _ := kw "no" in ws) in let% _ := toeol in let% _ := nl in ret DNone.
  Definition interface_detail : parser ifdetail :=
    choice [detail_descr; detail_nameif; detail_ip4; detail_ip6; detail_other; ret DNone].
  (** acl.bnf:27-29 interface, 32-34 interface_alias.  The constructor runs in the action
      (aclSemantics.py:65-71). *)
  Definition interface_ : parser simple :=
    let% _ := kw "interface" in let% _ := ws in let% a := string_ in let% _ := nl in
    let% l := many (then_ sp interface_detail) in ret (SInterface a l).

  (** acl.bnf:420-446 time, timedate; aclSemantics.py:78-110 *)
  Definition hour_minute : parser (N * N) :=
    let% h := digits12 in let% _ := char 58 in let% m := digits12 in ret (int10 h, int10 m).
  Definition time : parser tod := act (fun x => check_time (fst x) (snd x)) hour_minute.
  Definition timedate : parser moment :=
    act (fun x => match x with (h, m, d, mo, y) => check_moment h m d mo y end)
      (let% t := hour_minute in let% _ := ws in let% d := digits12 in let% _ := ws in let% mo := tokens month_names in let% _ := ws in
       let% y := digits4 in ret (fst t, snd t, int10 d, month_number mo, int10 y)).
  (** acl.bnf:448-453 time_range_object, aclSemantics.py:112-119; "no" is dropped. *)
  Definition bound (w : string) : parser (option moment) :=
    popt (let% _ := ws in let% _ := kw w in let% _ := ws in timedate).
  Definition time_range_object : parser (option timeobj) := choice [
    (let% _ := kw "periodic" in let% _ := ws in let% l := many1 (tokens day_names) in let% _ := ws in let% s := time in let% _ := ws in
     let% _ := kw "to" in let% _ := ws in let% d := popt (let% d := tokens day_names in let% _ := ws in ret d) in
     let% e := time in let% _ := nl in ret (Some (TPeriodic l s d e)));
    (let% _ := kw "periodic" in let% _ := ws in let% l := tokens [u "weekdays"; u "weekend"; u "daily"] in let% _ := ws in let% s := time in
     let% _ := ws in let% _ := kw "to" in let% _ := ws in let% e := time in let% _ := nl in ret (Some (TPeriodic [l] s None e)));
    (let% _ := kw "absolute" in let% a := bound "start" in let% b := bound "end" in let% _ := nl in ret (Some (TAbsolute a b)));
    (let% _ := kw "no" in let% _ := ws in let% _ := toeol in let% _ := nl in ret None)].
  (** acl.bnf:455-457 time_range, aclSemantics.py:121-126 *)
  Definition time_range : parser simple :=
    let% _ := kw "time-range" in let% _ := ws in let% n := string_ in let% _ := nl in
    let% l := many (then_ sp time_range_object) in ret (STime n (keep l)).
  (** fwsm.bnf:14-28 command, restricted to these alternatives, in their order. *)
  Definition simple_command : parser simple :=
    choice [version; hostname; domain_name; interface_; name; time_range; access_group].
End LineText.
