(** examples/render/dynamic.py: the web application that keeps the configurations it is
    given and shows them.  Simplifications: the shelf (flask_shelve over shelve, without
    writeback) is a dictionary from names to configurations, each access giving a new copy;
    a page is what the template is given, not its HTML. *)
From Verif.Model Require Import Base Ip Hosts Groups Iface Pfsense FileText IosFile PfFile Detect Auto Resolve AutoResolve.
From Verif.Model Require Config.

(** ACLConfig.name 1251-1253 *)
Definition name_parts (c : Config.config) : pystr := Config.c_hostname c ++ u "." ++ Config.c_domain c.
Definition config_name (c : aclconfig) : pystr :=
  match c with
  | CAsa _ ms _ => name_parts (config_of ms)
  | CIos _ ms _ => name_parts (fst (iconfig_of ms))
  | CPf cfg _ => pc_name cfg
  end.

Inductive request :=
| Index                                                     (* GET "/" *)
| Add (bytes : list N) (filename : pystr)                   (* POST "/add" *)
| Show (config : pystr) (exp caf : option pystr).           (* GET "/show"; without a configuration it fails *)

(** What show.jinja2 is given: the configuration, the selection and the warning. *)
Record page := mkpage { pg_config : aclconfig; pg_selection : option (list elem); pg_warning : option exn }.
Inductive response :=
| Names (l : list pystr)      (* index.jinja2 lists the shelf *)
| ToShow (config : pystr)     (* a redirection to the page of this configuration *)
| ToIndex
| Failed (e : exn)            (* an exception nothing catches: "500 Internal Server Error" *)
| NotFound                    (* abort(404) *)
| Shown (p : page).

(** [x and len(x) > 0] 54, [if exp] 47 for arguments of a URL *)
Definition given (a : option pystr) : option pystr := match a with Some (x :: s) => Some (x :: s) | _ => None end.

Section Server.
  Context (isalpha isalnum isspace : N -> bool) (py_int : pystr -> option Z).
  Context (xml_read : pystr -> result xml) (unescape : pystr -> pystr)
          (ip_addr : pystr -> option addr) (ip_net : pystr -> pystr -> result net)
          (to_time : option pystr -> result Z) (strip : pystr -> pystr)
          (ip_net_strict : pystr -> bool) (download : option pystr -> option (list pystr)).
  (** The objects of a copy of a configuration and which of them are its entries; the order
      in which sets are gone through; how many calls may be nested. *)
  Context (objects : aclconfig -> store * (nat -> nat)) (order : nat -> list elem -> list elem) (depth : nat).
  Notation auto_file := (auto_file isalpha isalnum isspace py_int xml_read unescape ip_addr ip_net to_time strip ip_net_strict download).
  Notation acl_filter := (acl_filter isalpha isalnum isspace).

  Definition shelf := dict aclconfig.

  (** add 15-25; [fetch_urltable=False] *)
  Definition add (db : shelf) (bytes : list N) (filename : pystr) : shelf * response :=
    match auto_file bytes filename (Options false) with
    | Ok cfg => (dset db (config_name cfg) cfg, ToShow (config_name cfg))
    | Err TypeError => (db, ToIndex)
    | Err e => (db, Failed e)
    end.

  (** The [try] in show, 55-60: [resolve] adds to the set it is given, which stays the
      selection if it fails. *)
  Definition select (acls : aclconfig) (caf : pystr) : option (list elem) * option exn :=
    match acl_filter depth acls caf with
    | Err e => (None, Some e)
    | Ok l =>
        match acl_resolve acls (fst (objects acls)) (snd (objects acls)) order depth l with
        | (after, Err e) => (Some after, Some e)
        | (_, Ok selection) => (Some selection, None)
        end
    end.

  (** show 37-70 *)
  Definition show (db : shelf) (config : pystr) (exp caf : option pystr) : response :=
    match dget db config with
    | None => NotFound
    | Some acls =>
        match (match given exp with Some _ => acl_expand depth acls | None => Ok acls end) with
        | Err e => Failed e
        | Ok acls =>
            let (selection, warning) := match given caf with Some s => select acls s | None => (None, None) end in
            Shown (mkpage acls selection warning)
        end
    end.

  (** One request, and all requests so far (the first is the head of the list). *)
  Definition serve (db : shelf) (r : request) : shelf * response :=
    match r with
    | Index => (db, Names (map fst db))
    | Add bytes filename => add db bytes filename
    | Show config exp caf => (db, show db config exp caf)
    end.
  Definition after (history : list request) : shelf := fold_left (fun db r => fst (serve db r)) history [].
  (** The answer to [r] after [history] *)
  Definition answer (history : list request) (r : request) : response := snd (serve (after history) r).
End Server.
