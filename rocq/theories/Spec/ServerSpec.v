(** What the web application shows. *)
From Coq Require Import String.
From Verif.Model Require Import Base Ip Hosts Groups Rules Iface Pfsense FileText IosFile PfFile Detect Auto Resolve Server.
From Verif.Spec Require Import ResolveSpec FileConfigSpec IosConfigSpec AutoSpec PipelineSpec AutoResolveSpec.
Local Open Scope list_scope.

(** The last of some lines, nothing if there is none. *)
Definition last_or_nothing (l : list pystr) : pystr := last l [].
(** The name of a configuration: the host name, a dot and the domain name.  In pfSense
    documents both are in the host name. *)
Definition called (c : aclconfig) (n : pystr) : Prop :=
  match c with
  | CAsa cs _ _ => n = last_or_nothing (flat_map hostnames_in cs) ++ u "." ++ last_or_nothing (flat_map domains_in cs)
  | CIos cs _ _ => n = last_or_nothing (flat_map ihostnames_in cs) ++ u "." ++ last_or_nothing (flat_map idomains_in cs)
  | CPf cfg _ => n = pcf_hostname cfg ++ u "."
  end.

Section History.
  (** [reads bytes c]: a file with these bytes is read as this configuration. *)
  Context (reads : list N -> aclconfig -> Prop).
  (** The request is an upload that is accepted under this name. *)
  Inductive uploads : request -> pystr -> aclconfig -> Prop :=
  | UP bytes filename c n : reads bytes c -> called c n -> uploads (Add bytes filename) n c.
  (** The last upload under this name. *)
  Inductive latest (history : list request) (n : pystr) (c : aclconfig) : Prop :=
  | LT before r later : history = before ++ r :: later -> uploads r n c ->
      (forall r' c', In r' later -> ~ uploads r' n c') -> latest history n c.
End History.

(** What is asked for, and what the page shows: the configuration itself, or expanded. *)
Definition asks (a : option pystr) : Prop := a <> None /\ a <> Some [].
Definition shows (exp : option pystr) (c c' : aclconfig) : Prop := (asks exp -> expanded c c') /\ (~ asks exp -> c' = c).
