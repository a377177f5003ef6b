(** Choice of the format (aclObjects.py:1255-1289). *)
From Verif.Model Require Import Base.

(** The [options] argument: None, an ACLParserOptions object, or anything else. *)
Inductive popts (O : Type) := NoOptions | Options (o : O) | BadOptions.
Arguments NoOptions {O}.
Arguments Options {O} o.
Arguments BadOptions {O}.
(** The [_data] argument: a string or something else. *)
Inductive pdata := DStr (s : pystr) | DOther.

Section Detect.
  (** A format's own parser ([fwsmConfig._parse], [iosConfig._parse],
      [pfsenseConfig._parse]): any function of the text, the file name and the options that
      returns a configuration or raises a subclass of Exception. *)
  Context {C O : Type}.
  Definition fparser := pystr -> option pystr -> popts O -> result C.

  (** The loop of ACLConfig._parse 1263-1268. *)
  Fixpoint first_ok (l : list fparser) (data : pystr) (filename : option pystr) (o : popts O) : result C :=
    match l with
    | [] => Err ValueError
    | p :: l' => match p data filename o with
                 | Ok c => Ok c
                 | Err _ => first_ok l' data filename o
                 end
    end.

  (** ACLConfig._parse 1255-1269. *)
  Definition acl_parse (fwsm ios pfsense : fparser) : fparser :=
    fun data filename o =>
      match o with
      | BadOptions => Err AssertionError
      | _ => first_ok [fwsm; ios; pfsense] data filename o
      end.

  (** fromString 1271-1277 of a class whose [_parse] is [cls_parse]. *)
  Definition from_string (cls_parse : fparser) (d : pdata) (filename : option pystr) (o : popts O) : result C :=
    match d with
    | DOther => Err AssertionError
    | DStr s => cls_parse (s ++ [10%N]) filename o
    end.
End Detect.
