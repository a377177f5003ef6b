(** ACLConfig.resolve (aclObjects.py:1291-1354). *)
From Coq Require Import String.
From Verif.Model Require Import Base Iface.
Local Open Scope list_scope.

(** Elements of the selection: None, strings, and objects by identity.  (Every class of
    the object model hashes by identity, Port included: 898-899.) *)
Inductive elem := ENone | EStr (s : pystr) | EObj (i : nat).
Definition elem_eqb (a b : elem) : bool :=
  match a, b with
  | ENone, ENone => true
  | EStr s, EStr t => str_eqb s t
  | EObj i, EObj j => Nat.eqb i j
  | _, _ => false
  end.

(** What resolve reads of an ACLRule (1067-1102).  [rr_icmp] is None or an object;
    [rr_times] are the option values that are TimeRange objects. *)
Record rrule := mkrrule {
  rr_id : option pystr; rr_protocol : elem;
  rr_shost : elem; rr_sport : elem; rr_dhost : elem; rr_dport : elem;
  rr_icmp : elem; rr_times : list elem }.
(** One side of a NATObject (128-183): the nodes of source and destination if given. *)
Record rside := mkrside { rs_src : option elem; rs_dst : option elem; rs_iface : elem; rs_service : elem }.

(** The classes resolve distinguishes. *)
Inductive okind :=
| KRule (r : rrule)
| KNat (real mapped : option rside)
| KGroup (cls : pystr) (members : list elem)       (* NetworkGroup, PortGroup, ServiceGroup, ProtocolGroup, ICMPGroup *)
| KAddr (target : option elem)                     (* Network, NetworkHost *)
| KNamed (cls : pystr)                             (* NetworkObject, ServiceObject, TimeRange *)
| KAccess (iface : elem)                           (* InterfaceAccessGroup *)
| KOther.                                          (* every other class *)

(** The object graph: class and attributes, and the attribute [name] if there is one: a
    string or None (Protocol 280-284 takes either). *)
Record store := mkstore { st_kind : nat -> okind; st_name : nat -> option (option pystr) }.

(** Python sets as duplicate-free lists; their iteration order is left open below. *)
Definition smem (e : elem) (l : list elem) : bool := existsb (elem_eqb e) l.
Definition sadd (e : elem) (l : list elem) : list elem := if smem e l then l else l ++ [e].

(** [r] is the caller's set object until [r = r.union(...)] rebinds it (1333). *)
Record rstate := mkrs { cur : list elem; arg : list elem; shared : bool }.
Definition radd (e : elem) (s : rstate) : rstate :=
  mkrs (sadd e (cur s)) (if shared s then sadd e (arg s) else arg s) (shared s).
Definition radds (l : list elem) (s : rstate) : rstate := fold_left (fun s e => radd e s) l s.
Definition runion (l : list elem) (s : rstate) : rstate :=
  mkrs (fold_left (fun r e => sadd e r) l (cur s)) (arg s) false.

Section Resolve.
  Context (st : store).
  (** the ids bound in [self.access_groups]: its keys *)
  Context (bound : pystr -> bool).

  Definition id_elem (i : option pystr) : elem := match i with Some s => EStr s | None => ENone end.

  (** [i.protocol.name], 1305 *)
  Definition proto_name (e : elem) : option (option pystr) :=
    match e with EObj i => st_name st i | _ => None end.

  Definition is_icmp (n : option pystr) : bool :=
    match n with Some n => str_eqb n (u "icmp") || str_eqb n (u "icmp6") | None => false end.

  (** 1293-1314: a rule of the selection *)
  Definition resolve_rule (r : rrule) (s : rstate) : rstate * option exn :=
    let s := radds [rr_protocol r; rr_shost r; rr_sport r; rr_dport r; rr_dhost r; id_elem (rr_id r)] s in
    match proto_name (rr_protocol r) with
    | None => (s, Some AttributeError)
    | Some n =>
        let s := if is_icmp n
                 then match rr_icmp r with ENone => s | e => radd e s end else s in
        let s := radds (rr_times r) s in
        match rr_id r with
        | Some i => if bound i then (s, Some TypeError) else (s, None)
        | None => (s, None)
        end
    end.

  Definition side_adds (d : rside) : list elem :=
    match rs_src d with Some e => [e] | None => [] end ++
    match rs_dst d with Some e => [e] | None => [] end ++
    [rs_iface d; rs_service d].

  (** 1315-1328: a NAT object of the selection *)
  Definition resolve_nat (real mapped : option rside) (s : rstate) : rstate * option exn :=
    match real with
    | None => (s, Some AttributeError)
    | Some a =>
        let s := radds (side_adds a) s in
        match mapped with
        | None => (s, Some AttributeError)
        | Some b => (radds (side_adds b) s, None)
        end
    end.

  (** The first loop, 1292-1328, over a copy of the selection. *)
  Fixpoint phase1 (l : list elem) (s : rstate) : rstate * option exn :=
    match l with
    | [] => (s, None)
    | e :: l' =>
        let '(s', x) :=
          match e with
          | EObj i => match st_kind st i with
                      | KRule r => resolve_rule r s
                      | KNat a b => resolve_nat a b s
                      | _ => (s, None)
                      end
          | _ => (s, None)
          end in
        match x with Some _ => (s', x) | None => phase1 l' s' end
    end.

  (** The [for] loop of 1332-1352 over a copy of the set: [true] if it was left by
      [break].  [d] is the set [done]. *)
  Fixpoint pass (l : list elem) (s : rstate) (d : list elem) : rstate * list elem * bool :=
    match l with
    | [] => (s, d, false)
    | e :: l' =>
        if smem e d then pass l' s d else
        let d := sadd e d in
        match e with
        | EObj i =>
            match st_kind st i with
            | KGroup c m => (runion m (radd (EStr c) s), d, true)
            | KAddr t => (match t with Some n => radds [n; EStr (u "Names")] s | None => s end, d, true)
            | KNamed c => (radd (EStr c) s, d, true)
            | KAccess f => (radds [f; EStr (u "Interface")] s, d, true)
            | KNat _ _ => pass l' (radd (EStr (u "NAT")) s) d
            | _ => pass l' s d
            end
        | _ => pass l' s d
        end
    end.

  (** [order k l] is the order in which the [k]-th [list(r)] enumerates the set [l]. *)
  Context (order : nat -> list elem -> list elem).

  (** [while True] 1331-1354; running out of fuel means "does not terminate". *)
  Fixpoint closure (fuel k : nat) (s : rstate) (d : list elem) : rstate * option exn :=
    match fuel with
    | O => (s, Some RecursionError)
    | S fuel' =>
        let '(s', d', broke) := pass (order k (cur s)) s d in
        if broke then closure fuel' (S k) s' d' else (s', None)
    end.

  (** The outcome: the caller's set afterwards, and the returned set or the exception. *)
  Definition resolve (fuel : nat) (r : list elem) : list elem * result (list elem) :=
    let '(s, x) := phase1 (order 0 r) (mkrs r r true) in
    match x with
    | Some e => (arg s, Err e)
    | None =>
        let '(s, x) := closure fuel 1 s [] in
        (arg s, match x with Some e => Err e | None => Ok (cur s) end)
    end.
End Resolve.
