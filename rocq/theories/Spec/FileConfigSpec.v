(** What the configuration made from the commands of a text contains. *)
From Verif.Model Require Import Base Ip Hosts Groups Rules Nat Iface AddrText AclText Define ObjText LineText FileText.
From Verif.Spec Require Import ConfigSpec.
Local Open Scope list_scope.

(** ** Positions *)
Fixpoint numbered {A} (k : nat) (l : list A) : list (nat * A) :=
  match l with [] => [] | a :: l' => (k, a) :: numbered (S k) l' end.
(** What [f] finds in the elements of a list, with the positions it is found at. *)
Definition found {A B} (f : A -> list B) (l : list A) : list (nat * B) :=
  flat_map (fun ka => map (pair (fst ka)) (f (snd ka))) (numbered 0 l).
Definition positions {A B} (f : A -> list B) (l : list A) : list nat := map fst (found f l).
Definition swap {A B} (x : A * B) : B * A := (snd x, fst x).

(** ** Commands *)
Definition rules_in (c : command) : list aclrule := match c with CRule x => [x] | _ => [] end.
Definition names_in (c : command) : list nameobj := match c with CSimple (SName n) => [n] | _ => [] end.
Definition versions_in (c : command) : list pystr := match c with CSimple (SVersion v) => [v] | _ => [] end.
Definition hostnames_in (c : command) : list pystr := match c with CSimple (SHostname n) => [n] | _ => [] end.
Definition domains_in (c : command) : list pystr := match c with CSimple (SDomain n) => [n] | _ => [] end.
Definition times_in (c : command) : list pystr := match c with CSimple (STime n _) => [n] | _ => [] end.
Definition ifaces_in (c : command) : list pystr := match c with CSimple (SInterface a _) => [a] | _ => [] end.
Definition netobjs_in (c : command) : list pystr := match c with CObject (ONet n _ _) => [n] | _ => [] end.
Definition svcobjs_in (c : command) : list svcobj := match c with CObject (OSvc n d s) => [mksvcobj n d s] | _ => [] end.
Definition groups_in (c : command) : list anydef := match c with CGroup d => [d] | _ => [] end.
Definition nats_in (c : command) : list natobj := match c with CNat (Some n) => [n] | _ => [] end.
Definition netobjs_made (m : made) : list netobj := match m with MNetObj p _ => [p] | _ => [] end.
Definition object_nats (m : made) : list natobj := match m with MNetObj _ (Some n) => [n] | _ => [] end.
Definition by_name {V} (name : V -> pystr) (l : list V) : list (pystr * V) := map (fun v => (name v, v)) l.

(** What the command at position [k] makes. *)
Inductive makes (k : nat) : command -> made -> Prop :=
| MK_version v : makes k (CSimple (SVersion v)) (MVersion v)
| MK_hostname n : makes k (CSimple (SHostname n)) (MHostname n)
| MK_domain n : makes k (CSimple (SDomain n)) (MDomain n)
| MK_name n : makes k (CSimple (SName n)) (MName n)
| MK_bind n d i : makes k (CSimple (SBind n d i)) (MBind n d i)
| MK_global n : makes k (CSimple (SGlobal n)) MNothing
| MK_interface a l i : iface_init k a l = Ok i -> makes k (CSimple (SInterface a l)) (MIface i)
| MK_time n l : makes k (CSimple (STime n l)) (MTime n l)
| MK_netobj n d b p nat : o_name p = n -> (forall known, exists known', network_object_def known n d b = Ok (known', p, nat)) ->
    makes k (CObject (ONet n d b)) (MNetObj p nat)
| MK_svcobj n d s : makes k (CObject (OSvc n d s)) (MSvcObj (mksvcobj n d s))
| MK_group d g : makes k (CGroup d) (MGroup d g)
| MK_rule x : makes k (CRule x) (MRule x)
| MK_nat n : makes k (CNat (Some n)) (MNat n)
| MK_pix : makes k (CNat None) MNothing
| MK_ethertype : makes k CEthertype MNothing
| MK_remarks l : makes k (CRemarks l) MNothing
| MK_skipped : makes k CSkipped MNothing
| MK_empty : makes k CEmpty MNothing.

(** An interface is known by its name and its nameif. *)
Definition ifnames_made (m : made) : list (pystr * ifnames) :=
  match m with
  | MIface i => (if_alias i, mkifnames (if_alias i) (if_nameif i)) ::
      match if_nameif i with Some n => [(n, mkifnames (if_alias i) (if_nameif i))] | None => [] end
  | _ => []
  end.
(** What the names mean after the commands have been read. *)
Record known (cs : list command) (ms : list made) (T : tables) : Prop := {
  kn_names : table_of_last (by_name nm_host (flat_map names_in cs)) (tb_names T);
  kn_netobj : table_of_first (by_name o_name (flat_map netobjs_made ms)) (tb_netobj T);
  kn_svcobj : table_of_first (by_name so_name (flat_map svcobjs_in cs)) (tb_svcobj T);
  kn_time : table_of_last (map swap (found times_in cs)) (tb_time T);
  kn_ifaces : table_of_last (flat_map ifnames_made ms) (tb_if T);
  (** groups: see C42 for the definition of groups one after the other *)
  kn_groups : define_all world_init (flat_map groups_in cs) = Ok (tb_world T) }.

(** ** NAT sections: before the object NATs, unless "after-auto" or "after-object" is written *)
Definition after_object (n : natobj) : bool := existsb (fun o => str_eqb o (u "after-auto") || str_eqb o (u "after-object")) (nat_opts n).
Definition nats_first (c : command) : list natobj := filter (fun n => negb (after_object n)) (nats_in c).
Definition nats_last (c : command) : list natobj := filter after_object (nats_in c).

(** ** Access groups *)
(** The access-group line at position [k] names [s]; the interface command at position [j]
    before it has that nameif, and no other interface has that nameif. *)
Definition bound_at (cs : list command) (ms : list made) (k j : nat) (d name : pystr) : Prop :=
  exists s i, nth_error cs k = Some (CSimple (SBind name d s)) /\ j < k /\ nth_error ms j = Some (MIface i) /\ if_nameif i = Some s.
(** ... and it is the last such line. *)
Definition bound_finally (cs : list command) (ms : list made) (j : nat) (d name : pystr) : Prop :=
  exists k, bound_at cs ms k j d name /\ forall k' name', k < k' -> ~ bound_at cs ms k' j d name'.
Definition nameifs_made (m : made) : list pystr :=
  match m with MIface i => match if_nameif i with Some n => [n] | None => [] end | _ => [] end.
