(** Sorting the groups of a configuration that was read, as examples/render/static.py:53-57
    does:  for i in ["network", "service", "port", "protocol"]: for grp in
    getattr(aclconfig.groups, i).values(): grp.sort() *)
From Verif.Model Require Import Base Hosts Groups Define Auto.

(** The inner loop, static.py:56-57; the first exception ends it. *)
Fixpoint sort_each {H} (op : H -> gid -> H * result gid) (l : list gid) (h : H) : H * option exn :=
  match l with
  | [] => (h, None)
  | g :: l => match op h g with (h, Ok _) => sort_each op l h | (h, Err e) => (h, Some e) end
  end.
Section Sort.
  (** Python's [int] and [socket.getservbyname], as in Model/Groups.v *)
  Context (py_int servbyname : pystr -> option Z).
  (** static.py:54-57 over the four tables; what was sorted before an exception stays so.
      [sort] in place does not use the recursion limit. *)
  Definition sort_tables (t : gtables) (s : groups) : groups * option exn :=
    let (hn, x) := sort_each (net_sort 0 true) (gt_network t) (gs_network s) in
    match x with Some e => (mkgroups hn (gs_port s) (gs_service s) (gs_protocol s) (gs_icmp s), Some e) | None =>
    let (hs, x) := sort_each (service_sort py_int servbyname (gs_port s) true) (gt_service t) (gs_service s) in
    match x with Some e => (mkgroups hn (gs_port s) hs (gs_protocol s) (gs_icmp s), Some e) | None =>
    let (hp, x) := sort_each (port_sort py_int servbyname 0 true) (gt_port t) (gs_port s) in
    match x with Some e => (mkgroups hn hp hs (gs_protocol s) (gs_icmp s), Some e) | None =>
    let (hr, x) := sort_each (proto_sort py_int true) (gt_protocol t) (gs_protocol s) in
    (mkgroups hn hp hs hr (gs_icmp s), x)
    end end end.
  Definition acl_sort (c : aclconfig) : aclconfig * option exn :=
    let (s, x) := sort_tables (group_tables c) (all_groups c) in (with_groups c s, x).
End Sort.
