# Reads /repo/tests as text and writes rocq/theories/Props/Corpus.v; render.py interprets the little of Jinja2 they use.
from gen import *
import gq
def q(s):
    ls=s.split("\n"); parts=[];cur=""
    for i,l in enumerate(ls):
        cur+=l+("\n" if i<len(ls)-1 else "")
        if len(cur)>1500: parts.append(cur);cur=""
    parts.append(cur)
    return " ++\n  ".join('u "%s"'%p.replace('"','""') for p in parts)
w=open("/verif/rocq/theories/Props/Corpus.v","w")
w.write('''(** The project's own tests, run on the model (tests, not proofs): the texts of
    /repo/tests/acl/tpl/*.jinja2 rendered as tests/test_acl.py renders them, and
    /repo/tests/caf/*.caf; what is computed here is what tests/test_acl.py and
    tests/test_caf.py require.  Written by tools/corpus/mk.py. *)
From Coq Require Import Lia String.
From Verif.Model Require Import Base Ip Hosts Groups Rules Caf Nat Iface Peg Ids AddrText Ports AclText Define GroupText ObjText LineText NatText FileText FileFilter IosText IosFile IosFilter Pfsense PfFile CafText Detect Auto Resolve AutoResolve.
From Verif.Spec Require Import AutoSpec PipelineSpec AutoResolveSpec CafTextSpec AddrSpec AddrTextSpec AclTextSpec FileTextSpec.
From Verif.Props Require Import CafText AclText Detect FileText FileFilter IosFileText IosFilter PfFile PfFilter Auto Pipeline AutoResolve.
Local Open Scope list_scope.

(** fwsmConfig.fromString, iosConfig.fromString, cafBlock.fromString: how many commands are
    read, or the exception. *)
Definition asa_outcome (s : pystr) : result nat :=
  match FileText.parse_file ascii_alpha ascii_alnum ascii_space C52_int s with Ok (cs, _, _) => Ok (List.length cs) | Err e => Err e end.
Definition ios_outcome (s : pystr) : result nat :=
  match IosFile.ios_parse ascii_alpha ascii_alnum ascii_space C52_int s with Ok (cs, _, _) => Ok (List.length cs) | Err e => Err e end.
Definition caf_outcome (s : pystr) : result unit :=
  match CafText.read s with Ok _ => Ok tt | Err e => Err e end.
Definition reads (r : result nat) : Prop := match r with Ok _ => True | Err _ => False end.
Definition fails (r : result nat) : Prop := match r with Ok _ => False | Err _ => True end.

''')
def group(key,doc,fn,pred,names):
    w.write("(** %s *)\n"%doc)
    for n,t in out[key]:
        assert all(ord(c)<128 for c in t),n
        w.write("Definition %s_%s : pystr :=\n  %s.\n"%(key,n,q(t)))
    l="; ".join("%s_%s"%(key,n) for n,t in out[key])
    w.write("Example corpus_%s : Forall (fun t => %s (%s t)) [%s].\nProof. repeat (apply Forall_cons; [vm_compute; exact I|]). apply Forall_nil. Qed.\n\n"%(key,pred,fn,l))
group("asa","fwsmTestBlock: every block of fwsm.jinja2 that is tested, with those it depends on, and the whole file","asa_outcome","reads",None)
group("bad","fwsmTestBlock.test_bad: every block of bad.jinja2","asa_outcome","fails",None)
group("ios","iosTestBlock: every block of ios.jinja2 that is tested, and the whole file","ios_outcome","reads",None)
w.write("(** cafTestParse and cafTestRun: tests/caf/*.caf *)\n")
bad=["multi_id","empty_id"]
for n,t in out["query"]: w.write("Definition caf_%s : pystr :=\n  %s.\n"%(n,q(t)))
w.write("Example corpus_good : Forall (fun t => caf_outcome t = Ok tt) [%s].\nProof. repeat (apply Forall_cons; [lazy; reflexivity|]). apply Forall_nil. Qed.\n"%"; ".join("caf_"+n for n,t in out["query"] if n not in bad))
w.write("Example corpus_refused : Forall (fun t => caf_outcome t = Err FailedParse) [%s].\nProof. repeat (apply Forall_cons; [lazy; reflexivity|]). apply Forall_nil. Qed.\n\n"%"; ".join("caf_"+n for n in bad))
w.write('''(** cafTestFilter: the rules a filter selects, by their ids; [rules_by_id] is the tests' own
    helper, assertCountEqual compares without regard to order. *)
Definition caf_tpl : pystr :=
  %s.
Definition id_of (i : item) : option pystr := match i with Rules.IRule r => r_id r | Rules.INat _ => None end.
Definition id_in (ids : list pystr) (o : option pystr) : bool := match o with Some s => existsb (str_eqb s) ids | None => false end.
'''%q(out["caf"][0][1]))
w.write('''Definition made_of (r : result (list command * list made * tables)) : list made * tables := match r with Ok (_, ms, T) => (ms, T) | Err _ => ([], no_tables) end.
Definition caf_parsed : list made * tables := Eval vm_compute in
  made_of (FileText.parse_file ascii_alpha ascii_alnum ascii_space C52_int caf_tpl).
Lemma caf_parsed_eq : exists cs, FileText.parse_file ascii_alpha ascii_alnum ascii_space C52_int caf_tpl = Ok (cs, fst caf_parsed, snd caf_parsed).
Proof. eexists. vm_compute. reflexivity. Qed.
(** [cfg.run(acls.rules)] and [rules_by_id] *)
Definition run_on (T : tables) (ms : list made) (query : pystr) : result (list iid) :=
  match caf_read ascii_alpha ascii_alnum ascii_space (snd (w_net (tb_world T))) query with
  | Ok (h, c) => caf_run 20 h (item_at ms) c (Config.c_rules (config_of ms))
  | Err e => Err e
  end.
Definition rules_by_id (ms : list made) (ids : list pystr) : list iid :=
  filter (fun x => id_in ids (id_of (item_at ms x))) (Config.c_rules (config_of ms)).
Definition selects (query : pystr) (ids : list pystr) : bool :=
  match run_on (snd caf_parsed) (fst caf_parsed) query with
  | Ok l => (Nat.eqb (List.length l) (List.length (rules_by_id (fst caf_parsed) ids)) && forallb (fun x => existsb (Nat.eqb x) l) (rules_by_id (fst caf_parsed) ids))%bool
  | Err _ => false
  end.
''')
w.write("Example corpus_filter :\n  forallb (fun p => selects (fst p) (snd p))\n    [%s] = true.\nProof. lazy. reflexivity. Qed.\n"%(";\n     ".join("(u \"%s\", [%s])"%(a,"; ".join('u "%s"'%x for x in b)) for a,b in gq.out)))

w.write('''
(** test_filter_7: [g.objects = [...]] for the group NetworkGroup7. *)
Definition group7 : option gid :=
  match find (fun g => str_eqb (g_name (h_get (snd (w_net (tb_world (snd caf_parsed)))) g)) (u "NetworkGroup7")) (seq 0 (h_next (snd (w_net (tb_world (snd caf_parsed)))))) with Some g => Some g | None => None end.
Definition with_member (x : host) : tables :=
  let T := snd caf_parsed in let w := tb_world T in let h := snd (w_net w) in
  match group7 with
  | Some g => mktables (tb_names T) (tb_netobj T) (tb_svcobj T) (mkworld (fst (w_net w), set_objs h g [x]) (w_port w) (w_service w) (w_proto w) (w_icmp w)) (tb_time T) (tb_if T) (tb_count T)
  | None => T
  end.
Definition selects7 (x : host) (query : pystr) : result (list (option pystr)) :=
  match run_on (with_member x) (fst caf_parsed) query with Ok l => Ok (map (fun i => id_of (item_at (fst caf_parsed) i)) l) | Err e => Err e end.
Example corpus_filter_7 :
  selects7 (HLeaf LAny) (u "id caf_filter_7 ip src ANY") = Ok [Some (u "caf_filter_7")] /\\
  selects7 (HLeaf LAny) (u "id caf_filter_7 except ip src ANY") = Ok [] /\\
  selects7 (HLeaf LAny4) (u "id caf_filter_7 except ip src ANY4") = Ok [] /\\
  selects7 (HLeaf LAny6) (u "id caf_filter_7 except ip src ANY6") = Ok [].
Proof. repeat (split; [lazy; reflexivity|]). lazy; reflexivity. Qed.

(** cafTestRun: every filter of tests/caf runs on the rules of fwsm.jinja2, and what it selects
    is resolved; test_expand: the groups are expanded. *)
Definition asa_config (t : pystr) : result aclconfig :=
  match FileText.parse_file ascii_alpha ascii_alnum ascii_space C52_int t with Ok (cs, ms, T) => Ok (CAsa cs ms T) | Err e => Err e end.
Definition ast (s : pystr) : option CafText.cexpr := match p_grammar ascii_alpha ascii_alnum ascii_space s with Ok e => Some e | Err _ => None end.
Definition asts := Eval lazy in map ast [%s].
Lemma asts_eq : asts = map ast [%s].
Proof. lazy. reflexivity. Qed.
Definition run_resolved (c : aclconfig) (e : CafText.cexpr) : bool :=
  match eval_expr (config_groups c) e with
  | Ok (h, v) =>
      match caf_run 60 h (c_get c) (wrap v) (c_rules c) with
      | Ok l => match C73_run c l with Ok _ => true | Err _ => false end
      | Err _ => false
      end
  | Err _ => false
  end.
Definition expands (c : aclconfig) : bool := match acl_expand 60 c with Ok _ => true | Err _ => false end.
Definition holds_for (r : result aclconfig) : bool :=
  match r with
  | Ok c => (forallb (fun e => match e with Some e => run_resolved c e | None => false end) asts && expands c)%%bool
  | Err _ => false
  end.
Example corpus_run : holds_for (asa_config asa_whole) = true.
Proof. vm_compute. reflexivity. Qed.

(** aclTestObjects.test_NetworkWildcard *)
Example corpus_wildcard :
  let n := HLeaf (LWild (mkaddr V4 2130706432) (mkaddr V4 254)) in let h := mkheap (fun _ => mkgroup [] [] [] []) 0 in
  and_ 10 h n (HLeaf (LHost (mkaddr V4 2130706434))) = Ok true /\\
  and_ 10 h n (HLeaf (LHost (mkaddr V4 2130706433))) = Ok false /\\
  and_ 10 h n (HLeaf (LNet (mknet V4 2130706432 31))) = Ok true /\\
  and_ 10 h n (HLeaf (LNet (mknet V4 2130706433 32))) = Ok false.
Proof. repeat split; vm_compute; reflexivity. Qed.
'''%((("; ".join("caf_"+n for n,t in out["query"] if n not in bad)),)*2))
w.close()
