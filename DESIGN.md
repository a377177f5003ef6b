# A formal model of commonism/acltk in Rocq (Coq 8.16.1)

## Layout

    rocq/theories/Model/*.v   executable Gallina models, no proofs; every definition cites file:lines of /repo
    rocq/theories/Spec/*.v    small independent specifications (address sets, closures, glob relation, text layout ...)
    rocq/theories/Proofs/*.v  lemmas
    rocq/theories/Props/*.v   property theorems (named after the property, C01_...), examples, `Print Assumptions`
    seeded/LOG.jsonl          seeded bugs and the theorems that failed on them
    tools/                    generators of properties.jsonl and MANIFEST.json, the seeded-bug runner

Python exceptions are values (`Err e`), mutation of shared groups is an explicit heap, Python
strings are lists of code points, Python's recursion limit is explicit fuel whose exhaustion
is `Err RecursionError`.  Object identity is a number.

## Trusted base

* Coq's kernel (8.16.1) including its virtual machine (`vm_compute` is used for examples and a
  few finite tables).
* `Print Assumptions` answers "Closed under the global context" for every theorem of
  MANIFEST.json: no axiom is used.  vcheck lists seven `Coq.ssr.ssrunder.Under_rel.*` items;
  they are the fields of a sealed module of Coq's own library, loaded with the standard
  library files imported here; no theorem of this development depends on them.
* The translation of the Python code into the model.  It is by hand, function by function,
  with the lines cited at each definition.
* Python library behaviour written into the model: integers, tuples, `sorted` (stable, by key),
  `dict` (insertion order), `set` (arbitrary iteration order, a parameter), `fnmatch`/`re` for
  glob patterns, `ipaddress` of CPython 3.11 (constructors, masks, `summarize_address_range`,
  `collapse_addresses`, text forms), `functools.total_ordering`.
* tatsu (the parser generator; not part of /repo) is represented by `Model/Peg.v`: ordered
  choice, sequence, optional, closure (ends at an iteration that consumes nothing), look-ahead,
  tokens with name guard; exceptions other than FailedParse raised by a semantic action are not
  caught by any choice.  White space is skipped before tokens and rules in caf, nowhere in fwsm
  and ios.  A leading element without a value is dropped from a sequence, a later one counts
  (the actions index accordingly); closures drop iterations without a value; a key that the
  matched alternative does not name is None.  Memoization is not modelled: a semantic action with an
  effect (learning a name) is assumed to run once per accepted definition.  A constant of the grammar
  is the value of the Python literal it spells (`None`, `"access-list"`) and otherwise its text
  (`set`, `range`).  A list with separators is its element and then, with a cut after the separator,
  further ones: a separator without an element after it makes the list fail.

### Modelled

| file of /repo/lib/acltk | modelled |
|---|---|
| aclObjects.py | networks, wildcards, any-terms, objects, all groups with expand/collapse/sort/`__and__`, services, ports, port ranges, the service table, interfaces, NAT objects, ACLRule `__and__`, ACLConfig construction, detection, expand, filter, resolve |
| aclSemantics.py | numeric literals, group members and definitions, object definitions and object NAT, references by name |
| fwsmSemantics.py | manual NAT, access_group, access_list |
| iosObjects.py, iosSemantics.py | completely from text to configuration and selection |
| pfsenseSemantics.py | completely, from the element tree on to configuration and selection |
| caf.bnf, cafSemantics.py, cafObjects.py | completely, from text to selection |
| acl.bnf, fwsm.bnf, ios.bnf, ip.bnf | completely as grammars of texts (the ASA grammar: FileText.v, the IOS grammar: IosFile.v) |

### Not modelled

* Of examples/render/dynamic.py: Flask, the templates' HTML, `show` without `config`, POST to `/` and `/show`
  (both return None).  The shelf (flask_shelve over shelve, without writeback) is assumed to be a dictionary
  whose every access gives an equal, new copy; requests are served one after the other.

`__str__`/`__repr__` other than those of filter expressions, rules, network groups and terms (C75, C76, C79); the command line tool; the XML reader; downloads of
URL tables (a parameter); the clock and date texts; the fallback interface of a mapped NAT
source; IPv6 scope ids.

## Properties: what is modelled and how it is proved

| id | modelled | proof |
|----|----------|-------|
| C01-C03 | every `__and__` method, branch by branch, over a heap of groups, fuel = recursion limit | induction on rank/fuel against the independent predicate "address a is matched by term x" |
| C04 | NetworkWildcard.__and__ | bitwise (testbit) reasoning against "agrees on every non-wild bit" |
| C05 | `_addresses` work list | invariant over the work list, measure = sum of 2^popcount, coverage |
| C06 | ipaddress netmask classification | arithmetic on N (2^k) |
| C07 | ios_host try/except | combination of C04, C06 |
| C08 | summarize_address_range | loop invariant "emitted ++ remaining = range" |
| C09 | collapse_addresses, _collapse_addresses_internal | coverage invariant, sortedness, canonical form uniqueness |
| C10 | collapse on the heap incl. exceptions | case analysis, refutation witnesses |
| C11-C14 | _expand/expand/ACLConfig.expand on the heap | induction on rank; invariance of flattening under expansion of other groups |
| C15,C45 | sorted(key) as stable insertion sort, key functions | permutation, sortedness, stability |
| C16 | cafNetworkAny* | induction on rank |
| C17,C18 | ACLRule.__and__, fnmatch translation | glob relation as inductive spec |
| C19-C21,C23 | cafBlock/cafOp run, semantics of set/net/expr | structural induction; precedence against a grammar-shaped spec |
| C22,C30 | NATObject.__and__, object_type | case analysis |
| C24,C25 | resolve loop over an object graph with arbitrary iteration order | invariant + termination measure |
| C26 | reverse sorted ordered choice + white-space lookahead | order theory of prefixes |
| C27-C29,C32 | ACLConfig.__init__ fold over items | induction over the item list |
| C31,C47,C51 | network_object_nat, nat | case analysis against a table of what the words stand for |
| C33-C35 | Port, PortRange, PortUtil | order theory on strings; the shipped table by computation |
| C36,C37 | Interface.__init__, iosConfig.__init__ | induction over details/routes |
| C38-C40,C48,C49 | pfSense XML conversion | case analysis / induction |
| C41 | caf.bnf as a parser on characters, the actions on the tree | the parser accepts exactly the layout relation of Spec/CafTextSpec.v (induction on text length); evaluation against set algebra; printer/parser round trip |
| C42 | definition of groups by name | invariant: members are allocated before the group, hence acyclic |
| C43,C44,C46 | literal bounds, auto-detection, port-object | case analysis |
| C52 | access_list of fwsm.bnf with all rules of acl.bnf it uses, and their actions | each grammar rule is shown equivalent to a layout relation (Spec/AclTextSpec.v): soundness by inversion, completeness by showing that every earlier alternative fails |
| C53 | object_group of acl.bnf with all rules it uses, and their actions (Model/GroupText.v) | as C52: layout relation (Spec/GroupTextSpec.v), soundness and completeness per rule, induction over the member lines |
| C54 | object of acl.bnf with all rules it uses, and their actions (Model/ObjText.v) | as C53 (Spec/ObjTextSpec.v); C54_defines: evaluation of network_object_def on everything the reader yields, with C08 and the mask facts |
| C55 | version, hostname, domain-name, name, access-group, interface and time-range of fwsm.bnf and acl.bnf with their actions, datetime's range checks (Model/LineText.v) | as C52 (Spec/LineTextSpec.v); interface lines by splitting at the first line feed |
| C56 | nat of fwsm.bnf:167-217 with its actions (Model/NatText.v, Model/Nat.v) | as C52 (Spec/NatTextSpec.v); errors by a closure argument over parsers that never raise (Proofs/NoErr.v) |
| C57 | grammar, command and ignored of fwsm.bnf:4-28,219-314, the tables of aclParser, fromString (Model/FileText.v) | soundness and completeness of the loop over commands by induction (Props/FileText.v); the words commands begin with exclude one another (computed over the table, Proofs/FileFacts.v); the names in the tables come from commands, so the naming rules of Spec/FileTextSpec.v give env_ok at each command |
| C58 | ACLConfig.__init__ over the list fromString returns (Model/FileText.v, Model/Config.v) | induction over the commands read: what each makes, the tables after each prefix; the configuration through C27-C29, C32 (Spec/FileConfigSpec.v, Props/FileConfig.v) |
| C59 | fromString, cafBlock.fromString and ACLConfig.filter put together (Model/FileFilter.v) | invariant over the commands read: addresses in range, groups refer to older groups, NAT ends resolved (Proofs/FileGood.v); then C23, C19, C41, C58 (Spec/FileFilterSpec.v, Props/FileFilter.v) |
| C60 | `ip access-list` of IOS with hosts, nodes, options, remarks (Model/IosText.v) | soundness and completeness of each reader against Spec/IosTextSpec.v; the options by one lemma over tables of option words; Proofs/IosFacts.v, Props/IosText.v |
| C61 | numbered lists of IOS (Model/IosText.v) | the number patterns against ranges of numbers (Proofs/IosNumbers.v); Props/IosText.v |
| C62 | `ipv6 access-list` of IOS (Model/IosText.v) | as C60; Props/IosList6.v |
| C63 | `object-group` of IOS (Model/IosFile.v) | soundness and completeness of each member reader against Spec/IosFileSpec.v; the rest shared with C53; Props/IosGroups.v |
| C64 | `interface` of IOS (Model/IosFile.v) | each kept line by its own reader; a line the specification does not keep is read as nothing because no reader can fail to read it otherwise; Proofs/IosLineFacts.v, Props/IosIface.v |
| C65 | the whole IOS grammar: `icommand_`, `icommands`, `ios_parse` (Model/IosFile.v) | the table of skipped words is checked once against the lists of the specification and then reasoned about generically (Proofs/IosSkipFacts.v); banners, pools, routes (Proofs/IosCommandFacts.v, IosIpFacts.v); each command written is read by its own reader and by none before it (Proofs/IosFileFacts.v); induction over the text, the tables always holding names the commands before defined (Props/IosFileText.v) |
| C66 | `iosConfig.__init__` over what the commands made: `iconfig_of` (Model/IosFile.v), on top of the generic `build` of Model/Config.v | every run of the reader makes exactly what the specification's `imakes` relation allows, the tables being those of the last definitions (`iruns_made`, `iruns_known` in Props/IosConfig.v); the configuration is then the generic one of C29/C40, and the statements are about positions in the list of written commands |
| C67 | `ios_filter` (Model/IosFilter.v): `ios_parse`, `caf_read` and the generic `config_filter` put together | invariant over the text: groups hold well-formed members and refer to older groups, ends of rules are well-formed or wildcards (`istep_good`, `ifile_good` in Props/IosFilter.v); clauses without IPv6 literals stay so (`eval_v4`); then C23 and C41 |
| C68 | `pf_parse` (Model/PfFile.v): the five passes over the element tree, the semantic actions of Model/Pfsense.v for the items, the configuration object | the passes over each tag are independent of the other tags; the tables are the fold of the definitions in order (`learned_names`, `built_names`); `parse_shape`/`shape_parse` show the equivalence with Spec/PfFileSpec.v |
| C69 | `pf_config_filter` (Model/PfFile.v): `pf_parse`, `caf_read` and the generic `config_filter` | every host in the document is well-formed (`document_good`), so any rule is comparable with any clause (`pcompare`); then C23 and C41 |
| C70 | `auto_parse`, `acl_filter` (Model/Auto.v): the loop of Model/Detect.v over the three modelled readers; `ET.fromstring` is a parameter | C57 and C65 decide what the readers accept; comments are read one command at a time by both (`asa_comments`, `ios_comments`), and no command of either grammar starts with an angle bracket; filtering is C59, C67, C69 |
| C71 | `utf8_decode`, `decode_sig`, `auto_file` (Model/Auto.v): CPython's strict decoder with the optional mark | decoder and the encoding of RFC 3629 (Spec/AutoSpec.v) are inverse to each other (`decode_iff`, `sig_iff`), by induction over the bytes |
| C72 | `acl_expand` (Model/Auto.v): `config_expand` over the tables and heaps of what was read | termination from C42 (texts nest groups in order of definition; pfSense groups are flat, `ports_flat`); expanded heaps are again well-formed (`flat_ok`), match the same addresses (`flat_matches`) and the same literal any terms unless an object hides one (`any_same`); the meaning of an expression depends only on what its networks select (`expr_ext`) |
| C73 | `acl_resolve` (Model/AutoResolve.v): `resolve` with `access_groups` computed from the interfaces of what was read | the objects of the configuration are any store related to it by `shown` (Spec/AutoResolveSpec.v); an invariant of reachability (`reach_inv`) bounds what C24's least closure can hold, induction over `refers` gives the converse; the index of bound lists is C32/C66; `C73_shown` builds a store, so the premise is met by every configuration |
| C74 | `acl_sort` (Model/AutoSort.v): the sort loop of examples/render/static.py over the tables of what was read | induction over the list of groups sorted so far, composing C15's stable permutations (`each_sorted`); network groups have keys because `add` admits no wildcard or interface and objects hold neither (`defs_plain`, `flat_plain`); groups with the same members select the same (`members_net`) |
| C75 | `addr_str`, `net_str` (Model/AddrStr.v): `str` of ipaddress objects with `_compress_hextets` | invariant of the run loop (current run maximal, best run longest and first), canonical form against Spec/AddrStrSpec.v, reading back through C50's `ip_address_spec` |
| C76 | `caf_run_v`, `config_filter_v`, `acl_filter_v` (Model/CafPrint.v, AutoPrint.v): `run` with verbose=True and the `__repr__` methods it uses | structural induction over the expression beside C19's exactness; ranks bound the recursion of `__repr__`; C72's `any_ready` for configurations that were read |
| C77 | `acl_rules_filter`, `acl_rules_run`, `manual`, `example` (Model/Manual.v): ACLRules.filter on configurations that were read, and the programs in examples/ | C18's exactness for every rule of the list, C72's `parsed_good` for the hosts of the configuration; order from C58's positions |
| C78 | `add`, `show`, `serve`, `after`, `answer` (Model/Server.v): the requests of examples/render/dynamic.py over a dictionary of configurations | invariant of the history (`serve_get`, `after_latest`): a name holds the last accepted upload; more allowed nesting never changes a result (`acl_expand_mono`, `config_filter_mono`); C70_filter, C72 and C73 for what a page selects |
| C79 | `term_repr`, `end_repr`, `aclrule_repr` (Model/GroupPrint.v): `__repr__` of rules, ends, network groups, network objects and terms | members of groups were made earlier (`heap_ok`), so the number of a group bounds the nested calls; the printed text by a relation without a limit (GroupPrintSpec); induction on the limit for groups that hold themselves |
| C50 | ip.bnf patterns, ipaddress text parsing | characterisation of both as relations on texts |

## Validation: the project's own tests, run on the model

Props/Corpus.v (written by tools/corpus/mk.py, which reads /repo/tests as text) evaluates the model on
the inputs of the project's tests and compares with what the tests require.  These are tests of the
model's fidelity, not proofs.  All agree:

* tests/test_acl.py: each tested block of fwsm.jinja2 (30), the whole file (755 commands), each block
  of bad.jinja2 (21, all refused), the blocks of ios.jinja2 and the whole file; test_NetworkWildcard;
* tests/test_caf.py: tests/caf/*.caf read or refused; the 28 queries of cafTestFilter with the rules
  each must select, and the four of test_filter_7 with a changed group; the filters of tests/caf run on
  the rules of fwsm.jinja2 and resolved; test_expand.

Not covered: tests that read files absent from the repository (acl/private, acl/single, pfsense.xml),
and rendering.  The character classes are the ASCII ones there, and `int` is `C52_int`.

## Deviations of the code from what a user would expect (proved)

* C03/C04: two wildcards are compared wrongly; a wildcard compared with IPv6 ignores the version.
* C10: collapsing a group with IPv6 members raises ValueError.
* C25: resolve raises TypeError for every rule whose ACL is bound in IOS style.
* C26: a NAT interface whose name begins with `any-` is never found.
* C30: a NAT line given apart from its object has an empty real source.
* C31: object NAT keeps the real port on both sides, the mapped port is lost.
* C34: port ranges are compared as texts (`range 9 10` is refused).
* C35: eight port names of the grammar are unknown to the service table.
* C38: pfSense `match` rules become deny rules.
* C39: a pfSense interface with a static address makes the configuration unloadable.
* C46: `port-object eq PORT` loses the port.
* C47: static NAT with mismatched services raises AttributeError instead of the intended error.
* C48: entries of a host alias that are not addresses become `any`.
* C41: `/* x **/` does not end the comment; `a union` (missing operand) selects everything.
* C50: a leading zero in an address raises ValueError, which ends the whole parse.
* C52: `log informational`, `log errors`, `log alerts`, `log emergencies` and protocol `tcp-udp`
  are not in the grammar; a service group in the place of a port group, an ICMP type above 255 and
  a number range such as `range 9 10` raise AssertionError, which ends the whole parse; host names
  such as `any-srv` are never found; a remark line ended by CR LF keeps the CR.  Names that
  are words of the access-list language are excluded by `env_ok`.
* C53: a blank after a network-object, port-object, icmp-object or protocol-object line, a member
  group not yet defined, a member indented by two blanks and an empty description are
  AssertionErrors; in port groups such lines end the definition silently instead.  A group
  without a name and `tcp-udpsource eq 53destination eq 54` are accepted.
* C54: a blank after an object's name or after its host/subnet/range line ends the definition early
  (the rest is left over and fails the whole parse); a description before the nat line leaves the nat
  line over; an interface that is not known, or a nat line without an interface pair, makes the nat
  line unreadable; a second nat line is dropped; a service object without contents is an
  AssertionError; the name of an fqdn object is not kept, so all fqdn objects are alike.
* C55: an interface address without a standby address is not kept; several weekdays on one periodic
  line make the line unreadable and a `no periodic` line is dropped without effect; a time such as
  24:00 or a 29 February that does not exist is a ValueError for the whole configuration; a blank
  after the name of a hostname, name, interface or time-range command makes it unreadable; text
  after a domain name is left over.
* C56: after the mapped destination `interface` an object whose name starts with the word ipv6 (`ipv6-srv`) is not
  readable; a description takes the rest of the line, options included; one interface in parentheses makes any line the
  PIX form, which is dropped silently.
* C57: one line that is not understood makes the whole configuration unreadable: an unknown command, a blank after a host
  name or an object's address, an indented line after a command that takes none (`dns-guard`). A command may begin in
  the middle of a line, after an object without body and after the domain name (`object network foo!x`). The empty text is a
  configuration.
* C58: of a service object defined twice the configuration's table has the last definition, but references use the first.
* C60: a wildcard that is also a netmask is read as the netmask: `permit 10.0.0.1 0.0.0.0`, one host on IOS, permits every
  address here, and `10.0.0.1 255.255.255.255`, every address on IOS, is one host. A bare address takes a following address as its
  wildcard. `log established` makes `established` the word of `log`, so `log time-range x` is unreadable. Options with numbers
  (`dscp 46`) are unreadable, and so are blanks at the end of a line. A remark after the last rule is left over and the whole
  file is unreadable.
* C61: standard lists 1400-1999 of IOS are unreadable; so are remarks that no rule follows. Remarks of any list go to the next
  numbered rule, whatever its number. Extended numbered lists read hosts like the ASA: a wildcard that is no
  inverse mask is a ValueError for the whole file.
* C62: the options log-input, mobility-type and routing-type are never readable (log, mobility and routing are tried before them).
* C63: a `range` line in a network group of IOS is a ValueError for the whole file; services as IOS writes them
  (`tcp eq 80`), an `any` line and a blank after a member group of a network group are AssertionErrors.
* C64: an IPv6 address with `eui-64`, a VLAN list with a comma at the end and `switchport trunk allowed vlan remove` are dropped
  without notice; an address with a leading zero is a ValueError for the whole file.
* C65: a static route with a distance, a name or a track is dropped without notice, one with host bits is a ValueError for the
  whole file; `ip dhcp pool` swallows the commands after it, access lists included, up to a line with `!`, `(`, `)` or `|`;
  everything after a line that begins with the word `line` or `end` is ignored, whatever it is; only `banner motd` can be read,
  and a delimiter that is not ASCII does not end its banner (the end looked for is its last UTF-8 byte followed by hexadecimal
  digits); `Using N out of M bytes`, `ip cef distributed`, `ip domain name a b`, `ntp ...` and a remark of a numbered list with
  no rule after it make the whole file unreadable; `ip domain-name x` is skipped while `ip domain name x` is kept; the version
  keeps the blank before it.
* C66: when an interface is described twice, a route that names it and stands between the two descriptions stays with the first
  description, which the table of interfaces no longer has (`C66_twice`).
* C67: a rule with a wildcard that is no mask (`10.0.0.0 0.255.0.255`) is returned for the IPv6 address `::a03:7`
  (`C67_wild_ex`): the comparison is of numbers, whatever the version. `id 1*` in a filter selects the list named `1*`; patterns
  need slashes (`id /1*/`).
* C68: the name of a pfSense configuration always ends in a dot (`C68_name`): `hostname` already holds the domain and the
  `domain` of the base class stays empty, but `ACLConfig.name` joins the two. A missing host name or domain shows as the text
  `None`. The revision's time is converted (and must be convertible) but then lost. One interface with a static address makes
  the whole document unreadable (`C68_static`), so most real documents are.
* C69: a rule for an interface's `network`, or for an alias with a host name in it, is selected for every address (`C69_ex`).
* C70: an IOS configuration without rules is read as an ASA configuration, and its routes and the lists bound to its
  interfaces are lost (`C70_ex_lost`), unless a `version` line comes first (`C70_version`). Options given as a plain
  ACLParserOptions make a pfSense document with a urltable alias unreadable (AttributeError, reported as ValueError).
* C72: on the text level too, `ANY` selects a rule over a group with an object for a host name only after `expand()` (`C72_ex2`).
* C73: on IOS every rule of a list that an interface block binds makes `resolve` raise TypeError (`C73_ex1`); on ASA, FWSM and pfSense it cannot (`C73_ex3`), because only lines inside interface blocks are put into `access_groups`.
* C73: ids of rules and names of kinds share one set: a rule of a list called `NetworkGroup` makes `resolve` announce network groups where there are none.
* C74: one `port-object eq` in any port group makes the sorting of examples/render/static.py stop with TypeError, leaving the protocol groups unsorted (`C74_ex2`).
* C77: examples/acl-filter.py passes `source=` and `dest=`, which ACLRule swallows in `**kwargs`; its assertion on `src` then fails, so the program prints `anyany n` and stops with AssertionError whatever the configuration is (`C77_example`).
* C78: configurations with neither host name nor domain name are all named `.` and replace each other; the name does not tell where the host name ends, so `a.b`/`c` and `a`/`b.c` collide, too (`C78_ex1`, `C78_ex2`).
* C78: `except TypeError` in `add` catches nothing that happens: every refused upload is a ValueError (`C78_upload`) and is answered with an internal server error.
* C78: `exp=0` expands, as any nonempty text does (`C78_ex3`).
* C78: a filter that selects a rule of a bound IOS list shows a warning together with what `resolve` had added so far (`C78_selects`, `C78_ex4`).
