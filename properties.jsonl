{"id": "C01", "title": "Address overlap is exact", "statement": "For hosts, networks, any/any4/any6, interfaces, network objects and (nested, shared) network groups, `a & b` returns True exactly when some single IP address is matched by both a and b, provided b matches at least one address and no wildcard is involved on a side where the other side has IPv6 addresses or another wildcard.", "quantifier": "every pair of address terms over every acyclic group graph, every IPv4/IPv6 value, every nesting depth", "why_tests_cant": "the pairs of terms, address values and nesting depths are unbounded; tests sample a handful of pairs", "anchors": ["lib/acltk/aclObjects.py:Network.__and__", "lib/acltk/aclObjects.py:NetworkHost.__and__", "lib/acltk/aclObjects.py:NetworkGroup.__and__", "lib/acltk/aclObjects.py:NetworkObject.__and__", "lib/acltk/aclObjects.py:NetworkAny4.__and__", "lib/acltk/aclObjects.py:NetworkAny6.__and__"]}
{"id": "C02", "title": "Overlap is symmetric", "statement": "For the terms of C01, whenever both sides match at least one address, `a & b` and `b & a` return the same answer; the answer differs only when one side is empty and the other contains any/interface (a concrete witness is proved).", "quantifier": "every pair of non-empty wildcard-free address terms over every acyclic group graph", "why_tests_cant": "both dispatch orders of every class pair at every nesting depth", "anchors": ["lib/acltk/aclObjects.py:Network.__and__", "lib/acltk/aclObjects.py:NetworkAny.__and__", "lib/acltk/aclObjects.py:NetworkGroup.__and__"]}
{"id": "C03", "title": "Matching never diverges", "statement": "Evaluating `a & b` needs a recursion depth bounded by the nesting ranks of a and b plus a constant and then always returns a bool, unless both sides involve a wildcard; wildcard & wildcard exhausts every recursion limit (RecursionError).", "quantifier": "every pair of address terms, every acyclic group graph, every recursion limit", "why_tests_cant": "termination over mutually delegating __and__ methods quantifies over all inputs and limits", "anchors": ["lib/acltk/aclObjects.py:NetworkWildcard.__and__", "lib/acltk/aclObjects.py:NetworkHost.__and__", "lib/acltk/aclObjects.py:NetworkAny4.__and__"]}
{"id": "C04", "title": "Wildcard matching is bitwise exact on IPv4", "statement": "NetworkWildcard(a,w) & NetworkHost(h) is True exactly when h agrees with a on every bit where w is 0; against an IPv4 Network it is True exactly when the network contains such an address. Against IPv6 terms the version is not checked and a false match exists (proved witness).", "quantifier": "all 32-bit addresses, wildcards and networks", "why_tests_cant": "2^64+ combinations; non-contiguous masks are easy to get wrong", "anchors": ["lib/acltk/aclObjects.py:NetworkWildcard.__and__"]}
{"id": "C05", "title": "Wildcard enumeration is exact", "statement": "NetworkWildcard._addresses() terminates, never raises, and the addresses and networks it returns cover exactly the IPv4 addresses that match the wildcard.", "quantifier": "all 32-bit addresses and wildcards", "why_tests_cant": "the enumeration loop branches on every bit of the mask", "anchors": ["lib/acltk/aclObjects.py:NetworkWildcard._addresses"]}
{"id": "C06", "title": "Netmask interpretation", "statement": "Network(address, mask) accepts a prefix length up to the address width, or for IPv4 a contiguous netmask or hostmask, rejects everything else with ValueError, and on success matches exactly the addresses equal to `address` on the masked leading bits.", "quantifier": "all addresses and all masks of both IP versions", "why_tests_cant": "all 2^32 dotted masks must be classified correctly", "anchors": ["lib/acltk/aclObjects.py:Network.__init__"]}
{"id": "C07", "title": "IOS source-wildcard pairs", "statement": "An IOS `address wildcard` pair yields a term matching exactly the addresses that agree with `address` on the zero bits of `wildcard`, for every wildcard that is not itself of netmask shape 1*0*; for netmask-shaped wildcards (including the very common 0.0.0.0, which becomes 0.0.0.0/0) the term is instead the network of that netmask, so the property is violated (witness proved, and exact characterisation of when it happens).", "quantifier": "all 32-bit addresses and wildcards", "why_tests_cant": "the failing masks are 33 out of 2^32", "anchors": ["lib/acltk/iosSemantics.py:iosSemantics.ios_host", "lib/acltk/aclObjects.py:NetworkWildcard"]}
{"id": "C08", "title": "Range objects cover exactly their range", "statement": "`object network` of type range start..stop yields networks covering exactly the addresses from start to stop inclusive, pairwise disjoint and in increasing order; start>stop or mixed versions raise and build nothing.", "quantifier": "all start/stop addresses of both versions", "why_tests_cant": "off-by-one and carry errors only show for particular alignments", "anchors": ["lib/acltk/aclObjects.py:NetworkObject.__init__"]}
{"id": "C09", "title": "Collapse preserves the address set and is canonical", "statement": "Collapsing a group whose hosts/networks have one IP version gives, when it succeeds, a group matching exactly the addresses of those hosts and networks, with strictly increasing, pairwise disjoint members no two of which could be merged; two groups matching the same addresses collapse to the very same member list (so collapse is order independent and idempotent). It succeeds for every IPv4 group that must be expanded (insitu=False) or holds only networks; for IPv6 it succeeds exactly if the canonical form consists of single addresses and otherwise raises ValueError.", "quantifier": "all lists of networks and hosts of one IP version", "why_tests_cant": "every list of CIDR blocks; canonicity relates all pairs of lists", "anchors": ["lib/acltk/aclObjects.py:NetworkGroup.collapse", "lib/acltk/aclObjects.py:NetworkGroup._collapse"]}
{"id": "C10", "title": "Collapse effects on the object graph", "statement": "collapse changes no group other than its receiver and the returned group, and never a receiver that needs expansion; insitu=True on such a receiver raises ValueError and changes nothing; but on a group holding only networks insitu=False still rewrites the receiver; a group of networks and network objects only raises KeyError; any/any4/any6 members are silently dropped; mixed IPv4/IPv6 content raises TypeError after a networks-only receiver has been emptied.", "quantifier": "every group graph, every group, both insitu values", "why_tests_cant": "purity and exception safety quantify over all heaps", "anchors": ["lib/acltk/aclObjects.py:NetworkGroup.collapse", "lib/acltk/aclObjects.py:NetworkGroup._collapse"]}
{"id": "C11", "title": "Expand flattens exactly", "statement": "After g.expand() group g contains no groups (and, for network groups, no network objects); its members are the leaves of the former graph in left-to-right order; expanding again changes nothing; the set of matched addresses is unchanged.", "quantifier": "every acyclic group graph of every depth and sharing pattern", "why_tests_cant": "nesting depth and sharing are unbounded", "anchors": ["lib/acltk/aclObjects.py:_Group._expand", "lib/acltk/aclObjects.py:_Group.expand", "lib/acltk/aclObjects.py:NetworkGroup.expand", "lib/acltk/aclObjects.py:ServiceGroup.expand"]}
{"id": "C12", "title": "Expand(insitu=False) is pure", "statement": "expand(insitu=False) returns a fresh group with the flattened contents and same name and leaves every existing group's members unchanged; expand(insitu=True) changes only the receiver.", "quantifier": "every acyclic group graph", "why_tests_cant": "aliasing errors need particular sharing", "anchors": ["lib/acltk/aclObjects.py:_Group.expand", "lib/acltk/aclObjects.py:NetworkGroup.expand"]}
{"id": "C13", "title": "Config-wide expand is order independent", "statement": "ACLConfig.expand() leaves each registered group with exactly the flattening of its original contents, whatever the registration order and however groups are shared.", "quantifier": "every acyclic group graph, every registration order", "why_tests_cant": "in-place mutation of shared groups while iterating; all orders", "anchors": ["lib/acltk/aclObjects.py:ACLConfig.expand"]}
{"id": "C14", "title": "Filtering is invariant under expand", "statement": "Running any filter whose terms are ordinary addresses/any/any4/any6 gives the same rules before and after ACLConfig.expand(); with the special ANY terms it can change (witness with an fqdn object proved).", "quantifier": "every config, every caf expression, every acyclic group graph", "why_tests_cant": "all combinations of filters and group graphs", "anchors": ["lib/acltk/aclObjects.py:ACLConfig.expand", "lib/acltk/aclObjects.py:ACLConfig.filter", "lib/acltk/cafObjects.py:cafNetworkAny.__and__"]}
{"id": "C15", "title": "Sort is a stable permutation", "statement": "sort() in place permutes the members of a network, port, protocol or service group stably into non-descending key order (address, number or name weight), keeps the matched addresses and changes no other group, or raises and changes nothing if a member has no key; sort(insitu=False) raises AttributeError on protocol and service groups, returns the sorted flattening for port groups, and for network groups returns the unexpanded, uncollapsed members; ICMP groups cannot be sorted.", "quantifier": "every group content", "why_tests_cant": "stability/permutation for all lists", "anchors": ["lib/acltk/aclObjects.py:NetworkGroup.sort", "lib/acltk/aclObjects.py:PortGroup.sort", "lib/acltk/aclObjects.py:ProtocolGroup.sort", "lib/acltk/aclObjects.py:ServiceGroup.sort"]}
{"id": "C16", "title": "ANY terms match only literal any", "statement": "The caf terms ANY/ANY4/ANY6 match a rule side exactly when that side is the corresponding literal any term or a group that reaches one through nested groups only.", "quantifier": "every acyclic group graph", "why_tests_cant": "nested groups of any depth", "anchors": ["lib/acltk/cafObjects.py:cafNetworkAny.__and__", "lib/acltk/cafObjects.py:cafNetworkAny4.__and__", "lib/acltk/cafObjects.py:cafNetworkAny6.__and__"]}
{"id": "C17", "title": "ACL id matching", "statement": "A filter id without slashes selects exactly equal ids; `/pattern/` selects exactly the ids matched by the shell pattern; a missing id selects everything.", "quantifier": "all id and pattern strings", "why_tests_cant": "all strings and patterns", "anchors": ["lib/acltk/aclObjects.py:ACLRule.__and__"]}
{"id": "C18", "title": "Rule filter semantics", "statement": "A rule is selected by a filter clause exactly when its id is selected (C17) and source and destination each overlap (C01/C16).", "quantifier": "every rule, clause and acyclic group graph", "why_tests_cant": "product of all term pairs", "anchors": ["lib/acltk/aclObjects.py:ACLRule.__and__", "lib/acltk/aclObjects.py:ACLNode.__and__", "lib/acltk/aclObjects.py:ACLRules.filter"]}
{"id": "C19", "title": "caf run is set algebra", "statement": "run() returns exactly the set denoted by the expression: union, intersection, difference of the clause results, always a subset of the given rules, never duplicated, and is total (no exception) for caf expressions over acyclic configs.", "quantifier": "every caf expression tree, every rule list", "why_tests_cant": "expression trees and rule lists are unbounded", "anchors": ["lib/acltk/cafObjects.py:cafBlock.run", "lib/acltk/cafObjects.py:cafOpUnion.run", "lib/acltk/cafObjects.py:cafOpIntersect.run", "lib/acltk/cafObjects.py:cafOpExcept.run"]}
{"id": "C20", "title": "caf operator precedence", "statement": "A flat sequence of sets joined by union/intersect/except evaluates with intersect binding tighter and union/except left-associative, whatever its length.", "quantifier": "all operand/operator sequences", "why_tests_cant": "sequences of every length", "anchors": ["lib/acltk/cafSemantics.py:RealCafSemantics.expr"]}
{"id": "C21", "title": "caf clause construction", "statement": "A clause with an id and ip terms selects rules by id AND (any src term) AND (any dst term), a missing direction meaning any; but a clause consisting of an id and one parenthesised expression drops the id (witness proved), and mixing ip terms with a parenthesised expression raises TypeError.", "quantifier": "every clause", "why_tests_cant": "all combinations of terms in a clause", "anchors": ["lib/acltk/cafSemantics.py:RealCafSemantics.set", "lib/acltk/cafSemantics.py:RealCafSemantics.net"]}
{"id": "C22", "title": "NAT matching", "statement": "A NAT object is selected by a clause exactly when, on its real or its mapped side, every endpoint that is present overlaps the clause's corresponding side and at least one endpoint is present; the clause id is ignored.", "quantifier": "every NAT object, clause and acyclic group graph", "why_tests_cant": "all presence/absence combinations and terms", "anchors": ["lib/acltk/aclObjects.py:NATObject.__and__", "lib/acltk/aclObjects.py:ACLRule.__and__"]}
{"id": "C23", "title": "Config filter", "statement": "ACLConfig.filter(caf) returns exactly the rules and the NAT objects (of all three sections) selected by the expression.", "quantifier": "every config, every caf expression", "why_tests_cant": "unbounded configs", "anchors": ["lib/acltk/aclObjects.py:ACLConfig.filter"]}
{"id": "C24", "title": "resolve computes the least closure", "statement": "resolve terminates and returns exactly the start set plus everything reachable through rule/NAT attributes, group members, name targets and access-group interfaces (with the class-name markers), independent of set iteration order.", "quantifier": "every object graph (cycles included), every selection, every iteration order", "why_tests_cant": "termination and order independence over all graphs", "anchors": ["lib/acltk/aclObjects.py:ACLConfig.resolve"]}
{"id": "C25", "title": "resolve fails on interface-bound ACLs", "statement": "If a selected rule's ACL id is bound to an interface by an IOS interface access-group then resolve raises TypeError (the bound list is unhashable); if no selected id is bound it never raises.", "quantifier": "every selection and config", "why_tests_cant": "requires the combination of ios interface binding and selection", "anchors": ["lib/acltk/aclObjects.py:ACLConfig.resolve", "lib/acltk/aclObjects.py:ACLConfig.__init__"]}
{"id": "C26", "title": "References resolve to exactly the named object", "statement": "Whatever names are defined, a reference `name` followed by white space resolves to the object of exactly that name if defined, and fails otherwise; names that are prefixes of each other are never confused.", "quantifier": "all sets of defined names without white space and all input texts", "why_tests_cant": "prefix collisions among arbitrary name sets", "anchors": ["lib/acltk/aclSemantics.py:aclParser.__acl_internal_ids", "lib/acltk/acl.bnf:acl_object_network"]}
{"id": "C27", "title": "Definition tables", "statement": "After building a config, each table maps a name to its last definition (network objects: first definition), in first-definition order, and nothing else is in the tables.", "quantifier": "every sequence of parsed items", "why_tests_cant": "all sequences", "anchors": ["lib/acltk/aclObjects.py:ACLConfig.__init__", "lib/acltk/aclSemantics.py:aclParser._learn"]}
{"id": "C28", "title": "Rule order is preserved", "statement": "config.rules lists exactly the parsed rules in config order (IOS: named access lists flattened in place), with nothing lost, duplicated or reordered.", "quantifier": "every sequence of parsed items", "why_tests_cant": "all sequences and interleavings", "anchors": ["lib/acltk/aclObjects.py:ACLConfig.__init__", "lib/acltk/iosObjects.py:iosConfig.__init__"]}
{"id": "C29", "title": "NAT sections", "statement": "Every parsed NAT lands in exactly one section: manual NAT with after-auto/after-object in 3, other manual NAT in 1, object NAT in 2, each in config order.", "quantifier": "every sequence of parsed items", "why_tests_cant": "all sequences", "anchors": ["lib/acltk/aclObjects.py:ACLConfig.__init__", "lib/acltk/fwsmSemantics.py:fwsmSemantics.nat"]}
{"id": "C30", "title": "Object NAT given apart from the object", "statement": "When an object is defined first and its nat line comes in a second definition of the same object, the NAT's real source matches no address, so address filters never select it through its real source (witness and general statement proved).", "quantifier": "every object, nat and clause", "why_tests_cant": "needs the two-step definition and an address filter together", "anchors": ["lib/acltk/aclSemantics.py:aclSemantics.object_type", "lib/acltk/aclObjects.py:NATObject.__and__"]}
{"id": "C31", "title": "Object NAT service ports", "statement": "For object NAT with `service proto real mapped` the built object carries on both sides only the real port; the mapped port is lost (witness proved, exact result proved).", "quantifier": "all ports and protocols", "why_tests_cant": "silent data loss", "anchors": ["lib/acltk/aclSemantics.py:aclSemantics.network_object_nat", "lib/acltk/aclSemantics.py:aclSemantics.network_object_nat_service"]}
{"id": "C32", "title": "Interface bindings", "statement": "access-group lines bind to the first previously defined interface with that nameif, later bindings for the same direction replace earlier ones, and unknown interfaces leave all interfaces unchanged; IOS interface bindings are indexed by ACL name in order.", "quantifier": "every sequence of items", "why_tests_cant": "all sequences", "anchors": ["lib/acltk/aclObjects.py:ACLConfig.__init__", "lib/acltk/aclObjects.py:Interface.__init__"]}
{"id": "C33", "title": "Port ordering", "statement": "Ports are totally ordered (reflexive, antisymmetric up to ==, transitive, total) and == is an equivalence; equal ports are nevertheless different dictionary keys.", "quantifier": "all ports", "why_tests_cant": "order laws for all triples", "anchors": ["lib/acltk/aclObjects.py:Port"]}
{"id": "C34", "title": "PortRange validation", "statement": "A numeric range is accepted exactly when start precedes stop as character strings: equal-length numbers are checked correctly, but e.g. 80..443 is rejected and 100..99 accepted (witnesses proved); ranges with a service name are always accepted.", "quantifier": "all start/stop strings", "why_tests_cant": "string/number comparison differs on a scattered set of pairs", "anchors": ["lib/acltk/aclObjects.py:PortRange.__init__"]}
{"id": "C35", "title": "Service name lookup", "statement": "PortUtil.getservbyname(name) returns the port of the first table row of that name and None for unknown names; with a protocol argument it raises AttributeError for every known name.", "quantifier": "all names and protocols", "why_tests_cant": "all strings", "anchors": ["lib/acltk/aclObjects.py:PortUtil.getservbyname", "lib/acltk/aclObjects.py:PortUtil.services"]}
{"id": "C36", "title": "VLAN trunk accumulation", "statement": "An interface's trunk VLAN list is the last `set` list followed by all later `add` lists in order; an `add` with no earlier `set` raises AttributeError.", "quantifier": "every detail sequence", "why_tests_cant": "all sequences of switchport commands", "anchors": ["lib/acltk/aclObjects.py:Interface.__init__"]}
{"id": "C37", "title": "Route attachment", "statement": "Each IOS route is attached to exactly the interfaces one of whose addresses' networks contains the gateway (or to the gateway interface itself).", "quantifier": "all routes and interfaces", "why_tests_cant": "all address combinations", "anchors": ["lib/acltk/iosObjects.py:iosConfig.__init__"]}
{"id": "C38", "title": "pfSense rule conversion", "statement": "A converted pfSense rule permits only if its type is `pass` and denies otherwise, is marked inactive exactly if disabled, logs exactly if log is present, and its id is `floating` or the mapped interface.", "quantifier": "every XML rule element", "why_tests_cant": "all XML trees", "anchors": ["lib/acltk/pfsenseSemantics.py:pfsenseParser._parse_filter__rule"]}
{"id": "C39", "title": "pfSense static interfaces", "statement": "A pfSense interface with a static ipaddr makes interface construction raise IndexError, so no config containing one can be loaded; with dhcp or no ipaddr it is loaded.", "quantifier": "all interface elements", "why_tests_cant": "requires a static-address interface", "anchors": ["lib/acltk/pfsenseSemantics.py:pfsenseParser._parse_interfaces", "lib/acltk/aclObjects.py:Interface.__init__"]}
{"id": "C40", "title": "pfSense separators", "statement": "A caption is attached to a rule exactly when the separators for its interface name the rule's index counted from the start of the run of consecutive rules with that id.", "quantifier": "all rule and separator lists", "why_tests_cant": "all lists", "anchors": ["lib/acltk/pfsenseSemantics.py:pfsenseParser._parse_filter"]}
{"id": "C41", "title": "Filter text means what it says", "statement": "cafBlock.fromString accepts exactly the texts of filter expressions whose addresses are addresses and whose sets do not mix ip terms with parentheses, every text has at most one reading, the object read selects what the text means (intersect binds tighter, union and except associate to the left), and printing any expression with explicit parentheses and reading it back selects the same rules.", "quantifier": "every text and every expression tree", "why_tests_cant": "texts and trees of every length and depth", "anchors": ["lib/acltk/caf.bnf:grammar", "lib/acltk/cafSemantics.py:RealCafSemantics", "lib/acltk/cafObjects.py:cafBlock.fromString"]}
{"id": "C42", "title": "Parsed group graphs are acyclic", "statement": "Any sequence of group definitions, including redefinitions and self references by name, yields an acyclic object graph, so expand, filter and resolve terminate.", "quantifier": "every definition sequence", "why_tests_cant": "all sequences of (re)definitions", "anchors": ["lib/acltk/aclSemantics.py:aclSemantics.object_group_type", "lib/acltk/aclSemantics.py:aclParser._learn"]}
{"id": "C43", "title": "Numeric literal bounds", "statement": "protocol numbers, ports, icmp types/codes are accepted exactly when within 0..255, 0..65535, 0..255, 0..255.", "quantifier": "all digit strings", "why_tests_cant": "boundary values of every literal", "anchors": ["lib/acltk/aclSemantics.py:aclSemantics.protocol_int", "lib/acltk/aclSemantics.py:aclSemantics.port_int", "lib/acltk/aclSemantics.py:aclSemantics.icmp_type_int"]}
{"id": "C44", "title": "Format auto-detection", "statement": "ACLConfig.fromString returns the result of the first of fwsm, ios, pfsense parsers that succeeds, and raises ValueError exactly if all fail.", "quantifier": "every outcome combination", "why_tests_cant": "parsers are arbitrary", "anchors": ["lib/acltk/aclObjects.py:ACLConfig._parse"]}
{"id": "C45", "title": "Sort keys of names", "statement": "A non-empty name of characters below code point 255 always sorts before every number, so named members precede numeric members after sort.", "quantifier": "all names and numbers", "why_tests_cant": "all strings", "anchors": ["lib/acltk/aclObjects.py:nstrsum", "lib/acltk/aclObjects.py:PortGroup.key_of", "lib/acltk/aclObjects.py:ProtocolGroup.key_of", "lib/acltk/aclObjects.py:NetworkGroup.key_of"]}
{"id": "C46", "title": "port-object eq loses the port number", "statement": "A `port-object eq PORT` line of a port group yields a member without port number, whatever PORT is; sorting a port group with such a member raises TypeError and leaves it unchanged.", "quantifier": "all ports", "why_tests_cant": "silent data loss for every port number", "anchors": ["lib/acltk/acl.bnf:port_group_object", "lib/acltk/aclSemantics.py:aclSemantics.port_group_object", "lib/acltk/aclObjects.py:PortGroup.key_of"]}
{"id": "C47", "title": "Manual NAT is built as written", "statement": "A manual nat line yields a NAT object whose real and mapped sides carry exactly the written source, destination, interfaces and services: `interface` endpoints become the interface named on the same side, destination order (mapped first, real second) is turned round, static NAT takes both services' ports from the same direction and refuses (AttributeError) combinations whose directions differ, and the options are exactly the flags written plus after-auto when a position is given.", "quantifier": "every manual nat line", "why_tests_cant": "all combinations of endpoints, services and options", "anchors": ["lib/acltk/fwsmSemantics.py:fwsmSemantics.nat", "lib/acltk/fwsmSemantics.py:fwsmSemantics.nat_src", "lib/acltk/fwsmSemantics.py:fwsmSemantics.nat_dst"]}
{"id": "C48", "title": "pfSense aliases", "statement": "An alias element makes its name stand for a new group holding exactly what its text describes: for a host alias one host per blank-separated entry, with every entry that is not an address (a host name, another alias) turned into `any`; for a network alias one network per entry, each needing exactly one slash; for a port alias single ports and colon ranges; for a URL table the addresses and strict networks of the downloaded lines, nothing if the download fails, `any` if fetching is off. Any other type, or a missing element, raises.", "quantifier": "every alias element and download result", "why_tests_cant": "all texts and download outcomes", "anchors": ["lib/acltk/pfsenseSemantics.py:pfsenseParser._parse_aliases"]}
{"id": "C49", "title": "pfSense interface names", "statement": "Rules refer to an interface's network only by the name it was given - its description for optional interfaces - and any other <network> text makes loading fail; the rules of an interface go to the list of the last interface whose description is the tag they name.", "quantifier": "all interface lists and rules", "why_tests_cant": "all combinations of tags and descriptions", "anchors": ["lib/acltk/pfsenseSemantics.py:pfsenseParser._parse_interfaces", "lib/acltk/pfsenseSemantics.py:pfsenseParser._parse_filter__rule"]}
{"id": "C51", "title": "Object NAT is built as written", "statement": "A nat line of a network object yields a NAT object whose real side has the object as source and any as destination, whose mapped side has the written address (host, network of the prefix length, named object, or the mapped interface), with interfaces, type and options as written; services as in C31.", "quantifier": "every object nat line", "why_tests_cant": "all combinations of addresses, masks, services and options", "anchors": ["lib/acltk/aclSemantics.py:aclSemantics.network_object_nat", "lib/acltk/aclSemantics.py:aclSemantics.network_nat_mapped", "lib/acltk/aclSemantics.py:aclSemantics.object_type"]}
{"id": "C50", "title": "Address text is read whole and read right", "statement": "Where a configuration may contain an IPv4 address, the text is read as one exactly if it starts with four decimal numbers up to 255 without leading zeros, separated by dots, and the value is that address; nothing of it is left over unless a further digit would exceed 255. A superfluous leading zero raises ValueError (and ends the parse). An IPv6 address is read exactly if the run of hex digits, dots and colons is one of the notations of RFC 4291, and yields that address; any other run with a colon raises ValueError. Every address can be written so that it is read back.", "quantifier": "all texts and all addresses of both versions", "why_tests_cant": "the set of texts is infinite; regular expression back-off and address parsing must agree on every one", "anchors": ["lib/acltk/ip.bnf ip4, ip6", "lib/acltk/aclSemantics.py ip4, ip6"]}
{"id": "C52", "title": "access-list lines mean what they say", "statement": "An ASA/FWSM access-list text (remark lines followed by a rule line) is read as a rule exactly if it is written in the documented layout, and the rule read is the one written: id, kind, mode, protocol or group, both ends with address/mask/prefix length/known name/interface/any/object/group, ports, ICMP type and code, the last of each option, and the remarks in order; the text consumed is exactly those lines. Every other text yields no rule. Ethertype lines are read and dropped. A text is a way to write at most one rule.", "quantifier": "every text and every table of names that keeps to the naming rules", "why_tests_cant": "the set of texts is infinite; ordered choice, name guards and look-ahead interact for every name and every continuation", "anchors": ["lib/acltk/fwsm.bnf access_list", "lib/acltk/acl.bnf node, acl_host, acl_port, acl_options, acl_icmp_options", "lib/acltk/aclSemantics.py acl_host, acl_port, node, acl_options", "lib/acltk/fwsmSemantics.py access_list"]}
{"id": "C53", "title": "object-group definitions mean what they say", "statement": "An ASA/FWSM object-group text is read as a definition exactly if it is written in the documented layout, and the definition read is the one written: class, name, protocol, description and the members in order, each an address, network, object, service, port, port range, ICMP type, protocol or member group; reading ends exactly where the definition ends. A text is a way to write at most one definition, and a definition read with the tables of the configuration so far is carried out without an exception.", "quantifier": "every text, every table of names that keeps to the naming rules, every text that follows", "why_tests_cant": "the set of texts is infinite; ordered choice, optional blanks, closures that stop at the first line that is no member", "anchors": ["lib/acltk/acl.bnf object_group, object_group_type, network_group_object, service_group_object, port_group_object, icmp_group_object, protocol_group_object", "lib/acltk/aclSemantics.py object_group_type and the *_group_object actions"]}
{"id": "C54", "title": "object definitions mean what they say", "statement": "An ASA/FWSM 'object network' or 'object service' text is read as a definition exactly if it is written in the documented layout, and the definition read is the one written: name, description, address, subnet, range or fqdn, the NAT line with its interface pair, direction of translation, mapped address, service and options, or the service with its ports; reading ends exactly where the definition ends. A text is a way to write at most one definition. A network object read is built without an exception, unless its mask is no mask or its range runs backwards, which is a ValueError.", "quantifier": "every text, every table of names and interfaces that keeps to the naming rules, every text that follows", "why_tests_cant": "the set of texts is infinite; ordered choice, optional blanks and lines, names that shadow keywords", "anchors": ["lib/acltk/acl.bnf object, object_type, network_object, network_object_nat, nat_interfaces, network_nat_mapped, service_object, service_object_op", "lib/acltk/aclSemantics.py object_type, network_object_nat, network_nat_mapped, service_object, service_object_op, nat_interfaces"]}
{"id": "C55", "title": "the other commands mean what they say", "statement": "An ASA/FWSM version, hostname, domain-name, name, access-group, interface or time-range command is read exactly if it is written in the documented layout, and what is read is what is written: the names, the address and description of a name, the list, direction and interface of a binding, the description, name and addresses (with their prefix) of an interface in order, the periods of a time range with hour, minute, day, month and year that exist in the calendar. A line of an interface that is skipped is not a description, name or address with standby address. Reading ends where the command ends. A text is a way to write at most one command.", "quantifier": "every text that ends with a line feed, every text that follows", "why_tests_cant": "the set of texts is infinite; ordered choice, skipped lines, calendar arithmetic", "anchors": ["lib/acltk/fwsm.bnf version, interface_detail, name, access_group", "lib/acltk/acl.bnf hostname, domain_name, interface, time, timedate, time_range_object, time_range", "lib/acltk/aclSemantics.py interface, interface_detail, hour, month, time, timedate, time_range_object, time_range", "lib/acltk/fwsmSemantics.py name, access_group"]}
{"id": "C56", "title": "a manual NAT line means what it says", "statement": "Reading a manual NAT line of an ASA configuration (interfaces, after-object/after-auto, source static or dynamic with real and mapped nodes, pat-pool and interface fallback, destination, service, flags, description) yields exactly the NAT rule written: every line of the command syntax is read as what it stands for, everything that is read as NAT is such a line, and a text has one reading. The only lines refused with an error are static ones whose services are not one port each on the same side (AttributeError). A line with one interface in parentheses (PIX) is accepted and yields no rule.", "quantifier": "all texts, all tables of objects, groups, services and interfaces with well-formed names", "why_tests_cant": "The set of lines and of name tables is unbounded, and names of objects compete with the keywords; tests only show single lines.", "anchors": ["lib/acltk/fwsm.bnf:nat", "lib/acltk/fwsm.bnf:nat_src", "lib/acltk/fwsm.bnf:nat_dst", "lib/acltk/fwsm.bnf:nat_options", "lib/acltk/fwsmSemantics.py:fwsmSemantics.nat"]}
{"id": "C57", "title": "a whole ASA/FWSM configuration is read command by command", "statement": "ACLConfig.fromString on an ASA/FWSM configuration accepts exactly the texts that are a sequence of commands (version, hostname, domain-name, interface, name, time-range, object, object-group, access-list with remarks, access-group, nat, the skipped commands with their indented lines, empty lines), each written with the names defined by the commands before it, and returns what these commands make, in order; a text has one such reading. A text with anything else in it is refused as a whole.", "quantifier": "all texts whose definitions keep to the naming rules, all sequences of commands of any length", "why_tests_cant": "Every command competes with every other and with the lines that are skipped, and what a name means depends on all commands before it; tests only show single files.", "anchors": ["lib/acltk/fwsm.bnf:grammar", "lib/acltk/fwsm.bnf:command", "lib/acltk/fwsm.bnf:ignored", "lib/acltk/aclObjects.py:ACLConfig.fromString", "lib/acltk/aclSemantics.py:aclParser"]}
{"id": "C58", "title": "the configuration object holds what the text says", "statement": "For every ASA/FWSM configuration text that ACLConfig.fromString accepts, the configuration's rules and names are those written, in order; version, host and domain name are the last ones written; the tables of groups and time ranges are the ones references were resolved with, a name meaning its last definition so far (network and service objects: its first); each interface is the one described; manual NAT lines are in the section before or after the object NATs exactly as their position word says, object NATs in between in order; and an interface is bound to the rule list of the last access-group line of that direction naming it.", "quantifier": "all accepted texts, every position in them", "why_tests_cant": "What a name refers to depends on all definitions before and after it; the possible histories of definitions are unbounded.", "anchors": ["lib/acltk/aclObjects.py:ACLConfig.__init__", "lib/acltk/aclObjects.py:ACLConfig.fromString", "lib/acltk/aclSemantics.py:aclParser", "lib/acltk/fwsmObjects.py:fwsmConfig"]}
{"id": "C59", "title": "filtering a configuration text by a filter text", "statement": "For every ASA/FWSM configuration text that is accepted and every filter text that is a readable expression, ACLConfig.filter returns exactly the entries (access-list rules, NAT lines, NATs of network objects) that the written expression means: those whose id matches and whose source and destination have an address in common with the written networks, combined by union, intersect and except. cafBlock.run on the rules returns exactly such rules. Neither raises, and expand() on such a configuration ends. Any other filter text is refused with an exception.", "quantifier": "all pairs of an accepted configuration text and a filter text", "why_tests_cant": "End to end the result depends on every definition in the configuration, the nesting of groups and the shape of the expression; both texts are unbounded.", "anchors": ["lib/acltk/aclObjects.py:ACLConfig.filter", "lib/acltk/aclObjects.py:ACLConfig.expand", "lib/acltk/aclObjects.py:ACLConfig.fromString", "lib/acltk/cafObjects.py:cafBlock.fromString", "lib/acltk/cafObjects.py:cafBlock.run", "examples/caf-filter.py", "examples/render/static.py"]}
{"id": "C60", "title": "named IOS access lists as text", "statement": "`ip access-list standard|extended NAME` followed by its indented lines is read exactly when the lines are remarks and rules in the written form (optional number, action, protocol, addresses with inverse masks or wildcards, ports, ICMP type, options), and the rules that result are the written ones: every rule bears the list's name and kind, the remarks directly before it and its options by name, the last of several equal ones. A text can be read in one way only.", "quantifier": "all texts and all tables of groups known at that point", "why_tests_cant": "Lines, gaps, names and numbers of rules are unbounded, and alternatives of the grammar overlap (icmp rules, wildcards after bare addresses).", "anchors": ["lib/acltk/ios.bnf:ip_access_list_standard", "lib/acltk/ios.bnf:ip_access_list_extended", "lib/acltk/ios.bnf:ios_host", "lib/acltk/iosSemantics.py:ip_access_list", "lib/acltk/iosSemantics.py:ios_host"]}
{"id": "C61", "title": "numbered IOS access lists as text", "statement": "An `access-list NUMBER permit|deny ...` line, with the `access-list ... remark` lines before it, is read exactly when the number is one of a standard list (1-99, 1300-1399; an address) or an extended list (100-199, 2000-2699; protocol, addresses, ports or ICMP type, options) in the written form; the rule that results is the written one and carries the remarks. A text can be read in one way only.", "quantifier": "all texts and all tables of groups known at that point", "why_tests_cant": "The number decides the form of the rest; remarks, gaps and names are unbounded.", "anchors": ["lib/acltk/ios.bnf:access_list", "lib/acltk/ios.bnf:access_list_ip_standard", "lib/acltk/ios.bnf:access_list_ip_extended", "lib/acltk/iosSemantics.py:access_list_ip_standard_rule", "lib/acltk/iosSemantics.py:access_list_ip_extended_rule"]}
{"id": "C62", "title": "IPv6 access lists of IOS as text", "statement": "`ipv6 access-list NAME` is read exactly when one or more ` sequence N ...` lines in the written form follow it; the rules that result are the written ones, with the number as the option sequence, ICMPv6 messages as options of their own name. A text can be read in one way only.", "quantifier": "all texts and all tables of groups known at that point", "why_tests_cant": "Lines, options and messages per rule are unbounded; both alternatives of the grammar read icmp rules.", "anchors": ["lib/acltk/ios.bnf:ipv6_access_list", "lib/acltk/ios.bnf:ipv6_access_list_rule", "lib/acltk/iosSemantics.py:ipv6_access_list", "lib/acltk/iosSemantics.py:ipv6_access_list_seq"]}
{"id": "C63", "title": "object groups of IOS as text", "statement": "An `object-group` of an IOS configuration (network, service, icmp-type, protocol, service with a port protocol) is read exactly when its head, description and indented members are in the written form and every member group is already defined; the definition that results is the written one, a text can be read in one way only, and storing it defines a group of exactly that name, kind and members. A `range` line in a network group makes the whole file a ValueError.", "quantifier": "all texts and all tables of groups known at that point", "why_tests_cant": "Members and names are unbounded; the readers of members are tried in turn and overlap.", "anchors": ["lib/acltk/ios.bnf:network_group_object", "lib/acltk/ios.bnf:service_group_object", "lib/acltk/acl.bnf:object_group_type", "lib/acltk/aclSemantics.py:network_group_object", "lib/acltk/aclSemantics.py:object_group_type"]}
{"id": "C64", "title": "interfaces of IOS as text", "statement": "An `interface` of an IOS configuration is read with every indented line after it: description, addresses, access-group and traffic-filter, switchport mode and VLAN lists give exactly the written detail, every line that is none of these gives nothing, and no line is lost or merged. Every interface whose address lines are well-formed is read, in one way only.", "quantifier": "all texts of an interface, with any number of lines of any contents", "why_tests_cant": "Lines, VLAN lists and gaps are unbounded and seven readers are tried in turn on each line; that a line is dropped depends on all of them failing.", "anchors": ["lib/acltk/ios.bnf:interface_detail", "lib/acltk/ios.bnf:switchport_cmd", "lib/acltk/ios.bnf:vlan_list", "lib/acltk/acl.bnf:interface", "lib/acltk/iosSemantics.py:vlan_list"]}
{"id": "C65", "title": "a whole IOS configuration as text", "statement": "An IOS configuration is accepted exactly if it is a sequence of written commands - version, host and domain name, interfaces, object groups, numbered, named and IPv6 lists, static routes, and the commands that are skipped, banners and DHCP pools among them - each using only names defined before it, up to the end of the text or a line that begins with the word line or end; what is read are the written commands, in their order, in one way only, and nothing after the line that ends the configuration matters.", "quantifier": "all texts: any number of commands, any names, gaps, banners and skipped lines", "why_tests_cant": "The commands share first words, skipped words are prefixes of each other, and names defined earlier change what later lines mean; the text is unbounded.", "anchors": ["lib/acltk/ios.bnf:grammar", "lib/acltk/ios.bnf:command", "lib/acltk/ios.bnf:ignored", "lib/acltk/ios.bnf:ip_ignored", "lib/acltk/ios.bnf:banner", "lib/acltk/ios.bnf:ip_route", "lib/acltk/iosSemantics.py:ip_route", "lib/acltk/iosSemantics.py:delim_start", "lib/acltk/iosObjects.py:_parse"]}
{"id": "C66", "title": "the IOS configuration object holds what the text says", "statement": "For every IOS configuration text that is accepted, the configuration's rules are those written, in order; version, host and domain name are the last ones written; the tables of groups are the ones references were resolved with; each interface is the one last described under its name, with its addresses, mode and groups; every route is kept, in order; a route's gateway is the interface whose name it gives if one was described before it, else the address; and a route is attached to exactly the interface it names or the ones whose network holds its gateway.", "quantifier": "all accepted texts, every position in them", "why_tests_cant": "What a name or a gateway refers to depends on all commands before and after it; the possible histories of definitions are unbounded.", "anchors": ["lib/acltk/iosObjects.py:iosConfig", "lib/acltk/iosObjects.py:Route", "lib/acltk/iosSemantics.py:ip_route", "lib/acltk/aclObjects.py:ACLConfig.__init__", "lib/acltk/aclObjects.py:Interface"]}
{"id": "C67", "title": "filtering an IOS configuration text by a filter text", "statement": "For every IOS configuration text that is accepted and every filter text that is a readable expression, ACLConfig.filter returns exactly the rules - of numbered, named and IPv6 lists alike - that the written expression means: those whose list name or number matches and whose source and destination have an address in common with the written networks, combined by union, intersect and except; it does not raise, and expand() ends. Any other filter text is refused with an exception. (Wildcards that are no mask and IPv6 addresses in the same comparison are excepted.)", "quantifier": "all pairs of an accepted IOS configuration text and a filter text", "why_tests_cant": "End to end the result depends on every definition in the configuration, the nesting of groups and the shape of the expression; both texts are unbounded.", "anchors": ["lib/acltk/aclObjects.py:ACLConfig.filter", "lib/acltk/aclObjects.py:ACLConfig.expand", "lib/acltk/aclObjects.py:ACLConfig.fromString", "lib/acltk/cafObjects.py:cafBlock.fromString", "lib/acltk/cafObjects.py:cafBlock.run", "lib/acltk/iosObjects.py:iosConfig", "lib/acltk/aclObjects.py:NetworkWildcard"]}
{"id": "C68", "title": "a pfSense document is read completely", "statement": "pfsenseConfig.fromString/fromPath read a pfSense or OPNsense element tree exactly if each of its revision, alias, interface and filter entries can be read; then the configuration holds the rules of all filter sections in document order, with captions from the separators, every alias and interface name stands for the last definition of that name in the whole document, names in rules may be defined after the rules, and neither the order of sections of different kinds nor any other section matters. Any other document is refused with ValueError, and one interface with a static address makes the document unreadable. The name of the configuration is hostname.domain followed by a dot.", "quantifier": "all element trees, all behaviours of the XML unescaping, ipaddress, timestamp and download functions", "why_tests_cant": "Documents are unbounded trees in which any section may occur any number of times in any order; the claim is an equivalence over all of them.", "anchors": ["lib/acltk/pfsenseSemantics.py:pfsenseParser.parse", "lib/acltk/pfsenseSemantics.py:pfsenseParser.revision", "lib/acltk/pfsenseSemantics.py:pfsenseParser.system", "lib/acltk/pfsenseSemantics.py:pfsenseParser.interfaces", "lib/acltk/pfsenseSemantics.py:pfsenseParser.aliases", "lib/acltk/pfsenseSemantics.py:pfsenseParser.filter", "lib/acltk/pfsenseSemantics.py:pfsenseParser.rule", "lib/acltk/pfsenseObjects.py:pfsenseConfig"]}
{"id": "C69", "title": "filtering a pfSense configuration by a filter text", "statement": "For every pfSense document that is read and every filter text that is a readable expression, ACLConfig.filter returns exactly the rules the written expression means - interface of the rule, source and destination addresses, through aliases -, combined by union, intersect and except, each once; any other filter text is refused with an exception. A rule on the network of an interface, or on an alias with a host name, is returned for every address.", "quantifier": "all pairs of a readable pfSense document and a filter text", "why_tests_cant": "End to end the result depends on every alias and interface in the document and on the shape of the expression; both are unbounded.", "anchors": ["lib/acltk/aclObjects.py:ACLConfig.filter", "lib/acltk/cafObjects.py:cafBlock.run", "lib/acltk/pfsenseObjects.py:pfsenseConfig", "lib/acltk/pfsenseSemantics.py:pfsenseParser.filter"]}
{"id": "C70", "title": "a configuration of unknown format, read and filtered", "statement": "ACLConfig.fromString reads every text that is written as an ASA/FWSM configuration as that configuration, every other text that is written as an IOS configuration as that one, and asks the XML reader only for the rest; it raises ValueError exactly if no reader accepts the text. A text with a version line first after comments is never read as ASA/FWSM; a text that starts with an angle bracket, after comments or empty lines or none, is never read as ASA/FWSM or IOS. Whatever the format, filtering the result by a readable filter text returns exactly the entries the expression means, each once, and any other filter text raises an exception.", "quantifier": "all texts, file names, options and filter texts; all behaviours of the XML parser", "why_tests_cant": "Which reader wins is a statement about all texts the readers before it refuse, and each reader's language is infinite.", "anchors": ["lib/acltk/aclObjects.py:ACLConfig._parse", "lib/acltk/aclObjects.py:ACLConfig.fromString", "lib/acltk/aclObjects.py:ACLConfig.filter", "lib/acltk/fwsmObjects.py:fwsmConfig._parse", "lib/acltk/iosObjects.py:iosConfig._parse", "lib/acltk/pfsenseObjects.py:pfsenseConfig._parse"]}
{"id": "C71", "title": "a file is read like the text its bytes encode", "statement": "ACLConfig.fromFile gives for the UTF-8 encoding of a text, with or without a byte order mark, exactly the result or exception fromString gives for the text; bytes encode at most one text; every other file is refused with ValueError, and every text of Unicode characters has an encoding. The name of the file changes nothing.", "quantifier": "all byte sequences, names and options", "why_tests_cant": "The claim is an equivalence over all byte sequences, including every ill-formed one.", "anchors": ["lib/acltk/aclObjects.py:ACLConfig.fromFile", "lib/acltk/aclObjects.py:ACLConfig.fromString"]}
{"id": "C72", "title": "expanding any configuration that was read, then filtering it", "statement": "ACLConfig.expand on a configuration read from any text, in any of the three formats, ends normally; afterwards every group in the configuration's tables holds its members with nested groups and objects replaced, in order, every other group and all rules, names and tables are as before, and every address term matches the same addresses. Filtering the expanded configuration by a readable filter text returns exactly the entries the expression means over the expanded groups; these are the entries the filter returns before expanding, provided the expression does not use ANY, ANY4, ANY6 or no object in a group stands for any address.", "quantifier": "all texts of the three formats, options and filter texts", "why_tests_cant": "Texts can nest and redefine groups without bound, and the equality of the two filter results is about all pairs of configuration and expression.", "anchors": ["lib/acltk/aclObjects.py:ACLConfig.expand", "lib/acltk/aclObjects.py:ACLConfig.filter", "lib/acltk/aclObjects.py:NetworkGroup.expand", "lib/acltk/aclObjects.py:_Group.expand", "examples/render/static.py"]}
{"id": "C73", "title": "resolving what was selected in any configuration that was read", "statement": "ACLConfig.resolve on any set of rules and NATs of a configuration read from any text in any of the three formats, before or after expand, terminates whatever order the sets enumerate. It raises TypeError exactly when the set contains a rule whose access list an ip access-group or ipv6 traffic-filter line inside an interface block of an IOS text names as the last one for its direction; access-group lines of ASA and FWSM and pfSense interfaces never make it fail. Otherwise it returns the given entries and no others, exactly the network groups their addresses refer to directly or through groups, exactly the ids of the given rules among the texts that are not names of kinds, and the name NetworkGroup exactly when such a group is referred to or a given rule has that id.", "quantifier": "all texts of the three formats, all subsets of the entries, all enumeration orders of sets", "why_tests_cant": "The set iteration order differs from run to run, and texts nest groups and bind lists without bound.", "anchors": ["lib/acltk/aclObjects.py:ACLConfig.resolve", "lib/acltk/aclObjects.py:ACLConfig.__init__", "lib/acltk/aclObjects.py:NetworkGroup", "lib/acltk/iosSemantics.py", "examples/render/static.py"]}
{"id": "C74", "title": "sorting the groups of any configuration that was read", "statement": "Calling sort() on every group in the network, service, port and protocol tables of a configuration read from any text in any of the three formats, before or after expand, never fails on a network or protocol group. It fails, with TypeError, exactly when a service or port group of the configuration holds a port without number (what port-object eq leaves); then all network groups and the groups before it are sorted and the others are as they were. Otherwise every group in the four tables is a stable permutation of its members in non-descending key order. Names, descriptions, rules, tables, ICMP groups and the addresses every term matches are unchanged, and filtering by any readable expression returns the same entries before and after.", "quantifier": "all texts of the three formats, options, filter texts and service databases", "why_tests_cant": "Groups can hold any members in any number; the equality of filter results is about all pairs of configuration and expression.", "anchors": ["examples/render/static.py", "lib/acltk/aclObjects.py:NetworkGroup.sort", "lib/acltk/aclObjects.py:ServiceGroup.sort", "lib/acltk/aclObjects.py:PortGroup.sort", "lib/acltk/aclObjects.py:ProtocolGroup.sort", "lib/acltk/aclObjects.py:ACLConfig.filter"]}
{"id": "C75", "title": "printed addresses and networks are canonical and read back", "statement": "The text of an address or network object (what repr of hosts and networks and the rendered pages show) is canonical: IPv4 as four decimal numbers without leading zeros, IPv6 in lower case without leading zeros and with the longest run of at least two zero groups, the first of several equally long ones, as '::'; a network as its network address, a slash and the prefix length. ipaddress.ip_address and the address rules of the grammars read an address text back as this address, and a network text as this network. Different addresses, and different networks, have different texts.", "quantifier": "all IPv4 and IPv6 addresses and networks", "why_tests_cant": "There are 2^128 addresses; the run of zeros can be anywhere and of any length.", "anchors": ["lib/acltk/aclObjects.py:NetworkHost.__repr__", "lib/acltk/aclObjects.py:Network.__repr__", "lib/acltk/ip.bnf"]}
{"id": "C76", "title": "what a filter prints", "statement": "Filtering a configuration prints, for the NAT entries, a report: for every clause and every operator of the expression, operands first, its text and the number of entries that this part of the expression selects. The texts show the clause's id, the canonical texts of its addresses and networks, groups with their members in order, and the operators' names. Printing never fails for a configuration that was read in any format and any readable expression (given enough recursion depth), and never changes what is selected.", "quantifier": "all configurations, filter texts, rules and NAT entries, all recursion limits", "why_tests_cant": "Expressions nest without limit, and the counts are about every set of entries.", "anchors": ["lib/acltk/cafObjects.py:cafBlock.run", "lib/acltk/cafObjects.py:cafOp.result", "lib/acltk/cafObjects.py:cafOpUnion.run", "lib/acltk/aclObjects.py:ACLRule.__repr__", "lib/acltk/aclObjects.py:NetworkGroup.__repr__", "lib/acltk/aclObjects.py:ACLConfig.filter"]}
{"id": "C77", "title": "filtering the rules of any configuration by rules made by hand", "statement": "config.rules.filter(target), for a configuration read in any format, expanded or not, keeps exactly the rules that at least one rule of target selects, never a NAT, and ends. A program like examples/acl-filter.py prints the number of rules from any to any, of those selected by a first list, of their union, of those selected by a second list and of those that remain of these outside the union, and then the remaining rules in the order of the configuration. Running a filter expression on the rules alone, as examples/caf-filter.py does, keeps exactly the rules it means. (The example itself builds its rules with keywords that ACLRule does not have, and fails with AssertionError on every configuration.)", "quantifier": "all configurations of any format, all lists of rules made by hand, all filter texts, all recursion limits", "why_tests_cant": "Which rules remain is about every configuration, and any number of rules in the lists.", "anchors": ["lib/acltk/aclObjects.py:ACLRules.filter", "lib/acltk/aclObjects.py:ACLRule.__init__", "examples/acl-filter.py:main", "examples/caf-filter.py:main"]}
{"id": "C78", "title": "the web application shows the configuration uploaded last", "statement": "After any history of requests to the web application of examples/render/dynamic.py: an upload is accepted exactly if its bytes are a configuration that can be read, under the name made of host name and domain name; any other upload ends in a ValueError nobody catches and changes nothing. The index lists exactly the names of the accepted uploads, each once; a page is missing (404) exactly if nothing was accepted under its name, and otherwise shows the configuration uploaded last under it. Asking for expanded groups expands what is shown and nothing that is kept, so looking at pages never changes another page. With a filter the page selects exactly the entries of that configuration that the expression means, without a warning, unless one of them is a rule of a list that is bound in an IOS interface block, in which case there is a warning; a text that is no expression gives a warning and no selection. Expanding changes neither the warning nor which entries are selected, unless ANY meets groups of 'any' objects.", "quantifier": "all histories of requests, all uploaded bytes, all configuration names, filter texts and arguments, all orders of sets, all sufficient recursion limits", "why_tests_cant": "What is shown depends on the whole history of uploads and on every configuration and filter expression.", "anchors": ["examples/render/dynamic.py:add", "examples/render/dynamic.py:index", "examples/render/dynamic.py:show", "lib/acltk/aclObjects.py:ACLConfig.name", "lib/acltk/aclObjects.py:ACLConfig.resolve"]}
{"id": "C79", "title": "rules and groups of a configuration can be printed", "statement": "Every rule and every network group of a configuration that was read, in any format and expanded or not, can be printed (print(rule), as the examples do): printing ends once enough calls may be nested, and always with the same text, which shows the list of the rule and for both ends the term that was written, with the members of groups in their order and nested groups inside the text of the groups that hold them. Once expanded, a group prints exactly the addresses of its flattening, in order, and no group, however few calls may be nested. A group made by hand that holds itself, directly or through others, and every group that holds it, cannot be printed: RecursionError, whatever the limit.", "quantifier": "all configurations of any format, all their rules and groups, all recursion limits, all graphs of groups", "why_tests_cant": "Groups can be nested to any depth, and printing follows all of them.", "anchors": ["lib/acltk/aclObjects.py:ACLRule.__repr__", "lib/acltk/aclObjects.py:ACLNode.__repr__", "lib/acltk/aclObjects.py:NetworkGroup.__repr__", "lib/acltk/aclObjects.py:NetworkObject.__repr__", "examples/caf-filter.py:main"]}
