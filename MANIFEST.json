{
 "claims": [
  {
   "property": "C01",
   "status": "proved",
   "theorems": [
    "C01_overlap_exact",
    "C01_overlap_exact_general"
   ],
   "note": ""
  },
  {
   "property": "C02",
   "status": "proved",
   "theorems": [
    "C02_symmetric",
    "C02_asymmetry_characterised",
    "C02_unconditional_refuted"
   ],
   "note": ""
  },
  {
   "property": "C03",
   "status": "proved",
   "theorems": [
    "C03_terminates",
    "C03_result_independent_of_limit",
    "C03_wildcard_wildcard_refuted"
   ],
   "note": ""
  },
  {
   "property": "C04",
   "status": "proved",
   "theorems": [
    "C04_wildcard_host",
    "C04_wildcard_network",
    "C04_ipv6_refuted"
   ],
   "note": ""
  },
  {
   "property": "C05",
   "status": "proved",
   "theorems": [
    "C05_wildcard_enumeration"
   ],
   "note": "floating point log2 modelled as exact log2"
  },
  {
   "property": "C06",
   "status": "proved",
   "theorems": [
    "C06_netmask",
    "C06_mask_unambiguous"
   ],
   "note": "mask text to number conversion not modelled"
  },
  {
   "property": "C07",
   "status": "proved",
   "theorems": [
    "C07_ios_pair_exact_iff",
    "C07_ios_pair_netmask",
    "C07_host_wildcard_refuted"
   ],
   "note": ""
  },
  {
   "property": "C08",
   "status": "proved",
   "theorems": [
    "C08_range_exact",
    "C08_range_rejected",
    "C08_range_term"
   ],
   "note": ""
  },
  {
   "property": "C09",
   "status": "proved",
   "theorems": [
    "C09_collapse_sound",
    "C09_collapse_succeeds_ipv4",
    "C09_collapse_canonical",
    "C09_collapse_idempotent",
    "C09_collapse_ipv6"
   ],
   "note": ""
  },
  {
   "property": "C10",
   "status": "proved",
   "theorems": [
    "C10_frame",
    "C10_insitu_needs_expansion",
    "C10_insitu_false_rewrites_receiver",
    "C10_objects_without_expansion",
    "C10_mixed_versions",
    "C10_any_dropped_refuted"
   ],
   "note": ""
  },
  {
   "property": "C11",
   "status": "proved",
   "theorems": [
    "C11_expand_flattens",
    "C11_flattening_unique",
    "C11_expand_preserves_addresses"
   ],
   "note": ""
  },
  {
   "property": "C12",
   "status": "proved",
   "theorems": [
    "C12_expand_new"
   ],
   "note": ""
  },
  {
   "property": "C13",
   "status": "proved",
   "theorems": [
    "C13_config_expand",
    "C13_order_independent"
   ],
   "note": ""
  },
  {
   "property": "C14",
   "status": "proved",
   "theorems": [
    "C14_filter_after_expand",
    "C14_ANY_refuted"
   ],
   "note": ""
  },
  {
   "property": "C15",
   "status": "proved",
   "theorems": [
    "C15_sort_network",
    "C15_sort_protocol",
    "C15_sort_port",
    "C15_sort_service",
    "C15_sort_preserves_addresses",
    "C15_sort_new_missing",
    "C15_sort_new_port",
    "C15_sort_new_network"
   ],
   "note": "Python int() and the service database are parameters"
  },
  {
   "property": "C16",
   "status": "proved",
   "theorems": [
    "C16_ANY_exact"
   ],
   "note": ""
  },
  {
   "property": "C17",
   "status": "proved",
   "theorems": [
    "C17_ids_exact",
    "C17_total",
    "C17_plain_id",
    "C17_pattern_id",
    "C17_missing_id",
    "C17_common_patterns_regular",
    "C17_plain_id_refuted",
    "C17_irregular_pattern_refuted"
   ],
   "note": "pattern ids: exact for patterns without empty ranges hiding a bang; the two deviations of the code are proved as refutations"
  },
  {
   "property": "C18",
   "status": "proved",
   "theorems": [
    "C18_rule_exact"
   ],
   "note": ""
  },
  {
   "property": "C19",
   "status": "proved",
   "theorems": [
    "C19_run_exact",
    "C19_subset",
    "C19_order_irrelevant"
   ],
   "note": ""
  },
  {
   "property": "C20",
   "status": "proved",
   "theorems": [
    "C20_precedence",
    "C20_reading_unique"
   ],
   "note": ""
  },
  {
   "property": "C21",
   "status": "proved",
   "theorems": [
    "C21_clause",
    "C21_clause_selects",
    "C21_id_dropped",
    "C21_mixed"
   ],
   "note": ""
  },
  {
   "property": "C22",
   "status": "proved",
   "theorems": [
    "C22_nat_exact",
    "C22_id_ignored"
   ],
   "note": ""
  },
  {
   "property": "C23",
   "status": "proved",
   "theorems": [
    "C23_config_filter"
   ],
   "note": ""
  },
  {
   "property": "C24",
   "status": "proved",
   "theorems": [
    "C24_least_closure",
    "C24_order_independent",
    "C24_argument_changed"
   ],
   "note": ""
  },
  {
   "property": "C25",
   "status": "proved",
   "theorems": [
    "C25_bound_acl_fails",
    "C25_otherwise_succeeds",
    "C25_bound_in_configuration"
   ],
   "note": ""
  },
  {
   "property": "C26",
   "status": "proved",
   "theorems": [
    "C26_reference",
    "C26_reference_total",
    "C26_name_slash",
    "C26_nat_interfaces",
    "C26_nat_interfaces_refuted"
   ],
   "note": "isalpha/isalnum are parameters; the name 'any-...' deviation is proved as a refutation"
  },
  {
   "property": "C27",
   "status": "proved",
   "theorems": [
    "C27_tables",
    "C27_network_objects",
    "C27_lookup"
   ],
   "note": ""
  },
  {
   "property": "C28",
   "status": "proved",
   "theorems": [
    "C28_rule_order",
    "C28_ios_rule_order",
    "C28_names"
   ],
   "note": ""
  },
  {
   "property": "C29",
   "status": "proved",
   "theorems": [
    "C29_sections",
    "C29_one_section",
    "C29_written_position"
   ],
   "note": ""
  },
  {
   "property": "C30",
   "status": "proved",
   "theorems": [
    "C30_nat_line_alone",
    "C30_nat_with_object",
    "C30_resolved"
   ],
   "note": ""
  },
  {
   "property": "C31",
   "status": "proved",
   "theorems": [
    "C31_object_nat_ports",
    "C31_mapped_port_lost"
   ],
   "note": ""
  },
  {
   "property": "C32",
   "status": "proved",
   "theorems": [
    "C32_interface_bindings",
    "C32_bindings",
    "C32_index"
   ],
   "note": ""
  },
  {
   "property": "C33",
   "status": "proved",
   "theorems": [
    "C33_equality",
    "C33_comparisons",
    "C33_order_laws",
    "C33_missing_number",
    "C33_not_hash_equal"
   ],
   "note": ""
  },
  {
   "property": "C34",
   "status": "proved",
   "theorems": [
    "C34_range_test",
    "C34_named_range",
    "C34_equal_length",
    "C34_different_length",
    "C34_refuted"
   ],
   "note": "the code compares port texts; where this deviates from numbers is proved exactly"
  },
  {
   "property": "C35",
   "status": "proved",
   "theorems": [
    "C35_lookup",
    "C35_with_protocol",
    "C35_shipped_table"
   ],
   "note": ""
  },
  {
   "property": "C36",
   "status": "proved",
   "theorems": [
    "C36_trunk",
    "C36_add_first",
    "C36_succeeds"
   ],
   "note": ""
  },
  {
   "property": "C37",
   "status": "proved",
   "theorems": [
    "C37_routes",
    "C37_route_list"
   ],
   "note": ""
  },
  {
   "property": "C38",
   "status": "proved",
   "theorems": [
    "C38_rule",
    "C38_summary",
    "C38_filter"
   ],
   "note": "the model starts from the element tree; a 'match' rule becomes a deny (C38_match_denies)"
  },
  {
   "property": "C39",
   "status": "proved",
   "theorems": [
    "C39_loads",
    "C39_static_never",
    "C39_static_index_error",
    "C39_interfaces"
   ],
   "note": ""
  },
  {
   "property": "C40",
   "status": "proved",
   "theorems": [
    "C40_separators",
    "C40_separators_total"
   ],
   "note": "only rules before the separator element are affected"
  },
  {
   "property": "C41",
   "status": "proved",
   "theorems": [
    "C41_reading_unique",
    "C41_accepted",
    "C41_meaning",
    "C41_syntax_error",
    "C41_roundtrip"
   ],
   "note": "isalpha, isalnum and isspace are parameters that agree with ASCII on ASCII characters"
  },
  {
   "property": "C42",
   "status": "proved",
   "theorems": [
    "C42_definition",
    "C42_unknown_reference",
    "C42_acyclic",
    "C42_expand_terminates"
   ],
   "note": "filter and resolve of acyclic graphs terminate by C14/C25; nesting depth is bounded by the number of definitions"
  },
  {
   "property": "C43",
   "status": "proved",
   "theorems": [
    "C43_bounds",
    "C43_accepted_iff"
   ],
   "note": ""
  },
  {
   "property": "C44",
   "status": "proved",
   "theorems": [
    "C44_detect",
    "C44_wrong_arguments",
    "C44_single_format",
    "C44_shadowing"
   ],
   "note": ""
  },
  {
   "property": "C45",
   "status": "proved",
   "theorems": [
    "C45_names_before_numbers",
    "C45_named_members_first"
   ],
   "note": ""
  },
  {
   "property": "C46",
   "status": "proved",
   "theorems": [
    "C46_number_lost",
    "C46_other_lines",
    "C46_sort_fails"
   ],
   "note": ""
  },
  {
   "property": "C47",
   "status": "proved",
   "theorems": [
    "C47_manual_nat",
    "C47_manual_nat_refused",
    "C47_options",
    "C47_options_once",
    "C47_kind_and_description",
    "C47_resolved"
   ],
   "note": ""
  },
  {
   "property": "C48",
   "status": "proved",
   "theorems": [
    "C48_alias",
    "C48_alias_total",
    "C48_unresolved_is_any"
   ],
   "note": ""
  },
  {
   "property": "C49",
   "status": "proved",
   "theorems": [
    "C49_network_reference",
    "C49_rules_of_interface"
   ],
   "note": ""
  },
  {
   "property": "C50",
   "status": "proved",
   "theorems": [
    "C50_ip4_read",
    "C50_ip4_raises",
    "C50_ip6_read",
    "C50_ip6_raises",
    "C50_every_address"
   ],
   "note": "exact: acceptance, value, rest and exceptions of both patterns"
  },
  {
   "property": "C51",
   "status": "proved",
   "theorems": [
    "C51_object_nat"
   ],
   "note": ""
  },
  {
   "property": "C52",
   "status": "proved",
   "theorems": [
    "C52_reads",
    "C52_ethertype",
    "C52_unique"
   ],
   "note": "isalpha, isalnum, isspace, int() are parameters with the properties stated; names are assumed to keep to the naming rules (env_ok)"
  },
  {
   "property": "C53",
   "status": "proved",
   "theorems": [
    "C53_reads",
    "C53_complete",
    "C53_unique",
    "C53_defines"
   ],
   "note": "isalpha, isalnum, int() are parameters with the properties stated; names keep to the naming rules (env_ok); C53_complete asks that what follows is a new command"
  },
  {
   "property": "C54",
   "status": "proved",
   "theorems": [
    "C54_reads",
    "C54_complete",
    "C54_unique",
    "C54_defines"
   ],
   "note": "isalpha, isalnum, isspace, int() are parameters with the properties stated; names and interfaces keep to the naming rules (env_ok, ifaces_ok); C54_complete asks that what follows is not indented"
  },
  {
   "property": "C55",
   "status": "proved",
   "theorems": [
    "C55_reads",
    "C55_complete",
    "C55_unique"
   ],
   "note": "isalpha, isalnum, isspace are parameters with the properties stated; the text ends with a line feed, as fromString appends one; an interface line that is not kept is one that is none of the kept forms and has nothing in it that only looks like an address (Spec other_line), in both directions"
  },
  {
   "property": "C56",
   "status": "proved",
   "theorems": [
    "C56_reads",
    "C56_complete",
    "C56_unique",
    "C56_pix",
    "C56_object",
    "C56_refused"
   ],
   "note": "isalpha, isalnum, isspace are parameters with the properties stated; object, group and interface names are well-formed (env_ok, ifaces_ok of C52, C54); C56_object ties the text to the NAT object of C47"
  },
  {
   "property": "C57",
   "status": "proved",
   "theorems": [
    "C57_exact",
    "C57_reads",
    "C57_complete",
    "C57_unique"
   ],
   "note": "isalpha, isalnum, isspace and int() are parameters with the properties stated; the names a configuration defines keep to the naming rules of well_named (Spec/FileTextSpec.v)"
  },
  {
   "property": "C58",
   "status": "proved",
   "theorems": [
    "C58_made",
    "C58_known",
    "C58_before",
    "C58_contents",
    "C58_groups",
    "C58_tables",
    "C58_nat_sections",
    "C58_nat_position",
    "C58_interfaces",
    "C58_bindings"
   ],
   "note": "for every text that is read (C57); C58_before, C58_nat_position and C58_bindings for definitions that keep to the naming rules of C57; C58_bindings for distinct interface names and nameifs (C32 has the general case)"
  },
  {
   "property": "C59",
   "status": "proved",
   "theorems": [
    "C59_filter",
    "C59_rules",
    "C59_refused",
    "C59_expand"
   ],
   "note": "for ASA/FWSM texts whose definitions keep to the naming rules of C57; ids asked for as patterns are regular in the sense of GlobSpec (fnmatch's character classes); the depth the recursion needs is some limit"
  },
  {
   "property": "C60",
   "status": "proved",
   "theorems": [
    "C60_reads",
    "C60_complete",
    "C60_unique"
   ],
   "note": "the text after the list must not start with a blank (an indented line that is no rule or remark is left over by the list)"
  },
  {
   "property": "C61",
   "status": "proved",
   "theorems": [
    "C61_reads",
    "C61_unique"
   ],
   "note": ""
  },
  {
   "property": "C62",
   "status": "proved",
   "theorems": [
    "C62_reads",
    "C62_complete",
    "C62_unique"
   ],
   "note": "as C60: the text after the list does not start with a blank"
  },
  {
   "property": "C63",
   "status": "proved",
   "theorems": [
    "C63_reads",
    "C63_complete",
    "C63_unique",
    "C63_defines",
    "C63_range"
   ],
   "note": "IOS files have no `name` lines, so the table of names is empty"
  },
  {
   "property": "C64",
   "status": "proved",
   "theorems": [
    "C64_reads",
    "C64_complete",
    "C64_unique",
    "C64_lines"
   ],
   "note": "an interface line with something in it that only looks like an address is a ValueError for the whole file (Spec refused_detail)"
  },
  {
   "property": "C65",
   "status": "proved",
   "theorems": [
    "C65_exact",
    "C65_reads",
    "C65_complete",
    "C65_unique",
    "C65_after"
   ],
   "note": "an interface line or route with something in it that only looks like an address is a ValueError for the whole file (Spec refused_detail, refused_route)"
  },
  {
   "property": "C66",
   "status": "proved",
   "theorems": [
    "C66_made",
    "C66_known",
    "C66_before",
    "C66_contents",
    "C66_groups",
    "C66_tables",
    "C66_interfaces",
    "C66_index",
    "C66_gateway",
    "C66_addresses",
    "C66_routes"
   ],
   "note": ""
  },
  {
   "property": "C67",
   "status": "proved",
   "theorems": [
    "C67_filter",
    "C67_refused",
    "C67_expand"
   ],
   "note": "where a rule has a wildcard that is no mask, the expression must not name IPv6 addresses: such a wildcard compares numbers whatever the version (C67_wild_ex, C03)"
  },
  {
   "property": "C68",
   "status": "proved",
   "theorems": [
    "C68_reads",
    "C68_accepted",
    "C68_rules",
    "C68_order",
    "C68_other",
    "C68_static",
    "C68_name"
   ],
   "note": "from the element tree; unescaping, int(), ipaddress, the timestamp conversion and the download of urltables are parameters of the theorems"
  },
  {
   "property": "C69",
   "status": "proved",
   "theorems": [
    "C69_filter",
    "C69_refused"
   ],
   "note": "assumes that what the ipaddress library returns is well-formed (addresses_valid, met by the modelled library: C69_library) and that list names are texts the patterns can be matched against (id_regular)"
  },
  {
   "property": "C70",
   "status": "proved",
   "theorems": [
    "C70_asa",
    "C70_ios",
    "C70_version",
    "C70_reads",
    "C70_xml",
    "C70_none",
    "C70_filter",
    "C70_filter_refused",
    "C70_default"
   ],
   "note": "the XML parser of the standard library is a parameter; options are a pfsenseParserOptions or None; exhaustion of Python's stack is not modelled"
  },
  {
   "property": "C71",
   "status": "proved",
   "theorems": [
    "C71_file",
    "C71_refused",
    "C71_name",
    "C71_unique",
    "C71_total"
   ],
   "note": ""
  },
  {
   "property": "C72",
   "status": "proved",
   "theorems": [
    "C72_expand",
    "C72_filter",
    "C72_same"
   ],
   "note": "the terms ANY, ANY4, ANY6 are excluded when a group holds an object for a host name, where the claim is false (C72_ex2, C14_ANY_refuted)"
  },
  {
   "property": "C73",
   "status": "proved",
   "theorems": [
    "C73_bound",
    "C73_fails",
    "C73_result",
    "C73_shown"
   ],
   "note": "object identity is left open except for entries and network groups (shown): the theorems hold for every store that presents the configuration, and C73_shown gives one; the order in which the sets are enumerated is arbitrary"
  },
  {
   "property": "C74",
   "status": "proved",
   "theorems": [
    "C74_sort",
    "C74_filter"
   ],
   "note": "Python's int() and the service database are arbitrary functions"
  },
  {
   "property": "C75",
   "status": "proved",
   "theorems": [
    "C75_ipv4_form",
    "C75_ipv6_form",
    "C75_reads_back",
    "C75_read_in_text",
    "C75_network",
    "C75_distinct"
   ],
   "note": "addresses without IPv6 scope ids, which the model does not have"
  },
  {
   "property": "C76",
   "status": "proved",
   "theorems": [
    "C76_same_result",
    "C76_report",
    "C76_config",
    "C76_any"
   ],
   "note": "the recursion limit counts nested groups, not the nesting of the expression; sys.stdout accepts every character"
  },
  {
   "property": "C77",
   "status": "proved",
   "theorems": [
    "C77_rules",
    "C77_run",
    "C77_manual",
    "C77_intended",
    "C77_example"
   ],
   "note": "the text of the printed rules is not modelled, their order is"
  },
  {
   "property": "C78",
   "status": "proved",
   "theorems": [
    "C78_upload",
    "C78_index",
    "C78_missing",
    "C78_kept",
    "C78_shown",
    "C78_selects",
    "C78_no_filter",
    "C78_same"
   ],
   "note": "the shelf is a dictionary of copies; a page is what its template is given, not the HTML; the sentence of the warning is not modelled, only which exception it is"
  },
  {
   "property": "C79",
   "status": "proved",
   "theorems": [
    "C79_loop",
    "C79_groups",
    "C79_rules",
    "C79_expanded"
   ],
   "note": "the texts of mode, protocol, ports, remarks and descriptions are parameters"
  }
 ]
}