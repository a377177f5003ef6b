import json
C=[]
def c(p,status,ths,note): C.append(dict(property=p,status=status,theorems=ths.split(),note=note))
c("C01","proved","C01_overlap_exact C01_overlap_exact_general","")
c("C02","proved","C02_symmetric C02_asymmetry_characterised C02_unconditional_refuted","")
c("C03","proved","C03_terminates C03_result_independent_of_limit C03_wildcard_wildcard_refuted","")
c("C04","proved","C04_wildcard_host C04_wildcard_network C04_ipv6_refuted","")
c("C16","proved","C16_ANY_exact","")
c("C05","proved","C05_wildcard_enumeration","floating point log2 modelled as exact log2")
c("C06","proved","C06_netmask C06_mask_unambiguous","mask text to number conversion not modelled")
c("C07","proved","C07_ios_pair_exact_iff C07_ios_pair_netmask C07_host_wildcard_refuted","")
c("C08","proved","C08_range_exact C08_range_rejected C08_range_term","")
c("C09","proved","C09_collapse_sound C09_collapse_succeeds_ipv4 C09_collapse_canonical C09_collapse_idempotent C09_collapse_ipv6","")
c("C10","proved","C10_frame C10_insitu_needs_expansion C10_insitu_false_rewrites_receiver C10_objects_without_expansion C10_mixed_versions C10_any_dropped_refuted","")
c("C11","proved","C11_expand_flattens C11_flattening_unique C11_expand_preserves_addresses","")
c("C12","proved","C12_expand_new","")
c("C13","proved","C13_config_expand C13_order_independent","")
c("C15","proved","C15_sort_network C15_sort_protocol C15_sort_port C15_sort_service C15_sort_preserves_addresses C15_sort_new_missing C15_sort_new_port C15_sort_new_network","Python int() and the service database are parameters")
c("C45","proved","C45_names_before_numbers C45_named_members_first","")
c("C14","proved","C14_filter_after_expand C14_ANY_refuted","")
c("C17","proved","C17_ids_exact C17_total C17_plain_id C17_pattern_id C17_missing_id C17_common_patterns_regular C17_plain_id_refuted C17_irregular_pattern_refuted","pattern ids: exact for patterns without empty ranges hiding a bang; the two deviations of the code are proved as refutations")
c("C18","proved","C18_rule_exact","")
c("C19","proved","C19_run_exact C19_subset C19_order_irrelevant","")
c("C20","proved","C20_precedence C20_reading_unique","")
c("C21","proved","C21_clause C21_clause_selects C21_id_dropped C21_mixed","")
c("C22","proved","C22_nat_exact C22_id_ignored","")
c("C23","proved","C23_config_filter","")
c("C30","proved","C30_nat_line_alone C30_nat_with_object C30_resolved","")
c("C31","proved","C31_object_nat_ports C31_mapped_port_lost","")
c("C47","proved","C47_manual_nat C47_manual_nat_refused C47_options C47_options_once C47_kind_and_description C47_resolved","")
c("C27","proved","C27_tables C27_network_objects C27_lookup","")
c("C28","proved","C28_rule_order C28_ios_rule_order C28_names","")
c("C29","proved","C29_sections C29_one_section C29_written_position","")
c("C32","proved","C32_interface_bindings C32_bindings C32_index","")
c("C36","proved","C36_trunk C36_add_first C36_succeeds","")
c("C37","proved","C37_routes C37_route_list","")
c("C33","proved","C33_equality C33_comparisons C33_order_laws C33_missing_number C33_not_hash_equal","")
c("C34","proved","C34_range_test C34_named_range C34_equal_length C34_different_length C34_refuted","the code compares port texts; where this deviates from numbers is proved exactly")
c("C35","proved","C35_lookup C35_with_protocol C35_shipped_table","")
c("C43","proved","C43_bounds C43_accepted_iff","")
c("C46","proved","C46_number_lost C46_other_lines C46_sort_fails","")
c("C26","proved","C26_reference C26_reference_total C26_name_slash C26_nat_interfaces C26_nat_interfaces_refuted","isalpha/isalnum are parameters; the name 'any-...' deviation is proved as a refutation")
c("C44","proved","C44_detect C44_wrong_arguments C44_single_format C44_shadowing","")
c("C24","proved","C24_least_closure C24_order_independent C24_argument_changed","")
c("C25","proved","C25_bound_acl_fails C25_otherwise_succeeds C25_bound_in_configuration","")
c("C38","proved","C38_rule C38_summary C38_filter","the model starts from the element tree; a 'match' rule becomes a deny (C38_match_denies)")
c("C39","proved","C39_loads C39_static_never C39_static_index_error C39_interfaces","")
c("C40","proved","C40_separators C40_separators_total","only rules before the separator element are affected")
c("C48","proved","C48_alias C48_alias_total C48_unresolved_is_any","")
c("C49","proved","C49_network_reference C49_rules_of_interface","")
c("C42","proved","C42_definition C42_unknown_reference C42_acyclic C42_expand_terminates","filter and resolve of acyclic graphs terminate by C14/C25; nesting depth is bounded by the number of definitions")
c("C41","proved","C41_reading_unique C41_accepted C41_meaning C41_syntax_error C41_roundtrip","isalpha, isalnum and isspace are parameters that agree with ASCII on ASCII characters")
c("C51","proved","C51_object_nat","")
c("C50","proved","C50_ip4_read C50_ip4_raises C50_ip6_read C50_ip6_raises C50_every_address","exact: acceptance, value, rest and exceptions of both patterns")
c("C52","proved","C52_reads C52_ethertype C52_unique","isalpha, isalnum, isspace, int() are parameters with the properties stated; names are assumed to keep to the naming rules (env_ok)")
c("C53","proved","C53_reads C53_complete C53_unique C53_defines","isalpha, isalnum, int() are parameters with the properties stated; names keep to the naming rules (env_ok); C53_complete asks that what follows is a new command")
c("C54","proved","C54_reads C54_complete C54_unique C54_defines","isalpha, isalnum, isspace, int() are parameters with the properties stated; names and interfaces keep to the naming rules (env_ok, ifaces_ok); C54_complete asks that what follows is not indented")
c("C55","proved","C55_reads C55_complete C55_unique","isalpha, isalnum, isspace are parameters with the properties stated; the text ends with a line feed, as fromString appends one; an interface line that is not kept is one that is none of the kept forms and has nothing in it that only looks like an address (Spec other_line), in both directions")
c("C56","proved","C56_reads C56_complete C56_unique C56_pix C56_object C56_refused","isalpha, isalnum, isspace are parameters with the properties stated; object, group and interface names are well-formed (env_ok, ifaces_ok of C52, C54); C56_object ties the text to the NAT object of C47")
c("C57","proved","C57_exact C57_reads C57_complete C57_unique","isalpha, isalnum, isspace and int() are parameters with the properties stated; the names a configuration defines keep to the naming rules of well_named (Spec/FileTextSpec.v)")
c("C58","proved","C58_made C58_known C58_before C58_contents C58_groups C58_tables C58_nat_sections C58_nat_position C58_interfaces C58_bindings","for every text that is read (C57); C58_before, C58_nat_position and C58_bindings for definitions that keep to the naming rules of C57; C58_bindings for distinct interface names and nameifs (C32 has the general case)")
c("C59","proved","C59_filter C59_rules C59_refused C59_expand","for ASA/FWSM texts whose definitions keep to the naming rules of C57; ids asked for as patterns are regular in the sense of GlobSpec (fnmatch's character classes); the depth the recursion needs is some limit")
c("C60","proved","C60_reads C60_complete C60_unique","the text after the list must not start with a blank (an indented line that is no rule or remark is left over by the list)")
c("C61","proved","C61_reads C61_unique","")
c("C62","proved","C62_reads C62_complete C62_unique","as C60: the text after the list does not start with a blank")
c("C63","proved","C63_reads C63_complete C63_unique C63_defines C63_range","IOS files have no `name` lines, so the table of names is empty")
c("C64","proved","C64_reads C64_complete C64_unique C64_lines","an interface line with something in it that only looks like an address is a ValueError for the whole file (Spec refused_detail)")
c("C65","proved","C65_exact C65_reads C65_complete C65_unique C65_after","an interface line or route with something in it that only looks like an address is a ValueError for the whole file (Spec refused_detail, refused_route)")
c("C66","proved","C66_made C66_known C66_before C66_contents C66_groups C66_tables C66_interfaces C66_index C66_gateway C66_addresses C66_routes","")
c("C67","proved","C67_filter C67_refused C67_expand","where a rule has a wildcard that is no mask, the expression must not name IPv6 addresses: such a wildcard compares numbers whatever the version (C67_wild_ex, C03)")
c("C68","proved","C68_reads C68_accepted C68_rules C68_order C68_other C68_static C68_name","from the element tree; unescaping, int(), ipaddress, the timestamp conversion and the download of urltables are parameters of the theorems")
c("C69","proved","C69_filter C69_refused","assumes that what the ipaddress library returns is well-formed (addresses_valid, met by the modelled library: C69_library) and that list names are texts the patterns can be matched against (id_regular)")
c("C70","proved","C70_asa C70_ios C70_version C70_reads C70_xml C70_none C70_filter C70_filter_refused C70_default","the XML parser of the standard library is a parameter; options are a pfsenseParserOptions or None; exhaustion of Python's stack is not modelled")
c("C71","proved","C71_file C71_refused C71_name C71_unique C71_total","")
c("C72","proved","C72_expand C72_filter C72_same","the terms ANY, ANY4, ANY6 are excluded when a group holds an object for a host name, where the claim is false (C72_ex2, C14_ANY_refuted)")
c("C73","proved","C73_bound C73_fails C73_result C73_shown","object identity is left open except for entries and network groups (shown): the theorems hold for every store that presents the configuration, and C73_shown gives one; the order in which the sets are enumerated is arbitrary")
c("C74","proved","C74_sort C74_filter","Python's int() and the service database are arbitrary functions")
c("C75","proved","C75_ipv4_form C75_ipv6_form C75_reads_back C75_read_in_text C75_network C75_distinct","addresses without IPv6 scope ids, which the model does not have")
c("C76","proved","C76_same_result C76_report C76_config C76_any","the recursion limit counts nested groups, not the nesting of the expression; sys.stdout accepts every character")
c("C77","proved","C77_rules C77_run C77_manual C77_intended C77_example","the text of the printed rules is not modelled, their order is")
c("C78","proved","C78_upload C78_index C78_missing C78_kept C78_shown C78_selects C78_no_filter C78_same","the shelf is a dictionary of copies; a page is what its template is given, not the HTML; the sentence of the warning is not modelled, only which exception it is")
c("C79","proved","C79_loop C79_groups C79_rules C79_expanded","the texts of mode, protocol, ports, remarks and descriptions are parameters")
C.sort(key=lambda x:x["property"])
json.dump({"claims":C},open("/verif/MANIFEST.json","w"),indent=1)
