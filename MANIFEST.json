{"claims": [
{"property": "C01", "status": "proved", "theorems": ["C01_dump_load_roundtrip", "C01_dump_init_load", "C01_dump_format"], "note": "bounds: sizes at most 2^63-1"},
{"property": "C02", "status": "proved", "theorems": ["C02_dump_size_exact"], "note": "dumps below 2^64 bytes"},
{"property": "C03", "status": "partial", "theorems": ["C03_bounded_dump", "C03_returned_count_refuted"], "note": "proved for buffers below 2^31 bytes; for larger ones the returned int is negative (refuted part)"},
{"property": "C04", "status": "proved", "theorems": ["C04_truncated_rejected"], "note": "every strict prefix, every valid destination"},
{"property": "C05", "status": "partial", "theorems": ["C05_load_safe_partial", "C05_load_safe_nested_partial", "C05_load_safe_refuted"], "note": "false in general (integer overflow of count*size with nested containers: out-of-bounds access, refuted witness). Proved for any nesting of containers whenever no container read from the bytes has count*element size of 2^64 or more (predicate overflows of StreamSpec): load throws or yields a valid value, and accepted bytes are the marshalled form of a value of the type (predicate stream); and without that condition for types without nested containers"},
{"property": "C06", "status": "partial", "theorems": ["C06_load_overwrites_partial", "C06_load_overwrites_refuted"], "note": "false in general: an empty container in the stream leaves the old contents; proved when the destination's containers are empty or no container of the source is"},
{"property": "C07", "status": "partial", "theorems": ["C07_unused_input_rejected", "C07_raw_image", "C07_raw_image_refuted"], "note": "rejection proved in full; acceptance of raw images characterised exactly, it fails for padding at the end of the last field (refuted witness)"},
{"property": "C08", "status": "proved", "theorems": ["C08_compare_logical", "C08_compare_equivalence"], "note": "types with a layout (pointers allowed outside arrays and containers)"},
{"property": "C09", "status": "proved", "theorems": ["C09_copy_duplicates"], "note": "memory after the value untouched; a leak is an UB outcome of the model"},
{"property": "C10", "status": "proved", "theorems": ["C10_zero_clears"], "note": ""},
{"property": "C11", "status": "proved", "theorems": ["C11_init_valid"], "note": ""},
{"property": "C12", "status": "proved", "theorems": ["C12_destroy_releases", "C12_init_destroy_balanced"], "note": ""},
{"property": "C13", "status": "partial", "theorems": ["C13_default_flags", "C13_accept_pointers_partial", "C13_accept_pointers_refuted"], "note": "default flags proved in full; with accept_pointers false below arrays and containers (refuted witness), exact condition proved"},
{"property": "C14", "status": "proved", "theorems": ["C14_layout_describes", "C14_layout_describes_default", "C14_layout_validates"], "note": "remove_trailing_skips=true"},
{"property": "C15", "status": "partial", "theorems": ["C15_empty_elements_refuted", "C15_empty_elements_wrong_layout_refuted", "C15_empty_fields_partial", "C15_empty_arrays_partial", "C15_empty_array_of_containers_refuted", "C15_empty_array_of_structs_refuted"], "note": "false for arrays and containers of empty structures: length_error, or a wrong layout. Proved for empty structures as fields and for arrays of dimension 0 of numbers (or arrays of these), which also all theorems on values cover. Arrays of dimension 0 of other elements get a layout that init, copy, zero, destroy and compare cannot follow"},
{"property": "C16", "status": "partial", "theorems": ["C16_trailing_skips_refuted", "C16_prefix_partial", "C16_no_trailing_padding_partial", "C16_flag_without_effect_refuted"], "note": "false: the trailing padding is dropped, and with merge_skip_copy the argument has no effect at all. Proved: nothing but padding is dropped, so types that do not end with padding are described in full"},
{"property": "C17", "status": "proved", "theorems": ["C17_elements_exist", "C17_push", "C17_push_limit", "C17_type_mismatch", "C17_erase_value", "C17_erase_index", "C17_delete_if", "C17_delete_if_filter", "C17_resize", "C17_set_element", "C17_get_element", "C17_push_own_element_refuted", "C17_string_push", "C17_string_type_mismatch", "C17_string_erase_refuted"], "note": "For all element types (nested containers included) and all vectors. The two refuted theorems record what lies outside of the statement: pushing an element of the vector itself into a full vector reads freed memory, and std::string's erase/delete_if never remove anything."},
{"property": "C18", "status": "proved", "theorems": ["C18_strict_total_order", "C18_prefix_contiguous", "C18_namespace_iteration"], "note": "nameSort, lower_bound and the prefix iterators; iteration visits exactly the names with the prefix"},
{"property": "C19", "status": "proved", "theorems": ["C19_decomposition", "C19_split", "C19_lossless", "C19_trailing_separator_refuted"], "note": "for every absolute name not ending with a top-level '/'; a trailing '/' is lost (_refuted)"},
{"property": "C20", "status": "partial", "theorems": ["C20_terminates", "C20_simple_names_exact", "C20_grammar_accepted_partial", "C20_namespace_exact", "C20_accepts_garbage_refuted", "C20_rejects_modifiers_refuted", "C20_namespace_grammar_refuted"], "note": "exact on names without modifiers and on namespaces; with modifiers one direction is proved, the other is false (_refuted)"},
{"property": "C21", "status": "partial", "theorems": ["C21_add", "C21_alias", "C21_other_operations", "C21_has", "C21_own_name", "C21_terminates", "C21_simple_names_plain", "C21_empty_component_refuted", "C21_failed_add_refuted"], "note": "Proved for every history whose names have no empty path component (all names without modifiers; C21_simple_names_plain). Two claims of the English property are false and refuted: an accepted name with an empty component can hide an absolute name, and add can throw BadName after having registered the type."},
{"property": "C22", "status": "partial", "theorems": ["C22_after_setDefaultNamespace", "C22_relative_name_visible_partial", "C22_visible_has_relative_name_partial", "C22_root_namespace", "C22_order_refuted", "C22_remove_refuted"], "note": "Exact just after setDefaultNamespace and in the root namespace; sound in every history without importNamespace, complete without remove. Order independence in general is false of the code (two refutations)."},
{"property": "C23", "status": "proved", "theorems": ["C23_remove", "C23_dependencies_present"], "note": "Every reachable registry; dependencies-present is preserved by remove, add (dependencies first) and alias."},
{"property": "C24", "status": "partial", "theorems": ["C24_never_true_refuted", "C24_self_undefined_refuted", "C24_answers_partial"], "note": "The property is false of the code for every non-empty registry: the loop increments end(). What holds is C24_answers_partial."},
{"property": "C25", "status": "partial", "theorems": ["C25_terminates", "C25_reflexive", "C25_accepts_only_same", "C25_exact", "C25_exact_general", "C25_symmetric_partial", "C25_transitive_partial", "C25_same_can_cast", "C25_symmetry_refuted"], "note": "Termination, reflexivity, soundness w.r.t. structural equality, exact characterisation and isSame => canCastTo for all (cyclic) graphs. Symmetry holds only when neither graph contains two structurally equal types; C25_symmetry_refuted exhibits the asymmetry in general."},
{"property": "C26", "status": "proved", "theorems": ["C26_value", "C26_symbol", "C26_add", "C26_names", "C26_next"], "note": "For every history of add calls (throwing ones included). getNextValue's overflow at INT_MAX is shown as undefined behaviour."},
{"property": "C27", "status": "partial", "theorems": ["C27_size", "C27_fields", "C27_getField", "C27_trailing", "C27_normalize", "C27_large_refuted"], "note": "For every history of addField calls without wrap-around of size_t. getTrailingPadding is exact when all fields end below 2^31 and refuted beyond (offsets go through int)."},
{"property": "C28", "status": "partial", "theorems": ["C28_resize_partial", "C28_fields_stay_disjoint_partial", "C28_recursive_types_refuted", "C28_cancelling_changes_refuted", "C28_requested_compound_refuted"], "note": "Compounds, arrays and nested types of acyclic registries get the new sizes, with every field moved by exactly the growth of the fields before it; the refuted theorems are concrete registries (recursive types, cancelling changes, a compound requested directly) where the full statement is false of the code, which is what makes the result partial."},
{"property": "C29", "status": "proved", "theorems": ["C29_export"], "note": "Every reachable registry and every answer of the plugin's save function (assumed not to throw)."},
{"property": "C30", "status": "partial", "theorems": ["C30_escaped_attribute", "C30_type_names", "C30_document_partial", "C30_ampersand_refuted", "C30_type_name_refuted", "C30_metadata_refuted"], "note": "Proved for texts without the characters the exporter leaves unescaped: every attribute and metadata value of the exported document is read back unchanged (libxml2 is specified by the reader in Xml.v). The unrestricted claim is false: ampersands, unescaped names of numerics, ]]> in metadata."},
{"property": "C31", "status": "partial", "theorems": ["C31_round_trip_partial", "C31_source_ids_refuted", "C31_persistent_pointer_refuted", "C31_container_size_refuted"], "note": "Proved for every reachable registry the format can hold (portable): the import of the exported text terminates successfully for all large enough recursion bounds, every saved name denotes the same type (name, size, category, symbols, fields, offsets, recursively) with the same metadata, and no absolute name is invented. Missing: source ids (refuted for containers and aliases), persistent pointers/arrays (refuted: the importer refuses the file), containers of size 0 (refuted), names with unescaped characters (C30 refutations), import into a registry that already has types."},
{"property": "C32", "status": "partial", "theorems": ["C32_names", "C32_parse_partial", "C32_parse_terminates", "C32_build_partial", "C32_finds_partial", "C32_builds_partial", "C32_unknown", "C32_array_minor", "C32_orderly", "C32_dimension_refuted", "C32_name_refuted", "C32_pointer_to_array_refuted"], "note": "Proved for every base name (at least two characters, ending in none of ] * and space) and every list of modifiers with dimensions below 2^31, in every registry built by allocations and registry operations whose modified names mean what they say; termination of parsing for every string. Missing, because the code does not satisfy it (refuted): dimensions >= 2^31 (atoi), names of one character or ending with a space, pointers to arrays (the name validator rejects the built name)."},
{"property": "C33", "status": "proved", "theorems": ["C33_endian_swap", "C33_swap_involution", "C33_swapped_unique", "C33_pointers_throw", "C33_opaque_unswapped", "C33_small_enum_refuted"], "note": "for types without pointers (the swap throws on them, as documented) and opaques, numerics of native sizes, 4-byte enums (the only size Enum's constructor gives)"},
{"property": "C34", "status": "partial", "theorems": ["C34_compiled_agrees_partial", "C34_compile_supported", "C34_nested_padding_refuted", "C34_padded_array_refuted", "C34_same_buffer_refuted", "C34_empty_array_refuted"], "note": "agreement for types below 2 GiB without inner trailing padding and without arrays of dimension 0; refuted for compounds that end with padding inside of another type, for arrays of dimension 0 (an iterator that was never set is used), and when both values are the same memory"},
{"property": "C35", "status": "partial", "theorems": ["C35_same_columns_partial", "C35_same_separators_partial", "C35_opaque_refuted", "C35_container_refuted", "C35_char_separator_refuted"], "note": "Proved for all types without pointers, opaques and containers: same columns in the same order, header = access path, line = text of the bytes there; same number of separators. Refuted for opaque fields (column in the header only), containers (one element in the header, all in the line) and for characters that are the separator. Float texts are a parameter."},
{"property": "C36", "status": "partial", "theorems": ["C36_cast_number_partial", "C36_cast_enum_partial", "C36_cast_opaque_partial", "C36_cast_partial", "C36_no_number_throws", "C36_compound_refuted", "C36_after_array_refuted", "C36_elements_refuted", "C36_unsupported"], "note": "Proved: exact on numbers, throws on enums and opaques; on any value (containers included) what is returned are the bytes of a number of type T in the value, and BadValueCast is thrown if the type has none. Refuted: compounds, arrays and vectors are not rejected."},
{"property": "C37", "status": "proved", "theorems": ["C37_values", "C37_set", "C37_add", "C37_addAll", "C37_clear", "C37_merge", "C37_merge_idempotent", "C37_merge_comm", "C37_include_refuted"], "note": "For every object reachable by any sequence of calls. C37_include_refuted is about the comment of include, not about the property."},
{"property": "C38", "status": "proved", "theorems": ["C38_get_default", "C38_insert", "C38_insertAll", "C38_set", "C38_setAll", "C38_erase", "C38_children", "C38_exists", "C38_find_unspecified_refuted"], "note": "For every object reachable by any sequence of calls, with libstdc++'s multimap::find (first element of the range). C38_find_unspecified_refuted: what the C++ standard says of find is not enough."},
{"property": "C39", "status": "proved", "theorems": ["C39_components", "C39_path", "C39_default", "C39_libraries", "C39_empty_component"], "note": "Every value of the variable and every file system (directory listings, loadability of libraries). Empty components count: C39_empty_component shows that a trailing colon adds one, which makes the constructor throw."},
{"property": "C40", "status": "partial", "theorems": ["C40_relative_name_completes", "C40_minimal_path_partial", "C40_ambiguous_path_refuted", "C40_undefined_behaviour_refuted"], "note": "completion proved; the minimal path leads back to the namespace from an enclosing namespace, but may be captured by a deeper one and undefined for an empty/relative ns (_refuted)"},
{"property": "C41", "status": "proved", "theorems": ["C41_derived_names", "C41_all_derived_names", "C41_failed_alias_refuted", "C21_terminates"], "note": "For successful alias/add; the failing case (derived name rejected as invalid) leaves partial effects, shown by the refutation."},
{"property": "C42", "status": "proved", "theorems": ["C42_table", "C42_step", "C42_never_early", "C42_layouts", "C42_refused", "C42_stale_zone_refuted", "C42_failed_wrap_refuted", "C42_null_part_refuted", "C42_address_reuse_refuted"], "note": "Every history of allocate/wrap/init/invalidate/finalize in which fresh allocations are not wrapped already, roots of new parts are registered, NULL is not wrapped (fewer than 10^9 calls: the counts are ints). Outside of these conditions the refuted theorems give leaks, stale zones and raising finalizers."},
{"property": "C43", "status": "partial", "theorems": ["C43_to_typelib", "C43_to_cxx", "C43_round_trip_partial", "C43_cxx_round_trip_partial", "C43_valid", "C43_injective", "C43_total", "C43_round_trip_refuted", "C43_rename_once_refuted"], "note": "The functions on strings. The round trip is proved for names whose template arguments after the first are numbers, which are longer than one letter and are not renamed; it is refuted for the others. Conversion of printed C++ names, validity of the results and injectivity up to spaces are proved without the condition on arguments."},
{"property": "C44", "status": "partial", "theorems": ["C44_cast_components", "C44_field_not_castable_refuted"], "note": "Component-wise soundness proved; the field-wise claim is false of the code (comparison stack shared between strict and loose comparisons), refuted by a concrete witness."},
{"property": "C45", "status": "proved", "theorems": ["C45_clear"], "note": "Every reachable registry."},
{"property": "C46", "status": "partial", "theorems": ["C46_get_field", "C46_first_field_exists", "C46_not_a_compound", "C46_array_refuted"], "note": "Proved for compounds (first field with the name, throws iff none), numbers, enums, opaques. Refuted for arrays of compounds: a field of the first element is returned."},
{"property": "C47", "status": "proved", "theorems": ["C47_lookup", "C47_add", "C47_destroy"], "note": "Any history of registrations, by the libraries loaded in the constructor and by later calls of add."},
{"property": "C48", "status": "proved", "theorems": ["C48_exists", "C48_life", "C48_instance", "C48_threads", "C48_nested_refuted"], "note": "Threads are interleavings of calls, since each call holds the one mutex. For singletons that hold use<> members of another singleton the statement is false (C48_nested_refuted: the server is used after it is deleted); typelib has none."},
{"property": "C49", "status": "proved", "theorems": ["C49_strings", "C49_list", "C49_one", "C49_bool", "C49_children"], "note": "Conversions other than bool and string are a parameter."},
{"property": "C50", "status": "partial", "theorems": ["C50_names", "C50_nothing_else", "C50_independent", "C50_arrays_refuted"], "note": "Hypotheses: names n*, n[d], /std/vector<n> denote what they say, and no array contains itself through its elements (C50_arrays_refuted: otherwise the copy of the array gets size 0)."},
{"property": "C51", "status": "partial", "theorems": ["C51_ends", "C51_failed_refuted"], "note": "Termination, old names and definitions proved for all merges, failed or not; refuted: after an exception the target can hold a pointer to a deleted compound."},
{"property": "C52", "status": "partial", "theorems": ["C52_conflict", "C52_compatible_refuted"], "note": "The if direction is proved; the only-if direction is refuted: the comparison is not symmetric and also rejects equal definitions that use two types for one."},
{"property": "C53", "status": "proved", "theorems": ["C53_copy", "C53_sharing"], "note": "For registries whose types the constructors built, closed under dependencies, with meaningful derived names, complete aliases of derived types and no array within itself."},
{"property": "C54", "status": "proved", "theorems": ["C54_minimal", "C54_unknown"], "note": "Same hypotheses as C53; minimal(name, with_aliases)."},
{"property": "C55", "status": "partial", "theorems": ["C55_explained", "C55_filled", "C55_kept_partial", "C55_kept_refuted"], "note": "Source ids are kept for types all of whose names have one; refuted in general: an alias without source id lets another id overwrite that of the type."},
{"property": "C56", "status": "partial", "theorems": ["C56_ends", "C56_of_tree", "C56_tree_exists", "C56_has_layout", "C56_needs_sound", "C56_holds_itself_refuted"], "note": "Termination is false for types that hold containers of themselves: the recursion never ends (refuted in general). For all other graphs, cyclic through pointers or not: ends, equals the layout of the tree (so all tree theorems apply), exists exactly without pointers and opaques."},
{"property": "C57", "status": "partial", "theorems": ["C57_document", "C57_identifiers", "C57_reuse_refuted"], "note": "C57_document: for every registry, options and successful export by a new exporter (as the plugin manager makes) the text is that of a document with exactly these declarations. Assumes names without colons or two leading underscores, named fields and enums that are not templates. C57_identifiers: no identifier has < > / or comma, other characters are kept. Reuse of an exporter object is refuted. Cases: C57_case, C57_identifiers_case."},
{"property": "C58", "status": "partial", "theorems": ["C58_references", "C58_persistence_refuted", "C58_threshold_refuted", "C58_underscores_refuted"], "note": "C58_references: proved without threshold and selection when all that is needed is persistent; without these, refuted by three exports. Case: C57_case meets its hypotheses."},
{"property": "C59", "status": "partial", "theorems": ["C59_distinct_partial", "C59_refuted"], "note": "False in general (/_Foo and /Foo, /A</int> and /A__int_). Proved for structs and enums whose names IDL accepts as they are. Case: C59_case."},
{"property": "C60", "status": "partial", "theorems": ["C60_assign", "C60_round_trip_partial", "C60_faithful", "C60_copy", "C60_not_a_number", "C60_uint32_refuted", "C60_uint64_refuted", "C60_truncation_refuted"], "note": "Accepted numbers and read values characterised exactly; the round trip holds for all representable integers except uint32 from 2^31 and uint64 from 2^63 (C60_faithful). Refuted: uint32 above 2^31 read as negative, uint64 above 2^63 refused, numbers that do not fit small types are truncated instead of refused. Floats are parameters."},
{"property": "C61", "status": "partial", "theorems": ["C61_char_array", "C61_to_string", "C61_assign", "C61_std_string", "C61_std_string_round_trip_partial", "C61_multibyte_refuted", "C61_nul_refuted", "C61_empty_array_refuted", "C61_pointer_refuted"], "note": "Char arrays of at least one byte: round trip or ArgumentError. std::string: round trip when the number of characters is the number of bytes. Refuted: multi-byte Strings are cut, assignment cuts at NUL, arrays of dimension 0 and pointers overflow."},
{"property": "C62", "status": "partial", "theorems": ["C62_element", "C62_slice", "C62_history_partial", "C62_negative_refuted", "C62_large_refuted", "C62_empty_refuted"], "note": "Exact results for all indexes and counts; histories of reads with non-negative indexes. Refuted: negative indexes depend on what was read before, elements above 2^31 cannot be read, empty arrays accept all indexes."},
{"property": "C63", "status": "proved", "theorems": ["C63_symbols", "C63_integers", "C63_read"], "note": "For enums whose names are unique and whose values are C ints."},
{"property": "C64", "status": "partial", "theorems": ["C64_raw_memcpy_partial", "C64_not_flat", "C64_negative_refuted", "C64_empty_refuted"], "note": "For sizes from 1 to 2^32 - 1 and elements below 2^32 bytes. Refuted: negative sizes read almost 4 GB, size 0 indexes an empty vector."},
{"property": "C65", "status": "partial", "theorems": ["C65_tracked_partial", "C65_no_dangling_access_partial", "C65_exact_partial", "C65_clear_partial", "C65_numbers_partial", "C65_same_wrapper", "C65_fixed_partial", "C65_symbols_refuted", "C65_two_names_refuted", "C65_set_element_refuted", "C65_zero_refuted", "C65_delete_if_refuted", "C65_cast_refuted", "C65_string_refuted", "C65_identities"], "note": "Proved for the operations called tame: fields asked for by String, elements of arrays and vectors, changes through handle_invalidation, clear, and changes of parts that own no buffers. The full statement is false: Symbols as field names, []= of elements with containers, zero!, delete_if, cast and characters of std::string leave wrappers of freed memory (refuted). Values on the Ruby heap, the garbage collector and MultiDimension arrays are not modelled."},
{"property": "C66", "status": "partial", "theorems": ["C66_push_partial", "C66_push_own_element_refuted"], "note": "Proved unless the value is an element of the vector itself and the buffer moves; then the freed buffer is read (refuted)."},
{"property": "C67", "status": "proved", "theorems": ["C67_succeeds", "C67_c_types", "C67_spellings", "C67_other_names", "C67_again", "C67_missing_order"], "note": "platform: x86-64 Linux (LP64, signed char and wchar_t). Other orders of the words, such as int long, are not names (C67_missing_order). Case: C67_case"},
{"property": "C68", "status": "partial", "theorems": ["C68_taken", "C68_partial_registry_refuted", "C68_bool_refuted"], "note": "proved: it throws and what was there stays. False: some standard types are added before the exception, and later calls throw because of these; with a /bool of the caller and no /int8_t a null pointer is dereferenced"},
{"property": "C69", "status": "partial", "theorems": ["C69_yields_partial", "C69_found_iff", "C69_same_names_refuted", "C69_recursive_refuted"], "note": "Exact for types whose structures have no two fields of the same name. Refuted: with two such fields the first is yielded twice; find_in_type does not return for types that hold themselves through containers (exactly those)."},
{"property": "C70", "status": "partial", "theorems": ["C70_copy_partial", "C70_compare_partial", "C70_rejects", "C70_same_type", "C70_copy_refuted", "C70_symmetry_refuted"], "note": "Proved for source types in which no structure is used both directly and as (part of) an element; refuted without this: canCastTo accepts and the copy leaves a vector whose buffer is not a whole number of elements. compare is not symmetric."},
{"property": "C71", "status": "partial", "theorems": ["C71_to_typelib_partial", "C71_to_cxx", "C71_round_trip", "C71_distinct", "C71_parse_template_partial", "C71_split_first", "C71_split_last", "C71_pointer_refuted", "C71_no_arguments_refuted", "C71_nested_template_refuted"], "note": "The conversions are proved inverse and injective for names made of identifiers, numbers and templates with arguments, in every spelling. False of the code for pointers to and arrays of template instances, templates without arguments and parse_template of types nested in template instances."},
{"property": "C72", "status": "partial", "theorems": ["C72_compound_partial", "C72_compound_accepted", "C72_packed", "C72_enum", "C72_enum_accepted", "C72_numeric", "C72_opaque", "C72_container_foreign", "C72_container_new", "C72_small_size_refuted", "C72_negative_refuted", "C72_negative_size_refuted", "C72_overlap_refuted", "C72_foreign_refuted", "C72_enum_twice_refuted", "C72_container_resized_refuted"], "note": "Fields, offsets, values, sizes, names and the exact conditions of success are proved for all inputs. Refuted: sizes smaller than the fields, negative sizes and offsets (they wrap around), overlapping fields, equal field names and field types of another registry are accepted; a symbol with two values makes a C++ exception leave the function; create_container with a size resizes an existing container type under the compounds that hold it."},
{"property": "C73", "status": "partial", "theorems": ["C73_class_partial", "C73_members_unique", "C73_compounds", "C73_typedef", "C73_enum", "C73_nothing_invented", "C73_base_kept", "C73_ignored", "C73_terminates", "C73_self_reference_refuted", "C73_hidden_member_refuted", "C73_virtual_base_refuted", "C73_bitfields_refuted", "C73_standard_base_refuted", "C73_pointer_to_array_refuted"], "note": "Layout, names, absence of inventions, reasons for leaving types out, and termination are proved for all documents whose import succeeds. Refuted: a structure that points to itself makes the import raise, as do pointers to arrays and classes derived from a standard type; a member that hides one of a base gets the wrong place in classes derived further; bit-fields overlap; a virtual or private base that is empty does not keep a class out. Templates, containers and opaques are not modelled."},
{"property": "C74", "status": "partial", "theorems": ["C74_record_partial", "C74_compounds", "C74_container", "C74_typedef", "C74_enum_partial", "C74_numeric", "C74_nothing_invented", "C74_base_kept", "C74_terminates_partial", "C74_second_base_refuted", "C74_same_arrays_refuted", "C74_nested_array_refuted", "C74_order_refuted", "C74_tree_refuted", "C74_protected_refuted", "C74_private_base_refuted", "C74_enum_values_refuted"], "note": "Proved for all programs, registries and orders: declared classes are excluded for a stated reason or become compounds with exactly their members (places exact when every base is at the start), typedefs, enums (int range), numerics, containers, nothing invented, base kept, termination for acyclic containment. Refuted, because the code violates the claim: second base at offset 0, arrays of types with the same representation throw, nested arrays through typedefs throw, order dependence, struct with a vector of itself never ends, protected members and private bases of bases are exposed, enum values are truncated to int."},
{"property": "C75", "status": "partial", "theorems": ["C75_history_partial", "C75_history_no_copy", "C75_reading_changes_nothing", "C75_dup", "C75_index_access_is_stale_refuted", "C75_index_assignment_is_lost_refuted", "C75_raw_assignment_is_lost_refuted", "C75_loaded_data_is_lost_refuted", "C75_copy_to_self_drops_changes_refuted", "C75_failed_copy_drops_changes_refuted", "C75_dup_detaches_the_original_refuted", "C75_array_ignores_changes_refuted", "C75_reading_with_rounding_refuted"], "note": "Proved for all histories of accessors, copies to other values, comparisons and marshalling (up to the first exception if there are copies), for lossless conversions that reading changes nothing, and that dup is an independent value with the same contents. Refuted, because the code violates the claim: index access is stale, index and raw assignments and loaded data are lost after a read, copies onto self and failed copies drop changes, dup detaches the original from its objects, arrays ignore changes of their elements, rounding conversions change data on read. Not modelled: converted fields that are compounds with converted fields themselves, nil assigned to a field."},
{"property": "C76", "status": "partial", "theorems": ["C76_history_partial", "C76_path_partial", "C76_alias_refuted", "C76_namespace_of_aliases_refuted", "C76_own_name_refuted", "C76_removed_type_refuted", "C76_filter_refuted", "C76_constant_leaks_into_methods_refuted", "C76_constant_prefers_similar_type_refuted", "C76_spelling_works_once_refuted", "C76_type_of_another_namespace_refuted"], "note": "Proved for all histories of method lookups (and constants with an exact match) on registries without aliases that only grow, for filters that keep types or give Ruby classes. Refuted, because the code violates the claim: aliases and filters change the prefix of the shared type class, namespaces with aliases only are not found, the module's own name finds the last namespace, removed types stay in caches, constants leak into methods and prefer similar types to exact namespaces, the regexp with flag o works for the first namespace only and finds types of other namespaces. Not modelled: method names the objects already have."},
{"property": "C77", "status": "partial", "theorems": ["C77_sound", "C77_complete_partial", "C77_first_call_complete_partial", "C77_stable", "C77_ends", "C77_recursive_types_refuted"], "note": "Proved for all graphs and call sequences: results are sound and stable, calls end, results are complete for types from which no recursive type is reached, and for the first call in any case. Refuted, because the code violates the claim: with mutually recursive types a later call returns an incomplete set, depending on the order of calls."},
{"property": "C78", "status": "partial", "theorems": ["C78_shows_partial", "C78_same_values_same_result_partial", "C78_same_result_same_values_partial", "C78_json_partial", "C78_pack_code", "C78_packed_array", "C78_packed_vector", "C78_uint32_refuted", "C78_packing_refuted", "C78_packed_special_refuted", "C78_unknown_enum_refuted", "C78_other_sizes_refuted"], "note": "Proved for all types and values whose enums have symbols and whose unsigned 32 bit numbers are below 2^31 unless packed: the result shows the value, packed arrays decode to their elements, equal results mean equal values (NaN payloads apart), unpacked JSON has no special floats. Refuted, because the code violates the claim: unsigned 32 bit numbers from 2^31 on are shown negative (packing shows them right), packed arrays keep NaN and infinities, enums without symbol are all shown as the empty text, numbers of other sizes are packed without code. Not modelled: /bool (shown as true and false unless packed), converted fields (C75)."},
{"property": "C79", "status": "partial", "theorems": ["C79_find_all", "C79_found_iff", "C79_find_partial", "C79_without_container", "C79_modules", "C79_to_ruby_partial", "C79_from_ruby_partial", "C79_ambiguous_refuted", "C79_array_refuted", "C79_condition_refuted", "C79_numeric_refuted"], "note": "False in the code: find raises NameError instead of ArgumentError (undefined name in the message); convert_to_ruby with a Hash as second argument drops its :if; arrays and containers replace a registered conversion from Array by their own; a conversion of a numeric type is used by to_ruby but the type says that it needs none (so containers do not convert their elements). The rest is proved for all histories."},
{"property": "C80", "status": "partial", "theorems": ["C80_vector_partial", "C80_no_padding", "C80_string", "C80_bad_size", "C80_padding_refuted"], "note": "False in the code: to_byte_array leaves out the padding at the end of the element but the elements inside a container are marshalled with it, so of_size raises for every element type that ends with padding and every n > 0 (proved for all such types without containers inside). Proved for elements that are marshalled whole, and for strings."},
{"property": "C81", "status": "partial", "theorems": ["C81_map_partial", "C81_each", "C81_set_refuted", "C81_clear_refuted", "C81_nul_refuted"], "note": "False in the code: set and []= clear the key before the values are checked, so with an Array or any other non-String they raise and the old values are lost; clear and delete with two or more keys silently do nothing; keys and texts are cut at the first NUL byte. Proved for all histories without such calls."},
{"property": "C82", "status": "partial", "theorems": ["C82_exact", "C82_integers_partial", "C82_round_trip_partial", "C82_truncated_refuted", "C82_uint64_refuted", "C82_enum_vector_refuted", "C82_packed_refuted", "C82_multibyte_refuted"], "note": "C82_exact: accepted exactly if an independent predicate says so, and the result is valid and holds what was given, with integers modulo the size of the type. False in the code: integers out of range are cut silently, unsigned numbers from 2^63 on are refused, vectors of enums cannot be built from symbols, packed arrays are refused, texts in multi byte encodings are cut. Round trip proved without these."},
{"property": "C83", "status": "partial", "theorems": ["C83_new", "C83_guarded_methods", "C83_marshalling_size_partial", "C83_marshalling_size_refuted", "C83_to_byte_array_partial", "C83_zero_copy_partial", "C83_from_buffer_partial", "C83_pointers_refuted", "C83_create_null_refuted", "C83_accept_pointers", "C83_pointers_marshalled_refuted", "C83_endian_swap_partial", "C83_endian_swap_refuted", "C83_alias_refuted"], "note": "False in the code: to_byte_array, from_buffer, zero! and copy abort the process exactly for types with a pointer inside, although Type.new accepts them; PointerType.create_null always aborts; alias to the name of another type aborts (exact iff); endian_swap! aborts on pointers; marshalling_size is negative from 2 GiB on. Pointers are marshalled as addresses with accept_pointers, where the documentation says ignored. Proved for all the other values, and with accept_pointers for all values; from_buffer without vectors in containers (C05)."},
{"property": "C84", "status": "partial", "theorems": ["C84_options_partial", "C84_booleans", "C84_nested_hash_refuted", "C84_empty_refuted", "C84_same_key_refuted", "C84_mixed_list_refuted"], "note": "Proved for all trees of scalars, lists of scalars and lists of Hashes of such options, at any depth, with keys that differ as texts and without NUL. False in the code for the rest: an option whose value is a non-empty Hash makes the extension read a String as an Array (undefined behaviour), whatever the options before it; empty lists and Hashes are lost; keys equal as texts override or append according to the order; mixed lists raise or turn Hashes into texts; texts are cut at NUL."},
{"property": "C85", "status": "partial", "theorems": ["C85_refused_partial", "C85_readonly_partial", "C85_freeze", "C85_stays_frozen", "C85_unfrozen_set", "C85_unfrozen_container", "C85_later_parts_refuted", "C85_whole_value_refuted", "C85_array_elements_refuted"], "note": "Proved: frozen objects refuse their own methods without any effect, freeze reaches all existing objects of parts at any depth, no call undoes it, and any sequence of calls on frozen objects leaves the value alone. False in the code: the object of a part that is asked for after the freeze is not frozen and changes the frozen value; Typelib.copy, from_buffer, zero! and raw_memcpy write to frozen values; the assignment of a typed value to an element of a frozen array is not refused. Fields with converted values (C75) are not modelled here."},
{"property": "C86", "status": "partial", "theorems": ["C86_describes_partial", "C86_same_definition_partial", "C86_same_description", "C86_recursive_ends_partial", "C86_shallow_ends", "C86_no_error", "C86_recursive_type_refuted", "C86_pointees_refuted", "C86_duplicate_fields_refuted"], "note": "Proved: the description has the documented content and nothing else, full descriptions are equal (Ruby ==) iff the definitions are the same up to the targets of pointers, descriptions never raise, end without the option recursive, and with it exactly if no type contains itself. False in the code: a structure that holds a vector of itself recurses for ever; pointers to different structures of the same name have the same description; two fields of the same name get the same offset. Metadata are not part of to_h."},
{"property": "C87", "status": "partial", "theorems": ["C87_basic_type_partial", "C87_field_partial", "C87_array_field_partial", "C87_domain", "C87_distinct_partial", "C87_sign_refuted", "C87_size_refuted", "C87_other_size_refuted"], "note": "Proved for unsigned integers of 1, 2, 4, 8 bytes, signed ones of 2, 4, 8 and floats of 4 and 8, against a table of the basic types of IDL. False in the code: int8_t (char) becomes the unsigned octet, a long double of 16 bytes becomes double, an integer of another size gives a field without type and no error. Case: C87_case."}
]}
