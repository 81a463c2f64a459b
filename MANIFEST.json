{
 "claims": [
  {
   "property": "C01",
   "status": "proved",
   "theorems": [
    "C01_signed_literal",
    "C01_literal_unique"
   ],
   "note": ""
  },
  {
   "property": "C02",
   "status": "partial",
   "theorems": [
    "C02_unsigned_property_partial",
    "C02_small_values_exact_partial",
    "C02_unsigned_property_refuted"
   ],
   "note": "missing or false of the code: false from 2^32 on"
  },
  {
   "property": "C03",
   "status": "proved",
   "theorems": [
    "C03_names_are_identifiers",
    "C03_reference_names",
    "C03_external_reference_names"
   ],
   "note": ""
  },
  {
   "property": "C04",
   "status": "proved",
   "theorems": [
    "C04_trim",
    "C04_trim_idempotent",
    "C04_normalise",
    "C04_normalise_idempotent"
   ],
   "note": ""
  },
  {
   "property": "C05",
   "status": "proved",
   "theorems": [
    "C05_range"
   ],
   "note": ""
  },
  {
   "property": "C06",
   "status": "partial",
   "theorems": [
    "C06_set_default_twice_refuted",
    "C06_supplied_at_most_once_partial",
    "C06_second_value_rejected_partial",
    "C06_supplied_name_is_used"
   ],
   "note": "missing or false of the code: false for defaultValue/reservedValue of sets"
  },
  {
   "property": "C07",
   "status": "partial",
   "theorems": [
    "C07_versions_of_a_member",
    "C07_global_fields_have_no_versions",
    "C07_versions_at_every_depth_partial",
    "C07_members_not_older_partial",
    "C07_reused_members_refuted"
   ],
   "note": "missing or false of the code: false for members of reused fields"
  },
  {
   "property": "C08",
   "status": "partial",
   "theorems": [
    "C08_enum_limits",
    "C08_limits_are_serialisable_values",
    "C08_type_limits",
    "C08_zero_bits_refuted",
    "C08_int_in_protocol",
    "C08_enum_in_protocol"
   ],
   "note": "missing or false of the code: bitLength 0 shifts by \u22121"
  },
  {
   "property": "C09",
   "status": "partial",
   "theorems": [
    "C09_offset_partial",
    "C09_offset_refuted"
   ],
   "note": "missing or false of the code: false (wraps) otherwise"
  },
  {
   "property": "C10",
   "status": "proved",
   "theorems": [
    "C10_enum_default_fits_type",
    "C10_enum_default_text",
    "C10_default_fits_type",
    "C10_default_text",
    "C10_default_inherited",
    "C10_int_in_protocol",
    "C10_enum_in_protocol"
   ],
   "note": ""
  },
  {
   "property": "C11",
   "status": "partial",
   "theorems": [
    "C11_special_names_unique",
    "C11_special_values_fit",
    "C11_specials_as_written",
    "C11_special_values_unique_partial",
    "C11_special_values_unique_refuted",
    "C11_int_in_protocol"
   ],
   "note": "missing or false of the code: value uniqueness false with reuse"
  },
  {
   "property": "C12",
   "status": "partial",
   "theorems": [
    "C12_merge_preserves_partial",
    "C12_merge_refuted",
    "C12_overflow_refuted"
   ],
   "note": "missing or false of the code: false for unsigned 64 bit values \u2265 2^63 and for a range ending at INT64_MAX"
  },
  {
   "property": "C13",
   "status": "partial",
   "theorems": [
    "C13_ranges_sorted",
    "C13_ranges_disjoint_partial",
    "C13_ranges_disjoint_refuted",
    "C13_int_in_protocol"
   ],
   "note": "missing or false of the code: disjointness false for the same reasons"
  },
  {
   "property": "C14",
   "status": "proved",
   "theorems": [
    "C14_enum_lengths",
    "C14_enum_reuse_keeps_type_and_length",
    "C14_int_lengths",
    "C14_int_reuse_keeps_type_and_length",
    "C14_int_in_protocol",
    "C14_enum_in_protocol"
   ],
   "note": ""
  },
  {
   "property": "C15",
   "status": "partial",
   "theorems": [
    "C15_not_empty_and_named",
    "C15_values_fit_type",
    "C15_values_as_written",
    "C15_values_unique_partial",
    "C15_values_unique_refuted",
    "C15_in_protocol"
   ],
   "note": "missing or false of the code: value uniqueness false when the reusing element switches nonUniqueAllowed off"
  },
  {
   "property": "C16",
   "status": "partial",
   "theorems": [
    "C16_bit_names_unique",
    "C16_indices_unique",
    "C16_shared_bits_agree",
    "C16_bits_as_written",
    "C16_indices_in_range_partial",
    "C16_indices_in_range_refuted",
    "C16_in_protocol"
   ],
   "note": "missing or false of the code: index range false for a reusing set in a bitfield"
  },
  {
   "property": "C17",
   "status": "partial",
   "theorems": [
    "C17_set_lengths",
    "C17_set_reuse_keeps_type_and_length",
    "C17_derived_type_is_smallest",
    "C17_lengths_as_written",
    "C17_type_table_refuted",
    "C17_in_protocol"
   ],
   "note": "missing or false of the code: length 0 or >64 bits index the type table out of bounds"
  },
  {
   "property": "C18",
   "status": "partial",
   "theorems": [
    "C18_fills_bytes_partial",
    "C18_replace_refuted",
    "C18_ref_refuted",
    "C18_no_members_refuted"
   ],
   "note": "missing or false of the code: false for replaced members, refs to unlimited fields, no members"
  },
  {
   "property": "C19",
   "status": "proved",
   "theorems": [
    "C19_min_not_above_max",
    "C19_in_protocol"
   ],
   "note": ""
  },
  {
   "property": "C20",
   "status": "partial",
   "theorems": [
    "C20_not_above_max_partial",
    "C20_not_below_min_partial",
    "C20_pseudo_refuted",
    "C20_available_refuted",
    "C20_wrapped_bitfield_refuted",
    "C20_in_protocol_partial"
   ],
   "note": "missing or false of the code: false for pseudo fields, availableLengthLimit, wrapped bitfields"
  },
  {
   "property": "C21",
   "status": "partial",
   "theorems": [
    "C21_add_saturates",
    "C21_mul_saturates_partial",
    "C21_mul_refuted"
   ],
   "note": "missing or false of the code: factor 0 traps"
  },
  {
   "property": "C22",
   "status": "proved",
   "theorems": [
    "C22_member_names",
    "C22_in_protocol"
   ],
   "note": ""
  },
  {
   "property": "C23",
   "status": "partial",
   "theorems": [
    "C23_and_or_combine_two_or_more",
    "C23_fields_partial",
    "C23_message_conditions_partial",
    "C23_construct",
    "C23_message_fields_partial",
    "C23_interface_partial",
    "C23_interface_operands",
    "C23_reused_condition_refuted",
    "C23_replaced_member_refuted",
    "C23_term_suffix_refuted"
   ],
   "note": "missing or false of the code: reused conditions and replaced members are not verified again"
  },
  {
   "property": "C24",
   "status": "proved",
   "theorems": [
    "C24_condition_is_its_text",
    "C24_comparison_accepted",
    "C24_single_accepted",
    "C24_distinct_texts_distinct_conditions",
    "C24_tree",
    "C24_optional"
   ],
   "note": ""
  },
  {
   "property": "C25",
   "status": "partial",
   "theorems": [
    "C25_one_payload",
    "C25_one_id_and_size",
    "C25_before_payload",
    "C25_checksum",
    "C25_sync",
    "C25_nested_partial",
    "C25_in_protocol",
    "C25_custom_refuted",
    "C25_nested_refuted"
   ],
   "note": "missing or false of the code: false through `<custom>` layers"
  },
  {
   "property": "C26",
   "status": "partial",
   "theorems": [
    "C26_unique_refuted",
    "C26_names_valid_partial"
   ],
   "note": "missing or false of the code: uniqueness false: only reported"
  },
  {
   "property": "C27",
   "status": "proved",
   "theorems": [
    "C27_field_found",
    "C27_message_found",
    "C27_interface_found",
    "C27_only_defined",
    "C27_unresolved_reuse_rejected",
    "C27_unresolved_ref_rejected"
   ],
   "note": ""
  },
  {
   "property": "C28",
   "status": "proved",
   "theorems": [
    "C28_all_fields",
    "C28_all_messages",
    "C28_all_interfaces",
    "C28_all_frames",
    "C28_one_namespace",
    "C28_no_redefinition"
   ],
   "note": ""
  },
  {
   "property": "C29",
   "status": "partial",
   "theorems": [
    "C29_ids_unique_partial",
    "C29_orders_differ_partial",
    "C29_duplicate_rejected",
    "C29_unique_refuted"
   ],
   "note": "missing or false of the code: false across namespaces"
  },
  {
   "property": "C30",
   "status": "partial",
   "theorems": [
    "C30_sorted",
    "C30_complete_partial",
    "C30_only_messages",
    "C30_complete_refuted"
   ],
   "note": "missing or false of the code: false: nested namespaces are left out"
  },
  {
   "property": "C31",
   "status": "partial",
   "theorems": [
    "C31_plus",
    "C31_minus_partial",
    "C31_other_rejected",
    "C31_none",
    "C31_schema_sorted",
    "C31_declared_partial",
    "C31_schema_declared",
    "C31_reuse_refuted",
    "C31_declared_refuted",
    "C31_minus_refuted"
   ],
   "note": "missing or false of the code: reuse and several schemas"
  },
  {
   "property": "C32",
   "status": "partial",
   "theorems": [
    "C32_property_kept",
    "C32_features",
    "C32_fixed_value",
    "C32_acceptance_refuted"
   ],
   "note": "missing or false of the code: acceptance as a whole is not monotone"
  },
  {
   "property": "C33",
   "status": "partial",
   "theorems": [
    "C33_reported",
    "C33_defaults",
    "C33_no_contradiction",
    "C33_omitted",
    "C33_accepted_refuted"
   ],
   "note": "missing or false of the code: contradicting dslVersion is accepted"
  },
  {
   "property": "C34",
   "status": "partial",
   "theorems": [
    "C34_schema_version",
    "C34_exists",
    "C34_optional",
    "C34_optional_refuted",
    "C34_force_refuted",
    "C34_member_optional",
    "C34_parents_exist",
    "C34_member_optional_iff"
   ],
   "note": "missing or false of the code: --force-ver cases"
  },
  {
   "property": "C35",
   "status": "partial",
   "theorems": [
    "C35_unsigned",
    "C35_signed",
    "C35_smallest_refuted",
    "C35_with_comment",
    "C35_distinct"
   ],
   "note": "missing or false of the code: INT64_MIN"
  },
  {
   "property": "C36",
   "status": "partial",
   "theorems": [
    "C36_every_text",
    "C36_filled",
    "C36_rows",
    "C36_tidy",
    "C36_substituted",
    "C36_unterminated_refuted"
   ],
   "note": "missing or false of the code: unterminated placeholder"
  },
  {
   "property": "C37",
   "status": "partial",
   "theorems": [
    "C37_class_names",
    "C37_access_names",
    "C37_members_refuted",
    "C37_files_refuted",
    "C37_members_struct_refuted"
   ],
   "note": "missing or false of the code: collisions exhibited (members, files, member structs)"
  },
  {
   "property": "C38",
   "status": "partial",
   "theorems": [
    "C38_complete",
    "C38_lines",
    "C38_once",
    "C38_once_refuted"
   ],
   "note": "missing or false of the code: duplicates that differ in spelling"
  },
  {
   "property": "C39",
   "status": "partial",
   "theorems": [
    "C39_words",
    "C39_replaced",
    "C39_width_partial",
    "C39_width_refuted"
   ],
   "note": "missing or false of the code: width"
  },
  {
   "property": "C40",
   "status": "partial",
   "theorems": [
    "C40_split",
    "C40_join_refuted",
    "C40_compressed",
    "C40_replace",
    "C40_pieces_unique",
    "C40_empty_separator_refuted"
   ],
   "note": "missing or false of the code: empty last token, empty separator"
  },
  {
   "property": "C41",
   "status": "partial",
   "theorems": [
    "C41_unsigned_literal_partial",
    "C41_unsigned_literal_refuted"
   ],
   "note": "missing or false of the code: negative literals wrap"
  },
  {
   "property": "C42",
   "status": "partial",
   "theorems": [
    "C42_common_attributes_partial",
    "C42_int_attributes",
    "C42_enum_attributes",
    "C42_set_attributes",
    "C42_float_attributes_partial",
    "C42_string_attributes",
    "C42_data_attributes",
    "C42_list_attributes",
    "C42_optional_attributes",
    "C42_bitfield_endian",
    "C42_variant_default",
    "C42_ref_attributes_partial",
    "C42_override_reuse_refuted",
    "C42_float_endian_refuted"
   ],
   "note": "missing or false of the code: overrides and float endian are not reused"
  },
  {
   "property": "C43",
   "status": "proved",
   "theorems": [
    "C43_data_literals",
    "C43_bytes_exact",
    "C43_string_literals",
    "C43_string_values",
    "C43_data_values"
   ],
   "note": ""
  },
  {
   "property": "C44",
   "status": "partial",
   "theorems": [
    "C44_one_extent_partial",
    "C44_sibling_prefix_refuted"
   ],
   "note": "missing or false of the code: sibling prefix + own count"
  },
  {
   "property": "C45",
   "status": "partial",
   "theorems": [
    "C45_min_length_partial",
    "C45_recorded_min_length",
    "C45_big_numbers_refuted"
   ],
   "note": "missing or false of the code: numbers from 2^31 on"
  },
  {
   "property": "C48",
   "status": "proved",
   "theorems": [
    "C48_bool_texts",
    "C48_endian_texts",
    "C48_unit_texts",
    "C48_override_texts",
    "C48_semantic_texts",
    "C48_type_texts",
    "C48_float_type_texts",
    "C48_semantic_types_allowed"
   ],
   "note": ""
  },
  {
   "property": "C46",
   "status": "proved",
   "theorems": [
    "C46_balanced",
    "C46_scope",
    "C46_member_scope"
   ],
   "note": "missing or false of the code: elements other than global ones only have the balance"
  },
  {
   "property": "C47",
   "status": "partial",
   "theorems": [
    "C47_type_holds_values_partial",
    "C47_type_holds_wire",
    "C47_default_refuted",
    "C47_offset_refuted"
   ],
   "note": "missing or false of the code: with serOffset, and for default and special values of short variable length fields, it is refuted"
  },
  {
   "property": "C49",
   "status": "partial",
   "theorems": [
    "C49_offsets",
    "C49_scaling",
    "C49_units",
    "C49_generated_partial",
    "C49_generated_refuted"
   ],
   "note": "missing or false of the code: floats; numbers at the ends of the 64 bit domain are UB (refuted)"
  },
  {
   "property": "C50",
   "status": "partial",
   "theorems": [
    "C50_valid_partial",
    "C50_valid_apart_partial",
    "C50_valid_in_version_partial",
    "C50_signed64_refuted",
    "C50_merged_refuted",
    "C50_none_left_refuted",
    "C50_deprecated_refuted",
    "C50_truncated_refuted"
   ],
   "note": "missing or false of the code: 64 bit signed ranges with negative bounds, deprecated old ranges and bounds outside the C++ type are refuted; merged ranges some of which are not in any supported version"
  },
  {
   "property": "C51",
   "status": "proved",
   "theorems": [
    "C51_length",
    "C51_bits",
    "C51_sign_extension"
   ],
   "note": "missing or false of the code: bitLength 0"
  },
  {
   "property": "C52",
   "status": "proved",
   "theorems": [
    "C52_default"
   ],
   "note": ""
  },
  {
   "property": "C53",
   "status": "partial",
   "theorems": [
    "C53_functions",
    "C53_map",
    "C53_map_calls_partial",
    "C53_map_refuted",
    "C53_names_refuted"
   ],
   "note": "missing or false of the code: map entries of special values outside the supported versions and clashing names are refuted"
  },
  {
   "property": "C54",
   "status": "partial",
   "theorems": [
    "C54_condition_partial",
    "C54_refresh_partial",
    "C54_exists_refuted",
    "C54_lost_refuted",
    "C54_operator_refuted",
    "C54_wrapped_refuted",
    "C54_quotes_refuted"
   ],
   "note": "missing or false of the code: interface (%) references, comparison of a reference text with a set; existence of fields that are not optional in the generated code, wrapped numbers, unescaped quotes are refuted"
  },
  {
   "property": "C55",
   "status": "partial",
   "theorems": [
    "C55_length",
    "C55_type",
    "C55_default_fits",
    "C55_default_text",
    "C55_default_inherited",
    "C55_special_names_unique",
    "C55_special_values_fit",
    "C55_specials_as_written",
    "C55_special_values_unique_partial",
    "C55_special_values_unique_refuted",
    "C55_ranges_as_written",
    "C55_ranges_sorted",
    "C55_ranges_disjoint",
    "C55_range_bounds_refuted"
   ],
   "note": "missing or false of the code: uniqueness of special values against a reused field and range bounds against the type are refuted; the function of std::stod itself is a parameter"
  },
  {
   "property": "C56",
   "status": "partial",
   "theorems": [
    "C56_flags",
    "C56_class",
    "C56_valid_body",
    "C56_refresh_body_partial",
    "C56_display_name",
    "C56_name_function",
    "C56_name_function_refuted",
    "C56_macro_name"
   ],
   "note": "missing or false of the code: refresh(): first range that is empty, too wide for the type or of no supported version; quotation marks in display names are refuted"
  },
  {
   "property": "C57",
   "status": "partial",
   "theorems": [
    "C57_option_names",
    "C57_reading",
    "C57_empty_value_refuted",
    "C57_missing_value_refuted",
    "C57_split",
    "C57_input_files",
    "C57_versions",
    "C57_forced_version_refuted",
    "C57_code_version",
    "C57_namespaces"
   ],
   "note": "missing or false of the code: false for empty arguments, missing values and forced versions that are no number (refuted); help text, quiet/debug/warning settings, other tools' options, opening files"
  },
  {
   "property": "C58",
   "status": "partial",
   "theorems": [
    "C58_targets",
    "C58_input_list",
    "C58_factory_partial",
    "C58_dispatch_partial",
    "C58_msg_ids",
    "C58_id_refuted",
    "C58_dispatch_index_refuted",
    "C58_names_refuted",
    "C58_headers_refuted"
   ],
   "note": "missing or false of the code: false for the id 2^63, for an index of an id with one message next to shared ids, for names that coincide after joining (refuted); message bundles of the command line; ids listed from an enum field; the class around the functions"
  },
  {
   "property": "C59",
   "status": "partial",
   "theorems": [
    "C59_enumerators",
    "C59_generated_partial",
    "C59_fits_partial",
    "C59_generated_refuted",
    "C59_fits_refuted",
    "C59_keyword_refuted"
   ],
   "note": "missing or false of the code: false for the greatest value 2^63-1 of unsigned 64-bit types, for types of variable length and for keywords (refuted); descriptions and display names with backslashes are excluded; enums whose values come from the generated MsgId are not modelled"
  },
  {
   "property": "C60",
   "status": "partial",
   "theorems": [
    "C60_options_partial",
    "C60_in_version_partial",
    "C60_array_partial",
    "C60_length",
    "C60_default",
    "C60_options_refuted",
    "C60_array_refuted"
   ],
   "note": "missing or false of the code: signed 64-bit numbers and uintvar numbers from 2^63 on are excluded (refuted for int64); the array may name enumerators which a forced version leaves out (refuted)"
  },
  {
   "property": "C61",
   "status": "partial",
   "theorems": [
    "C61_by_index_partial",
    "C61_by_search_partial",
    "C61_quotes_refuted",
    "C61_deprecated_refuted",
    "C61_forced_refuted"
   ],
   "note": "missing or false of the code: display names with quotes, backslashes or newlines; uintvar shorter than 8 bytes with numbers from 2^63 on; the searched array needs all enumerators (refuted for forced versions); a reuse which forbids repeated numbers afterwards (refuted)"
  },
  {
   "property": "C62",
   "status": "partial",
   "theorems": [
    "C62_length_partial",
    "C62_bits",
    "C62_default_partial",
    "C62_reserved_partial",
    "C62_length_refuted",
    "C62_default_refuted"
   ],
   "note": "missing or false of the code: which of several bits of one index gives the default (refuted: one which does not exist any more may); reserved values of the same index must agree; uintvar sets get 10 bytes (refuted); versions: C63"
  },
  {
   "property": "C63",
   "status": "partial",
   "theorems": [
    "C63_valid_partial",
    "C63_generated_partial",
    "C63_stored_partial",
    "C63_nested_refuted",
    "C63_alias_refuted",
    "C63_gone_refuted",
    "C63_shift_refuted"
   ],
   "note": "missing or false of the code: nested versions of one index, a later name of a bit of all versions, reserved bits of some versions only, bits gone before the first supported version with another reserved value (the first, second and last are refuted); indices from 64 on (refuted: undefined shift)"
  },
  {
   "property": "C64",
   "status": "partial",
   "theorems": [
    "C64_access_partial",
    "C64_names_partial",
    "C64_generated",
    "C64_lost_refuted",
    "C64_quotes_refuted"
   ],
   "note": "missing or false of the code: indices from 64 on, which type uintvar allows (refuted); display names with quotes (refuted); the macro call of a field without bits"
  },
  {
   "property": "C65",
   "status": "partial",
   "theorems": [
    "C65_only",
    "C65_default_partial",
    "C65_listed",
    "C65_refused",
    "C65_platform",
    "C65_interface_only",
    "C65_interface_forced",
    "C65_interface_default_partial",
    "C65_nested_refuted",
    "C65_included_refuted",
    "C65_no_interface_refuted",
    "C65_declared_refuted"
   ],
   "note": "missing or false of the code: messages and interfaces of namespaces inside others are not marked by default (refuted); contents of the files written; fields marked through messages"
  },
  {
   "property": "C66",
   "status": "proved",
   "theorems": [
    "C66_field_found",
    "C66_message_found",
    "C66_interface_found",
    "C66_frame_found",
    "C66_field_only",
    "C66_message_only",
    "C66_interface_only",
    "C66_frame_only",
    "C66_field_same",
    "C66_message_same",
    "C66_interface_same",
    "C66_unambiguous"
   ],
   "note": "missing or false of the code: lookup of an interface by the empty text; the asserts before the lookups (a text without the expected form)"
  },
  {
   "property": "C67",
   "status": "partial",
   "theorems": [
    "C67_order_partial",
    "C67_unique",
    "C67_wire_unique",
    "C67_ends_refuted",
    "C67_wire_refuted",
    "C67_defined_refuted",
    "C67_custom_prefix_refuted",
    "C67_rejected"
   ],
   "note": "missing or false of the code: custom checksum layers with only checksumFrom and checksums in front of the payload with only from (refuted); layers of equal names"
  },
  {
   "property": "C68",
   "status": "partial",
   "theorems": [
    "C68_bundle",
    "C68_interface",
    "C68_message_names",
    "C68_message_partial",
    "C68_bundle_written",
    "C68_bundle_reused",
    "C68_message_written",
    "C68_interface_written",
    "C68_apart_refuted",
    "C68_reused_refuted",
    "C68_message_target_refuted"
   ],
   "note": "missing or false of the code: an alias of an inner field in a message with reuse may lead nowhere; aliases of inner fields are lost when a bundle is reused; a reused or copied alias may have the name of a field (all three refuted)"
  },
  {
   "property": "C69",
   "status": "partial",
   "theorems": [
    "C69_string_valid_partial",
    "C69_no_list",
    "C69_data_valid_partial",
    "C69_string_default_partial",
    "C69_data_default",
    "C69_no_default",
    "C69_quote_refuted",
    "C69_backslash_refuted",
    "C69_no_values_refuted",
    "C69_no_bytes_refuted"
   ],
   "note": "missing or false of the code: texts with quotes or backslashes are written unescaped, a list of which no value exists any more and an empty data value give an empty array: refuted"
  },
  {
   "property": "C70",
   "status": "proved",
   "theorems": [
    "C70_string",
    "C70_data",
    "C70_list",
    "C70_one_extent",
    "C70_length"
   ],
   "note": "missing or false of the code: a list whose termination suffix is another member stops the generator with an error, which is not modelled"
  },
  {
   "property": "C71",
   "status": "partial",
   "theorems": [
    "C71_told",
    "C71_refreshed",
    "C71_count_refreshed",
    "C71_length_refreshed",
    "C71_element_length_refuted",
    "C71_limit",
    "C71_narrow_refuted"
   ],
   "note": "missing or false of the code: element lengths run into an assertion, prefixes narrower than their C++ type get numbers they cannot carry: refuted. The refresh theorems for lists take one such property at a time; a list with a detached termination field (the generator fails) and numbers which are not plain ints are not covered"
  },
  {
   "property": "C72",
   "status": "partial",
   "theorems": [
    "C72_bundle_read",
    "C72_message_read",
    "C72_message_plain",
    "C72_refresh",
    "C72_message_refresh",
    "C72_defined",
    "C72_optional",
    "C72_lost_refuted",
    "C72_fail_refuted"
   ],
   "note": "missing or false of the code: the functions of the COMMS base classes are given their documented meaning (reading a range of members); names of members are assumed distinct in the code (C37 shows they may clash); the value of the condition of a message for being read is a parameter; code injected by the user is not modelled"
  },
  {
   "property": "C73",
   "status": "partial",
   "theorems": [
    "C73_valid_partial",
    "C73_none",
    "C73_lost_refuted"
   ],
   "note": "missing or false of the code: conditions outside `supported_cond` (see C54), conditions over interface fields and injected code"
  },
  {
   "property": "C74",
   "status": "partial",
   "theorems": [
    "C74_read",
    "C74_when",
    "C74_same_keys",
    "C74_distinct_partial",
    "C74_used",
    "C74_prepare_refuted",
    "C74_catch_all_refuted",
    "C74_not_int_refuted",
    "C74_version_refuted"
   ],
   "note": "missing or false of the code: Read code injected by the user; keys of different lengths may share a number (C74_distinct_partial); commsIsVersionDependent and the customisation scope of a member are parameters."
  },
  {
   "property": "C75",
   "status": "partial",
   "theorems": [
    "C75_stack",
    "C75_unique",
    "C75_base",
    "C75_access",
    "C75_frame_partial",
    "C75_names_refuted"
   ],
   "note": "missing or false of the code: Frames C67 does not cover; the texts of fields, documentation and options are parameters; layers with equal class names (refuted)."
  },
  {
   "property": "C76",
   "status": "partial",
   "theorems": [
    "C76_construct",
    "C76_constructor",
    "C76_size_refuted",
    "C76_text_refuted",
    "C76_other_field_refuted",
    "C76_twice_refuted"
   ],
   "note": "missing or false of the code: Parts on members of bundles and other nested fields, on texts, on two fields, on lengths and on existence (accepted, see the refuted theorems); injected code."
  },
  {
   "property": "C77",
   "status": "partial",
   "theorems": [
    "C77_read_condition",
    "C77_read_function",
    "C77_constructed",
    "C77_same_condition",
    "C77_fields_refuted"
   ],
   "note": "missing or false of the code: Parts on members of bundles, on texts, lengths and existence, and comparison of two fields (refuted: the type named in the cast does not exist)."
  }
 ]
}