{
 "claims": [
  {
   "property": "C01",
   "status": "partial",
   "theorems": [
    "C01_hashmap_refines_map_partial",
    "C01_hashmap_insert_only",
    "C01_hashmap_refuted"
   ],
   "note": "Holds while the table never rehashes with tombstones in a bad pattern; the unrestricted statement is refuted by C01_hashmap_refuted. Insert-only use (all the compiler does apart from #undef) is proved in full."
  },
  {
   "property": "C02",
   "status": "partial",
   "theorems": [
    "C02_hashmap_no_full_probe_partial",
    "C02_hashmap_assert_refuted"
   ],
   "note": "No full probe while at least one slot is empty; the assert of rehash is reachable by deletions (C02_hashmap_assert_refuted)."
  },
  {
   "property": "C03",
   "status": "proved",
   "theorems": [
    "C03_strarray_holds_pushes",
    "C03_sentinel_refuted"
   ],
   "note": "The NULL sentinel after the last element is not maintained (C03_sentinel_refuted)."
  },
  {
   "property": "C04",
   "status": "proved",
   "theorems": [
    "C04_encode_is_rfc3629",
    "C04_utf8_round_trip",
    "C04_utf8_prefix_free",
    "C04_decode_stays_in_buffer",
    "C04_decode_strict_refuted"
   ],
   "note": "The decoder accepts overlong and surrogate encodings (C04_decode_strict_refuted)."
  },
  {
   "property": "C05",
   "status": "proved",
   "theorems": [
    "C05_utf16_literal",
    "C05_utf32_literal"
   ],
   "note": ""
  },
  {
   "property": "C06",
   "status": "proved",
   "theorems": [
    "C06_canonicalize_newline",
    "C06_result_characterised"
   ],
   "note": ""
  },
  {
   "property": "C07",
   "status": "proved",
   "theorems": [
    "C07_remove_backslash_newline",
    "C07_newlines_and_bytes_kept",
    "C07_line_numbers_after_splice"
   ],
   "note": ""
  },
  {
   "property": "C08",
   "status": "proved",
   "theorems": [
    "C08_convert_universal_chars",
    "C08_result_characterised",
    "C08_trailing_backslash_refuted",
    "C08_clean_source"
   ],
   "note": "A trailing lone backslash reads past the NUL (C08_trailing_backslash_refuted); source files always end in a newline, so this needs a text without it."
  },
  {
   "property": "C09",
   "status": "proved",
   "theorems": [
    "C09_tokens_tile_source",
    "C09_tokenize_safe",
    "C09_safe_without_newline_refuted"
   ],
   "note": "For texts ending in a newline, as read_file makes them; without it the tokenizer can leave the buffer (C09_safe_without_newline_refuted)."
  },
  {
   "property": "C10",
   "status": "proved",
   "theorems": [
    "C10_maximal_munch",
    "C10_ppnumber_underscore_refuted"
   ],
   "note": "pp-numbers of the C grammar with an underscore are split (C10_ppnumber_underscore_refuted)."
  },
  {
   "property": "C11",
   "status": "proved",
   "theorems": [
    "C11_line_numbers",
    "C11_at_bol_has_space"
   ],
   "note": ""
  },
  {
   "property": "C12",
   "status": "proved",
   "theorems": [
    "C12_integer_literal",
    "C12_too_large_accepted_refuted",
    "C12_double_prefix_refuted"
   ],
   "note": "Also: over-large decimal literals wrap, and 0x0x5 is accepted."
  },
  {
   "property": "C13",
   "status": "proved",
   "theorems": [
    "C13_string_literal",
    "C13_char_literal",
    "C13_decoding_in_bounds"
   ],
   "note": ""
  },
  {
   "property": "C14",
   "status": "proved",
   "theorems": [
    "C14_stringize_round_trip",
    "C14_stringize_text",
    "C14_newline_lost_refuted"
   ],
   "note": "The text of an argument loses newlines between tokens (C14_newline_lost_refuted)."
  },
  {
   "property": "C15",
   "status": "partial",
   "theorems": [
    "C15_concatenation",
    "C15_incompatible_rejected",
    "C15_u8_overflow_refuted"
   ],
   "note": "Proved for all prefixes but u8; with u8 the copy overflows the buffer (C15_u8_overflow_refuted)."
  },
  {
   "property": "C16",
   "status": "proved",
   "theorems": [
    "C16_hideset_laws",
    "C16_hidden_never_expanded",
    "C16_expansion_hides"
   ],
   "note": ""
  },
  {
   "property": "C17",
   "status": "partial",
   "theorems": [
    "C17_objlike_expansion_partial",
    "C17_directive_refuted",
    "C17_empty_expansion_refuted"
   ],
   "note": "Termination, uniqueness and completeness for every table of object-like macros and every text without the token #. Missing: # in text or bodies, where the claim is false (C17_directive_refuted, C17_empty_expansion_refuted)."
  },
  {
   "property": "C18",
   "status": "proved",
   "theorems": [
    "C18_args_sound",
    "C18_args_complete",
    "C18_args_complete_variadic"
   ],
   "note": ""
  },
  {
   "property": "C19",
   "status": "proved",
   "theorems": [
    "C19_conditional_inclusion",
    "C19_text_copied",
    "C19_undef",
    "C19_if_constant",
    "C19_if_defined",
    "C19_define",
    "C19_null_directive_refuted"
   ],
   "note": "For every well-nested structure whose lines have no extra tokens; a null directive before a line starting with a directive name is wrong (C19_null_directive_refuted)."
  },
  {
   "property": "C20",
   "status": "partial",
   "theorems": [
    "C20_extra_tokens_refuted",
    "C20_extra_tokens_skipped_partial"
   ],
   "note": "False in general (C20_extra_tokens_refuted): skip_line does not skip. Only tokens in skipped groups are dropped."
  },
  {
   "property": "C21",
   "status": "partial",
   "theorems": [
    "C21_guard_partial",
    "C21_detected_shape",
    "C21_guard_refuted"
   ],
   "note": "Proved for properly nested guards without #else; detection also accepts headers for which the claim is false (C21_guard_refuted)."
  },
  {
   "property": "C22",
   "status": "partial",
   "theorems": [
    "C22_search_first",
    "C22_include_next_refuted"
   ],
   "note": "First-match search proved for every history; the #include_next half is false (C22_include_next_refuted)."
  },
  {
   "property": "C23",
   "status": "proved",
   "theorems": [
    "C23_innermost",
    "C23_block",
    "C23_file_level"
   ],
   "note": "Up to 20,000,000 scope operations (the bound of the hash table theorems). Lookup of functions at file level is C23_file_level."
  },
  {
   "property": "C24",
   "status": "partial",
   "theorems": [
    "C24_only_needed",
    "C24_closed",
    "C24_exactly_needed_partial",
    "C24_initializer_refuted",
    "C24_redeclaration_refuted"
   ],
   "note": "Only needed functions are emitted and calls never dangle, for all inputs; exactly the needed ones when no file-level initializer names a static inline function. With such an initializer the function can be lost (C24_initializer_refuted, C24_redeclaration_refuted)."
  },
  {
   "property": "C25",
   "status": "partial",
   "theorems": [
    "C25_merge_partial",
    "C25_one_stays_partial",
    "C25_declarations_partial",
    "C25_one_stays_refuted",
    "C25_order_refuted",
    "C25_extern_initialised_refuted"
   ],
   "note": "At most one tentative definition stays and none beside a real one. That one always stays is false: two adjacent tentative definitions drop each other (C25_one_stays_refuted)."
  },
  {
   "property": "C26",
   "status": "proved",
   "theorems": [
    "C26_undeclared",
    "C26_target",
    "C26_duplicate_label_refuted"
   ],
   "note": "Accepted iff labels exist; each goto gets a label of its name (C26_target); that the jump does what C says is part of C42. Duplicate labels are accepted (C26_duplicate_label_refuted)."
  },
  {
   "property": "C27",
   "status": "proved",
   "theorems": [
    "C27_usual_arithmetic_conversions",
    "C27_common_symmetric",
    "C27_common_keeps_values"
   ],
   "note": "Arithmetic operands of binary operators; an enum is identified with int."
  },
  {
   "property": "C28",
   "status": "proved",
   "theorems": [
    "C28_compatible_iff_same_type",
    "C28_compatible_equivalence",
    "C28_incomplete_array_refuted",
    "C28_enum_refuted"
   ],
   "note": "For toycc's reading, where incomplete arrays and enums are compatible only with themselves; C11 differs there (C28_incomplete_array_refuted, C28_enum_refuted)."
  },
  {
   "property": "C29",
   "status": "proved",
   "theorems": [
    "C29_specifiers",
    "C29_repeated_sign_refuted"
   ],
   "note": "For sequences with at most one signed and one unsigned; repeated signs and the empty sequence are accepted (C29_repeated_sign_refuted)."
  },
  {
   "property": "C30",
   "status": "proved",
   "theorems": [
    "C30_struct_layout",
    "C30_minimal_padding",
    "C30_layout_defined",
    "C30_large_struct_refuted",
    "C30_packed_struct",
    "C30_relayout_stable",
    "C30_incomplete_member_refuted"
   ],
   "note": "Members of complete type, no int overflow of the bit count; the exceptions are refuted (C30_large_struct_refuted, C30_incomplete_member_refuted)."
  },
  {
   "property": "C31",
   "status": "proved",
   "theorems": [
    "C31_union_layout",
    "C31_union_relayout_stable"
   ],
   "note": ""
  },
  {
   "property": "C32",
   "status": "partial",
   "theorems": [
    "C32_bitfield_layout",
    "C32_zero_width",
    "C32_packed_overlap_refuted",
    "C32_packed_unit_refuted",
    "C32_alignas_unit_refuted",
    "C32_wide_bitfield_refuted"
   ],
   "note": "Holds for structs that are not packed, with alignments at least the size of the bit-field's type; packed structs and small _Alignas are refuted."
  },
  {
   "property": "C33",
   "status": "partial",
   "theorems": [
    "C33_const_expr",
    "C33_low_word",
    "C33_right_or_host_overflow",
    "C33_unsigned_wrap_refuted",
    "C33_bool_refuted",
    "C33_host_overflow_refuted",
    "C33_modulo_not_constant_refuted",
    "C33_address_crash_refuted",
    "C33_local_array_refuted",
    "C33_recognised_evaluates"
   ],
   "note": "Proved for typed trees without floating point whose unsigned int subresults are converted before they are widened or tested and whose arithmetic fits the compiler's int64_t; the rest is false (C33_unsigned_wrap_refuted, C33_bool_refuted, C33_host_overflow_refuted, ...)."
  },
  {
   "property": "C34",
   "status": "partial",
   "theorems": [
    "C34_folded_and_computed",
    "C34_disagree_refuted"
   ],
   "note": "For trees without unsigned int wrap-around (grade_of, host_safe) the folded value is what the code computes; outside them the two disagree (C34_disagree_refuted)."
  },
  {
   "property": "C35",
   "status": "proved",
   "theorems": [
    "C35_enumerators",
    "C35_enumerators_defined",
    "C35_int_max_refuted"
   ],
   "note": "Given values are ints; INT_MAX itself is refuted (C35_int_max_refuted)."
  },
  {
   "property": "C36",
   "status": "partial",
   "theorems": [
    "C36_image_partial",
    "C36_zero_buffer_partial",
    "C36_uninitialised_refuted",
    "C36_bitfield_junk_refuted",
    "C36_after_bitfield_refuted",
    "C36_bool_refuted",
    "C36_union_bitfield_refuted",
    "C36_struct_expression_refuted",
    "C36_bool_bitfield_refuted"
   ],
   "note": "image bits, relocations and existence proved for every type tree; floating point initializers, 64-bit bit-fields, union bit-fields and members after a bit-field without initializer not covered; zero elsewhere refuted: the buffer comes from malloc and is not cleared"
  },
  {
   "property": "C37",
   "status": "partial",
   "theorems": [
    "C37_cast_code",
    "C37_cast_code_low_bits",
    "C37_unsigned_to_int_refuted",
    "C37_to_enum_refuted"
   ],
   "note": "Correct for all pairs but an unsigned type to the signed type of the same width and a wider type to an enum, where no code is emitted (C37_unsigned_to_int_refuted, C37_to_enum_refuted); the low bits are right for those as well."
  },
  {
   "property": "C38",
   "status": "partial",
   "theorems": [
    "C38_expression_code",
    "C38_unsigned_le_refuted",
    "C38_compare_after_cast_refuted",
    "C38_unsigned_compare_refuted",
    "C38_unsigned_widen_refuted"
   ],
   "note": "All integer, pointer and struct expressions (no floating point, no alloca, no statement expressions, no compare-and-swap), to the number of bits [qual] assigns; what qual leaves out is wrong (C38_unsigned_le_refuted and others)."
  },
  {
   "property": "C39",
   "status": "proved",
   "theorems": [
    "C39_depth",
    "C39_stack",
    "C39_statement_depth"
   ],
   "note": "Expressions: C39_stack, C39_depth. Statements: C39_statement_depth, and sp and the stack above it in C42_returns / C42_finishes. Struct arguments, alloca and VLAs are outside the model."
  },
  {
   "property": "C40",
   "status": "partial",
   "theorems": [
    "C40_store_code",
    "C40_round_trip",
    "C40_load_code",
    "C40_assign_value_refuted",
    "C40_bool_field_refuted"
   ],
   "note": "Bits stored and value read back are right; the value of the assignment expression is refuted (C40_assign_value_refuted), and so are _Bool fields (C40_bool_field_refuted)."
  },
  {
   "property": "C41",
   "status": "partial",
   "theorems": [
    "C41_dispatch",
    "C41_long_case_refuted",
    "C41_unsigned_case_refuted",
    "C41_duplicate_case_refuted"
   ],
   "note": "Proved for case constants in the range of int and of the promoted type (C41_dispatch, and whole switches in C42); constants outside int are truncated (C41_long_case_refuted, C41_unsigned_case_refuted), duplicates are accepted (C41_duplicate_case_refuted)."
  },
  {
   "property": "C42",
   "status": "proved",
   "theorems": [
    "C42_returns",
    "C42_finishes",
    "C42_diverges"
   ],
   "note": "Simulation of all statements (return, end of body, divergence), with the expressions restricted as in C38 and switches as in C41; labels of the function distinct (duplicates are accepted, see C26). Statement expressions, computed goto and asm are not modelled."
  },
  {
   "property": "C43",
   "status": "partial",
   "theorems": [
    "C43_frame_partial",
    "C43_alignment_refuted"
   ],
   "note": "C43_frame_partial: slots inside the frame, disjoint, at multiples of their alignment relative to the frame pointer. C43_alignment_refuted: addresses themselves are not aligned above 8 because frames are only multiples of 8."
  },
  {
   "property": "C44",
   "status": "partial",
   "theorems": [
    "C44_arguments_partial",
    "C44_scalars",
    "C44_variadic",
    "C44_struct_order_refuted",
    "C44_double_after_struct_refuted",
    "C44_double_after_ldouble_refuted",
    "C44_empty_struct_refuted",
    "C44_big_struct_refuted"
   ],
   "note": "C44_scalars: every list of integer, pointer and floating point parameters; C44_arguments_partial: signatures with structs and long doubles that fit the registers; C44_variadic: variadic scalars. The C44_..._refuted theorems give signatures where caller and callee disagree."
  },
  {
   "property": "C45",
   "status": "proved",
   "theorems": [
    "C45_program_labels",
    "C45_body_labels"
   ],
   "note": ""
  },
  {
   "property": "C46",
   "status": "proved",
   "theorems": [
    "C46_directives",
    "C46_initialised",
    "C46_object_file",
    "C46_alignment",
    "C46_narrow_pointer_refuted"
   ],
   "note": "lines of one object, and the whole file read by an assembler model (symbols, sections, alignment, common symbols); refuted for objects of less than 8 bytes that hold an address"
  },
  {
   "property": "C47",
   "status": "proved",
   "theorems": [
    "C47_alloca",
    "C47_disjoint"
   ],
   "note": "The numeric labels 1 and 2 of the assembly are given distinct names. A later local-variable or temporary access uses fp or sp, so C43 applies unchanged."
  },
  {
   "property": "C48",
   "status": "partial",
   "theorems": [
    "C48_no_overrun",
    "C48_target_partial",
    "C48_dependencies_partial",
    "C48_backslash_hash_refuted",
    "C48_prerequisites_refuted"
   ],
   "note": "The buffer bound holds for all names. The round trip holds for names without a number sign after a backslash, a colon, a newline or a final backslash; refuted for a backslash before a number sign, and prerequisites are not quoted at all (C48_prerequisites_refuted)."
  },
  {
   "property": "C49",
   "status": "proved",
   "theorems": [
    "C49_temporaries",
    "C49_only_temporaries"
   ],
   "note": "Exit by exit() or return from main; a signal that kills the driver is outside the model."
  },
  {
   "property": "C50",
   "status": "proved",
   "theorems": [
    "C50_stop_at_failure",
    "C50_order",
    "C50_cc1"
   ],
   "note": "Only the -MD dependency file may be written before a failure. A failing write (full disk) is not modelled."
  },
  {
   "property": "C51",
   "status": "partial",
   "theorems": [
    "C51_command_line_partial",
    "C51_missing_argument",
    "C51_separate_I_refuted",
    "C51_idirafter_refuted",
    "C51_missing_argument_refuted"
   ],
   "note": "Refuted for -I dir and -idirafter dir in two words and for -D, -U, -MQ as the last word; proved for all other command lines."
  },
  {
   "property": "C52",
   "status": "partial",
   "theorems": [
    "C52_total",
    "C52_grammar_partial",
    "C52_grammar_is_C",
    "C52_unambiguous",
    "C52_accepted_partial",
    "C52_round_trip",
    "C52_text_injective",
    "C52_comma",
    "C52_comma_tree_refuted",
    "C52_literal_member_refuted",
    "C52_sizeof_literal_refuted",
    "C52_assign_to_sum_refuted"
   ],
   "note": "All of the expression grammar except postfix operators after a compound literal and sizeof of an unparenthesised one (refuted); statement expressions are not modelled; type names and initializer lists are single tokens. Commas associate to the right (no effect on the meaning: C52_comma)."
  },
  {
   "property": "C53",
   "status": "partial",
   "theorems": [
    "C53_add_partial",
    "C53_sub_partial",
    "C53_difference_partial",
    "C53_pointer_sum_rejected",
    "C53_struct_operand_rejected",
    "C53_address_of_array_refuted",
    "C53_add_pointer_to_int_refuted",
    "C53_int_minus_pointer_refuted"
   ],
   "note": "Scaling of p+n, n+p, p-n and division of p-q proved for operands without the miscompiled forms (plain); p+q and struct operands rejected. Refuted: &a + 1 moves one element; i += p, 5 - p and p * q are accepted."
  },
  {
   "property": "C54",
   "status": "partial",
   "theorems": [
    "C54_compound_assignment_partial",
    "C54_increment_partial",
    "C54_bool_increment_refuted",
    "C54_bool_decrement_refuted"
   ],
   "note": "Values, stores and single evaluation of the address proved for every integer and pointer type and bit-fields (++/-- postfix: not bit-fields, not _Bool). Refuted for _Bool b++ and b--. Floating point objects: C74."
  },
  {
   "property": "C55",
   "status": "partial",
   "theorems": [
    "C55_int_partial",
    "C55_unsigned_refuted",
    "C55_long_refuted",
    "C55_char_refuted",
    "C55_far_refuted",
    "C55_member_refuted",
    "C55_fetch_add_refuted",
    "C55_operands_partial"
   ],
   "note": "proved for int (any number of harts, operators, operand types, interleavings, failing store-conditionals, interference from outside; and a hart left alone finishes), on a sequentially consistent machine, from the point where address and operand are in their temporaries; that the code before that point, run without interference, puts them there is C55_operands_partial. Refuted for unsigned with the top bit set, long, char (neighbours overwritten), temporaries more than 2048 bytes from the frame pointer, members of structures (lost update), atomic_fetch_add (returns the new value)"
  },
  {
   "property": "C56",
   "status": "partial",
   "theorems": [
    "C56_local_partial",
    "C56_values_partial",
    "C56_code_partial"
   ],
   "note": "tree and code of local initializers for every type tree without floating point; values and zeroes when the initializers do not look at the object"
  },
  {
   "property": "C57",
   "status": "partial",
   "theorems": [
    "C57_substitution_partial",
    "C57_arguments_expanded_partial",
    "C57_refuted",
    "C57_paste_at_end_refuted"
   ],
   "note": "All body forms but __VA_OPT__, with macro-free arguments; and expansion of arguments in bodies of words and parameters. False in the cases of C57_refuted."
  },
  {
   "property": "C58",
   "status": "partial",
   "theorems": [
    "C58_struct_ref_partial",
    "C58_path_offset",
    "C58_member_lookup_partial",
    "C58_unnamed_bitfield_refuted"
   ],
   "note": "Holds when every member other than anonymous structs and unions has a name; an unnamed bit-field crashes the lookup (C58_unnamed_bitfield_refuted). C58_struct_ref_partial: the same for the chain of member nodes that struct_ref builds."
  },
  {
   "property": "C59",
   "status": "proved",
   "theorems": [
    "C59_generic_selection"
   ],
   "note": ""
  },
  {
   "property": "C60",
   "status": "proved",
   "theorems": [
    "C60_accepted",
    "C60_innermost"
   ],
   "note": ""
  },
  {
   "property": "C61",
   "status": "partial",
   "theorems": [
    "C61_expansion_origin",
    "C61_line_value",
    "C61_line_directive_refuted"
   ],
   "note": "The line of expanded tokens is proved; #line is off by one (C61_line_directive_refuted)."
  },
  {
   "property": "C63",
   "status": "proved",
   "theorems": [
    "C63_function",
    "C63_calls"
   ],
   "note": "Functions with up to eight integer/pointer parameters plus stack arguments as in fun_ok; struct arguments and results are in C44."
  },
  {
   "property": "C64",
   "status": "partial",
   "theorems": [
    "C64_link_partial",
    "C64_assembly_refuted",
    "C64_compile_only_refuted"
   ],
   "note": "Refuted for assembly inputs and for -c with a library; proved for C sources, objects, archives and libraries."
  },
  {
   "property": "C65",
   "status": "partial",
   "theorems": [
    "C65_source_meaning_partial",
    "C65_source_code_partial",
    "C65_shift_promotion_refuted",
    "C65_complement_promotion_refuted",
    "C65_plus_promotion_refuted",
    "C65_bitfield_promotion_refuted",
    "C65_small_array_compare_refuted",
    "C65_small_array_conditional_refuted",
    "C65_small_struct_conditional_refuted"
   ],
   "note": "All 25 expression forms over integers, pointers, arrays, structs and calls (arguments and results scalar); excluded forms (plain) are the miscompiled ones, each refuted by a witness. Struct arguments and results, statement expressions and floating point are not in the source language of this theorem."
  },
  {
   "property": "C62",
   "status": "partial",
   "theorems": [
    "C62_total",
    "C62_types",
    "C62_unambiguous",
    "C62_trees",
    "C62_round_trip",
    "C62_type_name",
    "C62_abstract_function_refuted",
    "C62_vla_parameter_refuted",
    "C62_size_refuted",
    "C62_accepted_refuted"
   ],
   "note": "proved for every tree, with two exceptions that are refuted: declarators without a name that start with a parameter list (int (int)) are rejected, and parameters that are variable length arrays are not adjusted; also refuted: negative and huge array sizes are accepted, arrays of functions, parameters without specifiers, () means no parameters. Specifiers and array sizes are single tokens"
  },
  {
   "property": "C66",
   "status": "partial",
   "theorems": [
    "C66_excess_partial",
    "C66_anonymous_partial",
    "C66_parts_partial",
    "C66_inside",
    "C66_range_partial",
    "C66_nested_refuted",
    "C66_anonymous_refuted",
    "C66_unnamed_refuted",
    "C66_string_refuted",
    "C66_union_expression_refuted",
    "C66_override_refuted",
    "C66_trailing_refuted",
    "C66_union_twice_refuted",
    "C66_negative_refuted",
    "C66_unsized_partial",
    "C66_unsized_string",
    "C66_elements",
    "C66_local_partial",
    "C66_code_partial",
    "C66_global_partial"
   ],
   "note": "Proved for every initializer outside the cases listed beside the specification, each of which is refuted by a C66_*_refuted theorem; excess elements and members of structures without a name have their own theorems. The theorems about memory (local, code, global) are for scalar parts; the global one leaves out bit-fields and needs a zeroed buffer (C36)."
  },
  {
   "property": "C67",
   "status": "partial",
   "theorems": [
    "C67_meaning_partial",
    "C67_code_partial"
   ],
   "note": "From tokens to instructions for expressions without the forms C65 excludes. Missing: braced compound literals, _Generic, the atomic builtins, floating point, struct arguments and results; type names are single tokens; functions are called by name or through a variable."
  },
  {
   "property": "C68",
   "status": "partial",
   "theorems": [
    "C68_tokens",
    "C68_unambiguous",
    "C68_round_trip",
    "C68_digraph_refuted",
    "C68_parser_input_partial",
    "C68_tree_partial",
    "C68_expression_round_trip_partial"
   ],
   "note": "Complete for the tokenizer (C68_tokens, C68_unambiguous, C68_round_trip). The composition with preprocessor and parser is for text without macros, directives, type names, strings and character constants. C68_digraph_refuted: digraphs are not recognized."
  },
  {
   "property": "C69",
   "status": "partial",
   "theorems": [
    "C69_total",
    "C69_grammar_partial",
    "C69_body_partial",
    "C69_grammar_is_C",
    "C69_unambiguous",
    "C69_prefix_free",
    "C69_nearest_if",
    "C69_accepted_partial",
    "C69_accepted_body_partial",
    "C69_round_trip",
    "C69_text_injective",
    "C69_asm_refuted",
    "C69_asm_empty_refuted",
    "C69_source_partial"
   ],
   "note": "Full for statements without asm and without initializers in braces inside expressions (compound literals as in C52). C69_asm_refuted and C69_asm_empty_refuted: an asm statement does not consume its semicolon, so it cannot stand before else. Declarators in the trees are pointers to the type or the type itself (the others are in DeclModel). From characters (C69_source_partial): without macros, type names, strings and asm."
  },
  {
   "property": "C70",
   "status": "partial",
   "theorems": [
    "C70_meaning_partial",
    "C70_code_partial"
   ],
   "note": "For bodies without braces in initializers, static, extern and typedef declarations inside, declarators other than pointers to a type, asm and goto *p; expressions as in C65/C67 (no floating point, no structs by value in calls); case constants without casts and sizeof. Scopes, shadowing, declarations in for, loops, switch, goto and infinite executions are covered."
  },
  {
   "property": "C71",
   "status": "partial",
   "theorems": [
    "C71_program_partial"
   ],
   "note": "Missing: what C70 misses; variable arguments and calls without prototype; struct results; ?: without middle operand of a type of less than 8 bytes; static and inline functions; initializers of global objects; only executions that return (finite). Premises on the compiled functions (fun_ok: supported nodes, stack cost) are checkable by computation."
  },
  {
   "property": "C72",
   "status": "partial",
   "theorems": [
    "C72_float_expression_code_partial",
    "C72_float_value_range",
    "C72_float_operator",
    "C72_encodings",
    "C72_to_bool_refuted",
    "C72_to_unsigned_refuted",
    "C72_from_enum_refuted",
    "C72_logand_refuted"
   ],
   "note": "long double, calls with anything floating in them, structure assignments and bit-fields with something floating inside are not covered. The conversions to _Bool, from and to enum types, from unsigned results of a float conversion to 64 bits, and && or || with a floating second operand after an integer are wrong: C72_to_bool_refuted, C72_to_unsigned_refuted, C72_from_enum_refuted, C72_logand_refuted."
  },
  {
   "property": "C73",
   "status": "partial",
   "theorems": [
    "C73_integers",
    "C73_static_float_partial",
    "C73_static_integer_partial",
    "C73_float_constant",
    "C73_round_trip",
    "C73_int_to_float",
    "C73_narrowing_refuted",
    "C73_float_sum_refuted",
    "C73_float_constant_refuted",
    "C73_unsigned_refuted",
    "C73_compare_refuted",
    "C73_not_refuted",
    "C73_condition_refuted",
    "C73_bool_refuted",
    "C73_twice_rounded_refuted"
   ],
   "note": "Arithmetic in float, float constants that are not written exactly (other than a float object's whole initializer), long double, unsigned long to double, and floating values in conditions, comparisons and logical operators are not covered; eight of these are refuted with witnesses. Rounding of written constants (strtold) is a parameter."
  },
  {
   "property": "C74",
   "status": "partial",
   "theorems": [
    "C74_source_meaning_partial",
    "C74_source_code_partial",
    "C74_integers",
    "C74_compound_assignment_partial",
    "C74_postfix_partial",
    "C74_postfix_refuted",
    "C74_constraints_refuted"
   ],
   "note": "missing: calls, a ?: b, floating values assigned to bit-fields, long double; integer expressions with something floating inside when they are pointer arithmetic, comparisons of pointers with integers, elements and members found that way, or structures. Postfix ++ and -- on floating objects change the object as they should (C74_postfix_partial) but do not have its old value in general (C74_postfix_refuted); operands C forbids but the compiler takes: C74_constraints_refuted."
  }
 ]
}