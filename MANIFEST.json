{
 "claims": [
  {
   "property": "C01",
   "status": "proved",
   "theorems": [
    "C01_bitset_is_a_set"
   ],
   "note": "All histories over any number of sets, aliasing included."
  },
  {
   "property": "C02",
   "status": "proved",
   "theorems": [
    "C02_iteration_visits_members_in_order",
    "C02_bsiter_next"
   ],
   "note": ""
  },
  {
   "property": "C03",
   "status": "proved",
   "theorems": [
    "C03_bseq_decides_equality",
    "C03_bseq_null",
    "C03_bsissubset_decides_inclusion",
    "C03_bsisempty_decides_emptiness"
   ],
   "note": ""
  },
  {
   "property": "C04",
   "status": "partial",
   "theorems": [
    "C04_map_after_delete_refuted",
    "C04_get_after_put_refuted",
    "C04_hash_table_is_a_map_partial",
    "C04_insert_only_is_a_map",
    "C04_lookup_returns_only_put_values"
   ],
   "note": "The full claim is false of the code (two refutations). Proved: exact map semantics for histories that never overwrite a present key after a deletion; value soundness for all histories."
  },
  {
   "property": "C05",
   "status": "proved",
   "theorems": [
    "C05_operations_terminate"
   ],
   "note": ""
  },
  {
   "property": "C06",
   "status": "proved",
   "theorems": [
    "C06_round_trip",
    "C06_int_truncation",
    "C06_writes_bytes"
   ],
   "note": ""
  },
  {
   "property": "C07",
   "status": "proved",
   "theorems": [
    "C07_align_rounds_up",
    "C07_align_zero"
   ],
   "note": ""
  },
  {
   "property": "C08",
   "status": "proved",
   "theorems": [
    "C08_append",
    "C08_pop",
    "C08_insert",
    "C08_delete",
    "C08_concat"
   ],
   "note": ""
  },
  {
   "property": "C09",
   "status": "partial",
   "theorems": [
    "C09_first_arm_partial",
    "C09_nested_alternatives_refuted",
    "C09_structured_constant_refuted"
   ],
   "note": "Proved, down to the emitted jumps, for arms whose alternatives are at the top of the pattern and which name no structured constant. False with alternatives inside a tuple (the rows of the second alternative lose the rest of the pattern) and with named tuple constants (their places clash with those of other patterns)."
  },
  {
   "property": "C10",
   "status": "partial",
   "theorems": [
    "C10_exhaustive_partial",
    "C10_deep_check",
    "C10_refuted"
   ],
   "note": "Proved for arms that look at one place (literals, union constructors); with a check that also descends into default branches it would hold for all arms with alternatives at the top. The check as written accepts `(true,_)`, `(_,2)` (refuted)."
  },
  {
   "property": "C100",
   "status": "proved",
   "theorems": [
    "C100_sh",
    "C100_joins"
   ],
   "note": "For all byte strings."
  },
  {
   "property": "C101",
   "status": "partial",
   "theorems": [
    "C101_decodes",
    "C101_allowed_partial",
    "C101_space_refuted"
   ],
   "note": "Proved: decoding gives the string back; no reserved characters and no bytes beyond ASCII come out. Refuted: spaces, control characters, quotes and others that may not stand in a URL are left as they are."
  },
  {
   "property": "C102",
   "status": "partial",
   "theorems": [
    "C102_text_partial",
    "C102_quote_refuted"
   ],
   "note": "Proved for text between tags. Refuted for attributes: quotes are not escaped."
  },
  {
   "property": "C103",
   "status": "partial",
   "theorems": [
    "C103_generator",
    "C103_bytes_partial",
    "C103_zeros_refuted"
   ],
   "note": "Proved for the bytes up to the eighth of the last part. Refuted: the bytes behind are all 0; in a buffer of 9 to 71 bytes only the first eight are random."
  },
  {
   "property": "C104",
   "status": "partial",
   "theorems": [
    "C104_range",
    "C104_uniform_refuted"
   ],
   "note": "Proved: the number is in the range. Refuted: the start of the range comes from one more value of the generator than the others."
  },
  {
   "property": "C105",
   "status": "partial",
   "theorems": [
    "C105_seed_refuted",
    "C105_zero_refuted"
   ],
   "note": "Proved: seeds that differ in their lower halves give different generators. Refuted: the upper half of the seed does not matter, as >> binds tighter than &, and multiples of 2^16 give only zeros."
  },
  {
   "property": "C106",
   "status": "partial",
   "theorems": [
    "C106_quad_partial",
    "C106_accepts",
    "C106_empty_refuted"
   ],
   "note": "Proved: every four numbers from 0 to 255 in base ten give their address, and what is accepted has three dots and four texts that intparsebase reads as such numbers. Refuted: empty texts, underscores and minus signs are accepted."
  },
  {
   "property": "C107",
   "status": "partial",
   "theorems": [
    "C107_groups_partial",
    "C107_group_refuted"
   ],
   "note": "Proved: every eight groups give their address. Missing: the short forms in general, which texts are refused, and the choice between the two forms in ipparse (wrong programs there survive). Refuted: the group 10000 is read as 0, and three colons are accepted."
  },
  {
   "property": "C11",
   "status": "partial",
   "theorems": [
    "C11_reported_only_if_partial",
    "C11_reported_refuted",
    "C11_every_refuted"
   ],
   "note": "An arm without alternatives is reported only if no value needs it (arms without nested alternatives). With nested alternatives a needed arm can be rejected, and useless arms can go unreported (both refuted)."
  },
  {
   "property": "C12",
   "status": "partial",
   "theorems": [
    "C12_terminates",
    "C12_null_dereference_refuted"
   ],
   "note": "Termination proved for all patterns; the search for a test to share dereferences a missing default branch (refuted)."
  },
  {
   "property": "C13",
   "status": "partial",
   "theorems": [
    "C13_value_partial",
    "C13_ring",
    "C13_int64",
    "C13_divzero",
    "C13_unsigned_division_refuted",
    "C13_unsigned_shift_refuted",
    "C13_narrow_division_refuted",
    "C13_cast_refuted",
    "C13_overflow_refuted"
   ],
   "note": "Proved for + - * << & | ^, negation and narrowing casts at all types, for everything at int64, and in general when literals under / % >> and widening casts are in range after folding. Otherwise literals are folded as signed 64-bit numbers whatever their type (refuted)."
  },
  {
   "property": "C14",
   "status": "partial",
   "theorems": [
    "C14_reaching_defs_sound",
    "C14_reaching_defs_cover_executions",
    "C14_pointer_store_refuted"
   ],
   "note": "Proved for graphs where no store through a non-variable carries the id of an assigned variable; without that hypothesis refuted (genkill ignores the operator of the destination)."
  },
  {
   "property": "C15",
   "status": "proved",
   "theorems": [
    "C15_reaching_defs_exact",
    "C15_reaching_terminates"
   ],
   "note": "Same aliasing hypothesis as C14."
  },
  {
   "property": "C16",
   "status": "partial",
   "theorems": [
    "C16_no_undefined_reads_partial",
    "C16_no_false_alarm",
    "C16_self_assignment_refuted",
    "C16_redeclaration_refuted",
    "C16_store_through_undefined_pointer_refuted",
    "C16_call_of_undefined_function_refuted"
   ],
   "note": "The full claim is false of the code (four refutations); proved for the operand positions the check inspects, outside blocks that assign the variable. No false alarms."
  },
  {
   "property": "C17",
   "status": "partial",
   "theorems": [
    "C17_accepted_bodies_return_partial",
    "C17_check_terminates",
    "C17_empty_body_refuted"
   ],
   "note": "True except for empty bodies, which are accepted (refuted)."
  },
  {
   "property": "C18",
   "status": "proved",
   "theorems": [
    "C18_sizes",
    "C18_parts_inside",
    "C18_parts_disjoint",
    "C18_tuple_offsets_agree",
    "C18_through_pointer",
    "C18_oversize"
   ],
   "note": "Sizes, alignments, offsets of nested parts, disjointness. Types of 2^64 bytes or more are not rejected: the computed size wraps (C18_oversize)."
  },
  {
   "property": "C19",
   "status": "proved",
   "theorems": [
    "C19_union",
    "C19_tag"
   ],
   "note": ""
  },
  {
   "property": "C20",
   "status": "partial",
   "theorems": [
    "C20_literal",
    "C20_only",
    "C20_outside_base",
    "C20_saturates",
    "C20_value_refuted",
    "C20_suffix_b_refuted",
    "C20_float_refuted"
   ],
   "note": "Value, base and suffix proved in both directions for literals of at most 2047 digits below 2^64. Refuted: literals from 2^64 on are silently read as 2^64-1, the suffix b is unusable without u, and floats may have several points."
  },
  {
   "property": "C21",
   "status": "partial",
   "theorems": [
    "C21_string",
    "C21_char",
    "C21_codepoint",
    "C21_any_byte_refuted",
    "C21_overlong_refuted"
   ],
   "note": "Both directions proved for strings and characters. Refuted: the byte 0xff is taken for the end of the file, and over-long UTF-8 is accepted."
  },
  {
   "property": "C22",
   "status": "partial",
   "theorems": [
    "C22_comment",
    "C22_unique",
    "C22_blank",
    "C22_ff_refuted"
   ],
   "note": "Proved for all comments without the byte 0xff, which is taken for the end of the file (refuted)."
  },
  {
   "property": "C23",
   "status": "partial",
   "theorems": [
    "C23_session_partial",
    "C23_step_partial",
    "C23_strict_partial",
    "C23_elements",
    "C23_loops",
    "C23_order_refuted",
    "C23_params_refuted"
   ],
   "note": "Proved up to the order of struct and union members, for programs with one type parameter in play, and strictly when members come in one order. Refuted: structs with members in different orders, and two different type parameters, are unified silently. Names are taken as resolved; traits, delayed literals and instantiation are not modelled."
  },
  {
   "property": "C24",
   "status": "proved",
   "theorems": [
    "C24_reported",
    "C24_only"
   ],
   "note": ""
  },
  {
   "property": "C25",
   "status": "partial",
   "theorems": [
    "C25_exact_partial",
    "C25_ends",
    "C25_missed_refuted",
    "C25_same_register_refuted"
   ],
   "note": "Exact, at every instruction, whenever control somewhere goes forward into a block that reads a register before writing it. Refuted otherwise: the loop stops after its first pass because only changes of live-out sets count, and two registers needed together get the same machine register."
  },
  {
   "property": "C26",
   "status": "partial",
   "theorems": [
    "C26_colouring",
    "C26_disjoint_partial",
    "C26_highbyte_refuted",
    "C26_stackpointer_refuted"
   ],
   "note": "Graph level proved for every program without further conditions. Beyond that: registers whose values are needed together get disjoint storage, when liveness is right (C25) and copies out of machine registers take the whole needed value; refuted for a live %ah and for copies of the stack pointer."
  },
  {
   "property": "C27",
   "status": "partial",
   "theorems": [
    "C27_file_partial",
    "C27_file_exact",
    "C27_node_partial",
    "C27_type_partial",
    "C27_injective_partial",
    "C27_version",
    "C27_magic",
    "C27_literal_refuted",
    "C27_literal_exact",
    "C27_local_type_refuted"
   ],
   "note": "The whole use-file format (nodes, scopes, symbols, types, traits, impls, header) is modelled. Reading back gives exactly what was written when every field fits, integer literals fit 32 bits and scopes declare only builtin types. Refuted: integer literals outside 32 bits change value, and a scope that declares a type makes the reader use an uninitialised pointer. Merging of types defined by several files is not modelled."
  },
  {
   "property": "C28",
   "status": "partial",
   "theorems": [
    "C28_map_after_delete_refuted",
    "C28_get_after_put_refuted",
    "C28_hash_table_is_a_map_partial",
    "C28_insert_only_is_a_map",
    "C28_lookup_returns_only_put_values",
    "C28_operations_terminate"
   ],
   "note": "The full claim is false of the code (two refutations). Proved: exact map semantics for histories that never overwrite a present key after a deletion; value soundness and termination for all histories."
  },
  {
   "property": "C29",
   "status": "partial",
   "theorems": [
    "C29_bitset_is_a_set_partial",
    "C29_no_intersection_is_a_set",
    "C29_intersect_exact",
    "C29_intersection_refuted",
    "C29_put_del_report_change",
    "C29_iteration",
    "C29_equality",
    "C29_subset",
    "C29_hash_respects_contents"
   ],
   "note": "bsintersect with a longer first set keeps stale members (refuted); everything else proved."
  },
  {
   "property": "C30",
   "status": "proved",
   "theorems": [
    "C30_sort_sorts",
    "C30_sort_permutes"
   ],
   "note": ""
  },
  {
   "property": "C31",
   "status": "proved",
   "theorems": [
    "C31_lsearch_finds_first",
    "C31_bsearch_correct",
    "C31_bsearch_after_sort"
   ],
   "note": ""
  },
  {
   "property": "C32",
   "status": "proved",
   "theorems": [
    "C32_encode_writes_utf8",
    "C32_step_over_encoded",
    "C32_roundtrip",
    "C32_prefix_free",
    "C32_step_progress",
    "C32_iteration_terminates",
    "C32_iteration_visits_characters",
    "C32_decoding_validates_refuted"
   ],
   "note": "Decoding does not validate its input (refuted as a separate, stronger claim)."
  },
  {
   "property": "C33",
   "status": "partial",
   "theorems": [
    "C33_put_writes_low_bytes",
    "C33_get_reads_value",
    "C33_roundtrip",
    "C33_byteswap_reverses",
    "C33_byteswap_involutive",
    "C33_host64_roundtrip",
    "C33_gethost32_wide_refuted",
    "C33_gethost16_refuted"
   ],
   "note": "le/be encoders and byte swapping proved; gethost16 overruns and gethost32 sign-extends (refuted)."
  },
  {
   "property": "C34",
   "status": "proved",
   "theorems": [
    "C34_strfind_first",
    "C34_strrfind_last",
    "C34_strhas"
   ],
   "note": ""
  },
  {
   "property": "C35",
   "status": "partial",
   "theorems": [
    "C35_split",
    "C35_join",
    "C35_strcat",
    "C35_split_join",
    "C35_replace",
    "C35_cut_is_unique",
    "C35_bounded_split",
    "C35_split_iterator",
    "C35_iterator_agrees_refuted",
    "C35_empty_delimiter_refuted"
   ],
   "note": "strsplit, strjoin and strreplace proved for all non-empty delimiters. The iterator bysplit drops a final empty piece, and an empty delimiter never terminates (both refuted)."
  },
  {
   "property": "C36",
   "status": "proved",
   "theorems": [
    "C36_strcmp_lexicographic",
    "C36_strcmp_orders",
    "C36_strncmp",
    "C36_hasprefix",
    "C36_hassuffix",
    "C36_sleq",
    "C36_chomp",
    "C36_strcasecmp"
   ],
   "note": ""
  },
  {
   "property": "C37",
   "status": "partial",
   "theorems": [
    "C37_roundtrip",
    "C37_format_is_numeral",
    "C37_padding",
    "C37_parse_numeral",
    "C37_reject_non_digits",
    "C37_int64_min_base_refuted",
    "C37_out_of_range_rejected_refuted",
    "C37_no_digits_rejected_refuted"
   ],
   "note": "Round trip proved for all integer types, bases 2-16 and zero padding, except the smallest int64 outside base 10 (refuted). Out-of-range and digit-free texts are accepted by the parser (refuted as stronger claims)."
  },
  {
   "property": "C38",
   "status": "partial",
   "theorems": [
    "C38_add",
    "C38_sub",
    "C38_canonical",
    "C38_cmp",
    "C38_cmpabs",
    "C38_predicates",
    "C38_shl",
    "C38_shr",
    "C38_mul_partial",
    "C38_mul_refuted",
    "C38_div",
    "C38_mod_partial",
    "C38_mod_refuted",
    "C38_div_by_zero",
    "C38_mkbigint_partial",
    "C38_mkbigint_refuted",
    "C38_ofint",
    "C38_frombytes_refuted",
    "C38_or_normal_refuted",
    "C38_and_normal_refuted"
   ],
   "note": "Addition, subtraction, comparison, shifts and quotients proved for all normalised numbers. Products proved when one factor has fewer than 64 digits; Karatsuba products are wrong (refuted). Remainders proved for non-negative dividends or divisors of two digits and more; with a one-digit divisor a negative dividend gives a positive remainder (refuted). bigfrombytes, bigor, bigand and mkbigint of the smallest int8/16/32 are refuted."
  },
  {
   "property": "C39",
   "status": "partial",
   "theorems": [
    "C39_futex_exclusive",
    "C39_futex_one_holder",
    "C39_futex_misuse_dies",
    "C39_spin_exclusive",
    "C39_spin_misuse_refuted"
   ],
   "note": "Futex mutex proved for all clients, including unlock by a non-holder, which aborts. The spinning mutex is proved for clients that only unlock what they hold; a foreign unlock breaks exclusion (refuted)."
  },
  {
   "property": "C40",
   "status": "proved",
   "theorems": [
    "C40_wake_pending",
    "C40_no_lost_wakeup"
   ],
   "note": ""
  },
  {
   "property": "C41",
   "status": "proved",
   "theorems": [
    "C41_futex_conserves",
    "C41_spin_conserves",
    "C41_no_lost_wakeup",
    "C41_wakeups_cover_units",
    "C41_post_wakes"
   ],
   "note": ""
  },
  {
   "property": "C42",
   "status": "proved",
   "theorems": [
    "C42_futex_waits_for_posts",
    "C42_spin_waits_for_posts",
    "C42_no_lost_wakeup",
    "C42_count"
   ],
   "note": ""
  },
  {
   "property": "C43",
   "status": "proved",
   "theorems": [
    "C43_futex_exclusive",
    "C43_mutex_exclusive",
    "C43_futex_holders"
   ],
   "note": "Clients release only read locks they hold."
  },
  {
   "property": "C44",
   "status": "proved",
   "theorems": [
    "C44_linearizable",
    "C44_fifo",
    "C44_no_use_after_free"
   ],
   "note": ""
  },
  {
   "property": "C45",
   "status": "partial",
   "theorems": [
    "C45_suffix_replaced",
    "C45_suffix_appended",
    "C45_fits_buffer",
    "C45_short_name_refuted"
   ],
   "note": "Names shorter than the suffix yield NULL (refuted); everything else proved."
  },
  {
   "property": "C46",
   "status": "proved",
   "theorems": [
    "C46_graph_covers_executions"
   ],
   "note": ""
  },
  {
   "property": "C47",
   "status": "partial",
   "theorems": [
    "C47_charoff_yields_ends",
    "C47_charoff_yields_offsets_refuted",
    "C47_charoff_safe"
   ],
   "note": "The iterator yields the offset after each character, not the documented start (refuted)."
  },
  {
   "property": "C48",
   "status": "proved",
   "theorems": [
    "C48_grapheme_step"
   ],
   "note": ""
  },
  {
   "property": "C49",
   "status": "partial",
   "theorems": [
    "C49_no_stuck_waiter",
    "C49_lost_wakeup_refuted"
   ],
   "note": "Proved where a wait with timeout 0 returns (Linux); where it means no timeout (OS X) a writer can be left asleep for ever (refuted)."
  },
  {
   "property": "C50",
   "status": "partial",
   "theorems": [
    "C50_futex_try_returns",
    "C50_mutex_tryrdlock_refuted"
   ],
   "note": "Proved for the futex lock; the mutex-based tryrdlock waits for the writer when another reader is already waiting (refuted)."
  },
  {
   "property": "C51",
   "status": "partial",
   "theorems": [
    "C51_get_returns",
    "C51_counter_wrap_refuted"
   ],
   "note": "Proved for histories of fewer than 2^32 puts with the Linux condition variable; a consumer overtaken by 2^32 puts between reading the counter and going to sleep is lost (refuted)."
  },
  {
   "property": "C52",
   "status": "partial",
   "theorems": [
    "C52_captures_partial",
    "C52_alternatives_refuted"
   ],
   "note": "Proved for arms without alternatives; with alternatives the variables stay unassigned on default branches (refuted)."
  },
  {
   "property": "C53",
   "status": "partial",
   "theorems": [
    "C53_calls_partial",
    "C53_calls_refuted"
   ],
   "note": "Proved when no operand of * or % contains a call; 0 * f() and f() % 1 lose the call (refuted)."
  },
  {
   "property": "C54",
   "status": "proved",
   "theorems": [
    "C54_environment"
   ],
   "note": ""
  },
  {
   "property": "C55",
   "status": "partial",
   "theorems": [
    "C55_image_partial",
    "C55_gap_refuted"
   ],
   "note": "Proved for initialisers that leave no gap of exactly one array element; with such a gap the image is one element short (refuted)."
  },
  {
   "property": "C56",
   "status": "partial",
   "theorems": [
    "C56_agree",
    "C56_places",
    "C56_compiles_partial",
    "C56_float_refuted",
    "C56_union_refuted",
    "C56_empty_refuted"
   ],
   "note": "Agreement and disjointness proved for all calls; compilation can fail for float aggregates after eight floats, for small aggregates with payload unions and for empty aggregates (refuted)."
  },
  {
   "property": "C57",
   "status": "proved",
   "theorems": [
    "C57_frame"
   ],
   "note": ""
  },
  {
   "property": "C58",
   "status": "proved",
   "theorems": [
    "C58_longest",
    "C58_junk"
   ],
   "note": ""
  },
  {
   "property": "C59",
   "status": "partial",
   "theorems": [
    "C59_word",
    "C59_type",
    "C59_only_long",
    "C59_long_refuted"
   ],
   "note": "Proved for words shorter than 1024 bytes; every longer word overruns the buffer (refuted)."
  },
  {
   "property": "C60",
   "status": "partial",
   "theorems": [
    "C60_stops",
    "C60_tokens",
    "C60_eof",
    "C60_truncation_refuted"
   ],
   "note": "Proved for files without the byte 0xff; at that byte the rest of the file is silently ignored (refuted)."
  },
  {
   "property": "C61",
   "status": "proved",
   "theorems": [
    "C61_no_error",
    "C61_most_general",
    "C61_ends"
   ],
   "note": ""
  },
  {
   "property": "C62",
   "status": "partial",
   "theorems": [
    "C61_ends",
    "C62_diverges_refuted"
   ],
   "note": "Ends for finite types; refuted for recursive types that differ in member order."
  },
  {
   "property": "C63",
   "status": "partial",
   "theorems": [
    "C63_finite_partial",
    "C63_cyclic_refuted"
   ],
   "note": "Exact, with the cache of any session, when the types are finite; refuted for recursive types."
  },
  {
   "property": "C64",
   "status": "partial",
   "theorems": [
    "C64_behaviour_partial"
   ],
   "note": "For all instruction meanings, branch choices and step counts: same points, same memory, needed values held in the chosen registers. Conditions: those of C26, size-keeping or narrowing copies, no partial copies into machine registers that are needed whole, zero extensions between different machine registers (otherwise false: C65). Rounds that spill are not covered."
  },
  {
   "property": "C65",
   "status": "partial",
   "theorems": [
    "C65_zext_dropped_refuted",
    "C65_zext_kept"
   ],
   "note": "Refuted: the 32-bit move printed for a zero extension is dropped when source and destination share a machine register, and a truncation into that register was dropped too, so (x castto(uint32)) castto(uint64) gives x. Exact when the registers differ."
  },
  {
   "property": "C66",
   "status": "partial",
   "theorems": [
    "C66_ends",
    "C66_closed_partial",
    "C66_load_partial",
    "C66_load_exact",
    "C66_generic_partial",
    "C66_local_init_refuted",
    "C66_nested_init_refuted",
    "C66_arraysize_refuted"
   ],
   "note": "Proved for packages whose local declarations with initialisers are not nested inside one another's initialisers and whose array sizes have builtin types, and for declarations not used in a local variable's initialiser. Refuted otherwise: the helper called in `var h = helper(x)` inside an exported generic function is not exported, and importers stop with an error on nested initialisers and on array sizes of an internal named type."
  },
  {
   "property": "C67",
   "status": "proved",
   "theorems": [
    "C67_apart",
    "C67_usable",
    "C67_alloc",
    "C67_free",
    "C67_alloc_keeps",
    "C67_free_keeps"
   ],
   "note": "For every reachable state of the whole allocator (slabs, slab caches, the cache of large blocks, eviction outside the lock). The memory lock is taken as making each call one step."
  },
  {
   "property": "C68",
   "status": "partial",
   "theorems": [
    "C68_again",
    "C68_reuse_refuted",
    "C68_big_refuted"
   ],
   "note": "True for one block of up to 128 KiB. Refuted for several: when a slab becomes empty, the chunk freed last is not put back on its free list before the slab is cached, so three blocks of 100000 bytes, freed, cannot be had again from the same slab. Refuted for one block above 128 KiB: the cache is searched with a strict comparison, so a cached block of exactly the right size is never used."
  },
  {
   "property": "C69",
   "status": "partial",
   "theorems": [
    "C69_fields",
    "C69_unique",
    "C69_isleap",
    "C69_weekday",
    "C69_weekday_refuted",
    "C69_early_refuted"
   ],
   "note": "Proved for all times from the year 1 on (weekday: from 1969-12-28 on). Refuted for earlier weekdays (negative, out of bounds when printed) and for dates before the year 1 (non-existing dates, two days with the same date)."
  },
  {
   "property": "C70",
   "status": "partial",
   "theorems": [
    "C70_utc",
    "C70_zone_refuted"
   ],
   "note": "Proved in UTC. Refuted in every zone with an offset: the fields are taken as UTC and the offset is then added."
  },
  {
   "property": "C71",
   "status": "partial",
   "theorems": [
    "C71_add",
    "C71_span",
    "C71_year",
    "C71_month_partial",
    "C71_month_refuted",
    "C71_zone_refuted"
   ],
   "note": "Durations: proved in every zone. Periods: proved in UTC for days, hours, minutes, seconds and years, and for months up to February of the next year; refuted for more months (2021-05-15 plus 12 months is 2022-05-17) and in every zone with an offset."
  },
  {
   "property": "C72",
   "status": "partial",
   "theorems": [
    "C72_default_partial",
    "C72_minutes_refuted",
    "C72_negative_refuted",
    "C72_year_refuted",
    "C72_pm_refuted"
   ],
   "note": "Default format, years 1 to 9999, whole-hour offsets: proved. Refuted for offsets with minutes (printing writes seconds, parsing adds the minutes to negative offsets), five-digit years and am/pm."
  },
  {
   "property": "C73",
   "status": "partial",
   "theorems": [
    "C73_single_partial",
    "C73_later_refuted",
    "C73_before_refuted"
   ],
   "note": "Only right for a zone with one transition. Refuted in general: after the first transition the first offset is returned for ever, before it the table is read out of bounds."
  },
  {
   "property": "C74",
   "status": "partial",
   "theorems": [
    "C74_compiles",
    "C74_exec_partial",
    "C74_returns_partial",
    "C74_hang_refuted",
    "C74_eow_refuted"
   ],
   "note": "Proved for patterns with characters up to U+FFFF, at most 15 groups, and classes of ASCII ranges or ranges within a block of 64 characters: whatever is returned is right, and it returns if no repeated part can match the empty string. Refuted: (a*?)* never returns on any string, an end-of-word anchor aborts on the empty string."
  },
  {
   "property": "C75",
   "status": "partial",
   "theorems": [
    "C75_search_partial",
    "C75_returns_partial",
    "C75_empty_refuted",
    "C75_bol_refuted",
    "C75_index_refuted"
   ],
   "note": "Proved for patterns without anchors, for matches that start before the end of the string. Refuted: an empty match at the end is not found, a line start matches at every offset, and isearch's indices are relative to the match."
  },
  {
   "property": "C76",
   "status": "partial",
   "theorems": [
    "C76_reuse_partial",
    "C76_sub_refuted"
   ],
   "note": "exec and search leave a fresh regex. Refuted for sub: it leaves counted threads behind, after which exec of a string that does not match never returns."
  },
  {
   "property": "C77",
   "status": "partial",
   "theorems": [
    "C77_sub_partial",
    "C77_suball_partial",
    "C77_nested_refuted",
    "C77_empty_refuted"
   ],
   "note": "Whatever is returned is right. Refuted: nested groups abort, and a pattern that matches the empty string makes suball loop for ever."
  },
  {
   "property": "C78",
   "status": "partial",
   "theorems": [
    "C78_merge_partial",
    "C78_negate_partial",
    "C78_merge_refuted",
    "C78_negate_refuted",
    "C78_cyrillic_refuted",
    "C78_dot_refuted",
    "C78_astral_refuted"
   ],
   "note": "Exact for ASCII ranges and ranges within a block of 64 characters (used in C74). Refuted: a Cyrillic range matches nothing, the dot misses U+1F600, [a-zc] loses d to z, a negated class starting at 0 contains it, a character above U+FFFF aborts."
  },
  {
   "property": "C79",
   "status": "partial",
   "theorems": [
    "C79_reads",
    "C79_no_byte_lost",
    "C79_eof_refuted",
    "C79_fault_unreported_refuted",
    "C79_waits_refuted"
   ],
   "note": "Proved: on a device without faults all reading calls answer as on the list of bytes; with any faults getb, peekb and read neither lose nor repeat a byte. Refuted: a fault inside a character is answered as end of file, read drops the error of its first fill, and a call may ask the device for more than it needs."
  },
  {
   "property": "C80",
   "status": "partial",
   "theorems": [
    "C79_reads",
    "C80_fault_loses_line_refuted",
    "C80_fault_loses_delim_refuted",
    "C80_overlong_newline_refuted",
    "C80_long_delimiter_refuted"
   ],
   "note": "Proved by C79_reads for devices without faults and delimiters shorter than the buffer. Refuted: a fault loses the part of the line already consumed, after a carriage return the bytes c0 8a lose one, and a delimiter of 16384 bytes aborts."
  },
  {
   "property": "C81",
   "status": "partial",
   "theorems": [
    "C81_writes",
    "C81_success_means_written_partial",
    "C81_write_loses_refuted",
    "C81_retry_repeats_refuted"
   ],
   "note": "Proved without faults, and with faults for calls other than write. Refuted: write ignores the failure of its flush, so all calls and close succeed and bytes are missing; trying putb again after a failure writes a part twice."
  },
  {
   "property": "C82",
   "status": "partial",
   "theorems": [
    "C82_sessions",
    "C82_write_after_read_refuted",
    "C82_read_after_write_refuted",
    "C82_seek_loses_refuted"
   ],
   "note": "Proved for sessions that seek whenever they change between reading and writing. Refuted without the seek; seek also drops the outcome of its flush."
  },
  {
   "property": "C83",
   "status": "proved",
   "theorems": [
    "C83_decompresses"
   ],
   "note": "For devices without faults. The specification is RFC 1951 written as a relation on bit lists."
  },
  {
   "property": "C84",
   "status": "partial",
   "theorems": [
    "C84_answers_partial",
    "C84_stopped",
    "C84_always_answered_refuted"
   ],
   "note": "Proved for all inputs without undefined symbols in a block with fixed codes. Refuted with them: symbols 286 and 287 and distances 30 and 31 have words in the fixed codes and index past the tables, which aborts the program; the theorem C84_stopped says this happens on exactly these inputs."
  },
  {
   "property": "C85",
   "status": "partial",
   "theorems": [
    "C85_parses_partial",
    "C85_unicode_refuted",
    "C85_flat_refuted"
   ],
   "note": "Proved for texts without \\u escapes whose nesting depth plus number of empty arrays and objects is at most 1024. Refuted otherwise: every empty array or object leaves the depth counter raised, and the digits of \\u are added instead of shifted."
  },
  {
   "property": "C86",
   "status": "partial",
   "theorems": [
    "C86_accepts_json_partial",
    "C86_comma_refuted",
    "C86_bytes_refuted"
   ],
   "note": "Proved for UTF-8 inputs without a comma right before a closing brace. Refuted otherwise: a brace after a comma is not consumed and closes the enclosing object too; a byte like c1 before a bracket is taken for a bracket."
  },
  {
   "property": "C87",
   "status": "partial",
   "theorems": [
    "C87_roundtrip_partial",
    "C87_quote_refuted",
    "C87_control_refuted",
    "C87_injection_refuted"
   ],
   "note": "Proved for strings without quotes and without control characters other than form feed, newline, return and tab. Refuted otherwise: quotes are not escaped when printing, which can even give another value; nor are the other control characters."
  },
  {
   "property": "C88",
   "status": "proved",
   "theorems": [
    "C88_answers"
   ],
   "note": "For all byte strings and all behaviours of the number parser."
  },
  {
   "property": "C89",
   "status": "proved",
   "theorems": [
    "C89_digest",
    "C89_size"
   ],
   "note": "Every step of the six compression functions is modelled statement by statement and proved equal to the standard's. A buffer shorter than the digest aborts."
  },
  {
   "property": "C90",
   "status": "proved",
   "theorems": [
    "C90_keccak"
   ],
   "note": "keccakf is proved equal to theta, rho, pi, chi and iota of FIPS 202 over 24 rounds."
  },
  {
   "property": "C91",
   "status": "proved",
   "theorems": [
    "C91_hmac"
   ],
   "note": "For messages of fewer than 2^60 bytes."
  },
  {
   "property": "C92",
   "status": "partial",
   "theorems": [
    "C92_longer_partial",
    "C92_longer_refuted"
   ],
   "note": "Proved: the rest of the buffer is kept and only the first bytes change. Refuted: the outer hash also takes in the rest of the buffer, so the HMAC at its start is another one."
  },
  {
   "property": "C93",
   "status": "partial",
   "theorems": [
    "C93_compare",
    "C93_less_partial",
    "C93_less_refuted"
   ],
   "note": "Proved at every width: eq, ne, gt, le, mux, not; lt, ge, min and max for values in the same half of the range. Refuted: lt, ge, min and max misorder 0 and 2^(w-1)."
  },
  {
   "property": "C94",
   "status": "partial",
   "theorems": [
    "C94_bufeq_partial",
    "C94_prefix_refuted",
    "C94_abort_refuted"
   ],
   "note": "Proved for buffers of the same length. Refuted: a longer first buffer equals each of its beginnings; a first buffer shorter by two or more aborts."
  },
  {
   "property": "C95",
   "status": "partial",
   "theorems": [
    "C95_encrypt_partial",
    "C95_pieces",
    "C95_rejects",
    "C95_tail_refuted",
    "C95_empty_refuted"
   ],
   "note": "Proved for messages of one or more whole blocks, in any number of calls. Refuted: the bytes behind the last whole block are never written to the output, and encrypting nothing skips a block of the key stream."
  },
  {
   "property": "C96",
   "status": "partial",
   "theorems": [
    "C96_decrypt_partial",
    "C96_lost_refuted"
   ],
   "note": "Proved for messages of whole blocks. Refuted: messages that differ only behind the last whole block have the same ciphertext."
  },
  {
   "property": "C97",
   "status": "proved",
   "theorems": [
    "C97_norm",
    "C97_same",
    "C97_canonical",
    "C97_shape"
   ],
   "note": "For all byte strings; strsplit and strjoin are those of C35."
  },
  {
   "property": "C98",
   "status": "proved",
   "theorems": [
    "C98_join",
    "C98_cat"
   ],
   "note": "pathabs, which asks for the working directory, is not modelled."
  },
  {
   "property": "C99",
   "status": "proved",
   "theorems": [
    "C99_cut",
    "C99_base"
   ],
   "note": "For all byte strings; strrfind is that of C34."
  }
 ]
}