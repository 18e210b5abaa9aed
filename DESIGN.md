# Formal model of oridb/mc (the Myrddin compiler and its libraries)

Everything is in `rocq/theories`, stdlib-only Coq 8.16.1. Per component `X`:

* `X_Model.v`  executable Gallina model, every definition cites file:lines in /repo;
* `X_Spec.v`   (where not trivial) the small independent specification;
* `X_Proofs.v` lemmas and invariants;
* `X_Props.v`  only the property theorems (`exact lemma.`), `Print Assumptions`, and
  non-vacuity `Example`s.

## Conventions

* C `size_t`/`ulong`/`uint64_t` values are `N` or `Z` with explicit `mod 2^64` where
  the property depends on wrap-around; elsewhere the model uses unbounded
  numbers and says so.
* Memory is modelled by value: a function that mutates through a pointer returns the
  new value. Aliasing of two arguments is modelled only where stated.
* Undefined behaviour / `assert` / `die` / `fatal` are separate outcomes (`None` or an error
  constructor), never a normal-looking value.
* Loops are structural recursion or fuelled; exhausted fuel is a separate outcome and a
  theorem shows enough fuel always suffices (that is the termination claim).
* If the faithful model violates a property, the file proves `..._refuted` with a concrete witness,
  plus the strongest true version (`..._partial` or with the precondition stated).

## Plan per property (initial; the section "Status" below is kept current)

| id | model | how proved |
|----|-------|-----------|
| C01-C03 | `CBitset`: chunk list of 64-bit words (`N`), functions of util/bitset.c | refinement to `N -> bool` membership via `N.testbit`; iteration via sortedness + membership |
| C04-C05 | `CHtab`: arrays keys/vals/hashes/dead, linear probing, grow, tombstones | invariant (probe-chain), refinement to association; tombstone reuse is suspected to break the map property: refute + prove under exact precondition |
| C06 | `CPack`: byte lists, two's complement | round-trip with remaining stream |
| C07-C08 | `CUtil`: align with masks, list edits | arithmetic / list lemmas |
| C09-C12 | `Match`: patterns, addrec to slot rows, project/compile to decision tree, verifymatch, code emission | semantic preservation by induction on total slot count; nested or-patterns and verifymatch's omission of the default branch are suspected false: refute |
| C13 | `Fold`: typed expressions, evaluation at width/signedness, fold | induction; refute for casts / unsigned division |
| C14-C17 | `Reach`: CFG with preds, gen/kill, round-robin iteration; dfcheck | invariants over paths, fixpoint, termination measure |
| C18-C19 | `Layout`: type terms, tysize/tyalign/tyoffset | induction over types |
| C20-C22 | `Tok`: lexer of numbers, strings, chars, comments over byte lists | grammar spec relation / denotation functions |
| C23-C24 | `Unify`: tytab substitution store, tf, occurs, unify | invariant of store, fuel |
| C25-C26 | `Ra`: liveness fixpoint, interference, paint | dataflow as C14; colouring invariant |
| C27 | `Use`: typickle/tyunpickle on byte streams | round trip by induction |
| C28 | `SHtab`: std.htab | as C04 |
| C29 | `SBitset`: std.bitset | as C01; bsintersect with longer first operand suspected false |
| C30-C31 | `Sort`, `Search` | heap invariant, permutation; loop invariants |
| C32 | `Utf` | arithmetic, finite case split on length class |
| C33 | `Endian` | byte lemmas |
| C34-C36 | `Str` | list lemmas |
| C37 | `IntFmt` | digit lemmas |
| C38 | `Bigint` | refinement to Z |
| C39-C44 | `Thread`: small-step interleaving semantics for an arbitrary number of threads with a futex model | inductive invariants over all reachable states |
| C45 | `CUtil`: swapsuffix | list lemmas; an input without the suffix is suspected false |
| C46 | `Cfg`: construction of the flow graph from the flat instruction list | every path of the flat program is a path of the graph |
| C47-C48 | `Utf`: bycharoff, graphemestep | refinement to decoding from the start |
| C49-C51 | `FRw`/`SRw`, try operations, queue consumer | invariants and liveness by measure over schedules |
| C52 | `Match_Emit` | captures follow the path taken in the tree |
| C53 | `Fold` | trace of calls preserved by folding |
| C54-C57 | `Layout`, `Blob`, `Call` | closure environments, static images, argument places, frames: arithmetic over lists of types |
| C58-C60 | `Tok` | longest match, words, whole files against a grammar |
| C61-C63 | `Unify` | solvable systems accepted, termination, exact type comparison with its cache |
| C64-C65 | `Ra_Sem`, `Ra_Emit` | simulation between the code before and after allocation, for all instruction meanings |
| C66 | `Export` on top of `Use` | closure of a worklist under reference, composed with the round trip of C27 |
| C67-C68 | `Alloc` | invariant of the heap data structures over all reachable worlds; counterexample runs |
| C69-C73 | `Date` | periodicity by 400 years and arithmetic inside one period; closed forms of the day number; text round trip; counterexamples |
| C74-C78 | `Regex` | the code of a pattern is traversed exactly along matches (induction on the pattern, strong induction on path length for loops); the scheduler visits a set of addresses closed under steps (completeness) and carries only reachable configurations (soundness); accessibility of the non-consuming step relation for termination; counterexample runs |
| C79-C82 | `Bio` | the bytes held in the buffer followed by the bytes left on the device are the stream: every call takes a prefix off it; the device content with the buffered bytes put at its position is the file: every call appends to it; counterexample runs with faults |
| C83-C84 | `Flate` | the unread bits are the input's bits behind those consumed, the window holds the end of the output; canonical codes are prefix-free, so the relation of RFC 1951 is deterministic and the decoder follows it step by step |
| C85-C88 | `Json` | the grammar of RFC 8259 as an inductive relation; completeness by induction on it, soundness by induction on the parser's fuel, termination by the length of the input; the printer's output is in the grammar; counterexample texts |
| C89-C92 | `Hash` | the standards' definitions with constants computed from sines, roots and the shift register; every statement of the step functions generated from the source and matched to a round of the standard; an invariant for the unfinished block; padding by cases on the room left; HMAC from the behaviour of any hash; one counterexample |
| C93-C94 | `Ct` | arithmetic modulo 2^w for a variable w; the sign bit of a difference by cases; counterexamples for every width |
| C95-C96 | `Chacha` | the cipher's definition apart from the code; the rounds generated from the source and matched to the double round; induction on the number of blocks with the counter modulo 2^64; what is left behind the last block as a theorem of its own |
| C97-C98 | `Path` | where a path leads: steps up and names down; the loops keep the stack of that walk as the components that are not empty; the shortest text for a place leads there |
| C99 | `Dir` | the last slash from C34; trailing slashes by induction; where the two halves lead from C98 |
| C100-C102 | `Esc` | readers of shell words, percent-encoding and character references, defined apart from the code; round trips by induction on the string; the bytes that come out by cases; counterexamples |
| C103-C105 | `Rand` | the buffer as the bytes of the generator's numbers, by induction on the rounds; how many values the loop lets through for each remainder, by counting whole blocks; the precedence of the operators from the grammar |
| C106-C107 | `Ip` | each number by the theorem on numerals of C37, the text up to the separator; the rounds of the IPv6 loop one by one; texts beyond the grammar by evaluation |

## Status

| id | property | status | theorems | remarks |
|----|----|----|----|----|
| C01 | Compiler bit set behaves as a finite set of naturals | proved | `C01_bitset_is_a_set` | All histories over any number of sets, aliasing included. |
| C02 | Bit set iteration visits every member once, in increasing order | proved | `C02_iteration_visits_members_in_order` `C02_bsiter_next` |  |
| C03 | Bit set equality, emptiness and subset tests decide the set relations | proved | `C03_bseq_decides_equality` `C03_bseq_null` `C03_bsissubset_decides_inclusion` `C03_bsisempty_decides_emptiness` |  |
| C04 | Compiler hash table is a finite map | partial | `C04_map_after_delete_refuted` `C04_get_after_put_refuted` `C04_hash_table_is_a_map_partial` `C04_insert_only_is_a_map` `C04_lookup_returns_only_put_values` | The full claim is false of the code (two refutations). Proved: exact map semantics for histories that never overwrite a present key after a deletion; value soundness for all histories. |
| C05 | Hash table operations always terminate | proved | `C05_operations_terminate` |  |
| C06 | Serialised integers, strings and floats read back unchanged | proved | `C06_round_trip` `C06_int_truncation` `C06_writes_bytes` |  |
| C07 | Alignment helper rounds up to the next multiple | proved | `C07_align_rounds_up` `C07_align_zero` |  |
| C08 | Dynamic list helpers implement sequence edits | proved | `C08_append` `C08_pop` `C08_insert` `C08_delete` `C08_concat` |  |
| C09 | A compiled match runs the first arm whose pattern matches | partial | `C09_first_arm_partial` `C09_nested_alternatives_refuted` `C09_structured_constant_refuted` | Proved, down to the emitted jumps, for arms whose alternatives are at the top of the pattern and which name no structured constant. False with alternatives inside a tuple (the rows of the second alternative lose the rest of the pattern) and with named tuple constants (their places clash with those of other patterns). |
| C10 | Exhaustiveness check admits only matches that cover every value | partial | `C10_exhaustive_partial` `C10_deep_check` `C10_refuted` | Proved for arms that look at one place (literals, union constructors); with a check that also descends into default branches it would hold for all arms with alternatives at the top. The check as written accepts `(true,_)`, `(_,2)` (refuted). |
| C11 | Unreachable-arm error is reported only for arms that no value can reach, and every such arm | partial | `C11_reported_only_if_partial` `C11_reported_refuted` `C11_every_refuted` | An arm without alternatives is reported only if no value needs it (arms without nested alternatives). With nested alternatives a needed arm can be rejected, and useless arms can go unreported (both refuted). |
| C12 | Match compilation terminates without crashing | partial | `C12_terminates` `C12_null_dereference_refuted` | Termination proved for all patterns; the search for a test to share dereferences a missing default branch (refuted). |
| C13 | Constant folding preserves the value of integer expressions | partial | `C13_value_partial` `C13_ring` `C13_int64` `C13_divzero` `C13_unsigned_division_refuted` `C13_unsigned_shift_refuted` `C13_narrow_division_refuted` `C13_cast_refuted` `C13_overflow_refuted` | Proved for + - * << & \| ^, negation and narrowing casts at all types, for everything at int64, and in general when literals under / % >> and widening casts are in range after folding. Otherwise literals are folded as signed 64-bit numbers whatever their type (refuted). |
| C14 | Reaching-definitions analysis is sound | partial | `C14_reaching_defs_sound` `C14_reaching_defs_cover_executions` `C14_pointer_store_refuted` | Proved for graphs where no store through a non-variable carries the id of an assigned variable; without that hypothesis refuted (genkill ignores the operator of the destination). |
| C15 | Reaching-definitions analysis is exact and terminates | proved | `C15_reaching_defs_exact` `C15_reaching_terminates` | Same aliasing hypothesis as C14. |
| C16 | Use of a never-assigned variable is rejected | partial | `C16_no_undefined_reads_partial` `C16_no_false_alarm` `C16_self_assignment_refuted` `C16_redeclaration_refuted` `C16_store_through_undefined_pointer_refuted` `C16_call_of_undefined_function_refuted` | The full claim is false of the code (four refutations); proved for the operand positions the check inspects, outside blocks that assign the variable. No false alarms. |
| C17 | A value-returning function cannot fall off its end | partial | `C17_accepted_bodies_return_partial` `C17_check_terminates` `C17_empty_body_refuted` | True except for empty bodies, which are accepted (refuted). |
| C18 | Aggregate layout: fields are aligned, disjoint and inside the aggregate | proved | `C18_sizes` `C18_parts_inside` `C18_parts_disjoint` `C18_tuple_offsets_agree` `C18_through_pointer` `C18_oversize` | Sizes, alignments, offsets of nested parts, disjointness. Types of 2^64 bytes or more are not rejected: the computed size wraps (C18_oversize). |
| C19 | Union layout: tag and every payload fit without overlap | proved | `C19_union` `C19_tag` |  |
| C20 | Integer literals denote their written value | partial | `C20_literal` `C20_only` `C20_outside_base` `C20_saturates` `C20_value_refuted` `C20_suffix_b_refuted` `C20_float_refuted` | Value, base and suffix proved in both directions for literals of at most 2047 digits below 2^64. Refuted: literals from 2^64 on are silently read as 2^64-1, the suffix b is unusable without u, and floats may have several points. |
| C21 | Character and string literals decode to the intended bytes | partial | `C21_string` `C21_char` `C21_codepoint` `C21_any_byte_refuted` `C21_overlong_refuted` | Both directions proved for strings and characters. Refuted: the byte 0xff is taken for the end of the file, and over-long UTF-8 is accepted. |
| C22 | Nested comments are skipped exactly and keep line numbers right | partial | `C22_comment` `C22_unique` `C22_blank` `C22_ff_refuted` | Proved for all comments without the byte 0xff, which is taken for the end of the file (refuted). |
| C23 | Unification makes the two types equal | partial | `C23_session_partial` `C23_step_partial` `C23_strict_partial` `C23_elements` `C23_loops` `C23_order_refuted` `C23_params_refuted` | Proved up to the order of struct and union members, for programs with one type parameter in play, and strictly when members come in one order. Refuted: structs with members in different orders, and two different type parameters, are unified silently. Names are taken as resolved; traits, delayed literals and instantiation are not modelled. |
| C24 | Infinite types are rejected | proved | `C24_reported` `C24_only` |  |
| C25 | Register liveness is sound | partial | `C25_exact_partial` `C25_ends` `C25_missed_refuted` `C25_same_register_refuted` | Exact, at every instruction, whenever control somewhere goes forward into a block that reads a register before writing it. Refuted otherwise: the loop stops after its first pass because only changes of live-out sets count, and two registers needed together get the same machine register. |
| C26 | Register allocation never gives interfering values the same register | partial | `C26_colouring` `C26_disjoint_partial` `C26_highbyte_refuted` `C26_stackpointer_refuted` | Graph level proved for every program without further conditions. Beyond that: registers whose values are needed together get disjoint storage, when liveness is right (C25) and copies out of machine registers take the whole needed value; refuted for a live %ah and for copies of the stack pointer. |
| C27 | Exported types survive the use-file round trip | partial | `C27_file_partial` `C27_file_exact` `C27_node_partial` `C27_type_partial` `C27_injective_partial` `C27_version` `C27_magic` `C27_literal_refuted` `C27_literal_exact` `C27_local_type_refuted` | The whole use-file format (nodes, scopes, symbols, types, traits, impls, header) is modelled. Reading back gives exactly what was written when every field fits, integer literals fit 32 bits and scopes declare only builtin types. Refuted: integer literals outside 32 bits change value, and a scope that declares a type makes the reader use an uninitialised pointer. Merging of types defined by several files is not modelled. |
| C28 | Library hash table is a finite map | partial | `C28_map_after_delete_refuted` `C28_get_after_put_refuted` `C28_hash_table_is_a_map_partial` `C28_insert_only_is_a_map` `C28_lookup_returns_only_put_values` `C28_operations_terminate` | The full claim is false of the code (two refutations). Proved: exact map semantics for histories that never overwrite a present key after a deletion; value soundness and termination for all histories. |
| C29 | Library bit set behaves as a finite set | partial | `C29_bitset_is_a_set_partial` `C29_no_intersection_is_a_set` `C29_intersect_exact` `C29_intersection_refuted` `C29_put_del_report_change` `C29_iteration` `C29_equality` `C29_subset` `C29_hash_respects_contents` | bsintersect with a longer first set keeps stale members (refuted); everything else proved. |
| C30 | std.sort returns a sorted permutation | proved | `C30_sort_sorts` `C30_sort_permutes` |  |
| C31 | std.bsearch finds a matching element iff there is one; lsearch finds the first | proved | `C31_lsearch_finds_first` `C31_bsearch_correct` `C31_bsearch_after_sort` |  |
| C32 | UTF-8 encoding round-trips | proved | `C32_encode_writes_utf8` `C32_step_over_encoded` `C32_roundtrip` `C32_prefix_free` `C32_step_progress` `C32_iteration_terminates` `C32_iteration_visits_characters` `C32_decoding_validates_refuted` | Decoding does not validate its input (refuted as a separate, stronger claim). |
| C33 | Fixed-width integer encoders and decoders are inverse | partial | `C33_put_writes_low_bytes` `C33_get_reads_value` `C33_roundtrip` `C33_byteswap_reverses` `C33_byteswap_involutive` `C33_host64_roundtrip` `C33_gethost32_wide_refuted` `C33_gethost16_refuted` | le/be encoders and byte swapping proved; gethost16 overruns and gethost32 sign-extends (refuted). |
| C34 | Substring search returns the first (last) occurrence | proved | `C34_strfind_first` `C34_strrfind_last` `C34_strhas` |  |
| C35 | Splitting and joining strings are inverse; replace rewrites every occurrence | partial | `C35_split` `C35_join` `C35_strcat` `C35_split_join` `C35_replace` `C35_cut_is_unique` `C35_bounded_split` `C35_split_iterator` `C35_iterator_agrees_refuted` `C35_empty_delimiter_refuted` | strsplit, strjoin and strreplace proved for all non-empty delimiters. The iterator bysplit drops a final empty piece, and an empty delimiter never terminates (both refuted). |
| C36 | String comparison is a total lexicographic order; prefix and suffix tests are exact | proved | `C36_strcmp_lexicographic` `C36_strcmp_orders` `C36_strncmp` `C36_hasprefix` `C36_hassuffix` `C36_sleq` `C36_chomp` `C36_strcasecmp` |  |
| C37 | Formatted integers parse back to themselves | partial | `C37_roundtrip` `C37_format_is_numeral` `C37_padding` `C37_parse_numeral` `C37_reject_non_digits` `C37_int64_min_base_refuted` `C37_out_of_range_rejected_refuted` `C37_no_digits_rejected_refuted` | Round trip proved for all integer types, bases 2-16 and zero padding, except the smallest int64 outside base 10 (refuted). Out-of-range and digit-free texts are accepted by the parser (refuted as stronger claims). |
| C38 | Big integer arithmetic is exact | partial | `C38_add` `C38_sub` `C38_canonical` `C38_cmp` `C38_cmpabs` `C38_predicates` `C38_shl` `C38_shr` `C38_mul_partial` `C38_mul_refuted` `C38_div` `C38_mod_partial` `C38_mod_refuted` `C38_div_by_zero` `C38_mkbigint_partial` `C38_mkbigint_refuted` `C38_ofint` `C38_frombytes_refuted` `C38_or_normal_refuted` `C38_and_normal_refuted` | Addition, subtraction, comparison, shifts and quotients proved for all normalised numbers. Products proved when one factor has fewer than 64 digits; Karatsuba products are wrong (refuted). Remainders proved for non-negative dividends or divisors of two digits and more; with a one-digit divisor a negative dividend gives a positive remainder (refuted). bigfrombytes, bigor, bigand and mkbigint of the smallest int8/16/32 are refuted. |
| C39 | Mutexes are mutually exclusive | partial | `C39_futex_exclusive` `C39_futex_one_holder` `C39_futex_misuse_dies` `C39_spin_exclusive` `C39_spin_misuse_refuted` | Futex mutex proved for all clients, including unlock by a non-holder, which aborts. The spinning mutex is proved for clients that only unlock what they hold; a foreign unlock breaks exclusion (refuted). |
| C40 | Futex mutex loses no wake-up | proved | `C40_wake_pending` `C40_no_lost_wakeup` |  |
| C41 | Semaphores never admit more waits than posts allow | proved | `C41_futex_conserves` `C41_spin_conserves` `C41_no_lost_wakeup` `C41_wakeups_cover_units` `C41_post_wakes` |  |
| C42 | wgwait returns only after all posts | proved | `C42_futex_waits_for_posts` `C42_spin_waits_for_posts` `C42_no_lost_wakeup` `C42_count` |  |
| C43 | Read-write locks exclude writers from everyone else | proved | `C43_futex_exclusive` `C43_mutex_exclusive` `C43_futex_holders` | Clients release only read locks they hold. |
| C44 | Thread queue delivers every item once, in FIFO order | proved | `C44_linearizable` `C44_fifo` `C44_no_use_after_free` |  |
| C45 | Suffix swap yields the renamed file | partial | `C45_suffix_replaced` `C45_suffix_appended` `C45_fits_buffer` `C45_short_name_refuted` | Names shorter than the suffix yield NULL (refuted); everything else proved. |
| C46 | The control-flow graph covers every execution | proved | `C46_graph_covers_executions` |  |
| C47 | Iterating characters with offsets | partial | `C47_charoff_yields_ends` `C47_charoff_yields_offsets_refuted` `C47_charoff_safe` | The iterator yields the offset after each character, not the documented start (refuted). |
| C48 | Grapheme stepping covers the string | proved | `C48_grapheme_step` |  |
| C49 | A readers-writer lock waiter is not left asleep while the lock is free | partial | `C49_no_stuck_waiter` `C49_lost_wakeup_refuted` | Proved where a wait with timeout 0 returns (Linux); where it means no timeout (OS X) a writer can be left asleep for ever (refuted). |
| C50 | Try operations on a readers-writer lock do not wait | partial | `C50_futex_try_returns` `C50_mutex_tryrdlock_refuted` | Proved for the futex lock; the mutex-based tryrdlock waits for the writer when another reader is already waiting (refuted). |
| C51 | A consumer of a thread queue is not left asleep while an item is available | partial | `C51_get_returns` `C51_counter_wrap_refuted` | Proved for histories of fewer than 2^32 puts with the Linux condition variable; a consumer overtaken by 2^32 puts between reading the counter and going to sleep is lost (refuted). |
| C52 | In the body of a match arm, the pattern's variables hold the matching parts of the value | partial | `C52_captures_partial` `C52_alternatives_refuted` | Proved for arms without alternatives; with alternatives the variables stay unassigned on default branches (refuted). |
| C53 | Constant folding keeps the calls an expression makes | partial | `C53_calls_partial` `C53_calls_refuted` | Proved when no operand of * or % contains a call; 0 * f() and f() % 1 lose the call (refuted). |
| C54 | Closure environments: captured variables do not overlap | proved | `C54_environment` |  |
| C55 | Static data: the bytes emitted for a constant are the layout of its value | partial | `C55_image_partial` `C55_gap_refuted` | Proved for initialisers that leave no gap of exactly one array element; with such a gap the image is one element short (refuted). |
| C56 | Calls: a function reads its arguments where the caller puts them | partial | `C56_agree` `C56_places` `C56_compiles_partial` `C56_float_refuted` `C56_union_refuted` `C56_empty_refuted` | Agreement and disjointness proved for all calls; compilation can fail for float aggregates after eight floats, for small aggregates with payload unions and for empty aggregates (refuted). |
| C57 | Stack frames: no two slots overlap | proved | `C57_frame` |  |
| C58 | Operators are read greedily | proved | `C58_longest` `C58_junk` |  |
| C59 | Words are read whole and classified exactly | partial | `C59_word` `C59_type` `C59_only_long` `C59_long_refuted` | Proved for words shorter than 1024 bytes; every longer word overruns the buffer (refuted). |
| C60 | The lexer stops, covers the whole file and numbers lines | partial | `C60_stops` `C60_tokens` `C60_eof` `C60_truncation_refuted` | Proved for files without the byte 0xff; at that byte the rest of the file is silently ignored (refuted). |
| C61 | A program whose types fit is never refused | proved | `C61_no_error` `C61_most_general` `C61_ends` |  |
| C62 | Unification ends | partial | `C61_ends` `C62_diverges_refuted` | Ends for finite types; refuted for recursive types that differ in member order. |
| C63 | Types compare equal exactly if they are the same | partial | `C63_finite_partial` `C63_cyclic_refuted` | Exact, with the cache of any session, when the types are finite; refuted for recursive types. |
| C64 | Register allocation preserves behaviour | partial | `C64_behaviour_partial` | For all instruction meanings, branch choices and step counts: same points, same memory, needed values held in the chosen registers. Conditions: those of C26, size-keeping or narrowing copies, no partial copies into machine registers that are needed whole, zero extensions between different machine registers (otherwise false: C65). Rounds that spill are not covered. |
| C65 | Widening conversions clear the upper half | partial | `C65_zext_dropped_refuted` `C65_zext_kept` | Refuted: the 32-bit move printed for a zero extension is dropped when source and destination share a machine register, and a truncation into that register was dropped too, so (x castto(uint32)) castto(uint64) gives x. Exact when the registers differ. |
| C66 | A use file defines every type, trait and declaration it mentions | partial | `C66_ends` `C66_closed_partial` `C66_load_partial` `C66_load_exact` `C66_generic_partial` `C66_local_init_refuted` `C66_nested_init_refuted` `C66_arraysize_refuted` | Proved for packages whose local declarations with initialisers are not nested inside one another's initialisers and whose array sizes have builtin types, and for declarations not used in a local variable's initialiser. Refuted otherwise: the helper called in `var h = helper(x)` inside an exported generic function is not exported, and importers stop with an error on nested initialisers and on array sizes of an internal named type. |
| C67 | Allocated memory is private and stays intact | proved | `C67_apart` `C67_usable` `C67_alloc` `C67_free` `C67_alloc_keeps` `C67_free_keeps` | For every reachable state of the whole allocator (slabs, slab caches, the cache of large blocks, eviction outside the lock). The memory lock is taken as making each call one step. |
| C68 | Freed memory can be allocated again | partial | `C68_again` `C68_reuse_refuted` `C68_big_refuted` | True for one block of up to 128 KiB. Refuted for several: when a slab becomes empty, the chunk freed last is not put back on its free list before the slab is cached, so three blocks of 100000 bytes, freed, cannot be had again from the same slab. Refuted for one block above 128 KiB: the cache is searched with a strict comparison, so a cached block of exactly the right size is never used. |
| C69 | Broken-down times follow the calendar | partial | `C69_fields` `C69_unique` `C69_isleap` `C69_weekday` `C69_weekday_refuted` `C69_early_refuted` | Proved for all times from the year 1 on (weekday: from 1969-12-28 on). Refuted for earlier weekdays (negative, out of bounds when printed) and for dates before the year 1 (non-existing dates, two days with the same date). |
| C70 | An instant made from a date shows that date | partial | `C70_utc` `C70_zone_refuted` | Proved in UTC. Refuted in every zone with an offset: the fields are taken as UTC and the offset is then added. |
| C71 | Date arithmetic | partial | `C71_add` `C71_span` `C71_year` `C71_month_partial` `C71_month_refuted` `C71_zone_refuted` | Durations: proved in every zone. Periods: proved in UTC for days, hours, minutes, seconds and years, and for months up to February of the next year; refuted for more months (2021-05-15 plus 12 months is 2022-05-17) and in every zone with an offset. |
| C72 | Printed dates parse back | partial | `C72_default_partial` `C72_minutes_refuted` `C72_negative_refuted` `C72_year_refuted` `C72_pm_refuted` | Default format, years 1 to 9999, whole-hour offsets: proved. Refuted for offsets with minutes (printing writes seconds, parsing adds the minutes to negative offsets), five-digit years and am/pm. |
| C73 | The zone offset is the one in force | partial | `C73_single_partial` `C73_later_refuted` `C73_before_refuted` | Only right for a zone with one transition. Refuted in general: after the first transition the first offset is returned for ever, before it the table is read out of bounds. |
| C74 | Regular expressions match exactly | partial | `C74_compiles` `C74_exec_partial` `C74_returns_partial` `C74_hang_refuted` `C74_eow_refuted` | Proved for patterns with characters up to U+FFFF, at most 15 groups, and classes of ASCII ranges or ranges within a block of 64 characters: whatever is returned is right, and it returns if no repeated part can match the empty string. Refuted: (a*?)* never returns on any string, an end-of-word anchor aborts on the empty string. |
| C75 | Search finds the leftmost longest match | partial | `C75_search_partial` `C75_returns_partial` `C75_empty_refuted` `C75_bol_refuted` `C75_index_refuted` | Proved for patterns without anchors, for matches that start before the end of the string. Refuted: an empty match at the end is not found, a line start matches at every offset, and isearch's indices are relative to the match. |
| C76 | A compiled pattern can be reused | partial | `C76_reuse_partial` `C76_sub_refuted` | exec and search leave a fresh regex. Refuted for sub: it leaves counted threads behind, after which exec of a string that does not match never returns. |
| C77 | Substitution replaces exactly the groups | partial | `C77_sub_partial` `C77_suball_partial` `C77_nested_refuted` `C77_empty_refuted` | Whatever is returned is right. Refuted: nested groups abort, and a pattern that matches the empty string makes suball loop for ever. |
| C78 | Character classes stand for their characters | partial | `C78_merge_partial` `C78_negate_partial` `C78_merge_refuted` `C78_negate_refuted` `C78_cyrillic_refuted` `C78_dot_refuted` `C78_astral_refuted` | Exact for ASCII ranges and ranges within a block of 64 characters (used in C74). Refuted: a Cyrillic range matches nothing, the dot misses U+1F600, [a-zc] loses d to z, a negated class starting at 0 contains it, a character above U+FFFF aborts. |
| C79 | Buffered reading hands out the file's bytes | partial | `C79_reads` `C79_no_byte_lost` `C79_eof_refuted` `C79_fault_unreported_refuted` `C79_waits_refuted` | Proved: on a device without faults all reading calls answer as on the list of bytes; with any faults getb, peekb and read neither lose nor repeat a byte. Refuted: a fault inside a character is answered as end of file, read drops the error of its first fill, and a call may ask the device for more than it needs. |
| C80 | Lines and delimited parts | partial | `C79_reads` `C80_fault_loses_line_refuted` `C80_fault_loses_delim_refuted` `C80_overlong_newline_refuted` `C80_long_delimiter_refuted` | Proved by C79_reads for devices without faults and delimiters shorter than the buffer. Refuted: a fault loses the part of the line already consumed, after a carriage return the bytes c0 8a lose one, and a delimiter of 16384 bytes aborts. |
| C81 | Buffered writing puts every byte in the file | partial | `C81_writes` `C81_success_means_written_partial` `C81_write_loses_refuted` `C81_retry_repeats_refuted` | Proved without faults, and with faults for calls other than write. Refuted: write ignores the failure of its flush, so all calls and close succeed and bytes are missing; trying putb again after a failure writes a part twice. |
| C82 | Reading and writing one buffered file | partial | `C82_sessions` `C82_write_after_read_refuted` `C82_read_after_write_refuted` `C82_seek_loses_refuted` | Proved for sessions that seek whenever they change between reading and writing. Refuted without the seek; seek also drops the outcome of its flush. |
| C83 | Decompression yields the compressed bytes | proved | `C83_decompresses` | For devices without faults. The specification is RFC 1951 written as a relation on bit lists. |
| C84 | Input that is no stream is refused | partial | `C84_answers_partial` `C84_stopped` `C84_always_answered_refuted` | Proved for all inputs without undefined symbols in a block with fixed codes. Refuted with them: symbols 286 and 287 and distances 30 and 31 have words in the fixed codes and index past the tables, which aborts the program; the theorem C84_stopped says this happens on exactly these inputs. |
| C85 | JSON texts are parsed | partial | `C85_parses_partial` `C85_unicode_refuted` `C85_flat_refuted` | Proved for texts without \u escapes whose nesting depth plus number of empty arrays and objects is at most 1024. Refuted otherwise: every empty array or object leaves the depth counter raised, and the digits of \u are added instead of shifted. |
| C86 | What is parsed is JSON | partial | `C86_accepts_json_partial` `C86_comma_refuted` `C86_bytes_refuted` | Proved for UTF-8 inputs without a comma right before a closing brace. Refuted otherwise: a brace after a comma is not consumed and closes the enclosing object too; a byte like c1 before a bracket is taken for a bracket. |
| C87 | Printed JSON is parsed back | partial | `C87_roundtrip_partial` `C87_quote_refuted` `C87_control_refuted` `C87_injection_refuted` | Proved for strings without quotes and without control characters other than form feed, newline, return and tab. Refuted otherwise: quotes are not escaped when printing, which can even give another value; nor are the other control characters. |
| C88 | The JSON parser always answers | proved | `C88_answers` | For all byte strings and all behaviours of the number parser. |
| C89 | Digests are those of the standards | proved | `C89_digest` `C89_size` | Every step of the six compression functions is modelled statement by statement and proved equal to the standard's. A buffer shorter than the digest aborts. |
| C90 | Keccak digests are those of the sponge | proved | `C90_keccak` | keccakf is proved equal to theta, rho, pi, chi and iota of FIPS 202 over 24 rounds. |
| C91 | HMAC is that of RFC 2104 | proved | `C91_hmac` | For messages of fewer than 2^60 bytes. |
| C92 | HMAC at the start of a longer buffer | partial | `C92_longer_partial` `C92_longer_refuted` | Proved: the rest of the buffer is kept and only the first bytes change. Refuted: the outer hash also takes in the rest of the buffer, so the HMAC at its start is another one. |
| C93 | Constant-time comparisons are right | partial | `C93_compare` `C93_less_partial` `C93_less_refuted` | Proved at every width: eq, ne, gt, le, mux, not; lt, ge, min and max for values in the same half of the range. Refuted: lt, ge, min and max misorder 0 and 2^(w-1). |
| C94 | Constant-time buffer comparison | partial | `C94_bufeq_partial` `C94_prefix_refuted` `C94_abort_refuted` | Proved for buffers of the same length. Refuted: a longer first buffer equals each of its beginnings; a first buffer shorter by two or more aborts. |
| C95 | ChaCha20 is Bernstein's cipher | partial | `C95_encrypt_partial` `C95_pieces` `C95_rejects` `C95_tail_refuted` `C95_empty_refuted` | Proved for messages of one or more whole blocks, in any number of calls. Refuted: the bytes behind the last whole block are never written to the output, and encrypting nothing skips a block of the key stream. |
| C96 | ChaCha20 decryption | partial | `C96_decrypt_partial` `C96_lost_refuted` | Proved for messages of whole blocks. Refuted: messages that differ only behind the last whole block have the same ciphertext. |
| C97 | Path normalisation is canonical | proved | `C97_norm` `C97_same` `C97_canonical` `C97_shape` | For all byte strings; strsplit and strjoin are those of C35. |
| C98 | Joining paths | proved | `C98_join` `C98_cat` | pathabs, which asks for the working directory, is not modelled. |
| C99 | Directory and base name | proved | `C99_cut` `C99_base` | For all byte strings; strrfind is that of C34. |
| C100 | Shell quoting | proved | `C100_sh` `C100_joins` | For all byte strings. |
| C101 | URL escapes | partial | `C101_decodes` `C101_allowed_partial` `C101_space_refuted` | Proved: decoding gives the string back; no reserved characters and no bytes beyond ASCII come out. Refuted: spaces, control characters, quotes and others that may not stand in a URL are left as they are. |
| C102 | HTML escapes | partial | `C102_text_partial` `C102_quote_refuted` | Proved for text between tags. Refuted for attributes: quotes are not escaped. |
| C103 | Random bytes | partial | `C103_generator` `C103_bytes_partial` `C103_zeros_refuted` | Proved for the bytes up to the eighth of the last part. Refuted: the bytes behind are all 0; in a buffer of 9 to 71 bytes only the first eight are random. |
| C104 | Random numbers in a range | partial | `C104_range` `C104_uniform_refuted` | Proved: the number is in the range. Refuted: the start of the range comes from one more value of the generator than the others. |
| C105 | Seeds | partial | `C105_seed_refuted` `C105_zero_refuted` | Proved: seeds that differ in their lower halves give different generators. Refuted: the upper half of the seed does not matter, as >> binds tighter than &, and multiples of 2^16 give only zeros. |
| C106 | IPv4 addresses | partial | `C106_quad_partial` `C106_accepts` `C106_empty_refuted` | Proved: every four numbers from 0 to 255 in base ten give their address, and what is accepted has three dots and four texts that intparsebase reads as such numbers. Refuted: empty texts, underscores and minus signs are accepted. |
| C107 | IPv6 addresses | partial | `C107_groups_partial` `C107_group_refuted` | Proved: every eight groups give their address. Missing: the short forms in general, which texts are refused, and the choice between the two forms in ipparse (wrong programs there survive). Refuted: the group 10000 is read as 0, and three colons are accepted. |

A property is `partial` when the code violates it in some case (the `_refuted` theorems exhibit one, checked by the kernel) or
when a condition remains; the theorems named `_partial` state the conditions, and their comments say what is missing.

## Trusted base

* The kernel of Coq 8.16.1. Nothing is admitted, no kernel check is switched off, no plugins, functors or module types.
* `Print Assumptions` follows every theorem named in MANIFEST.json (in the `_Props` files) and answers "Closed under the
  global context" for each: no axioms, neither our own nor the standard library's. The seven constants of
  `Coq.ssr.ssrunder` that the gate lists come with `Require`d parts of the standard library; no theorem uses them.
* The reading of the C and Myrddin sources. Every definition cites the lines it models; a wrong reading would make the
  theorems speak about another program. The models are executable and their examples are evaluated in the `_Props` files,
  but nothing was compared with a running compiler, which cannot be built here.
* The two external assumptions stated inside models: sequentially consistent memory and a futex call as documented
  (thread models), and the meaning of amd64 register names (which bytes `%ax` and `%eax` share) in `Ra_Spec`/`Ra_SemSpec`.

## What is modelled

| code | model | covers |
|------|-------|--------|
| util/bitset.c | CBitset | all functions |
| util/htab.c | CHtab, OpenAddr | mkht, htput, htget, hthas, htdel, grow, htkeys |
| util/pack.c | CPack | all readers and writers except the float reader's libc call |
| util/util.c, util/alloc.c | CUtil | align, list helpers, swapsuffix |
| mi/match.c | Match | all, except float literals |
| parse/fold.c | Fold | integer expressions, member selection of constants left out |
| mi/cfg.c, mi/reaching.c, mi/dfcheck.c | Cfg | all |
| 6/typeinfo.c, 6/simp.c (offsets) | Layout, Call | tysize, tyalign, tyoffset, classify, alignto |
| 6/blob.c, 6/gengas.c writeblob | Blob | constant initialisers |
| 6/isel.c (calls, frames) | Call | gencall, placearg, addarglocs, retrievearg, prologue layout |
| 6/ra.c | Ra | liveness, build, worklists, coalescing, freezing, selection, painting; the rewriting of spilled registers is not |
| 6/gengas.c iprintf, 6/locs.c coreg | Ra_Emit | register-to-register moves |
| parse/tok.c | Tok | all tokens |
| parse/infer.c unify, parse/type.c tyeq | Unify | occurs check, unify, member-wise unification, comparison cache |
| parse/use.c | Use, Export | the whole format, writeuse, loading up to fixing type and trait ids |
| parse/export.c | Export | tagging; hidelocal and tagreflect are left out |
| lib/std: htab, bitset, sort, search, utf, striter, putint, getint, endian, strfind, strsplit, strjoin, strreplace, cmp, hasprefix, hassuffix, intfmt, intparse, bigint | SHtab, SBitset, Sort, Utf, Endian, Str, IntFmt, Bigint | see the headers of the models |
| lib/thread: mutex, rwlock, sem, waitgrp (futex and generic), queue, condvar+linux | FMutex, SMutex, FRw, SRw, Sem, Wg, Queue | any number of threads, all interleavings |
| lib/std/bytealloc.myr | Alloc | the whole allocator: buckets, slabs, slab caches, large blocks, eviction; tracing left out |
| lib/date/date.myr, fmt.myr, parse.myr, zoneinfo+posixy.myr | Date | all of date.myr; the directives Y m d H I M S P z of printing and parsing; the offset lookup (loading the file left out) |
| lib/regex/compile.myr, interp.myr | Regex | code generation (gen and all it calls), class tables merge and negate, the interpreter, exec, search, sub, suball; the pattern parser and tracing left out |
| lib/bio/bio.myr, geti.myr, puti.myr | Bio | all calls on a file (read, write, bytes, characters, integers, lines, delimiters, flush, seek to an offset, close); opening, std.in/out, put with a format and the line iterator left out |
| lib/flate/flate.myr | Flate | the whole of decode, on top of the files of Bio; debug output left out |
| lib/json/parse.myr, fmt.myr | Json | the whole parser with positions and depth, the printer; numbers are a parameter, freeing left out |
| lib/crypto/md5.myr, sha1.myr, sha256.myr, sha512.myr, sha3.myr, hmac.myr | Hash | the step functions statement by statement, the streaming and padding code, the digests, HMAC; buffers are lists of bytes |
| lib/crypto/ct.myr | Ct | all functions, for unsigned types of any width; timing is not modelled |
| lib/crypto/chacha20.myr | Chacha | the whole file; message and output are apart in memory |
| lib/std/pathjoin.myr | Path | pathnorm, pathjoin and pathcat, on the strsplit and strjoin of Str; pathabs left out |
| lib/std/dirname.myr | Dir | dirname and basename, on the strrfind of Str |
| lib/escfmt/escsh.myr, escurl.myr, eschtml.myr | Esc | the three formatters; html on characters instead of bytes; the machinery of fmt left out |
| lib/std/rand.myr | Rand | mksrng, rngrandnum, rngrandbytes and rngrand; the generator seeded from the clock left out |
| lib/std/ipparse.myr | Ip | ip4parse, ip6parse and ipparse at every integer type of num, on the intparsebase of IntFmt |

## What is not modelled

* The parser (yacc grammar), name resolution, the rest of type inference (traits, delayed checks, specialisation), generics.
* Lowering of statements and expressions (6/simp.c apart from offsets), instruction selection apart from calls and frames,
  and the printing of operands other than register moves. qbe and plan 9 back ends.
* Spill rewriting in the register allocator.
* Floating point, everywhere.
* Processes, files, networking, and the libraries not named above.
* Timing and fairness of the operating system's scheduler, except where a theorem quantifies over schedules.
