{
 "claims": [
  {
   "property": "C01",
   "status": "proved",
   "theorems": [
    "c01_hashtree_is_finite_map"
   ],
   "note": "All histories, any hash function; tree modelled structurally, parent links as contexts."
  },
  {
   "property": "C02",
   "status": "proved",
   "theorems": [
    "c02_iteration_complete_ordered"
   ],
   "note": ""
  },
  {
   "property": "C03",
   "status": "proved",
   "theorems": [
    "c03_interning_canonical"
   ],
   "note": "64-bit id counter modelled as unbounded."
  },
  {
   "property": "C04",
   "status": "partial",
   "theorems": [
    "c04_contents_partial",
    "c04_memory_safe",
    "c04_rejects",
    "c04_surrogate_pair_refuted",
    "c04_wide_escape_refuted"
   ],
   "note": "Contents, exact length, terminator and memory safety for every sequence of appends; what cannot be represented is rejected. Missing and refuted: a char16_t buffer loses the low surrogate of characters above U+FFFF, and wide escapes of 2^31 and more are rejected."
  },
  {
   "property": "C05",
   "status": "proved",
   "theorems": [
    "c05_reads_back_last_write",
    "c05_blocks_listed_in_order"
   ],
   "note": "Any history of writes to any slots; block table is the hash tree model; blocks enumerated in order."
  },
  {
   "property": "C06",
   "status": "proved",
   "theorems": [
    "c06_lookahead",
    "c06_advance",
    "c06_advance_then_look",
    "c06_advance_error",
    "c06_reaches_end"
   ],
   "note": "For every multibyte decoder that uses between 1 and the available number of bytes (UTF-8 shown to be one)."
  },
  {
   "property": "C07",
   "status": "partial",
   "theorems": [
    "c07_maximal_munch",
    "c07_recognised_partial",
    "c07_dead_end",
    "c07_recognised_refuted"
   ],
   "note": "What is recognised is always the longest punctuator. Recognition fails for text starting with .. (not ...) or %:% (not %:%:), and only there; refuted witness given."
  },
  {
   "property": "C08",
   "status": "partial",
   "theorems": [
    "c08_scan",
    "c08_value_and_type_partial",
    "c08_value_and_type_refuted"
   ],
   "note": "All digit strings, bases and suffixes: the result is as for the value mod 2^64, hence right below 2^64. Refuted above: 18446744073709551616 is accepted as int 0."
  },
  {
   "property": "C09",
   "status": "partial",
   "theorems": [
    "c09_round_trip_partial",
    "c09_ascii",
    "c09_unicode",
    "c09_round_trip_refuted"
   ],
   "note": "Round trip for all char16_t and char32_t literals, all narrow literals of bytes below 128 without NUL before an octal digit, and wide literals without quote, backslash and hex digits after an unprintable character. Refuted for the excluded literals."
  },
  {
   "property": "C10",
   "status": "partial",
   "theorems": [
    "c10_conditional_inclusion_partial",
    "c10_terminates",
    "c10_stray_directive_rejected",
    "c10_conditional_inclusion_refuted",
    "c10_unbalanced_rejected_refuted"
   ],
   "note": "For every well-nested file (group grammar of 6.10p1 spelled with arbitrary blanks and operands), every macro scope and every outcome of the conditions, the scanner and group loop produce exactly the text, directive effects and condition evaluations prescribed by 6.10.1p6, lazily and in order; the loops terminate on every character sequence; a surplus #endif/#else/#elif is rejected. Partial: operands of #elif/#else must not start with '#' (without this the statement is refuted by a witness: a nested #elif in a skipped group is left in mid-line), and lines are taken as units, so comments spanning lines are outside the model. Also refuted: a missing #endif and a second #else are accepted."
  },
  {
   "property": "C11",
   "status": "partial",
   "theorems": [
    "c11_result",
    "c11_terminates_iff",
    "c11_standard_total",
    "c11_standard_unique",
    "c11_mutual_refuted",
    "c11_if_itself_refuted"
   ],
   "note": "For object-like macros: whenever kefir's expansion ends, its result is the one of 6.10.3, which always exists and is unique; it ends exactly when the relation 'replacement mentions' (ignoring a macro naming itself, except in #if) has no infinite path from the text. Termination for all definitions is false: mutually recursive macros loop."
  },
  {
   "property": "C12",
   "status": "proved",
   "theorems": [
    "c12_paste",
    "c12_paste_fails"
   ],
   "note": "All ordered pairs of punctuators."
  },
  {
   "property": "C13",
   "status": "proved",
   "theorems": [
    "c13_macro_scopes",
    "c13_undefined"
   ],
   "note": "All histories of define/undef/open/close over chains of scopes, on top of the hash tree model."
  },
  {
   "property": "C14",
   "status": "partial",
   "theorems": [
    "c14_parses_partial",
    "c14_round_trip_partial",
    "c14_round_trip_clean",
    "c14_print_minimal",
    "c14_unambiguous",
    "c14_compound_literal_refuted"
   ],
   "note": "For every tree and every token list the C17 expression grammar derives for it (any redundant parentheses), the modelled parser returns exactly that tree and stops at the first token that does not continue the expression; the minimal printing is a special case and is proved to be a shortest derivation. Holds with compound literals as unary instead of postfix expressions: c14_compound_literal_refuted shows that postfix operators after a compound literal are left unparsed. Type names and initializer lists are parameters with stated assumptions."
  },
  {
   "property": "C15",
   "status": "proved",
   "theorems": [
    "c15_cursor",
    "c15_terminates"
   ],
   "note": "All expression rules, all cursor positions; the rules for type names and initializer lists are parameters assumed to stop and move forward."
  },
  {
   "property": "C16",
   "status": "partial",
   "theorems": [
    "c16_integer_promotion",
    "c16_bitfield_promotion",
    "c16_usual_arithmetic_conversions_partial",
    "c16_exact_type_without_long_mix",
    "c16_default_argument_promotion",
    "c16_order_independence_refuted",
    "c16_exact_type_refuted"
   ],
   "note": "Common type always has the right width and signedness; it is the exact C type whenever long and long long are not mixed; mixing them gives an operand-order dependent result (refuted with a witness)."
  },
  {
   "property": "C17",
   "status": "partial",
   "theorems": [
    "c17_reflexive",
    "c17_terminates",
    "c17_defined_partial",
    "c17_symmetric_partial",
    "c17_symmetric_plain",
    "c17_symmetric_refuted",
    "c17_symmetric_unions_refuted",
    "c17_defined_refuted",
    "c17_defined_bitfield_refuted"
   ],
   "note": "Reflexivity and termination hold for every type the constructors can build. Symmetry holds for types without variadic functions and unnamed union members; it is false otherwise (int f() against int g(char*,...): only one direction). The check reads through a null pointer for a tagged against an untagged enumeration and for a bit-field against an ordinary member (refuted); without those it is always defined."
  },
  {
   "property": "C18",
   "status": "partial",
   "theorems": [
    "c18_structures",
    "c18_structures_exact",
    "c18_unions_refuted",
    "c18_unions_any"
   ],
   "note": "Proved for structures, in both directions when no bit-field or untagged enumeration occurs. False for unions: the lookup uses the first union's own member table, so any two unions with the same tag and equally many named members are reported compatible."
  },
  {
   "property": "C19",
   "status": "proved",
   "theorems": [
    "c19_union",
    "c19_order"
   ],
   "note": "All sequences of declarations."
  },
  {
   "property": "C20",
   "status": "partial",
   "theorems": [
    "c20_value_partial",
    "c20_signed_value",
    "c20_same_as_compiled_partial",
    "c20_value_refuted"
   ],
   "note": "Integer constant expressions over all integer types. c20_signed_value: no unsigned operand -> exact value, no side condition. c20_value_partial: any operands, when the 64-bit evaluation needs no truncation (const_ok). c20_value_refuted: ~0u == 0xffffffffu, 0xffffffffu + 1 == 0, (0u-1)/2, -1 == 0xffffffffu, -8 >> 1u, 0 ? 0u : -1. Missing: floating-point and address constants."
  },
  {
   "property": "C21",
   "status": "partial",
   "theorems": [
    "c21_no_undefined_behaviour_partial",
    "c21_harmless_operators",
    "c21_no_undefined_behaviour_refuted"
   ],
   "note": "No host undefined behaviour for defined expressions without unsigned operands or within const_ok, nor for any expression (defined or not) over comparisons, bit operations, unsigned division, casts, logical operators. Refuted in general: 1 % 0, LONG_MIN / -1, 1 << 64, 0x7fffffffffffffffUL + 1."
  },
  {
   "property": "C22",
   "status": "proved",
   "theorems": [
    "c22_integer_expression_correct",
    "c22_expression_value_and_effects",
    "c22_lvalue_address"
   ],
   "note": "All expression trees over integer, pointer, array and struct-member operands; no void/float/bit-field operands, calls or sizeof. Without compound assignment and ?: there is no side condition; with them the operand types must satisfy expr_ok (see C25, C26)."
  },
  {
   "property": "C23",
   "status": "proved",
   "theorems": [
    "c23_integer_conversion",
    "c23_conversion_is_c17",
    "c23_normalize"
   ],
   "note": "All pairs of the 12 integer types and all values."
  },
  {
   "property": "C24",
   "status": "proved",
   "theorems": [
    "c24_and_short_circuits",
    "c24_or_short_circuits"
   ],
   "note": "Second operand may be undefined when skipped."
  },
  {
   "property": "C25",
   "status": "partial",
   "theorems": [
    "c25_compound_assignment_partial",
    "c25_compound_assignment_refuted",
    "c25_compound_assignment_domain",
    "c25_pointer_compound"
   ],
   "note": "Exact characterisation: the translation is right for all operand values iff compound_ok op tl tr; every other type combination is refuted with a witness (e.g. unsigned long >>= int, unsigned long %= int, value of unsigned += unsigned)."
  },
  {
   "property": "C26",
   "status": "partial",
   "theorems": [
    "c26_selected_branch",
    "c26_conditional_partial",
    "c26_conditional_refuted",
    "c26_conditional_domain"
   ],
   "note": "Exactly one branch is evaluated for all types; the value is right iff cond_ok (e.g. 1 ? -1 : 0u is left unconverted: refuted)."
  },
  {
   "property": "C27",
   "status": "partial",
   "theorems": [
    "c27_statements_partial",
    "c27_terminates_partial"
   ],
   "note": "Every statement form (if, while, do, for, switch, goto, labels, break, continue, return, compound), terminating or not, in both directions. Side condition stmt_ok: the expressions are in the domain of C25/C26, case constants are values of the promoted controlling type (otherwise false: c30_dispatch_refuted), and a returned array is not converted to _Bool."
  },
  {
   "property": "C28",
   "status": "partial",
   "theorems": [
    "c28_expression_one_slot",
    "c28_statement_balance_partial",
    "c28_statement_balance_refuted",
    "c28_leak_unbounded"
   ],
   "note": "Expressions push exactly one value; statements are balanced when no switch leaks. The full statement is false of the code: a switch with no matching case jumps without popping the controlling value, and a loop round it grows the operand stack without bound."
  },
  {
   "property": "C29",
   "status": "proved",
   "theorems": [
    "c29_backpatching",
    "c29_succeeds",
    "c29_no_second_placement",
    "c29_translated_body"
   ],
   "note": "Any interleaving of append/reference/resolve over any number of blocks. c29_translated_body instantiates it with the statement translator: back-patching yields exactly the code of C27."
  },
  {
   "property": "C30",
   "status": "partial",
   "theorems": [
    "c30_dispatch_partial",
    "c30_dispatch_refuted",
    "c30_selection_unique"
   ],
   "note": "Dispatch selects the C case when every case constant is already a value of the promoted controlling type. Refuted without that: case constants are compared unconverted."
  },
  {
   "property": "C31",
   "status": "partial",
   "theorems": [
    "c31_read_field",
    "c31_write_field",
    "c31_read_back",
    "c31_assignment_value",
    "c31_disjoint_fields_independent",
    "c31_runtime_loads_and_stores",
    "c31_unsigned_load_of_full_width_refuted",
    "c31_store_of_full_width_refuted"
   ],
   "note": "Proved for every field of width below 64 that fits in 64 bits of its first byte (c32_accesses_fit shows the allocator produces such fields), and for signed reads of width 64. For width 64 the claim is false of the code: the mask (1 << 64) - 1 is 0, so an unsigned read gives 0 and a write ORs the old and new values."
  },
  {
   "property": "C32",
   "status": "partial",
   "theorems": [
    "c32_bitfields_disjoint_and_within_units",
    "c32_accesses_fit",
    "c32_zero_width_starts_new_byte_partial",
    "c32_zero_width_boundary_refuted"
   ],
   "note": "Disjointness, order and not crossing a boundary of the declared type are proved for every member sequence; the zero-width clause is false of the code (it only ends the run: the next field starts at the next byte), shown by a witness, with the weaker fact proved."
  },
  {
   "property": "C33",
   "status": "proved",
   "theorems": [
    "c33_sizes_and_alignments",
    "c33_member_offsets",
    "c33_structure_members_ordered_aligned_inside",
    "c33_union_covers_its_members",
    "c33_array_elements_contiguous_and_aligned",
    "c33_scalars_inside_and_aligned",
    "c33_source_types"
   ],
   "note": "On IR types (trees) with any non-negative explicit alignments, and end to end for translated C types; the alignment of every scalar for types without explicit alignments."
  },
  {
   "property": "C34",
   "status": "partial",
   "theorems": [
    "c34_total",
    "c34_large",
    "c34_classes_partial",
    "c34_classes_flat",
    "c34_nested_refuted"
   ],
   "note": "Classification terminates with a result for every conforming type; larger-than-16-byte aggregates are MEMORY; the classes equal the ABI's eightbyte classes (merge over the fields that touch each eightbyte, post-merger cleanup) for every aggregate whose nested aggregates have no trailing padding and put their most aligned member first - in particular for all flat ones. False in general: struct {struct {int;char;} ;char;} gets a wrong class (c34_nested_refuted), because the padding of nested aggregates is not added."
  },
  {
   "property": "C35",
   "status": "partial",
   "theorems": [
    "c35_registers",
    "c35_registers_disjoint",
    "c35_stack_areas",
    "c35_assignment",
    "c35_padding_eightbyte_refuted"
   ],
   "note": "For every parameter list the integer and SSE registers handed out are consecutive, pairwise disjoint and within the 6 and 8 available; stack areas are in order, disjoint, large enough, 8-aligned and aligned for the type; for parameters covered by C34 the assignment succeeds and the choice between registers and stack is the ABI's. Partial: an aggregate with an eightbyte that consists of padding only is rejected by the compiler (refuted); empty and bit-field parameters cannot occur."
  },
  {
   "property": "C36",
   "status": "partial",
   "theorems": [
    "c36_emission",
    "c36_small_object",
    "c36_initialised_object_partial",
    "c36_initialised_object_refuted"
   ],
   "note": "For every type with power-of-two alignments and every finalized data, the emitted bytes have the size of the type, every value is at its ABI offset in little-endian order (addresses as relocations), and all other bytes are zero; end to end (writes, finalization, emission) for objects of at most 128 slots and for larger ones in which no part that begins in an unused 128-slot block reaches into a used one. Refuted in general: an array element that begins in an unused 128-slot block is skipped by finalization, so an initialised union inside it is emitted as zero."
  },
  {
   "property": "C37",
   "status": "partial",
   "theorems": [
    "c37_initialised_objects_are_defined_partial",
    "c37_small_objects_are_defined",
    "c37_initialised_objects_are_defined_refuted"
   ],
   "note": "Exact for all types and writes, also with unused 128-slot blocks in between, provided each part that reaches into a block in use begins in one (always for objects of at most 128 slots); refuted otherwise: int x[1000] = {[500] = 7} goes to .bss."
  },
  {
   "property": "C38",
   "status": "partial",
   "theorems": [
    "c38_every_entry_is_its_subtree",
    "c38_visits_each_member_once",
    "c38_counts",
    "c38_type_tree_is_the_tree",
    "c38_members_tile_their_parent",
    "c38_goto_root",
    "c38_goto_field",
    "c38_append_subtree",
    "c38_goto_index_refuted"
   ],
   "note": "Everything in the statement holds for every well-formed IR type; the iterator's goto_index does not reach the entry asked for (refuted with a witness; the function has no callers in the repository)."
  },
  {
   "property": "C39",
   "status": "partial",
   "theorems": [
    "c39_sets_one_bit_too_many",
    "c39_sets_exactly_the_field_partial",
    "c39_full_width",
    "c39_exact_field_refuted",
    "c39_other_slots_untouched"
   ],
   "note": "set_bitfield's mask clears one bit more than the field (bits offset..offset+length), characterised exactly; right when the bit above is zero already (fields set in ascending order) or at the top of the unit; refuted with a witness."
  },
  {
   "property": "C40",
   "status": "partial",
   "theorems": [
    "c40_scalars_exist",
    "c40_order",
    "c40_lists_partial",
    "c40_trailing_bitfield_refuted",
    "c40_qualified_refuted",
    "c40_qualified_designator_refuted",
    "c40_unnamed_designator_refuted",
    "c40_unnamed_braces_refuted",
    "c40_unnamed_inside_refuted",
    "c40_union_bitfield_refuted",
    "c40_deep_expression_refuted",
    "c40_inside_designated_refuted"
   ],
   "note": "Visiting all scalars in declaration order is proved for every type without the two refuted shapes (structure ending in an unnamed bit-field, qualified aggregate). Whole lists with nested braces, strings, structure expressions and designators are proved for types without unnamed structure members, designators that name the initialized subobject itself, and structure expressions at most one aggregate down. Each exclusion has a refutation of the full claim."
  },
  {
   "property": "C41",
   "status": "partial",
   "theorems": [
    "c41_scalars",
    "c41_fetched_partial",
    "c41_succeeds",
    "c41_long_double_refuted",
    "c41_named_structure_refuted",
    "c41_overaligned_refuted",
    "c41_shared_temporary_refuted"
   ],
   "note": "Model of the caller's argument placement, the register save area, va_start and va_arg. For scalar parameters and scalar variadic arguments other than long double, every sequence of matching fetches returns the arguments in order for any mix of registers and stack (c41_scalars, no side condition beyond the stack layout). c41_fetched_partial extends this to structures and long double when the stack offset needs no padding that va_arg omits. The full statement is false for long double (va_arg does not align to 16), after a named structure whose size is no multiple of 8, for alignment above 16, and two structures fetched from registers share a temporary: see the refutations."
  },
  {
   "property": "C42",
   "status": "proved",
   "theorems": [
    "c42_order",
    "c42_drain",
    "c42_skip_whitespaces"
   ],
   "note": "All interleavings of push, next (moving or dropping), current; skip_whitespaces."
  },
  {
   "property": "C43",
   "status": "proved",
   "theorems": [
    "c43_location"
   ],
   "note": "Any sequence of advances from the start of the text."
  },
  {
   "property": "C44",
   "status": "partial",
   "theorems": [
    "c44_join_partial",
    "c44_incompatible",
    "c44_escapes_refuted"
   ],
   "note": "All pairs of encodings and all texts of Unicode scalar values (BMP in char16_t literals). Refuted for escapes that are not well-formed UTF-8: \"a\" \"\\377\" is rejected."
  },
  {
   "property": "C45",
   "status": "partial",
   "theorems": [
    "c45_narrow_partial",
    "c45_refuted"
   ],
   "note": "Narrow constants of value 0 to 127. Refuted for wide, char16_t, char32_t, multi-character and negative constants."
  },
  {
   "property": "C46",
   "status": "partial",
   "theorems": [
    "c46_arguments",
    "c46_expansion_partial",
    "c46_hash_refuted",
    "c46_paste_expanded_refuted",
    "c46_paste_argument_refuted",
    "c46_joined_parameter_refuted",
    "c46_nested_call_refuted"
   ],
   "note": "The split into arguments is proved in full. Expansion is proved for texts in which no macro being replaced is met again, # and ## are applied to arguments that expansion leaves unchanged, and what ## joins contains no #, ## or parameter name. The full statement is false: # and ## use the expanded argument, ## rejoins a ## that comes from an argument (without end), a joined name is substituted as a parameter, and a name met again through another macro is replaced."
  },
  {
   "property": "C47",
   "status": "partial",
   "theorems": [
    "c47_compatible_only_if_partial",
    "c47_compatible_exactly_partial",
    "c47_variadic_refuted",
    "c47_identifier_list_refuted",
    "c47_qualified_array_refuted",
    "c47_enumerations_refuted"
   ],
   "note": "Proved for types without unions, qualified array types, definitions with identifier lists, and mixtures of variadic prototypes with declarators without prototype (each refuted by a theorem here or in C18); the converse direction also leaves out enumerations (order of enumerators matters in the code: refuted) and bit-fields."
  },
  {
   "property": "C48",
   "status": "partial",
   "theorems": [
    "c48_alive_together_disjoint",
    "c48_objects_inside_frame",
    "c48_objects_aligned_partial",
    "c48_parameters_inside_partial",
    "c48_results_aligned_partial",
    "c48_overaligned_refuted",
    "c48_parameters_after_vararg_refuted",
    "c48_temporary_alignment_refuted"
   ],
   "note": "Disjointness, containment and the order of the areas are proved for every tree of blocks. Alignment is proved up to 16 (32 and more refuted). Parameters and results of calls are proved to fit and be aligned when no aggregate is fetched with va_arg; there the code takes a size for an alignment, and both claims are refuted."
  },
  {
   "property": "C49",
   "status": "partial",
   "theorems": [
    "c49_specifiers_partial",
    "c49_order",
    "c49_double_long_refuted",
    "c49_extra_int_refuted",
    "c49_short_name_refuted",
    "c49_no_type_refuted",
    "c49_alignment_refuted"
   ],
   "note": "Acceptance and result are exact, for any length and order, on lists with a type specifier and without the combinations refuted: double before long, a second int, int with double, short before a type name, no type specifier. Alignments that are no power of two are accepted (refuted). _Complex and _Atomic are not supported by the compiler."
  },
  {
   "property": "C50",
   "status": "partial",
   "theorems": [
    "c50_declarators_partial",
    "c50_type_names_partial",
    "c50_accepted",
    "c50_accepted_type_names",
    "c50_covered_standard",
    "c50_unambiguous",
    "c50_constraints_partial",
    "c50_typedef_parameter_refuted",
    "c50_typedef_parameter_name_refuted",
    "c50_dereferenced_length_refuted",
    "c50_return_type_refuted",
    "c50_length_refuted"
   ],
   "note": "Every declarator of the grammar is parsed to its meaning except where 6.7.6.3p11 or a length beginning with an asterisk matters (refuted: int (T), int (T x), a[*p]); what is accepted is a declarator with the type given. Constraints are checked exactly, except within return types and for lengths that are not positive (both refuted). Type names are not checked for constraints at all by the code."
  },
  {
   "property": "C51",
   "status": "partial",
   "theorems": [
    "c51_composite_partial",
    "c51_exactly_partial",
    "c51_terminates",
    "c51_result_qualifiers_refuted",
    "c51_result_refuted",
    "c51_incomplete_refuted",
    "c51_star_refuted",
    "c51_unions_refuted",
    "c51_va_list_refuted"
   ],
   "note": "Proved for types without unions, qualified arrays and identifier lists, when the two types agree in the completeness of structures and in the qualifiers of results. Outside: functions that differ in the qualifiers of the result have no composite type, a prototype hides the result of the other declaration, incomplete types win over complete ones, [*] wins over a given length, members of unions are combined with themselves (all refuted)."
  },
  {
   "property": "C52",
   "status": "partial",
   "theorems": [
    "c52_valid_units_partial",
    "c52_violations_partial",
    "c52_block_thread_local_refuted",
    "c52_block_thread_local_again_refuted",
    "c52_typedef_compatible_refuted",
    "c52_typedef_variably_modified_refuted",
    "c52_initialized_composite_refuted",
    "c52_extern_initializer_refuted",
    "c52_pointer_to_vla_refuted",
    "c52_static_pointers_refuted",
    "c52_inline_definition_refuted"
   ],
   "note": "By a simulation between the analyzer's tables and the entities of the standard, for units of any length. Left out of the first theorem by covers, with a refutation for each: inline definitions, _Thread_local extern in a block, extern with initializer after static, type names declared again for another compatible type, initialized pointers to variable length arrays, static arrays of such pointers, composite types lost at an initialized definition. Types are kept per entity, so that declarations in a block that add to the type are left out as well. Violations: also left out are constant initializers of static objects in a block, which the analyzer leaves to the translator."
  },
  {
   "property": "C53",
   "status": "partial",
   "theorems": [
    "c53_expression_types_partial",
    "c53_type_found_partial",
    "c53_rejected_partial",
    "c53_designators_partial",
    "c53_size_type_refuted",
    "c53_string_address_refuted",
    "c53_call_member_refuted",
    "c53_array_assignment_refuted",
    "c53_const_member_refuted",
    "c53_incomplete_object_refuted",
    "c53_pointer_arithmetic_refuted",
    "c53_completed_since_refuted",
    "c53_mixed_equality_refuted",
    "c53_mixed_assignment_refuted",
    "c53_mixed_conditional_refuted",
    "c53_const_array_member_refuted",
    "c53_register_member_refuted"
   ],
   "note": "By induction on the expression, with int as the type of sizeof (refuted: it must be unsigned). The predicate covered leaves out, with a refutation for each group: members of call results, assignment to array members, to structures with const or incomplete members, arithmetic and comparison on pointers to void, functions and structures completed later, integers and pointers to functions mixed with object pointers, array members of qualified structures, the address of register members and of strings. It also leaves out qualified anonymous members (which cannot be declared), variable length sizeof, long mixed with long long (C16) and types on which the checks of C47 and C51 are wrong. Compound literals, generic selections, statement labels and built-ins are not modelled here."
  },
  {
   "property": "C54",
   "status": "partial",
   "theorems": [
    "c54_declarations_partial",
    "c54_tags_partial",
    "c54_members_partial",
    "c54_enumeration_represents",
    "c54_hiding_self_reference_refuted",
    "c54_redeclared_tag_refuted",
    "c54_captured_tag_refuted",
    "c54_enumerator_range_refuted",
    "c54_unknown_enumeration_refuted",
    "c54_empty_declaration_refuted",
    "c54_tagged_anonymous_refuted",
    "c54_qualified_anonymous_refuted",
    "c54_duplicate_anonymous_refuted",
    "c54_flexible_member_refuted",
    "c54_flexible_element_refuted",
    "c54_flexible_alone_refuted",
    "c54_bool_width_refuted",
    "c54_array_length_refuted",
    "c54_restrict_refuted",
    "c54_return_type_refuted"
   ],
   "note": "By simulation of an independent semantics in which every structure, union and enumeration is an entity of its own, for all sequences of declarations that meet cov_run; members by paths whose types have visible tags. cov_run leaves out, with a refutation for each: self-references of a structure that hides another, bare redeclaration of a tag in an inner scope, types whose tag is hidden, enumerators outside int, unknown enumerations, declarations that declare nothing, anonymous members from tagged or qualified specifiers, duplicate names through anonymous members, members and elements with flexible array members, flexible arrays after unnamed members only, _Bool bit-fields wider than 1, array lengths that are not positive, restrict on other types, unchecked return types; also qualified array and function typedef names. Function parameters, alignments, variable lengths and storage classes are left out (C52 has scopes and linkage of ordinary identifiers)."
  },
  {
   "property": "C55",
   "status": "partial",
   "theorems": [
    "c55_alive_partial",
    "c55_released_partial",
    "c55_no_arrays",
    "c55_aligned",
    "c55_alloca_operands",
    "c55_pushscope_operands",
    "c55_popscope_operands",
    "c55_goto_constraint",
    "c55_bound",
    "c55_accepted_partial",
    "c55_alive_between_refuted",
    "c55_alive_before_refuted",
    "c55_released_two_refuted",
    "c55_loop_leaks_refuted",
    "c55_goto_accepted_refuted",
    "c55_switch_constraint_refuted"
   ],
   "note": "Proved for all functions and executions: arrays in scope keep disjoint storage if no jump leaves a block before its first array and none is between its first and last array; exact release with at most one array per block and no alloca; the constraints on labels, goto, break, continue, case and default. Refuted: a break between two arrays or before the first releases an array still in scope; blocks with two arrays leak the first; a legal goto into a block with a later array is refused; case labels in the scope of an array are accepted."
  },
  {
   "property": "C56",
   "status": "partial",
   "theorems": [
    "c56_tokens_partial",
    "c56_signed_partial",
    "c56_line_partial",
    "c56_no_macros_partial",
    "c56_unsigned_int_refuted",
    "c56_mixed_refuted",
    "c56_overflow_refuted",
    "c56_trailing_refuted",
    "c56_function_name_refuted",
    "c56_itself_refuted"
   ],
   "note": "Proved for all lines that are expressions over integer and character constants with a defined value: from the line as written through defined, object-like macros, conversion of numbers, parsing and evaluation, composing C08, C11, C14 and the evaluator. Asked for: at each operator that is sensitive to signedness, the types of phase 7 and intmax_t agree (always so if no constant is unsigned in phase 7), unsigned results do not overflow on the way, and no macro names itself. Refuted without: 0xFFFFFFFF is taken for unsigned int, -1L > 0u is computed in long, unsigned overflow is undefined in the compiler, tokens after the expression are ignored, the name of a function-like macro without arguments is an error, a macro that names itself is replaced forever. Missing: function-like macros with arguments in the line."
  },
  {
   "property": "C57",
   "status": "partial",
   "theorems": [
    "c57_stops",
    "c57_unit_partial",
    "c57_unambiguous_partial",
    "c57_else_partial",
    "c57_whole_partial",
    "c57_whole_unambiguous_partial",
    "c57_whole_stops",
    "c57_scope_refuted",
    "c57_parameter_refuted",
    "c57_loop_refuted",
    "c57_loop_hides_refuted",
    "c57_old_style_refuted",
    "c57_label_refuted",
    "c57_parameter_type_refuted",
    "c57_atomic_refuted",
    "c57_length_refuted"
   ],
   "note": "Termination is proved for all token sequences. The tree is proved for all units of the grammar in SynSpec with lim = true, for any parser of expressions that reads its own grammar (c57_unit_partial) and for the parser of ParseModel (c57_whole_partial). Left out by the conditions marked LIMIT: names used differently within one declaration, parameters and loop variables that hide typedef names, labels named like typedefs, old-style definitions, a parameter declarator that starts with a parenthesis and a typedef name, _Atomic(type), array lengths that start with an asterisk, bodies of structures in parameters; each of the first kinds is refuted by a unit of the standard that gets another tree or none. Not modelled: _Alignas, _Static_assert, attributes, asm, type names in expressions beyond specifiers and asterisks, initializer lists in compound literals beyond one constant. What the parser accepts beyond the grammar is not characterised."
  },
  {
   "property": "C58",
   "status": "partial",
   "theorems": [
    "c58_split_partial",
    "c58_split_unique",
    "c58_recognised_partial",
    "c58_keyword_spelling",
    "c58_keywords",
    "c58_words_partial",
    "c58_header",
    "c58_header_partial",
    "c58_header_refuted",
    "c58_keyword_refuted",
    "c58_other_refuted",
    "c58_dots_refuted",
    "c58_newline_refuted",
    "c58_universal_refuted"
   ],
   "note": "For every text that the tokenizer reads to the end without a new-line in a character constant, its tokens are those of the unique division of the standard. Every text whose tokens are plain is read to the end: names of up to 255 characters, no universal character names in names and numbers, simple escapes only in literals, no characters that are no token, no . before a token starting with a dot and no %: before one starting with a percent sign. Refuted without: @ and other single characters are an error, .. is an error, a character constant goes on over the end of its line, asm is a keyword, an identifier with a universal character name cannot become a token, an empty header name is accepted. Missing: escapes beyond the simple ones in the second theorem, texts with null characters."
  },
  {
   "property": "C59",
   "status": "partial",
   "theorems": [
    "c59_directives_partial",
    "c59_comment_before_refuted",
    "c59_digraph_refuted",
    "c59_name_refuted",
    "c59_hash_hash_refuted",
    "c59_comment_over_line_refuted",
    "c59_header_refuted",
    "c59_no_space_refuted",
    "c59_same_parameters_refuted",
    "c59_rest_refuted"
   ],
   "note": "For every file of the grammar in DirSpec whose tokens are plain (C58) and whose directives have blanks only around the #, the directives and tokens reported are those of the file; pragmas are reported as non-directives, which are skipped like them. The lines left out are those for which it is false. False of the code: a comment before the # hides the directive; %: is no #; #if0 is an #if; a line that starts with ## is a directive; a comment that runs over the end of a line of #endif is cut at the new-line and its rest read as text; a comment before a header name; #define A+1, repeated parameters and tokens after the name of #ifdef are accepted. Groups that are skipped are C10."
  },
  {
   "property": "C60",
   "status": "partial",
   "theorems": [
    "c60_data_assembles_partial",
    "c60_wide_literals_aligned_refuted",
    "c60_operator_names_refuted"
   ],
   "note": "For all modules, generator states and images: the text assembles, by the reading of GNU as syntax in AsmSpec, to every variable's data at its label, section and alignment and to every public literal's units. Addresses of symbols whose name is an operator of the assembler are left out, and literals are only shown to stand somewhere, because the rest is false of the code: the address of a variable named and, not or mod has no meaning for the assembler (only symbol_arg escapes, and only mod); a wide literal after a literal of odd size is not aligned. The pieces of an object are given; C36 is about which they are (pieces_of_values links the two). The text of functions, .global and .extern is not covered."
  },
  {
   "property": "C61",
   "status": "partial",
   "theorems": [
    "c61_json_text_partial",
    "c61_one_value_refuted",
    "c61_strings_refuted",
    "c61_floats_refuted",
    "c61_refused_refuted"
   ],
   "note": "For all call sequences and indentations: accepted and finalised exactly when the calls write whole values less than 1024 deep, the text is the texts of the values in order, and the reader of JsonSpec reads the text of a value as the value. Left out, because false of the code: several values at the top level, or none, are accepted (1 and 2 are printed as 12); the alarm character is escaped as \\a and other control characters not at all; raw strings escape ? and the vertical tab as in C and print bytes above 127 as they are; inf and nan; a locale with a decimal comma (main.c calls setlocale). A refused call may already have printed a separator. Hexadecimal floats are given as text, and mbrtoc32 as the characters and their bytes; output errors are left out."
  },
  {
   "property": "C62",
   "status": "proved",
   "theorems": [
    "c62_lists",
    "c62_freed_refuted",
    "c62_refused_free_refuted"
   ],
   "note": "For all allowed programs: they run to the end without touching entries that are not allocated, the answers are those of the plain lists of ListSpec, and the heap holds exactly the entries of the lists. The limits in the statement are needed: the tail and the length of a freed list stay as they were (c62_freed_refuted), and a list whose callback refuses during kefir_list_free keeps a head that was freed (c62_refused_free_refuted; kefir_list_clear is safe). A removal callback is modelled as a predicate of the value that does not touch the lists; lists are structures the caller holds; NULL arguments are left out."
  },
  {
   "property": "C63",
   "status": "partial",
   "theorems": [
    "c63_text_partial",
    "c63_spaced_partial",
    "c63_hash_refuted",
    "c63_universal_refuted",
    "c63_macro_refuted"
   ],
   "note": "For all texts and token lists of the printable tokens: names of at most 255 characters and numbers without universal character names, string literals whose elements survive printing (C09), narrow character constants 0 to 127 (C45), all punctuators but the digraphs of #. Left out, because false of the code: %: next to # is printed as ## (c63_hash_refuted), a universal character name is printed as the character, which the tokenizer refuses (c63_universal_refuted), neighbours that macro expansion brings together are joined, -N with N defined as -1 is printed as --1 (c63_macro_refuted), wide character constants and the other literals of c09_round_trip_refuted and c45_refuted. Header name, placemaker and extension tokens are not in the model."
  },
  {
   "property": "C64",
   "status": "partial",
   "theorems": [
    "c64_selects_partial",
    "c64_rejected_partial",
    "c64_phases_agree",
    "c64_built",
    "c64_distinct_refuted",
    "c64_association_types_refuted",
    "c64_default_refuted",
    "c64_lvalue_refuted",
    "c64_copy_refuted"
   ],
   "note": "For all nested selections whose parts are covered by C53 and whose controlling type is compared as C47 says: valid selections are accepted with the selected expression's properties, translation and constant value; analyzer, evaluator and translator agree on every accepted selection (c64_phases_agree, without conditions). Rejection holds given the constraints that the code does not check: associations of compatible types (c64_distinct_refuted), of incomplete, function or variably modified type (c64_association_types_refuted), and an invalid default that is not taken (c64_default_refuted) are accepted. kefir_ast_translate_lvalue has no case for selections, so none can be assigned to or have its address taken (c64_lvalue_refuted). Copying a selection allocates the size of a pointer for each association and writes two (c64_copy_refuted). Selections below other operators are not in the model."
  },
  {
   "property": "C65",
   "status": "partial",
   "theorems": [
    "c65_search_partial",
    "c65_not_found",
    "c65_fallback",
    "c65_insertion_partial",
    "c65_skipped_partial",
    "c65_missing_rejected",
    "c65_self_inclusion",
    "c65_search_refuted",
    "c65_extra_tokens_refuted",
    "c65_unbalanced_refuted"
   ],
   "note": "For all file systems and include directories the file opened is that of the first non-empty place; a directory of that name or a path through a non-directory at an earlier place ends the search with an error instead of being passed over (c65_search_refuted). For all balanced files, nested to any depth, #include gives exactly the scope and output of the inserted text (c65_insertion_partial: an equivalence; c65_skipped_partial: lines in skipped groups, guarded recursion). A header that leaves an #if open is accepted and closed at its end (c65_unbalanced_refuted), tokens after the name are dropped (c65_extra_tokens_refuted), and there is no limit on the depth but the stack (c65_self_inclusion). Assumed: names that do not depend on the macro scope; text lines that mean the same in both files (no __FILE__, __LINE__ or invocation across the boundary)."
  },
  {
   "property": "C66",
   "status": "partial",
   "theorems": [
    "c66_size_partial",
    "c66_whole_elements",
    "c66_string",
    "c66_expression_rejected",
    "c66_deep_designator_refuted",
    "c66_negative_index_refuted",
    "c66_string_list_refuted"
   ],
   "note": "For all element types and lists in which a designator of several levels is not followed by another designator, the size is one more than the greatest index of an element in which anything is placed; for lists whose elements initialize whole elements the indices are those of a separate specification and the list is accepted (c66_whole_elements). A designator after one of several levels drops its layers without an event: int a[][2] = {[5][1] = 1, [0] = {2, 3}} gets one element (c66_deep_designator_refuted). Negative indices are accepted and converted: int a[] = {[-1] = 1} gets no element (c66_negative_index_refuted); the theorems assume indices whose successor is a kefir_size_t. A list that begins with a string literal is taken for the literal whatever follows (c66_string_list_refuted). Assignability of scalars and the analysis of nested lists, which only reject, are not modelled."
  },
  {
   "property": "C67",
   "status": "partial",
   "theorems": [
    "c67_vector_partial",
    "c67_builder",
    "c67_copy_refuted",
    "c67_empty_realloc_refuted",
    "c67_failed_realloc_refuted",
    "c67_reuse_refuted",
    "c67_overflow_refuted",
    "c67_extend_refuted",
    "c67_copy_empty_refuted"
   ],
   "note": "All sequences of operations on allocated vectors agree with bounded lists and stay within the region, except for copies into vectors with elements (they overwrite the first ones, c67_copy_refuted), reallocations of allocated but empty vectors (refused, c67_empty_realloc_refuted), failing reallocations (the elements are lost, c67_failed_realloc_refuted) and sizes or counts that overflow (c67_overflow_refuted, c67_extend_refuted). Appends of the builder are proved without these exceptions (c67_builder), but a block reallocated to capacity 0 loses its element size (c67_reuse_refuted), and an empty block with room cannot be copied (c67_copy_empty_refuted)."
  },
  {
   "property": "C68",
   "status": "partial",
   "theorems": [
    "c68_alignment_partial",
    "c68_multiple",
    "c68_restricted",
    "c68_pointer_refuted",
    "c68_pointer_rejected_refuted",
    "c68_large_refuted",
    "c68_places_refuted",
    "c68_negative_refuted"
   ],
   "note": "Proved for all lists of declarations of objects and members with alignments of zero or a power of two up to 128, where the declarator leaves the alignment of the type as it is: accepted exactly if the constraints hold, with the strictest alignment, a multiple of that of the type (c68_multiple). Forbidden places are proved to be rejected except as below (c68_restricted). Refuted: the check uses the type before the declarator, so that weakly aligned pointers are accepted and properly aligned ones rejected; alignments from 256 on are dropped silently by a field of 8 bits; registers, unnamed parameters and zero alignments in type definitions are accepted, and so are negative values."
  },
  {
   "property": "C69",
   "status": "partial",
   "theorems": [
    "c69_floating_partial",
    "c69_floating_accepted",
    "c69_floating_unique",
    "c69_integer",
    "c69_no_exponent_refuted",
    "c69_not_restored_refuted"
   ],
   "note": "Every floating constant of the grammar is converted with its type and text (c69_floating_accepted), and every integer constant below 2^64 as in C08 (c69_integer). The converse holds except for exactly two forms (c69_floating_partial): hexadecimal constants without exponent such as 0x1.8 are accepted (c69_no_exponent_refuted), and since the cursor is not restored between the attempts, 0x..5 is taken for .5 (c69_not_restored_refuted). Missing: the values that strtof, strtod and strtold compute from the text."
  },
  {
   "property": "C70",
   "status": "partial",
   "theorems": [
    "c70_line_partial",
    "c70_accepted",
    "c70_constraint",
    "c70_text_partial",
    "c70_scanned",
    "c70_comment_refuted",
    "c70_block_comment_refuted",
    "c70_blank_refuted"
   ],
   "note": "Proved for all operands that begin with the number (c70_line_partial), for the text of all directives with a number alone whose next line does not begin with a comment, with the line numbers of all the text behind it (c70_text_partial; c70_scanned for any directive as the scanner reads it, with the text the scanner leaves), and with what is accepted at all (c70_accepted, c70_constraint). Refuted: a comment at the beginning of the next line belongs to the token that ends the directive, so that its lines are not counted (c70_comment_refuted, c70_block_comment_refuted); a comment in front of the number makes the directive an error (c70_blank_refuted). Missing: spliced lines and the macro replacement of the operands."
  }
 ]
}