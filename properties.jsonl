{"id": "C01", "title": "Symbol/identifier tables behave as finite maps", "statement": "Starting from an empty hash tree, after any sequence of insert/delete/lookup calls, a lookup returns exactly the value most recently inserted and not yet deleted for that key; insert of a present key reports ALREADY_EXISTS and changes nothing; delete of an absent key reports NOT_FOUND and changes nothing. This holds whatever hash function is used, including one where many keys collide.", "quantifier": "every finite history of operations, every hash function and every key/value assignment", "why_tests_cant": "The shape of the unbalanced tree depends on the whole history and on which keys collide; tests sample a few histories and essentially never produce colliding 64-bit hashes.", "anchors": ["source/core/hashtree.c: kefir_hashtree_insert, kefir_hashtree_at, kefir_hashtree_has, kefir_hashtree_delete, node_find, node_insert"]}
{"id": "C02", "title": "Table iteration visits each entry exactly once, in hash order", "statement": "Walking a hash tree with iter/next yields every stored key/value pair exactly once, in nondecreasing order of hash, for every tree produced by any history of inserts and deletes, including trees with colliding hashes; it terminates.", "quantifier": "every tree reachable by inserts and deletes, every hash function", "why_tests_cant": "The successor search climbs parents comparing hashes rather than keys; whether equal hashes make it skip or repeat nodes depends on tree shapes a test suite does not enumerate.", "anchors": ["source/core/hashtree.c: kefir_hashtree_iter, kefir_hashtree_next, min_node"]}
{"id": "C03", "title": "Interned symbols are canonical", "statement": "Interning a string twice returns the same symbol, and two different strings never return the same symbol, across any history of interning; previously returned symbols stay valid for lookups.", "quantifier": "every history of intern requests over arbitrary strings", "why_tests_cant": "Canonicity is a relation between all pairs of requests in an unbounded history.", "anchors": ["source/core/symbol_table.c: kefir_symbol_table_insert, kefir_symbol_table_get"]}
{"id": "C04", "title": "String buffers hold exactly what was appended and are terminated", "statement": "After any sequence of appends (in the mode of the buffer) the contents are the concatenation of the encodings of the appended characters, the length is exact, writes never exceed the capacity and the contents are followed by a terminator.", "quantifier": "every sequence of appended characters and every buffer mode", "why_tests_cant": "Growth happens at data-dependent lengths; off-by-one defects show only at particular lengths and encodings (e.g. surrogate pairs).", "anchors": ["source/core/string_buffer.c: kefir_string_buffer_insert, kefir_string_buffer_insert_raw, insert_buffer, kefir_string_buffer_insert_unicode16_character, kefir_string_buffer_value"]}
{"id": "C05", "title": "Sparse static-initializer storage reads back the last write", "statement": "After any sequence of element writes to IR static data, reading a slot gives the last value written to that slot, and slots never written read as undefined (zero), independently of how slots fall into storage blocks.", "quantifier": "every sequence of (slot, value) writes within the data size", "why_tests_cant": "Storage is split into lazily created blocks; errors appear only for particular slot/boundary combinations.", "anchors": ["source/ir/data.c: kefir_ir_data_set_integer, kefir_ir_data_value_at", "source/core/block_tree.c: kefir_block_tree_get_block, kefir_block_tree_block"]}
{"id": "C06", "title": "Backslash-newline splicing is invisible to the lexer", "statement": "The character the lexer sees at distance k, and the character it sees after advancing k characters, are both the k-th character of the text with all backslash-newline pairs deleted.", "quantifier": "every input text, every position and look-ahead distance", "why_tests_cant": "Splices can fall between any two characters and at any look-ahead distance; tests cover only a few placements.", "anchors": ["source/lexer/source_cursor.c: kefir_lexer_source_cursor_at, kefir_lexer_source_cursor_next"]}
{"id": "C07", "title": "Punctuators are recognised by maximal munch", "statement": "At any position, the recognised punctuator is the longest C17 punctuator (digraphs included) that is a prefix of the remaining text; if some punctuator is a prefix then one is recognised.", "quantifier": "every remaining source text", "why_tests_cant": "The remaining text is unbounded and the failure cases are strings where a long punctuator is begun but not completed.", "anchors": ["source/lexer/tokens/punctuator.c: kefir_lexer_init_punctuators, match_impl, kefir_lexer_match_punctuator"]}
{"id": "C08", "title": "Integer constants get the right value and the right type", "statement": "A decimal, octal or hexadecimal integer constant with any suffix denotes its mathematical value and is given the first type in the C17 6.4.4.1 list that can represent it; a constant no listed type can represent is rejected.", "quantifier": "every digit string in every base and every suffix", "why_tests_cant": "The digit string is unbounded, and the interesting failures are at 2^31, 2^32, 2^63, 2^64 and beyond.", "anchors": ["source/lexer/tokens/integer_constant.c: next_decimal_constant, next_hexadecimal_constant, next_octal_constant, scan_suffix, kefir_lexer_scan_integral_constant, get_permitted_constant_types, make_integral_constant, build_integral_constant"]}
{"id": "C09", "title": "Preprocessed string literals re-lex to the same characters", "statement": "Printing a string literal in preprocess-only output and lexing the printed text again gives back exactly the same sequence of bytes.", "quantifier": "every string literal content", "why_tests_cant": "Content is arbitrary byte sequences; failures depend on adjacency (NUL followed by a digit) and on byte values above 127.", "anchors": ["source/preprocessor/format.c: format_string_literal, format_char", "source/lexer/tokens/characters.c: next_simple_escape_sequence, next_octal_escape_sequence, kefir_lexer_cursor_next_escape_sequence"]}
{"id": "C10", "title": "Conditional inclusion selects exactly the right groups", "statement": "For a file whose #if/#ifdef/#ifndef/#elif/#else/#endif directives nest properly, the lines processed are exactly those the C standard selects: in each conditional, the first group whose condition holds (conditions evaluated lazily and in the macro state at that point), or the #else group, and nothing of a skipped group has any effect.", "quantifier": "every well-nested source file, every truth assignment to conditions", "why_tests_cant": "Nesting depth and the interleaving of skipped and taken groups are unbounded.", "anchors": ["source/preprocessor/preprocessor.c: run_directive, process_if, process_elif, kefir_preprocessor_skip_group, kefir_preprocessor_run_group"]}
{"id": "C11", "title": "Macro expansion terminates and rescans without re-expanding a macro inside itself", "statement": "Expanding any token sequence under any set of object-like macro definitions terminates, and the result is the token sequence defined by C17 6.10.3 (rescanning, with a macro name not re-expanded inside its own expansion).", "quantifier": "every set of macro definitions and every token sequence", "why_tests_cant": "Definitions can be mutually recursive in unboundedly many ways; a test either hangs or does not.", "anchors": ["source/preprocessor/substitutions.c: substitute_identifier, run_substitutions, kefir_preprocessor_run_substitutions", "source/preprocessor/token_sequence.c: kefir_preprocessor_token_sequence_current", "source/preprocessor/user_macro.c"]}
{"id": "C12", "title": "Token pasting of punctuators is complete and sound", "statement": "Pasting two punctuators succeeds exactly when the concatenation of their spellings is the spelling of a punctuator, and yields that punctuator.", "quantifier": "every ordered pair of punctuators", "why_tests_cant": "The set is finite but large (54x54); the property ties a hand-written table to the lexical grammar.", "anchors": ["source/preprocessor/user_macro.c: macro_concat_punctuators, Combinations", "source/lexer/tokens/punctuator.c: insert_punctuator, kefir_lexer_init_punctuators"]}
{"id": "C13", "title": "Macro definitions follow define/undef history and scope", "statement": "After any sequence of define/undef operations in nested macro scopes, a name resolves to its latest definition not undefined since, the innermost scope taking precedence.", "quantifier": "every history of define/undef operations and scope chains", "why_tests_cant": "History-dependent property over unbounded sequences.", "anchors": ["source/preprocessor/user_macro.c: kefir_preprocessor_user_macro_scope_insert, kefir_preprocessor_user_macro_scope_remove, kefir_preprocessor_user_macro_scope_at"]}
{"id": "C14", "title": "Expressions are parsed with C precedence and associativity", "statement": "Printing any expression tree with the parentheses C17 grammar requires (and no others) and parsing the tokens gives back exactly that tree, and consumes exactly those tokens.", "quantifier": "every expression tree built from binary, unary, postfix, conditional, assignment, comma, call, subscript and member operators", "why_tests_cant": "Trees are unbounded; precedence/associativity mistakes show only in specific operator combinations at specific nesting.", "anchors": ["source/parser/rules/expression.c", "source/parser/rules/assignment_expression.c", "source/parser/rules/conditional_expression.c", "source/parser/rules/logical_expression.c: LOGICAL_RULE", "source/parser/rules/bitwise_expression.c: BITWISE_RULE", "source/parser/rules/equality_expression.c", "source/parser/rules/relational_expression.c", "source/parser/rules/shift_expression.c", "source/parser/rules/additive_expression.c", "source/parser/rules/multiplicative_expression.c", "source/parser/rules/unary_expression.c", "source/parser/rules/postfix_expression.c: scan_postfixes", "source/parser/rules/primary_expression.c", "source/parser/builder.c", "source/parser/parser.c: kefir_parser_apply, kefir_parser_try_invoke"]}
{"id": "C15", "title": "Failed parse alternatives consume nothing", "statement": "When an expression rule reports no match, the token cursor is where it was before the attempt; parsing always terminates and never moves the cursor backwards on success.", "quantifier": "every token sequence", "why_tests_cant": "Any token sequence is possible input; backtracking defects depend on the exact prefix read.", "anchors": ["source/parser/parser.c: kefir_parser_apply, kefir_parser_try_invoke", "source/parser/cursor.c"]}
{"id": "C16", "title": "Integer promotions and usual arithmetic conversions follow C17", "statement": "For any two arithmetic types the common type has the width and signedness prescribed by C17 6.3.1.1/6.3.1.8 for LP64, and does not depend on the order of operands.", "quantifier": "every ordered pair of arithmetic types, enumeration types included", "why_tests_cant": "The rule is a table over all pairs of types; tests check a handful.", "anchors": ["source/ast/type_conv.c: kefir_ast_type_int_promotion, kefir_ast_type_common_arithmetic", "source/ast/type/basic.c: kefir_ast_type_is_signed, kefir_ast_type_flip_integer_singedness"]}
{"id": "C17", "title": "Type compatibility is reflexive and symmetric", "statement": "Every type is compatible with itself, and T1 is compatible with T2 exactly when T2 is compatible with T1; the check never dereferences a missing component.", "quantifier": "every pair of (arbitrarily nested) C types", "why_tests_cant": "Types are unbounded trees and each kind has its own comparison function in each direction.", "anchors": ["source/ast/type/basic.c: compatible_basic_types", "source/ast/type/pointer.c", "source/ast/type/array.c", "source/ast/type/qualified.c", "source/ast/type/function.c: compatible_function_types", "source/ast/type/enum.c", "source/ast/type/struct.c", "source/ast/type.c", "headers/kefir/ast/type.h: KEFIR_AST_TYPE_COMPATIBLE"]}
{"id": "C18", "title": "Structures and unions are compatible only if their members are", "statement": "Two complete structure (or union) types with the same tag are reported compatible only if they have corresponding members with compatible types, equal widths and equal alignments.", "quantifier": "every pair of complete structure/union types", "why_tests_cant": "Quantifies over all member lists.", "anchors": ["source/ast/type/struct.c: compatible_structure_types, compatible_union_types"]}
{"id": "C19", "title": "Merging function specifiers is order independent", "statement": "The inline/noreturn specifier set of a function after any sequence of declarations does not depend on the order of the declarations and never loses a specifier.", "quantifier": "every finite sequence of declarations", "why_tests_cant": "Sequence property over unbounded histories.", "anchors": ["source/ast/type.c: kefir_ast_context_merge_function_specifiers"]}
{"id": "C20", "title": "Integer constant expressions evaluate to the value C prescribes", "statement": "When an integer constant expression has a defined value under C17, the compile-time evaluator (used for array bounds, case labels, enumerators, bit-field widths, #if, static initializers) produces that value.", "quantifier": "every integer constant expression over all integer types", "why_tests_cant": "Expressions are unbounded trees; the evaluator works in 64 bits whatever the type, so failures depend on value ranges.", "anchors": ["source/ast/constant_expression/binary_operation.c", "source/ast/constant_expression/unary_operation.c", "source/ast/constant_expression/cast_operator.c", "source/ast/constant_expression/conditional_operator.c"]}
{"id": "C21", "title": "The constant evaluator itself never executes undefined behaviour", "statement": "Evaluating any constant expression, including erroneous ones (division or remainder by zero, overflow, bad shift counts), ends in a value or a reported error; the compiler itself does not crash.", "quantifier": "every constant expression", "why_tests_cant": "Any input program may contain such an expression; absence of crashes is a universal claim.", "anchors": ["source/ast/constant_expression/binary_operation.c: kefir_ast_evaluate_binary_operation_node"]}
{"id": "C22", "title": "Compiled integer expressions compute the C value", "statement": "For every well-typed integer expression (constants, variables, casts, arithmetic, bitwise, shift, relational, equality, logical, comma, assignment, increment/decrement) whose evaluation is defined by C17, running the translated stack code leaves exactly the representation of the C value on top of an otherwise unchanged operand stack and performs exactly the C side effects on memory.", "quantifier": "every expression tree, every type assignment, every initial memory and operand stack", "why_tests_cant": "Compiler correctness is a statement over all programs and all run-time values.", "anchors": ["source/ast-translator/nodes/binary_operation.c", "source/ast-translator/nodes/unary_operation.c", "source/ast-translator/typeconv.c", "source/runtime/amd64_sysv.s"]}
{"id": "C23", "title": "Integer conversions produce the converted value", "statement": "Translated conversion code between any two integer types maps the representation of v to the representation of v converted per C17 6.3.1.3 (and to 0/1 for _Bool).", "quantifier": "every pair of integer types and every source value", "why_tests_cant": "2^64 source values per type pair.", "anchors": ["source/ast-translator/typeconv.c: kefir_ast_translate_typeconv, kefir_ast_translate_typeconv_normalize, cast_to_integer"]}
{"id": "C24", "title": "Logical operators short-circuit", "statement": "In translated && and || the second operand is evaluated exactly when C requires it, and the result is 0 or 1.", "quantifier": "every pair of operand expressions and every state", "why_tests_cant": "Quantifies over all operands and states; the implementation uses jumps with back-patched targets.", "anchors": ["source/ast-translator/nodes/binary_operation.c: translate_logical_and, translate_logical_or"]}
{"id": "C25", "title": "Compound assignment has the value and effect of the expanded assignment", "statement": "E1 op= E2 stores E1 op E2 (with the usual conversions, converted to the type of E1) and has that stored value as its own value.", "quantifier": "every operator, every pair of operand types and all operand values", "why_tests_cant": "Depends on type pair and value ranges; individual tests rarely observe the expression value.", "anchors": ["source/ast-translator/nodes/assignment_operator.c: translate_multiplication, translate_divide, translate_modulo_bitwise, translate_add, translate_subtract, store_value, kefir_ast_translate_assignment_operator_node"]}
{"id": "C26", "title": "Conditional expressions have the value of the selected branch in the common type", "statement": "c ? a : b evaluates c once, then exactly one of a and b, and yields its value converted to the common type.", "quantifier": "every operand triple, all types and states", "why_tests_cant": "The error case appears only for branches of different types and particular values.", "anchors": ["source/ast-translator/nodes/conditional_operator.c: kefir_ast_translate_conditional_operator_node", "source/ast/analyzer/nodes/conditional_operator.c"]}
{"id": "C27", "title": "Compiled statements follow C control flow", "statement": "For every statement built from blocks, if/else, while, do, for, switch, break, continue and expression statements, executing the translated code has exactly the effects and control flow of the C abstract machine, including non-termination behaviour.", "quantifier": "every statement tree and initial state, every (terminating) execution of any length", "why_tests_cant": "Executions are unbounded and loops nest arbitrarily.", "anchors": ["source/ast-translator/nodes/conditional_statement.c", "source/ast-translator/nodes/while_statement.c", "source/ast-translator/nodes/do_while_statement.c", "source/ast-translator/nodes/for_statement.c", "source/ast-translator/nodes/switch_statement.c", "source/ast-translator/nodes/break_statement.c", "source/ast-translator/nodes/compound_statement.c", "source/ast-translator/nodes/expression_statement.c", "source/ast-translator/flow_control.c"]}
{"id": "C28", "title": "Operand stack is balanced", "statement": "Executing any translated expression pushes exactly one slot (none for void), and any translated statement leaves the operand stack at its original height on every exit path.", "quantifier": "every statement tree, every execution path", "why_tests_cant": "Imbalances accumulate only along particular paths (e.g. loops around a switch taking default), which testing with small loops does not reveal.", "anchors": ["source/ast-translator/nodes/switch_statement.c", "source/ast-translator/nodes/for_statement.c", "source/ast-translator/nodes/expression_statement.c"]}
{"id": "C29", "title": "Forward jumps reach their label", "statement": "Whatever the order in which labels are placed and jumps to them are emitted, in the finished code every jump emitted for a label targets the place of that label, and no other instruction is altered.", "quantifier": "every interleaving of emit/place operations over any number of labels", "why_tests_cant": "The order of resolving and referencing is unbounded.", "anchors": ["source/ast-translator/flow_control.c: kefir_ast_translator_flow_control_point_resolve, kefir_ast_translator_flow_control_point_reference, patch_command"]}
{"id": "C30", "title": "switch dispatches to the matching case", "statement": "A switch statement transfers control to the case label whose constant, converted to the promoted type of the controlling expression, equals its value; otherwise to default or past the statement.", "quantifier": "every set of case constants, every controlling value and type", "why_tests_cant": "Quantifies over all label sets and values.", "anchors": ["source/ast-translator/nodes/switch_statement.c: kefir_ast_translate_switch_statement_node"]}
{"id": "C31", "title": "Bit-field stores change only their own bits", "statement": "Storing to a bit-field and reading it back gives the value modulo 2^width (sign-extended for signed fields), and every bit of memory outside the field keeps its value.", "quantifier": "every offset, width, container contents and stored value", "why_tests_cant": "2^64 contents times all offset/width pairs; edge widths (64, byte-straddling) matter.", "anchors": ["source/ast-translator/value.c: load_bitfield, store_bitfield", "source/runtime/amd64_sysv.s: extubits, extsbits, insertbits"]}
{"id": "C32", "title": "Bit-fields never overlap and never straddle their storage unit", "statement": "Within a structure, the bits assigned to different bit-fields are disjoint, no field crosses a boundary of its declared type, and a zero-width field makes the next field start at a boundary of its type.", "quantifier": "every sequence of bit-field and ordinary member declarations", "why_tests_cant": "Layouts depend on the whole preceding member sequence.", "anchors": ["source/codegen/amd64/system-v/bitfields.c: amd64_sysv_bitfield_next, amd64_sysv_bitfield_next_colocated", "source/ast-translator/type_translate.c: translate_bitfield"]}
{"id": "C33", "title": "Structure and array layout obeys the ABI", "statement": "Members are at increasing non-overlapping offsets, each offset is a multiple of the member's alignment, the size is a multiple of the alignment of the structure (and at least the end of the last member), a union's size covers each member, and array elements are contiguous.", "quantifier": "every (arbitrarily nested) structure/union/array type without explicit alignment specifiers", "why_tests_cant": "Types are unbounded trees.", "anchors": ["source/codegen/amd64/system-v/abi/data_layout.c: update_compound_type_layout, calculate_struct_union_layout, calculate_array_layout", "source/codegen/util.c: kefir_codegen_pad_aligned"]}
{"id": "C34", "title": "Aggregate classification follows the System V psABI", "statement": "The eightbyte classes assigned to an aggregate equal those of the psABI algorithm (each scalar at its real offset contributes its class to its eightbyte; merge; post-merger).", "quantifier": "every aggregate type", "why_tests_cant": "Interoperability with other compilers over all aggregates; defects appear only for particular nestings/paddings.", "anchors": ["source/codegen/amd64/system-v/abi/qwords.c", "source/codegen/amd64/system-v/abi/registers.c: assign_nested_scalar, assign_nested_struct, assign_nested_union, assign_nested_array, aggregate_postmerger, kefir_amd64_sysv_parameter_classify"]}
{"id": "C35", "title": "Argument locations never collide", "statement": "For every parameter list, the integer registers, SSE registers and stack areas assigned to parameters are pairwise disjoint, in order, within the available register set, and stack areas are aligned for their type.", "quantifier": "every parameter list of any length", "why_tests_cant": "Lists are unbounded and the allocation is stateful.", "anchors": ["source/codegen/amd64/system-v/abi/registers.c: kefir_amd64_sysv_parameter_allocate, integer_allocate, sse_allocate, long_double_allocate, memory_allocate, aggregate_allocate"]}
{"id": "C36", "title": "Emitted static data matches the layout", "statement": "The bytes emitted for a statically initialised object have exactly the size of the type, and each initialised scalar appears at the offset the layout assigns to it, everything else being zero.", "quantifier": "every type and every set of initialised slots", "why_tests_cant": "Padding arithmetic is done independently of the layout computation; agreement must hold for all nestings.", "anchors": ["source/codegen/amd64/system-v/abi/static_data.c", "source/codegen/amd64/system-v/abi/data_layout.c"]}
{"id": "C37", "title": "No static initializer is dropped", "statement": "If a static object has any explicitly initialised scalar, the object is emitted with its initialised data rather than as zero-filled storage.", "quantifier": "every type and every set of initialised slots", "why_tests_cant": "Depends on the position of the initialised slot relative to storage-block boundaries.", "anchors": ["source/ir/data.c: finalize_array, finalize_struct_union, finalize_scalar, kefir_ir_data_finalize", "source/codegen/amd64/amd64-sysv.c: cg_translate_data_storage"]}
{"id": "C38", "title": "Flattened IR types are navigated consistently", "statement": "For every IR type, the flattened entry list, the recursive lengths, slot counts and the type tree describe the same tree: visiting children reaches each child exactly once at the right index and slot, and child slot ranges are disjoint and inside the parent.", "quantifier": "every IR type tree", "why_tests_cant": "Unbounded trees; index arithmetic is spread over several functions.", "anchors": ["source/ir/type.c: kefir_ir_type_node_total_length, kefir_ir_type_node_slots, kefir_ir_type_visitor_list_nodes, kefir_ir_type_iterator_goto_index", "source/ir/type_tree.c"]}
{"id": "C39", "title": "Static bit-field initializers set only their own bits", "statement": "Setting a bit-field in static data changes exactly bits [offset, offset+width) of the slot to the low bits of the value.", "quantifier": "every offset, width, old contents and value", "why_tests_cant": "Mask arithmetic over 64-bit words.", "anchors": ["source/ir/data.c: kefir_ir_data_set_bitfield"]}
{"id": "C40", "title": "Positional initializers visit members in declaration order", "statement": "Initializer elements without designators are assigned to the scalar sub-objects in declaration order, unions contributing their first member, unnamed bit-fields being skipped, and a designator continues from the designated member.", "quantifier": "every aggregate type and initializer list", "why_tests_cant": "Unbounded nesting; the traversal keeps a stack of partially visited aggregates.", "anchors": ["source/ast/analyzer/type_traversal.c: kefir_ast_type_traversal_next, kefir_ast_type_traversal_next_recursive, skip_unnamed_bitfields"]}
{"id": "C41", "title": "va_arg delivers the arguments in order", "statement": "Repeated fetches of variadic integer and floating arguments return the arguments passed, in order, independently of how many were passed in registers and how many on the stack.", "quantifier": "every list of variadic scalar arguments and every mix of fetch types matching it", "why_tests_cant": "The register/stack boundary depends on the count of each class.", "anchors": ["source/runtime/amd64_sysv.s: __kefirrt_load_integer_vararg, __kefirrt_load_sse_vararg, __kefirrt_save_registers", "source/codegen/amd64/system-v/abi/vararg.c"]}
{"id": "C42", "title": "Token look-ahead and macro substitution keep token order", "statement": "A token sequence with pushed-back buffers yields the tokens of the buffers in stack order and loses or duplicates none, whatever the interleaving of reads and pushes.", "quantifier": "every interleaving of reads and pushes", "why_tests_cant": "Interleavings are unbounded.", "anchors": ["source/preprocessor/token_sequence.c: kefir_preprocessor_token_sequence_current, kefir_preprocessor_token_sequence_next, kefir_preprocessor_token_sequence_push_front"]}
{"id": "C43", "title": "Source locations are the physical line and column", "statement": "At every moment of lexing, the line and column recorded in the source cursor are the line and column, in the physical source text, of the character the cursor stands on, also after backslash-newline splices and multibyte characters.", "quantifier": "every source text and every sequence of advances", "why_tests_cant": "Depends on every placement of newlines, splices and multibyte characters.", "anchors": ["source/lexer/source_cursor.c: kefir_lexer_source_cursor_init, next_impl"]}
{"id": "C44", "title": "Adjacent string literals are concatenated", "statement": "Two adjacent string literals are replaced by one literal whose characters are those of the first followed by those of the second, in the encoding given by their prefixes; literals with different prefixes are not joined.", "quantifier": "every pair of literals and every pair of encoding prefixes", "why_tests_cant": "The number of combinations of prefixes and contents is unbounded; the conversion re-decodes the bytes of the literals.", "anchors": ["source/preprocessor/convert.c: append_string_literal, join_string_literals_impl", "source/core/string_buffer.c: kefir_string_buffer_convert, kefir_string_buffer_merge"]}
{"id": "C45", "title": "Preprocessed character constants re-lex to the same constant", "statement": "Printing a character constant in preprocess-only output and lexing the printed text again gives back a constant of the same type with the same value.", "quantifier": "every character constant", "why_tests_cant": "Values, prefixes and multi-character constants are many; the failures depend on the prefix and on values above 127.", "anchors": ["source/preprocessor/format.c: format_constant, format_char, format_wchar", "source/lexer/tokens/character_constant.c: match_narrow_character, next_wide_character"]}
{"id": "C46", "title": "Calls of function-like macros expand as the standard defines", "statement": "A call of a function-like macro splits the text between its parentheses into the arguments that C17 6.10.3p10-12 define, substitutes the expanded arguments, the spelling of an argument for # and the joined tokens for ##, and rescans the result as 6.10.3.4 defines.", "quantifier": "every set of macro definitions and every token sequence", "why_tests_cant": "Nesting of calls, arguments and operators is unbounded; each wrong case needs a particular combination of #, ## and rescanning.", "anchors": ["source/preprocessor/substitutions.c: scan_function_macro_arguments, substitute_function_macro", "source/preprocessor/user_macro.c: run_replacement_list_substitutions_impl, macro_concatenation, kefir_preprocessor_user_macro"]}
{"id": "C47", "title": "Type compatibility is that of the standard", "statement": "Two types are reported compatible exactly if C17 6.2.7, 6.7.3, 6.7.6.1-6.7.6.3 make them compatible: equal basic types, enumerations and their integer type, pointers and arrays with compatible elements (and equal constant lengths), identically qualified types, functions with compatible results and parameters (after adjustment and without top-level qualifiers, with the rules for declarators without prototypes), structures with matching members.", "quantifier": "every pair of (arbitrarily nested) C types", "why_tests_cant": "Types are unbounded trees, and the relation mixes an identity shortcut with a structural comparison.", "anchors": ["headers/kefir/ast/type.h: KEFIR_AST_TYPE_COMPATIBLE", "source/ast/type/array.c: compatible_array_types", "source/ast/type/function.c: compatible_function_types", "source/ast/type/qualified.c", "source/ast/type/enum.c", "source/ast/type/struct.c", "source/ast/type_conv.c: kefir_ast_type_conv_adjust_function_parameter"]}
{"id": "C48", "title": "Automatic objects alive together never share storage", "statement": "In the frame laid out for a function, two different automatic objects that are alive at the same point of the execution (the block of each encloses or is the current block) occupy disjoint bytes; every object lies inside the area of the locals at an address that is a multiple of its alignment; the internal area, temporaries, register parameters, register save area and locals do not overlap, and parameters are stored inside the area reserved for them.", "quantifier": "every tree of block scopes with objects of arbitrary types, every set of temporaries and register parameters, variadic or not", "why_tests_cant": "Blocks nest without bound; the IR type built for them announces members that are not there (empty blocks are counted but add no entry), so correctness rests on how the layout reads past them.", "anchors": ["source/ast-translator/scope/local_scope_layout.c: traverse_local_scope", "source/ast-translator/misc.c: kefir_ast_translator_resolve_type_layout", "source/codegen/amd64/system-v/abi/function.c: calculate_frame", "source/codegen/amd64/system-v/abi/prologue.c: load_reg_aggregate", "source/runtime/amd64_sysv.s: __kefirrt_preserve_state"]}
{"id": "C49", "title": "Declaration specifiers denote what the standard says", "statement": "A list of declaration specifiers is accepted exactly if C17 6.7.1-6.7.5 allow it, in whatever order the specifiers stand, and gives the type of the table in 6.7.2p2, the set of type qualifiers that occur, the storage class of 6.7.1p2 (with _Thread_local beside static or extern), the function specifiers that occur, and the strictest alignment specified, which is not below that of the type.", "quantifier": "every list of type specifiers, qualifiers, storage-class, function and alignment specifiers of any length, mixed in any order", "why_tests_cant": "The analyzer is a state machine over three variables; the orders and repetitions of specifiers are unbounded and a wrong transition shows only for particular ones.", "anchors": ["source/ast/analyzer/declarator.c: resolve_type, apply_type_signedness, resolve_qualification, resolve_storage_class, resolve_function_specifier, evaluate_alignment, analyze_declaration_specifiers_impl"]}
{"id": "C50", "title": "Declarators denote the type of 6.7.6", "statement": "A sequence of tokens is parsed as a declarator or an abstract declarator exactly if the grammar of C17 6.7.6 and 6.7.7 derives it; the declared identifier and type are those obtained by reading the derivation outwards from the identifier: pointers with their qualifiers, arrays with their length, functions with their parameters, where parameters declared as arrays or functions are adjusted to pointers. A type that violates the constraints of 6.7.6.2p1, 6.7.6.3p1 or 6.7.6.3p4 in any component is refused.", "quantifier": "every declarator of any depth, with any nesting of pointers, arrays, functions, parentheses and parameter lists, any typedef names in scope, whatever follows the declarator", "why_tests_cant": "Declarators nest without bound, the parser backtracks between named and abstract declarators, and the analyzer builds the type inside out; a wrong order of derivations shows only in particular nestings.", "anchors": ["source/parser/rules/declarator.c: kefir_parser_scan_declarator, scan_direct_declarator_tail, scan_array_impl, scan_function_impl, kefir_parser_scan_abstract_declarator", "source/parser/rules/declaration_specifier.c: kefir_parser_scan_declaration_specifier_list", "source/ast/analyzer/declarator.c: resolve_pointer_declarator, resolve_array_declarator, resolve_function_declarator, analyze_declaration_declarator_impl", "source/ast/type_conv.c: kefir_ast_type_conv_adjust_function_parameter", "source/ast/analyzer/type.c: kefir_ast_analyze_type"]}
{"id": "C51", "title": "Composite types are those of 6.2.7", "statement": "Two types have a composite type exactly if they are compatible. The composite type is compatible with both and is built as C17 6.2.7p3 says: an array has the constant length of either type, else the given variable length; a function has the parameter type list of the one that has one, and if both do, the composite types of the parameters; the rules apply to all types the two are derived from; a structure, union or enumeration is complete if one of the two is.", "quantifier": "every pair of types of any depth", "why_tests_cant": "The combination recurs through pointers, arrays, functions with adjusted parameters and members, and a loss of information in one component matters only for later uses of the declared object.", "anchors": ["headers/kefir/ast/type.h: KEFIR_AST_TYPE_COMPOSITE", "source/ast/type/basic.c: composite_basic_types", "source/ast/type/enum.c: composite_enum_types", "source/ast/type/pointer.c: composite_pointer_types", "source/ast/type/array.c: composite_array_types", "source/ast/type/qualified.c: composite_qualified_types, kefir_ast_type_qualified", "source/ast/type/function.c: composite_function_types, kefir_ast_type_function_parameter", "source/ast/type/struct.c: composite_struct_types, composite_union_types"]}
{"id": "C52", "title": "Names denote the entities of the scope, linkage and definition rules", "statement": "In a translation unit that obeys C17 6.2.1, 6.2.2, 6.7 and 6.9, every declaration and definition is accepted; every use of an ordinary identifier denotes the innermost visible declaration, two uses denote the same entity exactly if they must (same declaration, or same name with linkage), and each shows the kind, type (composite so far), storage duration and linkage that the rules give. The unit has, for each name with linkage, one symbol: imported if there is no definition, exported or local by linkage, thread-local if declared so, with the initial value of its definition or zero for a tentative one. A declaration that violates a constraint is rejected.", "quantifier": "every finite sequence of declarations, enumeration constants, function definitions, blocks and uses of names, with every storage class, over every type system that meets the stated conditions", "why_tests_cant": "Linkage depends on all earlier declarations of the name that are visible, hidden or in closed scopes, and on their order; the analyzer keeps four tables and a stack that must stay consistent along every interleaving.", "anchors": ["source/ast/global_context.c: context_define_identifier, kefir_ast_global_context_declare_external, _define_external, _define_static, _define_constant, _define_type, _declare_function, _define_function, _define_static_function", "source/ast/local_context.c: context_define_identifier, kefir_ast_local_context_declare_external, _define_static, _define_auto, _define_register, _define_type, _declare_function, _resolve_scoped_ordinary_identifier", "source/ast/scope.c: kefir_ast_identifier_block_scope_insert", "source/ast/analyzer/nodes/init_declarator.c", "source/ast/analyzer/nodes/function_definition.c", "source/ast/analyzer/nodes/identifier.c", "source/ast-translator/scope/global_scope_layout.c", "source/ast-translator/scope/translator.c"]}
{"id": "C53", "title": "Expressions are accepted exactly if they meet the constraints of 6.5, with the type the standard gives", "statement": "For an expression in a scope, the analyzer succeeds exactly if the expression satisfies the constraints of C17 6.5 (lvalues, qualifiers, complete types, members, calls, null pointer constants, compatible pointed-to types), and then records the type of 6.5 (promotions, usual arithmetic conversions, composite and qualified pointed-to types), the bit-field width, and whether the expression may be assigned to and have its address taken. It never runs into undefined behaviour.", "quantifier": "every expression tree over identifiers, constants, strings, subscripts, calls, members, all unary, binary and assignment operators, casts, sizeof, _Alignof, the conditional and the comma operator; every scope and all types", "why_tests_cant": "The constraints combine operand kinds, qualifiers at each level, completeness at the point of use and null pointer constants; the combinations are unbounded because operands are themselves expressions of any type.", "anchors": ["source/ast/analyzer/nodes/identifier.c", "source/ast/analyzer/nodes/constant.c", "source/ast/analyzer/nodes/array_subscript.c", "source/ast/analyzer/nodes/function_call.c", "source/ast/analyzer/nodes/struct_member.c", "source/ast/analyzer/nodes/unary_operation.c", "source/ast/analyzer/nodes/binary_operation.c", "source/ast/analyzer/nodes/conditional_operator.c", "source/ast/analyzer/nodes/assignment_operator.c", "source/ast/analyzer/nodes/cast_operator.c", "source/ast/analyzer/assignable.c", "source/ast/analyzer/lvalue_constant_reference.c", "source/ast/type_completion.c"]}
{"id": "C54", "title": "Structure, union and enumeration declarations follow 6.7.2.1-6.7.2.3, and members resolve to the declared types", "statement": "A sequence of declarations and scopes is accepted exactly if it meets the constraints of C17 6.7.2.1-6.7.2.3 and 6.7.6 (kinds of tags, one definition per scope, member types, bit-field widths, flexible array members, distinct names, enumeration constants). Each tag denotes the entity of the innermost scope, a type completed later gets its members, enumeration constants have the values of 6.7.2.2p3 and fit the type of the enumeration. Following pointers, elements and members from a declared name succeeds exactly if the members exist and reaches the declared types.", "quantifier": "every sequence of declarations with nested definitions, declarators and scopes, every path of members and dereferences", "why_tests_cant": "Completion happens by tag name at the time of use, so that correctness depends on the scopes and definitions between declaration and use; definitions nest and refer to themselves without bound.", "anchors": ["source/ast/analyzer/declarator.c", "source/ast/analyzer/type.c", "source/ast/analyzer/nodes/declaration.c", "source/ast/analyzer/nodes/init_declarator.c", "source/ast/analyzer/nodes/struct_member.c", "source/ast/type_completion.c", "source/ast/type/struct.c", "source/ast/global_context.c", "source/ast/local_context.c", "source/ast/context_impl.c", "source/ast-translator/environment.c"]}
{"id": "C55", "title": "Variable length arrays have storage exactly while they are in scope, whatever jumps a function takes", "statement": "Whenever a function evaluates an expression, every variable length array in scope there has an area of its own in the stack storage of the function, disjoint from the others and not released; and nothing but those arrays stays allocated. A function is accepted exactly if labels are defined once, goto statements name a label and do not enter the scope of an array (C17 6.8.6.1p1), break, continue, case and default are in the right statements (6.8.1p2, 6.8.4.2p3, 6.8.6.2p1, 6.8.6.3p1), and no case label is in the scope of an array that does not cover the switch (6.8.4.2p2).", "quantifier": "every function body of nested blocks, loops, switches, labels, jumps, arrays and alloca; every execution with any branches, sizes, alignments, stack top and initial content of the slots", "why_tests_cant": "Whether storage is released too early or never depends on the path of jumps through nested blocks and on arrays declared before or after the jump; the executions are unbounded.", "anchors": ["source/ast/flow_control.c", "source/ast/local_context.c", "source/ast-translator/jump.c", "source/ast-translator/flow_control.c", "source/ast-translator/nodes/compound_statement.c", "source/ast-translator/nodes/switch_statement.c", "source/ast-translator/nodes/goto_statement.c", "source/ast/analyzer/nodes/goto_statement.c", "source/ast/analyzer/nodes/break_statement.c", "source/ast/analyzer/nodes/continue_statement.c", "source/ast/analyzer/nodes/case_statement.c", "source/ast/analyzer/nodes/labeled_statement.c", "source/runtime/amd64_sysv.s"]}
{"id": "C56", "title": "The conditions of #if and #elif have the value that the standard gives them", "statement": "The group after #if or #elif is taken exactly if the controlling expression is not 0, where the defined operators are evaluated first, macros are replaced, the identifiers that remain are 0, white space between tokens does not matter, and the expression is computed in intmax_t and uintmax_t, with the grammar of 6.5 and operands evaluated only where && || ?: ask for them (C17 6.10.1p1, p4). A line that is no such expression is an error.", "quantifier": "every set of macro definitions and every line: any tokens, any nesting of operators, parentheses and constants of any base, suffix and value", "why_tests_cant": "The result depends on the pairs of types and values at every operator and on the chain of replacements; lines and macro sets are unbounded.", "anchors": ["source/preprocessor/preprocessor.c", "source/preprocessor/convert.c", "source/preprocessor/substitutions.c", "source/lexer/tokens/integer_constant.c", "source/parser/rules/conditional_expression.c", "source/ast/constant_expression/binary_operation.c", "source/ast/constant_expression/unary_operation.c", "source/ast/constant_expression/conditional_operator.c"]}
{"id": "C57", "title": "Declarations, statements and translation units are parsed as the grammar and the scope of typedef names say", "statement": "A sequence of tokens that the grammar of C17 6.7-6.9 derives as a translation unit, with each identifier being a typedef name or an ordinary identifier as the declarations in scope at that point say (6.2.1, 6.2.3, 6.7.8), is accepted and gets the syntax tree of that derivation: specifiers, pointers, arrays, functions and parameters of every declarator, bodies of structures and enumerations, initializers with designators, and statements with every else at the nearest if (6.8.4.1p3). No sequence has two trees, and the parser stops on every sequence, well-formed or not.", "quantifier": "every sequence of tokens: any number and nesting of declarations, declarators, blocks, loops and expressions, and any use of the same identifiers in different scopes", "why_tests_cant": "Whether T * x; is a declaration depends on all declarations before it and the blocks they are in; declarators nest without bound, and the parser backtracks over function definitions, declarations, abstract declarators and statements in ways that depend on the whole rest of the input.", "anchors": ["source/parser/scope.c", "source/parser/parser.c", "source/parser/rules/declaration.c", "source/parser/rules/declaration_specifier.c", "source/parser/rules/declarator.c", "source/parser/rules/type_name.c", "source/parser/rules/initializer.c", "source/parser/rules/initializer_list.c", "source/parser/rules/initializer_designation.c", "source/parser/rules/compound_statement.c", "source/parser/rules/labeled_statement.c", "source/parser/rules/selection_statement.c", "source/parser/rules/iteration_statement.c", "source/parser/rules/jump_statement.c", "source/parser/rules/expression_statement.c", "source/parser/rules/function_definition.c", "source/parser/rules/translation_unit.c"]}
{"id": "C58", "title": "The text is divided into preprocessing tokens by the longest match", "statement": "The characters of a source text (after splicing) are divided as C17 5.1.1.2p1 phase 3 and 6.4p4 say: at each point a white-space character or a comment is white space, and otherwise the next token is the longest sequence of characters that is an identifier, a preprocessing number, a character constant, a string literal or a punctuator, with encoding prefixes, escape sequences and universal character names; a single other character is a token too. There is one such division. White space is reported with whether it holds a new-line, names, numbers and punctuators with their spelling, and an identifier that becomes a token of the parser is the keyword of its spelling exactly if it is a keyword. A header name is read as the characters between its delimiters.", "quantifier": "every text: any characters in any order, tokens of any length, comments and literals of any content", "why_tests_cant": "Which token comes next depends on what all kinds of tokens could match at that point (L'a', u8\"\", .5, ..., /*, 1e+x, \\u names), and errors show only for particular neighbours; texts are unbounded.", "anchors": ["source/preprocessor/tokenizer.c", "source/lexer/tokens/whitespace.c", "source/lexer/tokens/pp_number.c", "source/lexer/tokens/identifier.c", "source/lexer/tokens/keyword.c", "source/lexer/tokens/string_literal/string_literal.c", "source/lexer/tokens/character_constant.c", "source/preprocessor/convert.c", "source/util/char32.c", "source/lexer/tokens/pp_header_name.c"]}
{"id": "C59", "title": "A file is read as directives and lines of text as the grammar of C17 6.10 says", "statement": "A line is a directive exactly if its first token, after any white space and comments, is # (or its digraph). The directive is the one its name says, and what is reported of it is what was written: the condition of #if and #elif, the name of #ifdef, #ifndef and #undef, the header name and its form or the tokens of #include, the name, parameters, ellipsis and replacement list of #define (without white space around it), the tokens of #error and #line; a lone # is a null directive and # before any other token a non-directive. A ( makes a macro function-like only directly after its name. All other lines give their tokens, in order, with white space where it was. The next line starts after the new-line that ends the directive, and lines that are no directive of the grammar (repeated parameters, tokens after the name of #ifdef, no white space before a replacement list) are rejected.", "quantifier": "every file: any number of lines of any length, directives of every kind with any operands, comments and white space anywhere", "why_tests_cant": "Directives are recognised on characters, before tokens, and each kind of directive reads its operands in its own way; errors show only for comments, digraphs, digits or blanks in particular places, and files are unbounded.", "anchors": ["source/preprocessor/directives.c", "headers/kefir/preprocessor/directives.h", "source/preprocessor/tokenizer.c", "source/lexer/tokens/pp_header_name.c"]}
{"id": "C60", "title": "The assembly text of a module's data says what was asked for", "statement": "The text that the generator prints for the variables and string literals of a module is a sequence of statements of the assembler. When it is assembled after any other text, every variable has its label in the section of its storage (.data, .tdata, .bss, .tbss), at a multiple of its alignment, and behind it exactly the bytes and addresses it was given; every public string literal has its label in .rodata with its code units behind it, at a multiple of the size of a unit. Nothing assembled before is changed.", "quantifier": "every list of variables and string literals with distinct names, every number, address offset, byte string and alignment, every locale's isprint, every state of the generator and every image assembled so far", "why_tests_cant": "The text is data that another program reads; a wrong escape, sign, digit or separator shows only for particular bytes, offsets or names, and strings and modules are unbounded.", "anchors": ["source/codegen/amd64/asmgen.c", "source/codegen/amd64/system-v/abi/static_data.c", "source/codegen/amd64/amd64-sysv.c", "headers/kefir/codegen/amd64/asmgen.h"]}
{"id": "C61", "title": "The JSON writer prints texts that are read as what was written", "statement": "The writer of JSON (used for the dumps of the syntax tree, tokens and intermediate code) accepts a sequence of calls, and its end, exactly when the calls write whole values nested less than 1024 deep; then what it prints is the texts of these values one after another, whatever the indentation, and a JSON reader (RFC 8259, UTF-8) reads the text of a value as that value: the same nesting and order, the same keys and strings character for character, the same numbers.", "quantifier": "every sequence of calls of the writer, every indentation, every string of characters, every integer of 64 bits and every printed floating-point value, any nesting", "why_tests_cant": "The reader is another program, and sequences of calls, nesting and strings are unbounded; a wrong separator or escape shows only for particular neighbours, depths or characters.", "anchors": ["source/util/json.c", "headers/kefir/util/json.h"]}
{"id": "C62", "title": "Linked lists behave as lists, and their memory is accounted for", "statement": "A program that uses any number of linked lists through the functions of list.c and linked_stack.c (initialising a list before use and again after freeing it, using positions only with the list they belong to, and freeing a list only when its removal callback agrees) never reads, writes or frees an entry that is not allocated; every call ends and answers what the same operation on plain lists of values answers (length, head, tail, element, next, insertion, removal, clearing, moving one list onto another or itself, stack operations), also when malloc fails or a removal callback refuses; callbacks are called once for each removed value in order; and afterwards the heap holds exactly the entries of the lists besides what was there before.", "quantifier": "every allowed sequence of calls on any number of lists, every answer of malloc, every removal callback as a predicate of the value, every heap besides the lists", "why_tests_cant": "Wrong links show only for particular positions and orders of calls, and often only as a read of freed memory; sequences of calls are unbounded.", "anchors": ["source/core/list.c", "source/core/linked_stack.c", "headers/kefir/core/list.h"]}
{"id": "C63", "title": "The preprocess-only output has the tokens of the text", "statement": "The tokens of a source text that holds no directives or macros, printed by kefir_preprocessor_format in either white-space format and divided into tokens again, are the same tokens in the same order: the same names, numbers, literals and punctuators (a digraph may become the punctuator it stands for), nothing joined and nothing split, with white space where there was white space and, in the original format, new-lines where there were new-lines. Printing the result once more gives the same text. The same holds for tokens of any origin (such as macro expansions) if they have white space between them.", "quantifier": "every text that the tokenizer accepts and every list of tokens, both white-space formats, every iswprint", "why_tests_cant": "Whether two tokens run together depends on every pair of neighbours (1e and +, . and 5, L and \", / and *, %: and #), and on how each spelling changes when printed; texts are unbounded.", "anchors": ["source/preprocessor/format.c: kefir_preprocessor_format, format_token, format_punctuator", "source/preprocessor/tokenizer.c", "source/lexer/tokens/whitespace.c", "headers/kefir/preprocessor/format.h"]}
{"id": "C64", "title": "A generic selection stands for the expression that its controlling type selects", "statement": "A generic selection that satisfies the constraints of C17 6.5.1.1 is accepted and has the type and the properties of the expression associated with the type compatible with that of the controlling expression (after lvalue, array and function conversion), or else of the default association; the constant evaluator and the translator take that same expression and neither evaluate nor translate any other, the controlling expression included. A selection that violates a constraint is rejected. The parser keeps the associations in order and admits at most one default. A selection of an lvalue can be used as one, and a copy of a selection is the same selection.", "quantifier": "every generic selection, nested to any depth, with any number of associations, over every scope and type of the expression model", "why_tests_cant": "Three phases choose by themselves, each for every combination of controlling type and association list; nested selections multiply them, and compatibility ranges over all types.", "anchors": ["source/ast/analyzer/nodes/generic_selection.c: kefir_ast_analyze_generic_selection_node", "source/ast/constant_expression/generic_selection.c", "source/ast-translator/nodes/generic_selection.c", "source/ast-translator/lvalue.c: kefir_ast_translate_lvalue", "source/ast/nodes/generic_selection.c: kefir_ast_generic_selection_append, ast_generic_selection_clone", "source/parser/builder.c: kefir_parser_ast_builder_generic_selection_append", "headers/kefir/ast/node.h"]}
{"id": "C65", "title": "#include finds the first file of the search order and acts as the text of that file", "statement": "The file opened for #include is the first readable file among: for the quoted form, the path below the directory of the including file; the path below each include directory in order; the path itself. If the quoted form finds nothing beside the including file it acts as the bracketed form, and a file found at no place is an error. Processing a file with #include lines gives the same macro scope and the same output as processing the text in which each such line is replaced by the contents of the file found, itself expanded likewise relative to its own directory; #include lines in skipped groups have no effect.", "quantifier": "every file system, list of include directories, including file and path; every balanced file with #include lines at any place, nested to any depth, every macro scope and every meaning of text lines, conditions and definitions", "why_tests_cant": "Nested files, conditionals and search places combine without bound; a test sees one directory layout and one nesting.", "anchors": ["source/cli/filesystem_source.c: open_source, try_open_file, open_file", "source/cli/input.c: kefir_cli_input_open", "source/preprocessor/preprocessor.c: process_include, kefir_preprocessor_run", "headers/kefir/preprocessor/source_file.h"]}
{"id": "C66", "title": "An array of unknown size gets the size that its initializer determines", "statement": "When an array of unknown size is initialized by a list, its size is one more than the largest index of an element that the list initializes (C17 6.7.9p22), designated or not, with or without inner braces; initialized by a string literal, in braces or not, its size is the length of the literal with its terminator. Every part of the initializer lies within the completed array, and other expressions and lists that violate the constraints are rejected.", "quantifier": "every element type of aggregates nested to any depth, every initializer list of any length with nested lists, strings, structures and scalars, and designators of any number of levels", "why_tests_cant": "The size is tracked by events of a stack machine over unbounded lists and nesting; only some orders of designators lose it.", "anchors": ["source/ast/analyzer/initializer.c: analyze_array, array_layer_next, array_layer_end, traverse_aggregate_union", "source/ast/analyzer/type_traversal.c: kefir_ast_type_traversal_next, kefir_ast_type_traversal_navigate, pop_layer", "source/ast/initializer.c: kefir_ast_initializer_head"]}
{"id": "C67", "title": "Vectors are bounded sequences, and appends of the IR builder never run out of room", "statement": "A vector behaves as a list of equally sized elements with a bound: appends, extensions and copies add at the end or are refused when there is no room, reads and writes by index reach exactly the element with that number, a change of capacity keeps all elements or leaves the vector as it was, and no operation touches memory outside of the allocated region. The appending functions of the IR builder succeed as long as there is memory, whatever the initial capacity, and the element with number i is the i-th one that was added.", "quantifier": "every element size, every capacity, every sequence of operations, every content and every behaviour of the allocator", "why_tests_cant": "Tests use vectors of a few elements in fresh memory; overflowing sizes, failing reallocations, emptied blocks and copies behind existing elements do not occur in them.", "anchors": ["source/core/vector.c: kefir_vector_init, kefir_vector_at, kefir_vector_append, kefir_vector_copy, kefir_vector_extend, kefir_vector_alloc, kefir_vector_realloc, kefir_vector_free", "source/ir/instr.c: kefir_irblock_alloc, kefir_irblock_realloc, kefir_irblock_copy", "source/ir/builder.c: GROW, kefir_irbuilder_block_appendi64, kefir_irbuilder_type_append"]}
{"id": "C68", "title": "An object gets the strictest alignment that its declarations ask for", "statement": "The declarations of an object or member are accepted exactly if their alignment specifiers meet the constraints of 6.7.5: they stand only in declarations of objects and members, not of types, functions, parameters, bit-fields and registers, ask for zero or a power of two, and for nothing weaker than the alignment of the type declared. The object is then laid out with the strictest alignment of all its declarations, or with that of its type if they ask for none.", "quantifier": "every number of declarations of an object, every list of alignment specifiers in each, every type and every declarator", "why_tests_cant": "Tests align a few integers and arrays to small powers of two; pointers, values that do not fit in a byte, negative values and forbidden places are combinations they do not contain.", "anchors": ["source/ast/analyzer/declarator.c: evaluate_alignment, analyze_declaration_specifiers_impl, process_struct_declaration_entry", "source/ast/context_impl.c: kefir_ast_context_merge_alignment", "source/ast/analyzer/nodes/init_declarator.c: kefir_ast_analyze_init_declarator_node", "source/ast-translator/type_translate.c: kefir_ast_translate_object_type", "headers/kefir/ir/type.h: kefir_ir_typeentry", "source/codegen/amd64/system-v/abi/data_layout.c: update_compound_type_layout"]}
{"id": "C69", "title": "Preprocessing numbers become the floating and integer constants they spell", "statement": "A preprocessing number is converted to a floating constant exactly if its whole text is a floating constant of 6.4.4.2, decimal or hexadecimal, and then has the type of its suffix and the value of the text before it; the text of an integer constant becomes that integer constant, with the value and type of 6.4.4.1.", "quantifier": "every text of a preprocessing number", "why_tests_cant": "Tests convert a few well-formed constants; malformed ones, where one attempt stops in the middle of the text and the next goes on from there, do not occur in them.", "anchors": ["source/lexer/tokens/floating_constant.c: match_fractional_part, match_exponent, match_suffix, match_decimal_impl, match_hexadecimal_fractional_part, match_hexadecimal_exponent, match_hexadecimal_impl, kefir_lexer_scan_floating_point_constant", "source/preprocessor/convert.c: kefir_preprocessor_token_convert", "source/lexer/tokens/integer_constant.c: kefir_lexer_scan_integral_constant"]}
{"id": "C70", "title": "#line gives the following lines the numbers and the file name it says", "statement": "A directive #line with a digit sequence from 1 to 2147483647 and an optional character string literal makes the next line the line of that number, counted on from there by the newlines that follow, and makes the file name that of the literal; a literal of another kind and anything but digits are rejected.", "quantifier": "every list of operand tokens, every text of the directive with a number, and every text behind it", "why_tests_cant": "Tests follow the directive by a line of code; comments at the beginning of the next line or in front of the number, and the digits and white space possible, are not covered.", "anchors": ["source/preprocessor/preprocessor.c: process_line", "source/preprocessor/directives.c: next_line, scan_pp_tokens", "source/lexer/source_cursor.c: next_impl", "source/lexer/tokens/whitespace.c: kefir_lexer_cursor_match_whitespace"]}
