# Formal model of kefir in Coq

The subject is the C17 compiler in `/repo`, read as text only.  The model is
written in Coq 8.16.1 with the standard library; sources are in `rocq/theories`.
Each property of `properties.jsonl` is proved as a theorem over all inputs.  Where
the code does not have the property, a theorem exhibits a witness
(`..._refuted`) and the strongest statement that does hold is proved beside it
(`..._partial` or a theorem with the condition as a hypothesis).
`MANIFEST.json` lists the theorems per property.

## Method

* Model files transcribe C functions into total Gallina functions.  Every
  definition cites the file and lines it models.  Data that the C code mutates is
  threaded explicitly.  Machine integers are `Z` with explicit `mod 2^64`, or an
  explicit undefined-behaviour outcome.  Loops and recursion that Coq cannot see to
  end take a `fuel` argument; the theorems then say that every large enough fuel
  gives the result (or that no fuel does).
* Specification files, or the head of a property file, state what the C standard,
  the psABI or the contract of a data structure says.  They do not mention the
  functions of the model (types shared with the model, such as syntax trees, are
  plain data).
* `Prop*.v` files contain the property theorems, named `cNN_...`.  Each is followed by
  an `Example` that a non-trivial case meets the hypotheses, and by
  `Print Assumptions`.
* `seeded/LOG.jsonl` records the mutation tests: edits of the model that correspond
  to realistic bugs, made in a scratch copy.  `failed_lemmas` are the statements whose
  proofs break; `theorems_failed` are the theorems of the property that no longer build,
  which includes those that merely come after a broken proof, in its file or in a file
  that needs it.  It is not shown that each of them is false of the edited model.

## Trusted base

* Coq's kernel (checked again by `coqchk`).
* `Print Assumptions` prints "Closed under the global context" for every theorem
  of `MANIFEST.json`: no axioms are used, neither own ones nor those of the standard
  library.  No kernel check is switched off, nothing is admitted, there are no
  functors, module types or plugins.
* The transcription of the C code into the model, and the specifications, are
  trusted as read.  The C code itself was neither built nor run.
* Common simplifications: memory allocation succeeds (the `NULL` paths of the
  allocator are left out), argument checks (`REQUIRE(x != NULL)`) that callers always
  satisfy are left out, error values are merged to one failure where no caller tells
  them apart, and sizes do not reach 2^64 unless said otherwise.

## What is modelled

| file | source | left out or simplified |
|------|--------|------------------------|
| `HashtreeModel` | core/hashtree.c: insert, find, delete, min, next, iteration | parent links are contexts (zipper); hash, key equality are parameters |
| `SymtabModel` | core/symbol_table.c | 64-bit id counter unbounded |
| `StrModel` | core/string_buffer.c, lexer/tokens/string_literal/*.c, characters.c, character_constant.c, preprocessor/format.c, convert.c | C library multibyte functions are UTF-8 |
| `IrData` | ir/data.c, core/block_tree.c | |
| `LexModel`, `LexCursor` | lexer/source_cursor.c, tokens/punctuator.c, core/trie.c, tokens/integer_constant.c, punctuator pasting of user_macro.c | floating constants, identifiers, comments |
| `CondModel` | preprocessor/preprocessor.c (group loop), directives.c | the text is given as lines of tokens; conditions are a parameter |
| `MacroModel` | preprocessor/substitutions.c, user_macro.c | see the head of the file; `fmt` of `#` is a parameter |
| `PropScope`, `PropTokenSeq` | user_macro.c scopes, token_sequence.c | |
| `ParseModel` | parser/rules/*expression*.c, cast, unary, postfix, primary, generic selection; parser/cursor.c | type names and initializer lists are parameters |
| `TypeConvModel` | ast/type_conv.c, ast/type.c, ast/type/basic.c | LP64 |
| `CompatModel` | ast/type/*.c: compatible, same; ast/type_conv.c: adjustment and promotion of parameters | C47 states the relation of the standard separately (`PropCompatSpec`) |
| `FrameModel` | ast-translator/scope/local_scope_layout.c (automatic objects), misc.c 114-128, codegen abi/function.c 30-178, prologue.c 194-229, the stack arithmetic of preserve_state and generic_prologue in runtime/amd64_sysv.s | Scopes hold automatic objects only; the frame gets sizes and alignments of temporaries and parameters as input; moving the values into the areas is not modelled |
| `PropFunSpec` | ast/type.c: merging of function specifiers | |
| `ConstEval` | ast/constant_expression/*.c | integer expressions only |
| `ExprCompile` | ast/analyzer/nodes/*.c (types of expressions), ast-translator/{value,lvalue,typeconv,misc}.c and nodes/*.c | floating, void and structure values, calls, sizeof, compound literals |
| `StmtCompile`, `StmtEmit`, `FlowModel` | ast-translator/nodes/*_statement.c, jump.c, flow_control.c | variable length arrays, declarations as assignments, asm |
| `IRMachine` | runtime/amd64_sysv.s: integer opcodes; codegen/.../instr.c addressing | operand stack apart from memory and unbounded |
| `BitfieldModel`, `PropBitAlloc` | ast-translator/value.c, nodes/assignment_operator.c, codegen/.../bitfields.c | |
| `TypeTrans` | ast-translator/type_translate.c | object types |
| `IrType`, `LayoutModel` | ir/type.c, ir/type_tree.c, codegen/.../abi/data_layout.c, codegen/util.c | |
| `ClassModel` | codegen/.../abi/qwords.c, registers.c | container references |
| `StaticData` | codegen/.../abi/static_data.c | output is the bytes the directives denote |
| `TravModel` | ast/analyzer/type_traversal.c, ast/initializer_traversal.c | events, variable length arrays |
| `SpecifierModel` | ast/analyzer/declarator.c:311-702, 949-1013 | the lookup of tags and typedef names |
| `DeclaratorModel` | parser/rules/declarator.c:24-561, ast/analyzer/declarator.c:739-936, ast/analyzer/type.c:55-245 | attributes; specifiers and expressions as tokens; structures in analyze_type; recursion by fuel, proved not to matter |
| `CompositeModel` | ast/type/basic.c:44-59, enum.c:111-122, pointer.c:40-53, array.c:68-130, qualified.c:57-106, function.c:177-219, struct.c:84-132 and 210-279 | as `CompatModel`; length expressions only present or absent |
| `LinkageModel` | ast/global_context.c:108-231, 395-1092, ast/local_context.c:158-271, 416-1105, ast/scope.c, ast/analyzer/nodes/init_declarator.c:29-105, function_definition.c:160-260, identifier.c:29-110, ast-translator/scope/global_scope_layout.c:220-320, translator.c:59-98, 129-200 | types and initializers abstract (what the code asks of them is a parameter); a null composite type fails at once instead of at its next use; alignments, _Noreturn, tags, labels left out |
| `ExprTypeModel` | ast/analyzer/nodes/{identifier,constant,string_literal,array_subscript,function_call,struct_member,unary_operation,cast_operator,binary_operation,conditional_operator,assignment_operator,comma_operator}.c, ast/analyzer/{assignable,lvalue_constant_reference,analyzer}.c, ast/type_conv.c:151-200, ast/type_completion.c, ast/type/struct.c:442-469 | extensions off; scopes and values of constant expressions given with the context; compound literals, generic selections, labels, built-ins, temporaries left out |
| `TagModel` | ast/analyzer/declarator.c:40-310,718-936, ast/analyzer/type.c:25-245, ast/analyzer/nodes/{declaration,init_declarator,struct_member}.c, ast/{context_impl,global_context,local_context}.c (tags and constants), ast/type/struct.c:370-428, ast-translator/environment.c:119-143 | no parameters, alignments, variable lengths, storage classes; names numbered in order of declaration; constant expressions as functions of the constants in scope |
| `VlaModel` | ast/flow_control.c, ast/local_context.c:763-789 and 1134-1166, ast/analyzer/nodes/{labeled,goto,break,continue,case,default}_statement.c, ast-translator/jump.c:28-117, nodes/*_statement.c, runtime/amd64_sysv.s:1097-1176 | points by name instead of patched addresses; expressions are numbers; statement expressions and arrays in the first clause of for absent |
| `PropOperands` | runtime/amd64_sysv.s:1097-1152 (alloca, pushscope, popscope on the operand stack) | memory is a function of 8 byte slots, addresses do not wrap |
| `PpCondModel` | preprocessor/preprocessor.c:327-379, preprocessor/convert.c:8-67 and 220-272, composed with `MacroModel`, `LexModel`, `ParseModel`, `ConstEval` | constants pass the parser model as one coded number; floating constants, strings, casts and what else is no operator on integers are errors in the model |
| `SynModel` | parser/scope.c:24-212, parser/parser.c:78-119, parser/rules/{declaration,declaration_specifier,declarator,type_name,initializer,initializer_list,initializer_designation,identifier,statement,labeled_statement,compound_statement,expression_statement,selection_statement,iteration_statement,jump_statement,function_definition,external_declaration,translation_unit}.c | the rules of expressions are parameters that leave the table of names alone (instantiated by `ParseModel` in `SynExpr`); no _Alignas, _Static_assert, attributes, asm; errors other than no match are one outcome; the C recursion is a step function with fuel, proved enough in `SynTerm` |
| `TokModel` | preprocessor/tokenizer.c:26-84, lexer/tokens/{whitespace,pp_number,identifier,pp_header_name,keyword}.c, preprocessor/convert.c:36-52, util/char32.c:33-46, 105-168 | the logical text without null characters; no lexer extensions; character constants, string literals and punctuators are those of `StrModel` and `LexModel`; a caller that reads to the end is added |
| `DirModel` | preprocessor/directives.c:29-38, 82-606 | the cursor is the text behind it, with newline_flag; recognition is that of `CondModel`, the tokenizer `TokModel`; no locations, memory or interning; kefir_preprocessor_skip_group is in C10; a caller that reads to the end is added |
| `AsmModel` | codegen/amd64/asmgen.c (all), amd64-sysv.c:191-275, and the directives printed by system-v/abi/static_data.c | printf of integers, isprint of the locale as a parameter; no output errors; the visitor of static_data.c (in `StaticData`) is replaced by the list of pieces it prints; `AsmSpec` fixes how GNU as reads data statements, from its manual: part of the specification, not checked against as |
| `JsonModel` | util/json.c (all) | printf of integers and of %lf by value (a double is its sign and its millionths, or inf/nan), the decimal point of the locale as a parameter, %a as given text, mbrtoc32 as a list of characters with their bytes; no output errors or NULL checks; `JsonSpec` is a reader for RFC 8259, part of the specification |
| `ListModel` | core/list.c, core/linked_stack.c (all) | a heap of entries with addresses, undefined when an address holds none; malloc's answer is an argument; a removal callback is a predicate of the value and does not touch lists; loops with a bound that the theorem shows to be reached; no NULL checks |
| `FormatModel` | preprocessor/format.c (format_punctuator, format_token, kefir_preprocessor_format; literals in `StrModel`) | the output is a list of characters, names and numbers decoded as UTF-8; no keyword, header name, placemaker or extension tokens; no I/O errors; kefir_preprocessor_format_string left out |
| `GenericModel` | ast/nodes/generic_selection.c, ast/analyzer/nodes/generic_selection.c, ast/constant_expression/generic_selection.c, ast-translator/nodes/generic_selection.c, ast-translator/lvalue.c:342-366 (which nodes have a case), parser/builder.c:532-635 | selections alone or within selections, over the expressions of `ExprTypeModel`; type names are their types; allocation succeeds; translation and evaluation of other expressions are parameters; a copy keeps the size of each block only |
| `IncludeModel` | cli/filesystem_source.c:49-159, cli/input.c:32-73 (outcome for a path), preprocessor/preprocessor.c:233-285 and 649-689 | realpath, access, open and mmap are a parameter; dirname is modelled; macro scope, text lines and conditions are the parameters of `CondModel`; text lines do not depend on the file they are in; allocation succeeds; the depth of nesting is a parameter that every statement quantifies; virtual locator not modelled |
| `InitSizeModel` | ast/analyzer/initializer.c:113-259, ast/initializer.c:271-281, events of ast/analyzer/type_traversal.c:72-128, 142-257 | on the layers of `TravModel`; arrays of unknown size only; expression analysis, nested lists and assignability of scalars, which only reject, left out |
| `VectorModel` | core/vector.c:26-138, ir/instr.c:89-118, ir/type.c:79-95, ir/builder.c:25-128 | content as a region of bytes, accesses outside have no result; allocators as functions of the size; NULL arguments left out; instructions and type entries as bytes; kefir_irbuilder_type_append_e left out |
| `AlignModel` | ast/analyzer/declarator.c:41-160, 704-738, 948-1013, ast/context_impl.c:61-86, 215-231, analyzer/nodes/init_declarator.c:57-73, {global,local,function_declaration}_context.c (alignment checks), ir/type.h:58-62, data_layout.c:94-100 | types reduced to their alignment; operands of _Alignas as type or value; definitions of functions, declaration lists and compound literals left out; frames and sections that hold the objects left out |
| `FloatLexModel` | lexer/tokens/floating_constant.c:28-268, preprocessor/convert.c:16-35, util/char32.c (digits) | cursor as the list of characters left; the decimal and hexadecimal functions share a definition with the digits and the exponent letter as parameters; constants as text and type, strtod left out; allocation failures left out |
| `LineModel` | preprocessor/preprocessor.c:438-473, lexer/source_cursor.c:87-142 (lines), strtoul with base 10 | directives read by `DirModel.scan_next`; text without spliced lines; macro replacement of the operands, columns and allocation failures left out |
| `VarargModel` | codegen/.../abi/{invoke,prologue,vararg}.c, builtins/vararg.c, runtime/amd64_sysv.s | instructions by their effect on registers and memory |

Specifications: `CTypes`, `CSem`, `CStmt` (C17 integer types, expressions,
statements), `Memory`, `Bits`, `ParseSpec` (expression grammar), `MacroSpec`
(6.10.3), `ClassSpec` (psABI classes), `TravSpec` (6.7.9), and the heads of the
other property files.

Not modelled: the driver and its options (`source/main`, `source/cli`,
`source/compiler`), file access, floating point, long double
arithmetic, atomic operations, inline assembly, textual assembler output apart from
static data, the freeing of memory, error messages.

## Results

Each entry: status, files of the theorems, and what is and is not shown.

* **C01** Symbol/identifier tables behave as finite maps: proved (`PropCore.v`). All histories, any hash function; tree modelled structurally, parent links as contexts.
* **C02** Table iteration visits each entry exactly once, in hash order: proved (`PropCore.v`).
* **C03** Interned symbols are canonical: proved (`PropCore.v`). 64-bit id counter modelled as unbounded.
* **C04** String buffers hold exactly what was appended and are terminated: partial (`PropStr.v`). Contents, exact length, terminator and memory safety for every sequence of appends; what cannot be represented is rejected. Missing and refuted: a char16_t buffer loses the low surrogate of characters above U+FFFF, and wide escapes of 2^31 and more are rejected.
* **C05** Sparse static-initializer storage reads back the last write: proved (`PropIrData.v`). Any history of writes to any slots; block table is the hash tree model; blocks enumerated in order.
* **C06** Backslash-newline splicing is invisible to the lexer: proved (`LexCursor.v`). For every multibyte decoder that uses between 1 and the available number of bytes (UTF-8 shown to be one).
* **C07** Punctuators are recognised by maximal munch: partial (`PropPunct.v`). What is recognised is always the longest punctuator. Recognition fails for text starting with .. (not ...) or %:% (not %:%:), and only there; refuted witness given.
* **C08** Integer constants get the right value and the right type: partial (`PropIntConst.v`). All digit strings, bases and suffixes: the result is as for the value mod 2^64, hence right below 2^64. Refuted above: 18446744073709551616 is accepted as int 0.
* **C09** Preprocessed string literals re-lex to the same characters: partial (`PropStrPrint.v`). Round trip for all char16_t and char32_t literals, all narrow literals of bytes below 128 without NUL before an octal digit, and wide literals without quote, backslash and hex digits after an unprintable character. Refuted for the excluded literals.
* **C10** Conditional inclusion selects exactly the right groups: partial (`PropCond.v`). For every well-nested file (group grammar of 6.10p1 spelled with arbitrary blanks and operands), every macro scope and every outcome of the conditions, the scanner and group loop produce exactly the text, directive effects and condition evaluations prescribed by 6.10.1p6, lazily and in order; the loops terminate on every character sequence; a surplus #endif/#else/#elif is rejected. Partial: operands of #elif/#else must not start with '#' (without this the statement is refuted by a witness: a nested #elif in a skipped group is left in mid-line), and lines are taken as units, so comments spanning lines are outside the model. Also refuted: a missing #endif and a second #else are accepted.
* **C11** Macro expansion terminates and rescans without re-expanding a macro inside itself: partial (`PropMacro.v`). For object-like macros: whenever kefir's expansion ends, its result is the one of 6.10.3, which always exists and is unique; it ends exactly when the relation 'replacement mentions' (ignoring a macro naming itself, except in #if) has no infinite path from the text. Termination for all definitions is false: mutually recursive macros loop.
* **C12** Token pasting of punctuators is complete and sound: proved (`PropPunct.v`). All ordered pairs of punctuators.
* **C13** Macro definitions follow define/undef history and scope: proved (`PropScope.v`). All histories of define/undef/open/close over chains of scopes, on top of the hash tree model.
* **C14** Expressions are parsed with C precedence and associativity: partial (`PropParse.v`). For every tree and every token list the C17 expression grammar derives for it (any redundant parentheses), the modelled parser returns exactly that tree and stops at the first token that does not continue the expression; the minimal printing is a special case and is proved to be a shortest derivation. Holds with compound literals as unary instead of postfix expressions: c14_compound_literal_refuted shows that postfix operators after a compound literal are left unparsed. Type names and initializer lists are parameters with stated assumptions.
* **C15** Failed parse alternatives consume nothing: proved (`PropParse.v`). All expression rules, all cursor positions; the rules for type names and initializer lists are parameters assumed to stop and move forward.
* **C16** Integer promotions and usual arithmetic conversions follow C17: partial (`PropTypes.v`). Common type always has the right width and signedness; it is the exact C type whenever long and long long are not mixed; mixing them gives an operand-order dependent result (refuted with a witness).
* **C17** Type compatibility is reflexive and symmetric: partial (`PropCompat.v`). Reflexivity and termination hold for every type the constructors can build. Symmetry holds for types without variadic functions and unnamed union members; it is false otherwise (int f() against int g(char*,...): only one direction). The check reads through a null pointer for a tagged against an untagged enumeration and for a bit-field against an ordinary member (refuted); without those it is always defined.
* **C18** Structures and unions are compatible only if their members are: partial (`PropCompat.v`). Proved for structures, in both directions when no bit-field or untagged enumeration occurs. False for unions: the lookup uses the first union's own member table, so any two unions with the same tag and equally many named members are reported compatible.
* **C19** Merging function specifiers is order independent: proved (`PropFunSpec.v`). All sequences of declarations.
* **C20** Integer constant expressions evaluate to the value C prescribes: partial (`PropConst.v`). Integer constant expressions over all integer types. c20_signed_value: no unsigned operand -> exact value, no side condition. c20_value_partial: any operands, when the 64-bit evaluation needs no truncation (const_ok). c20_value_refuted: ~0u == 0xffffffffu, 0xffffffffu + 1 == 0, (0u-1)/2, -1 == 0xffffffffu, -8 >> 1u, 0 ? 0u : -1. Missing: floating-point and address constants.
* **C21** The constant evaluator itself never executes undefined behaviour: partial (`PropConst.v`). No host undefined behaviour for defined expressions without unsigned operands or within const_ok, nor for any expression (defined or not) over comparisons, bit operations, unsigned division, casts, logical operators. Refuted in general: 1 % 0, LONG_MIN / -1, 1 << 64, 0x7fffffffffffffffUL + 1.
* **C22** Compiled integer expressions compute the C value: proved (`PropExpr.v`). All expression trees over integer, pointer, array and struct-member operands; no void/float/bit-field operands, calls or sizeof. Without compound assignment and ?: there is no side condition; with them the operand types must satisfy expr_ok (see C25, C26).
* **C23** Integer conversions produce the converted value: proved (`PropExpr.v`). All pairs of the 12 integer types and all values.
* **C24** Logical operators short-circuit: proved (`PropExpr.v`). Second operand may be undefined when skipped.
* **C25** Compound assignment has the value and effect of the expanded assignment: partial (`PropExpr.v`). Exact characterisation: the translation is right for all operand values iff compound_ok op tl tr; every other type combination is refuted with a witness (e.g. unsigned long >>= int, unsigned long %= int, value of unsigned += unsigned).
* **C26** Conditional expressions have the value of the selected branch in the common type: partial (`PropExpr.v`). Exactly one branch is evaluated for all types; the value is right iff cond_ok (e.g. 1 ? -1 : 0u is left unconverted: refuted).
* **C27** Compiled statements follow C control flow: partial (`PropStmt.v`). Every statement form (if, while, do, for, switch, goto, labels, break, continue, return, compound), terminating or not, in both directions. Side condition stmt_ok: the expressions are in the domain of C25/C26, case constants are values of the promoted controlling type (otherwise false: c30_dispatch_refuted), and a returned array is not converted to _Bool.
* **C28** Operand stack is balanced: partial (`PropStmt.v`). Expressions push exactly one value; statements are balanced when no switch leaks. The full statement is false of the code: a switch with no matching case jumps without popping the controlling value, and a loop round it grows the operand stack without bound.
* **C29** Forward jumps reach their label: proved (`PropEmit.v`, `PropFlow.v`). Any interleaving of append/reference/resolve over any number of blocks. c29_translated_body instantiates it with the statement translator: back-patching yields exactly the code of C27.
* **C30** switch dispatches to the matching case: partial (`PropStmt.v`). Dispatch selects the C case when every case constant is already a value of the promoted controlling type. Refuted without that: case constants are compared unconverted.
* **C31** Bit-field stores change only their own bits: partial (`PropBitfield.v`). Proved for every field of width below 64 that fits in 64 bits of its first byte (c32_accesses_fit shows the allocator produces such fields), and for signed reads of width 64. For width 64 the claim is false of the code: the mask (1 << 64) - 1 is 0, so an unsigned read gives 0 and a write ORs the old and new values.
* **C32** Bit-fields never overlap and never straddle their storage unit: partial (`PropBitAlloc.v`). Disjointness, order and not crossing a boundary of the declared type are proved for every member sequence; the zero-width clause is false of the code (it only ends the run: the next field starts at the next byte), shown by a witness, with the weaker fact proved.
* **C33** Structure and array layout obeys the ABI: proved (`PropBitAlloc.v`, `PropLayout.v`). On IR types (trees) with any non-negative explicit alignments, and end to end for translated C types; the alignment of every scalar for types without explicit alignments.
* **C34** Aggregate classification follows the System V psABI: partial (`PropClass.v`). Classification terminates with a result for every conforming type; larger-than-16-byte aggregates are MEMORY; the classes equal the ABI's eightbyte classes (merge over the fields that touch each eightbyte, post-merger cleanup) for every aggregate whose nested aggregates have no trailing padding and put their most aligned member first - in particular for all flat ones. False in general: struct {struct {int;char;} ;char;} gets a wrong class (c34_nested_refuted), because the padding of nested aggregates is not added.
* **C35** Argument locations never collide: partial (`PropParams.v`). For every parameter list the integer and SSE registers handed out are consecutive, pairwise disjoint and within the 6 and 8 available; stack areas are in order, disjoint, large enough, 8-aligned and aligned for the type; for parameters covered by C34 the assignment succeeds and the choice between registers and stack is the ABI's. Partial: an aggregate with an eightbyte that consists of padding only is rejected by the compiler (refuted); empty and bit-field parameters cannot occur.
* **C36** Emitted static data matches the layout: partial (`PropStaticData.v`). For every type with power-of-two alignments and every finalized data, the emitted bytes have the size of the type, every value is at its ABI offset in little-endian order (addresses as relocations), and all other bytes are zero; end to end (writes, finalization, emission) for objects of at most 128 slots and for larger ones in which no part that begins in an unused 128-slot block reaches into a used one. Refuted in general: an array element that begins in an unused 128-slot block is skipped by finalization, so an initialised union inside it is emitted as zero.
* **C37** No static initializer is dropped: partial (`PropFinalize.v`). Exact for all types and writes, also with unused 128-slot blocks in between, provided each part that reaches into a block in use begins in one (always for objects of at most 128 slots); refuted otherwise: int x[1000] = {[500] = 7} goes to .bss.
* **C38** Flattened IR types are navigated consistently: partial (`PropIrType.v`). Everything in the statement holds for every well-formed IR type; the iterator's goto_index does not reach the entry asked for (refuted with a witness; the function has no callers in the repository).
* **C39** Static bit-field initializers set only their own bits: partial (`PropIrData.v`). set_bitfield's mask clears one bit more than the field (bits offset..offset+length), characterised exactly; right when the bit above is zero already (fields set in ascending order) or at the top of the unit; refuted with a witness.
* **C40** Positional initializers visit members in declaration order: partial (`PropInit.v`). Visiting all scalars in declaration order is proved for every type without the two refuted shapes (structure ending in an unnamed bit-field, qualified aggregate). Whole lists with nested braces, strings, structure expressions and designators are proved for types without unnamed structure members, designators that name the initialized subobject itself, and structure expressions at most one aggregate down. Each exclusion has a refutation of the full claim.
* **C41** va_arg delivers the arguments in order: partial (`PropVararg.v`). Model of the caller's argument placement, the register save area, va_start and va_arg. For scalar parameters and scalar variadic arguments other than long double, every sequence of matching fetches returns the arguments in order for any mix of registers and stack (c41_scalars, no side condition beyond the stack layout). c41_fetched_partial extends this to structures and long double when the stack offset needs no padding that va_arg omits. The full statement is false for long double (va_arg does not align to 16), after a named structure whose size is no multiple of 8, for alignment above 16, and two structures fetched from registers share a temporary: see the refutations.
* **C42** Token look-ahead and macro substitution keep token order: proved (`PropTokenSeq.v`). All interleavings of push, next (moving or dropping), current; skip_whitespaces.
* **C43** Source locations are the physical line and column: proved (`LexCursor.v`). Any sequence of advances from the start of the text.
* **C44** Adjacent string literals are concatenated: partial (`PropStrJoin.v`). All pairs of encodings and all texts of Unicode scalar values (BMP in char16_t literals). Refuted for escapes that are not well-formed UTF-8: "a" "\377" is rejected.
* **C45** Preprocessed character constants re-lex to the same constant: partial (`PropStrPrint.v`). Narrow constants of value 0 to 127. Refuted for wide, char16_t, char32_t, multi-character and negative constants.
* **C46** Calls of function-like macros expand as the standard defines: partial (`PropMacroFun.v`). The split into arguments is proved in full. Expansion is proved for texts in which no macro being replaced is met again, # and ## are applied to arguments that expansion leaves unchanged, and what ## joins contains no #, ## or parameter name. The full statement is false: # and ## use the expanded argument, ## rejoins a ## that comes from an argument (without end), a joined name is substituted as a parameter, and a name met again through another macro is replaced.
* **C47** Type compatibility is that of the standard: partial (`PropCompatSpec.v`). Proved for types without unions, qualified array types, definitions with identifier lists, and mixtures of variadic prototypes with declarators without prototype (each refuted by a theorem here or in C18); the converse direction also leaves out enumerations (order of enumerators matters in the code: refuted) and bit-fields.
* **C48** Automatic objects alive together never share storage: partial (`PropFrame.v`). Disjointness, containment and the order of the areas are proved for every tree of blocks. Alignment is proved up to 16 (32 and more refuted). Parameters and results of calls are proved to fit and be aligned when no aggregate is fetched with va_arg; there the code takes a size for an alignment, and both claims are refuted.
* **C49** Declaration specifiers denote what the standard says: partial (`PropSpecifier.v`). Acceptance and result are exact, for any length and order, on lists with a type specifier and without the combinations refuted: double before long, a second int, int with double, short before a type name, no type specifier. Alignments that are no power of two are accepted (refuted). _Complex and _Atomic are not supported by the compiler.
* **C50** Declarators denote the type of 6.7.6: partial (`PropDeclarator.v`). Every declarator of the grammar is parsed to its meaning except where 6.7.6.3p11 or a length beginning with an asterisk matters (refuted: int (T), int (T x), a[*p]); what is accepted is a declarator with the type given. Constraints are checked exactly, except within return types and for lengths that are not positive (both refuted). Type names are not checked for constraints at all by the code.
* **C51** Composite types are those of 6.2.7: partial (`PropComposite.v`). Proved for types without unions, qualified arrays and identifier lists, when the two types agree in the completeness of structures and in the qualifiers of results. Outside: functions that differ in the qualifiers of the result have no composite type, a prototype hides the result of the other declaration, incomplete types win over complete ones, [*] wins over a given length, members of unions are combined with themselves (all refuted).
* **C52** Names denote the entities of the scope, linkage and definition rules: partial (`PropLinkage.v`). By a simulation between the analyzer's tables and the entities of the standard, for units of any length. Left out of the first theorem by covers, with a refutation for each: inline definitions, _Thread_local extern in a block, extern with initializer after static, type names declared again for another compatible type, initialized pointers to variable length arrays, static arrays of such pointers, composite types lost at an initialized definition. Types are kept per entity, so that declarations in a block that add to the type are left out as well. Violations: also left out are constant initializers of static objects in a block, which the analyzer leaves to the translator.
* **C53** Expressions are accepted exactly if they meet the constraints of 6.5, with the type the standard gives: partial (`PropExprType.v`). By induction on the expression, with int as the type of sizeof (refuted: it must be unsigned). The predicate covered leaves out, with a refutation for each group: members of call results, assignment to array members, to structures with const or incomplete members, arithmetic and comparison on pointers to void, functions and structures completed later, integers and pointers to functions mixed with object pointers, array members of qualified structures, the address of register members and of strings. It also leaves out qualified anonymous members (which cannot be declared), variable length sizeof, long mixed with long long (C16) and types on which the checks of C47 and C51 are wrong. Compound literals, generic selections, statement labels and built-ins are not modelled here.
* **C54** Structure, union and enumeration declarations follow 6.7.2.1-6.7.2.3, and members resolve to the declared types: partial (`PropTag.v`). By simulation of an independent semantics in which every structure, union and enumeration is an entity of its own, for all sequences of declarations that meet cov_run; members by paths whose types have visible tags. cov_run leaves out, with a refutation for each: self-references of a structure that hides another, bare redeclaration of a tag in an inner scope, types whose tag is hidden, enumerators outside int, unknown enumerations, declarations that declare nothing, anonymous members from tagged or qualified specifiers, duplicate names through anonymous members, members and elements with flexible array members, flexible arrays after unnamed members only, _Bool bit-fields wider than 1, array lengths that are not positive, restrict on other types, unchecked return types; also qualified array and function typedef names. Function parameters, alignments, variable lengths and storage classes are left out (C52 has scopes and linkage of ordinary identifiers).
* **C55** Variable length arrays have storage exactly while they are in scope, whatever jumps a function takes: partial (`PropOperands.v`, `PropVla.v`). Proved for all functions and executions: arrays in scope keep disjoint storage if no jump leaves a block before its first array and none is between its first and last array; exact release with at most one array per block and no alloca; the constraints on labels, goto, break, continue, case and default. Refuted: a break between two arrays or before the first releases an array still in scope; blocks with two arrays leak the first; a legal goto into a block with a later array is refused; case labels in the scope of an array are accepted.
* **C56** The conditions of #if and #elif have the value that the standard gives them: partial (`PropPpCond.v`). Proved for all lines that are expressions over integer and character constants with a defined value: from the line as written through defined, object-like macros, conversion of numbers, parsing and evaluation, composing C08, C11, C14 and the evaluator. Asked for: at each operator that is sensitive to signedness, the types of phase 7 and intmax_t agree (always so if no constant is unsigned in phase 7), unsigned results do not overflow on the way, and no macro names itself. Refuted without: 0xFFFFFFFF is taken for unsigned int, -1L > 0u is computed in long, unsigned overflow is undefined in the compiler, tokens after the expression are ignored, the name of a function-like macro without arguments is an error, a macro that names itself is replaced forever. Missing: function-like macros with arguments in the line.
* **C57** Declarations, statements and translation units are parsed as the grammar and the scope of typedef names say: partial (`PropSyn.v`). Termination is proved for all token sequences. The tree is proved for all units of the grammar in SynSpec with lim = true, for any parser of expressions that reads its own grammar (c57_unit_partial) and for the parser of ParseModel (c57_whole_partial). Left out by the conditions marked LIMIT: names used differently within one declaration, parameters and loop variables that hide typedef names, labels named like typedefs, old-style definitions, a parameter declarator that starts with a parenthesis and a typedef name, _Atomic(type), array lengths that start with an asterisk, bodies of structures in parameters; each of the first kinds is refuted by a unit of the standard that gets another tree or none. Not modelled: _Alignas, _Static_assert, attributes, asm, type names in expressions beyond specifiers and asterisks, initializer lists in compound literals beyond one constant. What the parser accepts beyond the grammar is not characterised.
* **C58** The text is divided into preprocessing tokens by the longest match: partial (`PropTok.v`). For every text that the tokenizer reads to the end without a new-line in a character constant, its tokens are those of the unique division of the standard. Every text whose tokens are plain is read to the end: names of up to 255 characters, no universal character names in names and numbers, simple escapes only in literals, no characters that are no token, no . before a token starting with a dot and no %: before one starting with a percent sign. Refuted without: @ and other single characters are an error, .. is an error, a character constant goes on over the end of its line, asm is a keyword, an identifier with a universal character name cannot become a token, an empty header name is accepted. Missing: escapes beyond the simple ones in the second theorem, texts with null characters.
* **C59** A file is read as directives and lines of text as the grammar of C17 6.10 says: partial (`PropDir.v`). For every file of the grammar in DirSpec whose tokens are plain (C58) and whose directives have blanks only around the #, the directives and tokens reported are those of the file; pragmas are reported as non-directives, which are skipped like them. The lines left out are those for which it is false. False of the code: a comment before the # hides the directive; %: is no #; #if0 is an #if; a line that starts with ## is a directive; a comment that runs over the end of a line of #endif is cut at the new-line and its rest read as text; a comment before a header name; #define A+1, repeated parameters and tokens after the name of #ifdef are accepted. Groups that are skipped are C10.
* **C60** The assembly text of a module's data says what was asked for: partial (`PropAsm.v`). For all modules, generator states and images: the text assembles, by the reading of GNU as syntax in AsmSpec, to every variable's data at its label, section and alignment and to every public literal's units. Addresses of symbols whose name is an operator of the assembler are left out, and literals are only shown to stand somewhere, because the rest is false of the code: the address of a variable named and, not or mod has no meaning for the assembler (only symbol_arg escapes, and only mod); a wide literal after a literal of odd size is not aligned. The pieces of an object are given; C36 is about which they are (pieces_of_values links the two). The text of functions, .global and .extern is not covered.
* **C61** The JSON writer prints texts that are read as what was written: partial (`PropJson.v`). For all call sequences and indentations: accepted and finalised exactly when the calls write whole values less than 1024 deep, the text is the texts of the values in order, and the reader of JsonSpec reads the text of a value as the value. Left out, because false of the code: several values at the top level, or none, are accepted (1 and 2 are printed as 12); the alarm character is escaped as \a and other control characters not at all; raw strings escape ? and the vertical tab as in C and print bytes above 127 as they are; inf and nan; a locale with a decimal comma (main.c calls setlocale). A refused call may already have printed a separator. Hexadecimal floats are given as text, and mbrtoc32 as the characters and their bytes; output errors are left out.
* **C62** Linked lists behave as lists, and their memory is accounted for: proved (`PropList.v`). For all allowed programs: they run to the end without touching entries that are not allocated, the answers are those of the plain lists of ListSpec, and the heap holds exactly the entries of the lists. The limits in the statement are needed: the tail and the length of a freed list stay as they were (c62_freed_refuted), and a list whose callback refuses during kefir_list_free keeps a head that was freed (c62_refused_free_refuted; kefir_list_clear is safe). A removal callback is modelled as a predicate of the value that does not touch the lists; lists are structures the caller holds; NULL arguments are left out.
* **C63** The preprocess-only output has the tokens of the text: partial (`PropFormat.v`). For all texts and token lists of the printable tokens: names of at most 255 characters and numbers without universal character names, string literals whose elements survive printing (C09), narrow character constants 0 to 127 (C45), all punctuators but the digraphs of #. Left out, because false of the code: %: next to # is printed as ## (c63_hash_refuted), a universal character name is printed as the character, which the tokenizer refuses (c63_universal_refuted), neighbours that macro expansion brings together are joined, -N with N defined as -1 is printed as --1 (c63_macro_refuted), wide character constants and the other literals of c09_round_trip_refuted and c45_refuted. Header name, placemaker and extension tokens are not in the model.
* **C64** A generic selection stands for the expression that its controlling type selects: partial (`PropGeneric.v`). For all nested selections whose parts are covered by C53 and whose controlling type is compared as C47 says: valid selections are accepted with the selected expression's properties, translation and constant value; analyzer, evaluator and translator agree on every accepted selection (c64_phases_agree, without conditions). Rejection holds given the constraints that the code does not check: associations of compatible types (c64_distinct_refuted), of incomplete, function or variably modified type (c64_association_types_refuted), and an invalid default that is not taken (c64_default_refuted) are accepted. kefir_ast_translate_lvalue has no case for selections, so none can be assigned to or have its address taken (c64_lvalue_refuted). Copying a selection allocates the size of a pointer for each association and writes two (c64_copy_refuted). Selections below other operators are not in the model.
* **C65** #include finds the first file of the search order and acts as the text of that file: partial (`PropInclude.v`). For all file systems and include directories the file opened is that of the first non-empty place; a directory of that name or a path through a non-directory at an earlier place ends the search with an error instead of being passed over (c65_search_refuted). For all balanced files, nested to any depth, #include gives exactly the scope and output of the inserted text (c65_insertion_partial: an equivalence; c65_skipped_partial: lines in skipped groups, guarded recursion). A header that leaves an #if open is accepted and closed at its end (c65_unbalanced_refuted), tokens after the name are dropped (c65_extra_tokens_refuted), and there is no limit on the depth but the stack (c65_self_inclusion). Assumed: names that do not depend on the macro scope; text lines that mean the same in both files (no __FILE__, __LINE__ or invocation across the boundary).
* **C66** An array of unknown size gets the size that its initializer determines: partial (`PropInitSize.v`). For all element types and lists in which a designator of several levels is not followed by another designator, the size is one more than the greatest index of an element in which anything is placed; for lists whose elements initialize whole elements the indices are those of a separate specification and the list is accepted (c66_whole_elements). A designator after one of several levels drops its layers without an event: int a[][2] = {[5][1] = 1, [0] = {2, 3}} gets one element (c66_deep_designator_refuted). Negative indices are accepted and converted: int a[] = {[-1] = 1} gets no element (c66_negative_index_refuted); the theorems assume indices whose successor is a kefir_size_t. A list that begins with a string literal is taken for the literal whatever follows (c66_string_list_refuted). Assignability of scalars and the analysis of nested lists, which only reject, are not modelled.
* **C67** Vectors are bounded sequences, and appends of the IR builder never run out of room: partial (`PropVector.v`). All sequences of operations on allocated vectors agree with bounded lists and stay within the region, except for copies into vectors with elements (they overwrite the first ones, c67_copy_refuted), reallocations of allocated but empty vectors (refused, c67_empty_realloc_refuted), failing reallocations (the elements are lost, c67_failed_realloc_refuted) and sizes or counts that overflow (c67_overflow_refuted, c67_extend_refuted). Appends of the builder are proved without these exceptions (c67_builder), but a block reallocated to capacity 0 loses its element size (c67_reuse_refuted), and an empty block with room cannot be copied (c67_copy_empty_refuted).
* **C68** An object gets the strictest alignment that its declarations ask for: partial (`PropAlign.v`). Proved for all lists of declarations of objects and members with alignments of zero or a power of two up to 128, where the declarator leaves the alignment of the type as it is: accepted exactly if the constraints hold, with the strictest alignment, a multiple of that of the type (c68_multiple). Forbidden places are proved to be rejected except as below (c68_restricted). Refuted: the check uses the type before the declarator, so that weakly aligned pointers are accepted and properly aligned ones rejected; alignments from 256 on are dropped silently by a field of 8 bits; registers, unnamed parameters and zero alignments in type definitions are accepted, and so are negative values.
* **C69** Preprocessing numbers become the floating and integer constants they spell: partial (`PropFloatLex.v`). Every floating constant of the grammar is converted with its type and text (c69_floating_accepted), and every integer constant below 2^64 as in C08 (c69_integer). The converse holds except for exactly two forms (c69_floating_partial): hexadecimal constants without exponent such as 0x1.8 are accepted (c69_no_exponent_refuted), and since the cursor is not restored between the attempts, 0x..5 is taken for .5 (c69_not_restored_refuted). Missing: the values that strtof, strtod and strtold compute from the text.
* **C70** #line gives the following lines the numbers and the file name it says: partial (`PropLine.v`). Proved for all operands that begin with the number (c70_line_partial), for the text of all directives with a number alone whose next line does not begin with a comment, with the line numbers of all the text behind it (c70_text_partial; c70_scanned for any directive as the scanner reads it, with the text the scanner leaves), and with what is accepted at all (c70_accepted, c70_constraint). Refuted: a comment at the beginning of the next line belongs to the token that ends the directive, so that its lines are not counted (c70_comment_refuted, c70_block_comment_refuted); a comment in front of the number makes the directive an error (c70_blank_refuted). Missing: spliced lines and the macro replacement of the operands.
