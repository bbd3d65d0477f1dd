# Formal model of SPIRV-Tools in Rocq (Coq 8.16.1)

## Method

The sources in /repo are read as text and re-expressed, function by function, as total computable
Gallina functions (files `rocq/theories/*.v`).  Every definition cites the file and lines it models
and says where it simplifies.  Files come in four kinds:

* **models** (`Fold.v`, `Assembler.v`, ...): definitions only;
* **specifications** (`*Spec.v`): the vocabulary of the theorems, in terms of sets, lists, paths,
  integers or executions, independent of the model's helpers;
* **proofs** (`*Proofs*.v` and companions);
* **properties** (`P_*.v`): the theorems of the manifest, each followed or preceded by an `Example`
  that shows a concrete non-trivial case meeting its hypotheses, with `Print Assumptions`.

Conventions

* Machine words are `N` or `Z` with explicit `mod 2^n` where the C++ wraps.
* Undefined behaviour, failed `assert`s, null pointers and out-of-range accesses are an explicit
  outcome (`None`, `FBad`, `AStuck`, `SBad`, ...), never assumed away.  Theorems say when that
  outcome cannot occur.
* Loops are structural recursion or use explicit fuel; running out of fuel is its own outcome, and
  termination is proved by showing some stated fuel sufficient.
* Pointers to blocks, instructions and values are modelled by identifiers.
* The grammar tables generated from SPIRV-Headers are not in the repository: they are a parameter,
  and the theorems hold for every grammar meeting a stated condition (`grammar_ok` and the like).
* When the English property is false of the code, the deviation is proved with a concrete witness
  (theorems named `..._refuted`) and the property is proved outside the deviations (`..._partial`).

## Trusted base

* Coq's kernel, including its bytecode machine (`vm_compute` is used in examples, refutations and
  finite tables).  No native compilation, no plugins beyond the standard library's.
* `Print Assumptions` answers "Closed under the global context" for every theorem of the manifest:
  no axiom is used, neither of the standard library nor of this development.
  The build reports the seven entries `Coq.ssr.ssrunder.Under_rel.*` as library axioms: they are
  declarations of the standard library's `ssrunder` (a module type there), loaded because
  `Base.v` imports `ZifyBool`; no theorem depends on them.
* The fidelity of the hand translation, cited line by line.  Nothing was executed: the project
  cannot be built in this sandbox.
* The C++ semantics assumed for the constructs used: unsigned wrap, two's complement conversions,
  `std::vector`, `std::map` and `std::unordered_map` as lists and partial maps (iteration order of
  unordered containers is never relied on), memory allocation never fails.
* The meaning given to SPIR-V opcodes in `FoldSpec.v`, to floating point formats in
  `HexFloatSpec.v`, and to loops in `ScevSpec.v` and `LoopDepSpec.v`, written from the SPIR-V
  specification and IEEE 754.

No functor, module type, `Axiom`, `Parameter`, `Admitted` or open obligation occurs in the
development; section variables are discharged.

## What is not modelled

Printing of diagnostics; the command line tools; the generated tables; floating point arithmetic in
the folder; composite folding; most optimizer passes (only those listed below); the validator except
module layout, explicit layouts (offsets and strides), and definitions and uses of ids; the fuzzer except its shrinker and equivalence relation; threads (the library has no
concurrency of its own).  Per property, see below.

## Properties

### C01 — Enum/capability sets behave like mathematical sets (proved)

After any sequence of insert and erase calls, an EnumSet answers contains/count/size/empty exactly as the mathematical set obtained by the same insertions and removals; insert returns true exactly when the value was absent, erase returns 1 exactly when it was present; iteration yields every member exactly once in strictly increasing order; operator== holds exactly when both sets have the same members, whatever the histories; HasAnyOf is true exactly when the argument is empty or the sets intersect.

* Code: source/enum_set.h: EnumSet::insert, erase, contains, FindBucketForValue, InsertBucketFor, Iterator::operator++, HasAnyOf, operator==
* Model: EnumSet.v
* Specification: SetSpec.v
* Proofs: EnumSetProofs.v
* Method: bucket list invariant (sorted, aligned, no empty bucket), refinement of a set over operation histories
* Theorems (P_EnumSet.v), all closed under the global context: `enum_set_behaves_as_set`, `enum_set_insert_returns_iterator`, `enum_set_equality_extensional`, `enum_set_has_any_of`
* Scope: Refinement of a set over all insert/erase histories.

### C02 — Bit vectors behave like sets of indices (partial)

After any sequence of Set/Clear/Or, Get(i) is true exactly for the indices in the corresponding set; Set and Clear return the previous value of the bit; Or computes the union; operator== holds exactly when both vectors have the same bits set regardless of storage length; Empty is exact; Or reports whether the vector changed.

* Code: source/util/bit_vector.h: BitVector::Set, Clear, Get, Empty; source/util/bit_vector.cpp: BitVector::Or, operator==
* Model: BitVector.v, EnumSet.v
* Specification: BitVectorSpec.v, SetSpec.v
* Proofs: BitVectorProofs.v, EnumSetProofs.v
* Method: testbit characterisation of each operation
* Theorems (P_BitVector.v), all closed under the global context: `bit_vector_behaves_as_set`, `bit_vector_equality_extensional`, `bit_vector_or_reports_every_change`, `bit_vector_or_flag_exact_partial`, `bit_vector_or_flag_exact_refuted`
* Scope: All set behaviour proved; the documented contract of Or's return value is refuted (true is returned when the argument has more, all-zero, words), and proved exact when the argument has no more words than the receiver.

### C03 — String literals survive word encoding (proved)

Encoding a NUL-free byte string into SPIR-V words and decoding it returns the same string; the encoding occupies exactly floor(n/4)+1 words, is NUL terminated, zero padded, appended after existing words without changing them; decoding reads nothing after the terminating word.

* Code: source/util/string_utils.h: AppendToVector, MakeVector, MakeString
* Model: Words.v
* Proofs: BitUtilsProofs.v, WordsProofs.v
* Method: induction on four-byte chunks
* Theorems (P_Words.v), all closed under the global context: `string_words_round_trip`, `string_words_truncate_at_nul`, `string_words_layout`, `string_words_append_only`, `string_decoding_reads_up_to_nul`

### C04 — Bit-field helpers compute exact bit semantics (proved)

MutateBits/SetHighBits/ClearHighBits change exactly the bits of the named range to the given value; SignExtendValue/ZeroExtendValue produce the two's complement / unsigned value of the low bits; CountSetBits is the population count; LSB isolates the lowest set bit.

* Code: source/util/bitutils.h: MutateBits, SetHighBits, ClearHighBits, SignExtendValue, ZeroExtendValue, CountSetBits, LSB, IsBitAtPositionSet
* Model: Words.v
* Proofs: BitUtilsProofs.v, WordsProofs.v
* Method: bitwise extensionality with Z.testbit/N.testbit
* Theorems (P_Words.v), all closed under the global context: `mutate_bits_exact`, `high_bits_exact`, `sign_extend_exact`, `zero_extend_exact`, `count_set_bits_exact`, `lsb_exact`, `bit_at_position_exact`, `set_bits_exact`
* Scope: For every width, not only 8/16/32/64.

### C05 — Binary parsing never leaves the buffer, always terminates, and reports exactly the words of the module (proved)

For every word sequence, spvBinaryParse terminates, reads only words inside the given buffer and never calls the instruction callback with words outside it. When it returns success, the words of the parsed instructions, in callback order, concatenate to exactly the module words after the 5-word header, each instruction's declared word count equals the number of words reported, and the operands of each instruction tile its words after the first: contiguous, in order, starting at offset 1 and ending at the word count.

* Code: source/binary.cpp: Parser::parseModule, parseInstruction, parseOperand, setNumericTypeInfoForType, recordNumberType; source/operand.cpp: spvTakeFirstMatchableOperand, spvExpandOperandSequenceOnce
* Model: BinaryParse.v, Operand.v, Words.v
* Specification: ParseSpec.v
* Proofs: BinaryParseModule.v, BinaryParseProofs.v, OperandProofs.v, OperandTypes.v, ParseEndian.v, WordsProofs.v
* Method: invariant on the word index; a derivation relation for instructions independent of the parser
* Theorems (P_BinaryParse.v), all closed under the global context: `binary_parse_total`, `reported_words_are_the_module`, `reported_words_are_a_prefix`, `reported_instructions_are_tiled`, `reported_operand_count`
* Scope: All grammars satisfying grammar_ok (facts about the generated tables). The reported operand count is a 16-bit field: reported_operand_count says when it is exact.

### C06 — Parsing is independent of module endianness (partial)

Parsing a module and parsing the same module with every word byte-swapped give the same result code and the same sequence of callbacks with the same (host-endian) words, operands and ids.

* Code: source/binary.cpp: Parser::parseOperand (LITERAL_STRING), parseInstruction; source/spirv_endian.cpp: spvFixWord, spvBinaryEndianness
* Model: BinaryParse.v, Operand.v, Words.v
* Specification: ParseSpec.v
* Proofs: BinaryParseModule.v, BinaryParseProofs.v, OperandProofs.v, OperandTypes.v, ParseEndian.v, WordsProofs.v
* Method: lock-step simulation of the two runs
* Theorems (P_BinaryParse.v), all closed under the global context: `parse_endian_independent_partial`, `parse_endian_independent_refuted`
* Scope: False in general: OpExtInstImport names are decoded from raw words. Proved for every module without that opcode.

### C07 — Result ids are unique and non-zero in any module that parses (proved)

If spvBinaryParse succeeds, no result id is 0 and no two instructions reported to the callback have the same non-zero result id, and no reported id operand is 0.

* Code: source/binary.cpp: Parser::parseOperand (RESULT_ID, TYPE_ID, ID)
* Model: BinaryParse.v, Operand.v, Words.v
* Specification: ParseSpec.v
* Proofs: BinaryParseModule.v, BinaryParseProofs.v, OperandProofs.v, OperandTypes.v, ParseEndian.v, WordsProofs.v
* Method: invariant of the operand state machine
* Theorems (P_BinaryParse.v), all closed under the global context: `result_ids_unique`, `reported_ids_match_operands`, `id_operands_non_zero`, `duplicate_result_id_rejected`

### C08 — Parse callbacks stop at the first error (proved)

Callbacks are issued header first, then instructions in module order; after a callback returns a non-success code no further callback is issued and that code is the result of the parse; if parsing fails at an instruction, the callbacks issued before are exactly those for the preceding instructions.

* Code: source/binary.cpp: Parser::parseModule, parseInstruction
* Model: BinaryParse.v, Operand.v, Words.v
* Specification: ParseSpec.v
* Proofs: BinaryParseModule.v, BinaryParseProofs.v, OperandProofs.v, OperandTypes.v, ParseEndian.v, WordsProofs.v
* Method: fuel = number of words, shown sufficient; callback traces
* Theorems (P_BinaryParse.v), all closed under the global context: `callbacks_stop_at_first_failure`, `callbacks_only_cut_the_run`, `error_reports_preceding_instructions`

### C09 — Instruction first word packing round-trips (proved)

Combining a 16-bit word count and a 16-bit opcode into a word and splitting it returns both unchanged, and splitting then combining any 32-bit word returns the word.

* Code: source/opcode.cpp: spvOpcodeMake, spvOpcodeSplit
* Model: Words.v
* Proofs: BitUtilsProofs.v, WordsProofs.v
* Method: arithmetic
* Theorems (P_Words.v), all closed under the global context: `opcode_word_split_make`, `opcode_word_make_split`

### C10 — Distinct id names get distinct dense ids (partial)

While assembling, each distinct id name gets one id, used for all its occurrences; distinct names get distinct ids; ids are assigned 1,2,3,... in order of first appearance and the header bound is one more than the largest id. With the preserve-numeric-ids option each numeric name keeps its numeric value, all other names get ids different from every preserved one, and the bound exceeds all ids.

* Code: source/text_handler.cpp: AssemblyContext::spvNamedIdAssignOrGet, getBound, GetNumericIds; source/text.cpp: spvTextToBinaryInternal, GetNumericIds
* Model: NamedIds.v, ParseNumber.v, TextLex.v
* Specification: IdSpec.v, NumberSpec.v, TextSpec.v
* Proofs: NamedIdsProofs.v, NumberProofs.v, TextProofs.v
* Method: invariant over histories of name requests
* Theorems (P_Text.v), all closed under the global context: `names_get_dense_ids`, `numeric_names_keep_their_value_partial`, `preserved_id_bound_refuted`
* Scope: Dense numbering proved in full. With preserved numeric ids everything is proved except for the name 4294967295, for which the bound wraps (refuted).

### C11 — Assembly text layout does not matter (proved)

Replacing the white space and comments between the words of an assembly text by any other non-empty white space and comments does not change the words seen by the assembler; string literals with spaces, semicolons and escaped quotes stay one word.

* Code: source/text_handler.cpp: advance, advanceLine, getWord, AssemblyContext::isStartOfNewInst
* Model: Assembler.v, BinaryParse.v, Bytes.v, Disassembler.v, NameMapper.v, NamedIds.v, Operand.v, ParseNumber.v, TextLex.v, Words.v
* Specification: IdSpec.v, NumberSpec.v, ParseSpec.v, RoundTripSpec.v, TextSpec.v
* Proofs: BinaryParseProofs.v, NamedIdsProofs.v, NumberProofs.v, OperandProofs.v, OperandTypes.v, RoundTripInst.v, RoundTripLoop.v, RoundTripOperand.v, RoundTripPattern.v, RoundTripProofs.v, RoundTripStep.v, RoundTripToken.v, TextProofs.v, TokenReader.v, WordsProofs.v
* Method: induction on the text; the assembler as a function of an abstract reader
* Theorems (P_RoundTrip.v, P_Text.v), all closed under the global context: `assembler_reads_the_words`, `layout_does_not_matter`, `layout_read_one_word`, `assembling_depends_on_words_only`
* Scope: The word splitter, and the whole assembler: two layouts of the same words assemble to the same result.

### C12 — String literal escaping round-trips between disassembler and assembler (proved)

For every byte string without NUL, writing it as the disassembler does (quotes, backslash escapes) and reading it with the assembler's word splitter and literal reader returns the original bytes, in any text context following it.

* Code: source/disassemble.cpp: InstructionDisassembler::EmitOperand (LITERAL_STRING); source/text.cpp: spvTextToLiteral; source/text_handler.cpp: getWord
* Model: NamedIds.v, ParseNumber.v, TextLex.v
* Specification: IdSpec.v, NumberSpec.v, TextSpec.v
* Proofs: NamedIdsProofs.v, NumberProofs.v, TextProofs.v
* Method: induction on the text
* Theorems (P_Text.v), all closed under the global context: `string_literal_round_trip`
* Scope: For strings up to the library's literal size limit.

### C13 — Integer literals round-trip through text (proved)

For every integer width from 1 to 64 and both signednesses, the decimal text emitted for an encoded literal is accepted for that type and re-encodes to the same words; the parser accepts a number for a type exactly when its value is representable in the type (hexadecimal bit patterns included as documented), and otherwise reports an error and emits nothing.

* Code: source/util/parse_number.cpp: ParseAndEncodeIntegerNumber, CheckRangeAndIfHexThenSignExtend; source/util/parse_number.h: ParseNumber; source/parsed_operand.cpp: EmitNumericLiteral
* Model: NamedIds.v, ParseNumber.v, TextLex.v
* Specification: IdSpec.v, NumberSpec.v, TextSpec.v
* Proofs: NamedIdsProofs.v, NumberProofs.v, TextProofs.v
* Method: arithmetic on digits
* Theorems (P_Text.v), all closed under the global context: `integer_literal_accepted_iff_representable`, `integer_literal_round_trip`, `wide_integers_unsupported`, `unsigned_parse_never_negative`, `negative_after_space_accepted`, `non_canonical_literal_not_reassembled`
* Scope: For texts without leading white space, which is what the assembler passes; the last two theorems record what happens outside.

### C14 — Hex-float text round-trips bit patterns (proved)

Printing any 16-, 32- or 64-bit float bit pattern in the disassembler's hexadecimal format and parsing it back yields the identical bit pattern, including zeros, subnormals, infinities and NaN payloads.

* Code: source/util/hex_float.h: operator<<(HexFloat), operator>>(HexFloat)
* Model: HexFloat.v, ParseNumber.v, TextLex.v, Words.v
* Specification: HexFloatSpec.v, NumberSpec.v
* Proofs: HexFloatProofs.v, HexFloatProofs10.v, HexFloatProofs11.v, HexFloatProofs12.v, HexFloatProofs13.v, HexFloatProofs2.v, HexFloatProofs3.v, HexFloatProofs4.v, HexFloatProofs5.v, HexFloatProofs6.v, HexFloatProofs7.v, HexFloatProofs8.v, HexFloatProofs9.v, NumberProofs.v, WordsProofs.v
* Method: the parsing state machine is run symbolically on the printed digits
* Theorems (P_HexFloat.v), all closed under the global context: `hex_roundtrip`, `hex_print_meaning`, `hex_parse_value_partial`, `hex_parse_value_refuted`, `hex_parse_defined`, `hex_roundtrip_small_refuted`, `hex_roundtrip_e8m0`
* Scope: hex_roundtrip covers all patterns of half, bfloat16, single, double and the 8-bit E4M3 and E5M2 formats, whatever follows in the stream. Beyond the claim: what the printed text denotes, how any hexadecimal text is read (partial: exponents near the ends of the exponent type; refuted there), and that reading never loops. The formats narrower than 8 bits lose subnormals (refuted). The decimal notation is left to the C++ library and not modelled.

### C15 — Float narrowing/widening rounds correctly (partial)

Converting between half, single and double representations preserves every representable value exactly, and otherwise rounds to the neighbour selected by the rounding mode; NaN stays NaN, infinities and signs are preserved.

* Code: source/util/hex_float.h: HexFloat::castTo, getRoundedNormalizedSignificand
* Model: HexFloat.v, ParseNumber.v, TextLex.v, Words.v
* Specification: HexFloatSpec.v, NumberSpec.v
* Proofs: HexFloatProofs.v, HexFloatProofs10.v, HexFloatProofs11.v, HexFloatProofs12.v, HexFloatProofs13.v, HexFloatProofs2.v, HexFloatProofs3.v, HexFloatProofs4.v, HexFloatProofs5.v, HexFloatProofs6.v, HexFloatProofs7.v, HexFloatProofs8.v, HexFloatProofs9.v, NumberProofs.v, WordsProofs.v
* Method: bit-level arithmetic on significands; a rational-number specification of rounding
* Theorems (P_HexFloat.v), all closed under the global context: `cast_representable`, `cast_widens`, `cast_special`, `cast_toward_zero`, `cast_too_large`, `cast_rounds_partial`, `cast_carry_refuted`, `cast_subnormal_refuted`, `cast_overflow_refuted`, `cast_nan_payload_refuted`, `cast_small_refuted`, `quantize_folds`, `quantize_subnormal_refuted`
* Scope: Proved for every pair of half, bfloat16, single and double: representable values are exact, widening and narrowing back is the identity, signs, zeros, infinities and NaN-ness are kept, rounding towards zero is right below the overflow threshold. The full claim is false of the code: rounding up to a power of two loses the carry, rounding into the subnormal range ignores the mode, overflow gives infinity in every mode; cast_rounds_partial states exactly where rounding is right.

### C16 — Operand patterns expand to the documented sequences (proved)

Repeatedly expanding a variable-length operand pattern and taking the first matchable operand yields, for any number of steps, the documented operand sequence (e.g. id, id, ... ; literal,id,literal,id,...), and never fails on a non-empty pattern.

* Code: source/operand.cpp: spvExpandOperandSequenceOnce, spvTakeFirstMatchableOperand, spvPushOperandTypes, spvAlternatePatternFollowingImmediate
* Model: Operand.v
* Proofs: OperandProofs.v, OperandTypes.v
* Method: induction on patterns
* Theorems (P_Operand.v), all closed under the global context: `pattern_expands_as_documented`, `take_first_matchable_total`, `pushed_types_come_first`, `pushed_array_comes_first`, `mask_operands_in_bit_order`, `alternate_pattern_keeps_result_id`, `operand_classes_consistent`
* Scope: operand.cpp pattern machinery, for every grammar

### C17 — Depth-first traversal visits exactly the reachable blocks, in valid pre/post order (proved)

On any finite graph the traversal terminates, reports each block reachable from the entry (through non-terminal blocks) exactly once in preorder and once in postorder and no other block; every successor that is not an ancestor on the stack is finished before its predecessor in postorder; back edges are reported exactly for edges to a block on the current stack.

* Code: source/cfa.h: CFA::DepthFirstTraversal
* Model: Cfa.v, DominatorTree.v, NamedIds.v, ParseNumber.v, TextLex.v
* Specification: CfgSpec.v, DfsSpec.v, GraphSpec.v, IdSpec.v, NumberSpec.v
* Proofs: AugmentedProofs.v, CfaProofs.v, DfsDominators.v, DominatorProofs.v, DominatorTreeProofs.v, NamedIdsProofs.v, NestingProofs.v, NumberProofs.v
* Method: work list invariant of the depth first traversal
* Theorems (P_Cfa.v), all closed under the global context: `traversal_reports_reachable_once`, `traversal_order`

### C18 — Computed dominators are the true dominators (proved)

For any finite control-flow graph, the immediate dominators computed from a postorder are exactly the graph-theoretic immediate dominators of every block reachable from the root: a block is an ancestor in the computed tree iff every path from the root goes through it; the computation terminates.

* Code: source/cfa.h: CFA::CalculateDominators
* Model: Cfa.v, NamedIds.v, ParseNumber.v, TextLex.v
* Specification: GraphSpec.v, IdSpec.v, NumberSpec.v
* Proofs: NamedIdsProofs.v, NumberProofs.v
* Method: fixpoint argument on the Cooper-Harvey-Kennedy iteration over reverse postorder
* Theorems (DominatorProofs.v), all closed under the global context: `dominators_exact`
* Scope: Termination within a stated number of passes is part of the theorem.

### C19 — The augmented CFG is rooted at the pseudo entry and exit (proved)

For every list of blocks, every block is reachable from the pseudo entry block in the augmented graph and reaches the pseudo exit block, and the augmented graph adds only edges from the pseudo entry and to the pseudo exit.

* Code: source/cfa.h: CFA::TraversalRoots, ComputeAugmentedCFG
* Model: Cfa.v, DominatorTree.v, NamedIds.v, ParseNumber.v, TextLex.v
* Specification: CfgSpec.v, DfsSpec.v, GraphSpec.v, IdSpec.v, NumberSpec.v
* Proofs: AugmentedProofs.v, CfaProofs.v, DfsDominators.v, DominatorProofs.v, DominatorTreeProofs.v, NamedIdsProofs.v, NestingProofs.v, NumberProofs.v
* Method: reachability arguments on both traversals
* Theorems (P_Cfa.v), all closed under the global context: `augmented_cfg_rooted`, `traversal_roots_reach_all`, `traversal_roots_minimal_refuted`
* Scope: The claim is proved; the header's further remark that the root set is minimal is refuted.

### C20 — Integer constant folding computes SPIR-V semantics (partial)

Whenever the folder replaces an integer/boolean instruction on 32-bit or boolean constants by a constant, the constant equals the value the SPIR-V specification gives for the instruction on those operands whenever it is defined, and the folder itself performs no undefined C++ operation.

* Code: source/opt/fold.cpp: InstructionFolder::UnaryOperate, BinaryOperate, TernaryOperate, FoldBinaryIntegerOpToConstant, FoldBinaryBooleanOpToConstant; source/opt/const_folding_rules.cpp
* Model: Fold.v
* Specification: FoldSpec.v
* Proofs: FoldProofs.v, FoldProofs2.v, FoldProofs3.v, FoldProofs4.v, FoldProofs5.v, FoldProofs6.v, FoldProofs7.v, FoldProofs8.v
* Method: modular arithmetic; one lemma per opcode, against a table of the specification's opcode meanings
* Theorems (P_Fold.v), all closed under the global context: `integer_folding_right_partial`, `integer_folding_no_undefined_partial`, `integer_folding_encoded_partial`, `folding_encoding_refuted`, `folding_smod_refuted`, `folding_negated_division_refuted`, `folding_narrow_sconvert_refuted`, `folding_narrow_sdiv_refuted`, `folding_smin_refuted`, `folding_umin_refuted`, `folding_negate_undefined_refuted`, `folding_division_undefined_refuted`, `folding_null_component_refuted`
* Scope: For every module, well-typed integer or boolean instruction of any width and every execution, the folded constant is the value the specification gives, except for the deviations listed in known_deviation, each refuted by a witness: SMod with negative divisor and zero remainder, -x/x for the smallest integer, signed operations on narrow unsigned operands, min/max/clamp whose opcode and type disagree on signedness. No undefined C++ operation on types of at most 32 bits without null vector components; INT64_MIN negation or division by -1 and null components are refuted.

### C21 — Algebraic simplification rules preserve values (partial)

Every rewriting rule applied by the instruction folder to integer arithmetic (merging adds, subs, negates, multiplications, redundant operations, strength reduction of multiplications into shifts) leaves the value of the instruction unchanged for all values of the non-constant operands.

* Code: source/opt/folding_rules.cpp; source/opt/strength_reduction_pass.cpp
* Model: Fold.v, FoldRules.v, StrengthReduction.v
* Specification: FoldRulesSpec.v, FoldSpec.v, StrengthSpec.v
* Proofs: FoldProofs.v, FoldProofs2.v, FoldProofs3.v, FoldProofs4.v, FoldProofs5.v, FoldProofs6.v, FoldProofs7.v, FoldProofs8.v, FoldRulesProofs.v, FoldRulesProofs2.v, FoldRulesProofs3.v, FoldRulesProofs4.v, FoldRulesProofs5.v, StrengthProofs.v
* Method: one lemma per rule, ring reasoning modulo 2^w, bit lemmas; strength reduction by a simulation between modules
* Theorems (P_FoldRules.v), all closed under the global context: `rules_preserve_value_partial`, `rules_no_undefined`, `rules_well_typed_partial`, `strength_reduction_preserves`, `rules_negated_division_refuted`, `rules_negated_dividend_refuted`, `rules_double_negative_refuted`, `rules_copy_type_refuted`
* Scope: Every integer and boolean rewriting rule of folding_rules.cpp, in the registered order, and the strength reduction pass. False in the code for -(x / c), -(c / x) and (-x) / (-y) with the smallest signed integer, and an OpCopyObject may get an operand of the other signedness; these are refuted with concrete modules and excluded. Not modelled: floating-point and composite rules, BitCastScalarOrVector, BitReverse, cooperative matrices.

### C22 — Id compaction renames consistently and densely (partial)

CompactIds maps ids injectively onto 1..n in order of first appearance, changes nothing but ids, sets the bound to n+1, and reports a change exactly when some word changed.

* Code: source/opt/compact_ids_pass.cpp: CompactIdsPass::Process, GetRemappedId
* Model: CompactIds.v, IrModule.v
* Specification: IrSpec.v
* Proofs: CompactIdsProofs.v, OperandTypes.v
* Method: invariant of the id map
* Theorems (P_CompactIds.v), all closed under the global context: `compact_ids_renumbers_partial`, `compact_ids_idempotent`, `compact_ids_trailing_lines_refuted`
* Scope: Proved for modules whose trailing line instructions mention no id. Missing: ids in trailing line instructions, which the pass does not visit (refuted).

### C23 — Def-use information stays exact under all edits (partial)

After any sequence of analysing, re-analysing, clearing and killing instructions, the def-use manager reports exactly the definition and exactly the uses (user, operand index) of each id present in the analysed instructions.

* Code: source/opt/def_use_manager.cpp: DefUseManager::AnalyzeInstDef, AnalyzeInstUse, ClearInst, ForEachUser
* Model: DefUse.v
* Specification: DefUseSpec.v
* Proofs: DefUseProofs.v, OperandTypes.v
* Method: refinement of the def and use sets
* Theorems (P_DefUse.v), all closed under the global context: `def_use_answers_exact_partial`, `def_use_reanalysis_refuted`, `module_def_use_exact`, `module_def_use_asserts_iff`
* Scope: Queries answered exactly after every history of calls within the conditions of DefUseSpec, and after analysing any module with distinct result ids (no condition on history). Missing: the full statement is false, since analysing a used definition again drops its users (def_use_reanalysis_refuted).

### C24 — Fresh ids never clash and overflow is reported (proved)

TakeNextId returns an id that no instruction of the module mentions and that was not handed out before, and never one at or above the configured maximum; when ids run out it returns 0, reports an error to the consumer, records the overflow and leaves the module alone. Recomputing the bound gives the least bound above all ids.

* Code: source/opt/module.h: Module::TakeNextIdBound; source/opt/ir_context.h: IRContext::TakeNextId
* Model: IdBound.v, IrModule.v
* Specification: IrSpec.v
* Proofs: OperandTypes.v
* Method: invariant over histories
* Theorems (P_IdBound.v), all closed under the global context: `fresh_ids_are_unused`, `bound_exceeds_every_id`, `recomputed_bound_is_least`
* Scope: For all histories of taking ids, editing, changing the maximum and recomputing the bound.

### C25 — Diff matching is a longest common subsequence (proved)

The matching computed between two sequences marks equally many elements in both, the k-th marked element of one matches the k-th marked element of the other, and no common subsequence is longer than the returned length.

* Code: source/diff/lcs.h: LongestCommonSubsequence::Get, CalculateLCS, RetrieveMatch
* Model: Lcs.v
* Specification: LcsSpec.v
* Proofs: LcsProofs.v
* Method: work list invariant and optimality by induction
* Theorems (P_Lcs.v), all closed under the global context: `lcs_matching_is_longest`
* Scope: For sequences whose shorter length is below 2^30 (the width of the stored length).

### C26 — Synonym classes form the smallest equivalence relation (proved)

After any sequence of Register and MakeEquivalent, IsEquivalent holds exactly for pairs related by the reflexive-symmetric-transitive closure of the merged pairs; GetEquivalenceClass returns each member exactly once; each class has exactly one representative; queries do not change the relation.

* Code: source/fuzz/equivalence_relation.h: EquivalenceRelation
* Model: EquivRel.v, NamedIds.v, ParseNumber.v, TextLex.v
* Specification: EquivSpec.v, IdSpec.v, NumberSpec.v
* Proofs: EquivProofs.v, NamedIdsProofs.v, NumberProofs.v
* Method: forest invariant
* Theorems (P_Equiv.v), all closed under the global context: `synonyms_smallest_equivalence`, `synonyms_one_representative`, `synonym_queries_do_not_interfere`

### C27 — The reducer only outputs interesting, valid binaries and stops (partial)

If the reducer finishes with 'complete' or 'reached step limit', the output binary is valid and interesting (it is the input or was accepted by both the validator and the interestingness test); at most step_limit reductions are tried, and the run terminates for every interestingness function.

* Code: source/reduce/reducer.cpp: Reducer::Run, RunPasses; source/reduce/reduction_pass.cpp: ReductionPass::TryApplyReduction, NotifyInteresting
* Model: Reducer.v
* Specification: ReducerSpec.v
* Proofs: ReducerProofs.v
* Method: loop invariants and a termination measure
* Theorems (P_Reducer.v), all closed under the global context: `reducer_output_valid_and_interesting`, `reducer_step_limit_partial`, `reducer_step_limit_refuted`
* Scope: Output validity, interestingness and termination are proved. That at most step_limit reductions are tried is false (refuted): the inner do-while loop runs once for each remaining pass after the limit has been reached; the proved bound is step_limit + number of passes - 1.

### C28 — Linking keeps ids of different modules apart (partial)

The linker renumbers modules so that ids of different input modules never coincide, the resulting bound exceeds all ids, references inside a module keep pointing to the same definitions, and linking fails rather than exceeding the id limit.

* Code: source/link/linker.cpp: ShiftIdsInModules, GenerateHeader, MergeModules
* Model: IrModule.v, Linker.v, Words.v
* Specification: IrSpec.v, LinkerSpec.v
* Proofs: LinkerProofs.v, LinkerResolveProofs.v, LinkerSymbolProofs.v, OperandTypes.v
* Method: injectivity of the shifts
* Theorems (P_Linker.v), all closed under the global context: `link_keeps_modules_apart_partial`, `link_merge_succeeds_iff`, `link_too_many_ids`, `link_version`, `link_line_ids_refuted`
* Scope: Missing: ids in attached line instructions and debug scopes of every module but the first are not shifted, so the full statement is false of the code (link_line_ids_refuted); merging drops graphs, graph entry points and the sampled image address mode. Phases 1 to 3 of Link.

### C29 — Linker resolves each import with the export of the same name and type (proved)

After a successful link every imported symbol has been replaced by the unique exported symbol with the same linkage name; unresolved or multiply-defined symbols are reported as errors; with partial linkage unresolved imports remain.

* Code: source/link/linker.cpp: GetImportExportPairs, CheckImportExportCompatibility
* Model: IrModule.v, Linker.v, Words.v
* Specification: IrSpec.v, LinkerSpec.v
* Proofs: LinkerProofs.v, LinkerResolveProofs.v, LinkerSymbolProofs.v, OperandTypes.v
* Method: invariants of the import/export matching
* Theorems (P_Linker.v), all closed under the global context: `symbols_resolved_iff_resolvable`, `symbols_resolved_by_name`, `resolved_imports_are_gone`
* Scope: Phases 5 to 9 of Link, for modules without decoration groups and function variants; equality of types is a parameter.

### C30 — Friendly names are valid and unique (partial)

The friendly name mapper gives each id a name made only of identifier characters, stable across queries, and two different ids never get the same name.

* Code: source/name_mapper.cpp: FriendlyNameMapper::Sanitize, SaveName, ParseInstruction
* Model: Bytes.v, NameMapper.v, NamedIds.v, ParseNumber.v, TextLex.v
* Specification: NumberSpec.v
* Proofs: NumberProofs.v
* Method: invariant of the used name set
* Theorems (P_NameMapper.v), all closed under the global context: `friendly_names_valid_and_unique`, `debug_names_are_kept`, `undefined_ids_may_share_a_name_refuted`
* Scope: Validity and uniqueness are proved for every id the module defines (fewer than 2^32 instructions, so the disambiguating counter does not wrap). The full statement is false for ids that are mentioned but never defined: they fall back to their number, which another id's debug name may be (refuted theorem, concrete witness).

### C31 — The section-layout rule is enforced exactly (partial)

The validator accepts the order of module-scope instructions exactly when the sequence can be split into the sections of the SPIR-V logical layout in order, and rejects at the first instruction that goes backwards.

* Code: source/val/validate_layout.cpp: ModuleScopedInstructions, ModuleLayoutPass; source/val/validation_state.cpp: ValidationState_t::ProgressToNextLayoutSectionOrder, IsOpcodeInCurrentLayoutSection
* Model: Layout.v
* Specification: LayoutSpec.v
* Proofs: LayoutLang.v, LayoutProofs.v
* Method: automaton characterised by a grammar of sections
* Theorems (P_Layout.v), all closed under the global context: `layout_accepted_iff_valid`, `layout_checks_never_assert`, `layout_error_not_early`, `layout_error_at_first_partial`, `layout_error_at_first_refuted`
* Scope: Acceptance is characterised exactly, for every instruction sequence, functions and graphs included. Where the error is reported: never before the first instruction after which no continuation is valid; at that instruction for modules without graphs; with graphs this is false (refuted: a graph begun inside a function is rejected only at the end).

### C32 — Disassemble then assemble reproduces the module (partial)

Disassembling a module that the parser accepts and assembling the text with numeric ids preserved yields the same instruction words.

* Code: source/disassemble.cpp; source/text.cpp; source/binary.cpp
* Model: Assembler.v, BinaryParse.v, Bytes.v, Disassembler.v, NameMapper.v, NamedIds.v, Operand.v, ParseNumber.v, TextLex.v, Words.v
* Specification: IdSpec.v, NumberSpec.v, ParseSpec.v, RoundTripSpec.v, TextSpec.v
* Proofs: BinaryParseProofs.v, NamedIdsProofs.v, NumberProofs.v, OperandProofs.v, OperandTypes.v, RoundTripInst.v, RoundTripLoop.v, RoundTripOperand.v, RoundTripPattern.v, RoundTripProofs.v, RoundTripStep.v, RoundTripToken.v, TextProofs.v, TokenReader.v, WordsProofs.v
* Method: operand, instruction and module round trips composed; see RoundTrip*.v
* Theorems (P_RoundTrip.v), all closed under the global context: `round_trip_partial`, `round_trip_names_partial`, `round_trip_friendly_names_partial`, `round_trip_mask_refuted`, `round_trip_padding_refuted`, `round_trip_narrow_refuted`, `round_trip_bound_refuted`, `round_trip_float_type_refuted`
* Scope: Proved for little-endian modules that hold none of the following, for each of which the unrestricted statement is refuted: several bits in a non-optional mask operand the assembler does not treat as a mask, non-zero bytes after a string, a narrow literal that is not sign- or zero-extended, the id 2^32-1, a float type whose width contradicts its encoding. Floating point text is a parameter that must be read back as written. Big-endian modules and the nested-indent option are not covered.

### C33 — Scalar-evolution expressions simplify to equal values (partial)

Simplifying a scalar expression (adds, subtractions, multiplications, negations, constants, recurrences) yields an expression with the same value for every assignment of the unknowns and every iteration.

* Code: source/opt/scalar_analysis_simplification.cpp: SENodeSimplifyImpl
* Model: Scev.v
* Specification: ScevSpec.v
* Proofs: ScevProofs.v, ScevProofs2.v, ScevProofs3.v, ScevProofs4.v, ScevProofs5.v
* Method: semantic preservation of each rewriting, with an evaluation of expressions over loop iterations
* Theorems (P_Scev.v), all closed under the global context: `construction_right`, `simplification_right_partial`, `simplification_without_recurrences_partial`, `sign_queries_right`, `division_right_partial`, `simplify_negated_product_refuted`, `simplify_scaled_offset_refuted`, `simplify_repeated_offset_refuted`, `simplify_square_refuted`, `simplify_product_refuted`, `simplify_cancelled_recurrence_refuted`, `simplify_subtracted_unknown_refuted`, `simplify_zero_step_refuted`, `at_least_zero_refuted`, `division_right_operand_refuted`
* Scope: The full statement is false (eight refuted cases). Proved for all expressions without recurrences and no subtracted products, and for sums of recurrences described by simple_sum; the sign queries and division are also covered. int64 overflow and the construction from instructions are not modelled.

### C34 — Loop dependence tests are conservative (partial)

When the dependence analysis declares two array accesses independent, there are no two iterations within the loop bounds for which the subscripts are equal; reported distances are exact.

* Code: source/opt/loop_dependence.cpp: ZIVTest, StrongSIVTest, WeakZeroSourceSIVTest, WeakZeroDestinationSIVTest, WeakCrossingSIVTest, GCDMIVTest
* Model: LoopDep.v, Scev.v
* Specification: LoopDepSpec.v, ScevSpec.v
* Proofs: LoopDepProofs.v, LoopDepProofs2.v, LoopDepProofs3.v, LoopDepProofs4.v, ScevProofs.v, ScevProofs2.v, ScevProofs3.v, ScevProofs4.v, ScevProofs5.v
* Method: integer arithmetic on affine subscripts; one lemma per test
* Theorems (P_LoopDep.v), all closed under the global context: `independence_right_partial`, `one_loop_independence_right_partial`, `report_right_partial`, `crossing_distance_partial`, `one_loop_test_defined`, `several_loops_independence_right`, `binary_gcd_right`, `intersection_right`, `different_unknowns_refuted`, `symbolic_stride_refuted`, `symbolic_negative_refuted`, `zero_start_refuted`, `zero_negative_range_refuted`, `zero_opposite_refuted`, `zero_unknown_refuted`, `zero_decreasing_refuted`, `varying_unknown_refuted`, `crossing_equal_refuted`, `gcd_unknown_step_refuted`, `gcd_zero_step_refuted`, `final_trip_message_refuted`, `not_a_recurrence_refuted`, `opposite_slopes_refuted`, `distance_line_comparison_refuted`
* Scope: Proved: on separable subscript pairs of the forms in handled_any, declared independence excludes every conflict, and the reported distance, direction and peeling are right; the test over several loops is right for all subscripts; intersecting constant constraints loses nothing. Refuted in general, with a witness for each form that goes wrong. Not modelled: subscript partitioning, constraint propagation and the delta test for coupled subscripts; int64 overflow.

### C35 — Constant propagation terminates and only reports true constants (partial)

The SSA propagation engine terminates on every function, and a value it reports as constant has that constant value in every execution that reaches it.

* Code: source/opt/propagator.cpp: SSAPropagator::Run, Simulate; source/opt/ccp_pass.cpp: CCPPass::VisitPhi, VisitAssignment, VisitBranch
* Model: Propagator.v
* Specification: PropagatorSpec.v
* Proofs: PropagatorProofs.v, PropagatorProofs2.v, PropagatorProofs3.v, PropagatorProofs4.v, PropagatorProofs5.v, PropagatorProofs6.v
* Method: lattice descent for termination, simulation for soundness
* Theorems (P_Propagator.v), all closed under the global context: `propagation_terminates`, `constant_propagation_total`, `constants_right_partial`, `constants_typed`, `replacement_changes_nothing_partial`, `constants_right_refuted`
* Scope: The SSA propagator and conditional constant propagation (visits, work lists, statuses, replacement). Termination and absence of failed assertions are proved for every well formed function. The values found are shown to be those of every execution, and the replaced function to have the same executions, for functions whose switches are on one-word selectors; for 64-bit selectors the claim is refuted (ccp_pass.cpp:246-281 compares first words only). The folder is a parameter with a correctness condition (C20 covers the integer folder).

### C36 — Dominance queries on the optimizer's dominator tree are exact (proved)

For every function, Dominates(a,b) on its dominator tree holds iff both blocks are reachable from the entry and every path from the entry to b meets a; ImmediateDominator returns the immediate dominator; and on its postdominator tree Dominates(a,b) holds iff both blocks can leave the function and every path from b out of the function meets a.

* Code: source/opt/dominator_tree.cpp: DominatorTree::Dominates, ResetDFNumbering, DepthFirstSearch
* Model: Cfa.v, DominatorTree.v, NamedIds.v, ParseNumber.v, TextLex.v
* Specification: CfgSpec.v, DfsSpec.v, GraphSpec.v, IdSpec.v, NumberSpec.v
* Proofs: AugmentedProofs.v, CfaProofs.v, DfsDominators.v, DominatorProofs.v, DominatorTreeProofs.v, NamedIdsProofs.v, NestingProofs.v, NumberProofs.v
* Method: tree induction on the depth first numbering
* Theorems (P_Cfa.v), all closed under the global context: `dominator_queries_exact`, `postdominator_queries_exact`, `strict_dominance`
* Scope: Composes the traversal, the dominator computation and the DFS numbering.

### C37 — Target environment strings are recognised unambiguously (proved)

Every canonical environment name is parsed back to its own environment, no name is shadowed by a prefix match of another, and the SPIR-V version reported for it is stable.

* Code: source/spirv_target_env.cpp: spvParseTargetEnv, spvVersionForTargetEnv, spvTargetEnvDescription
* Model: Bytes.v, ParseNumber.v, TargetEnv.v, TextLex.v
* Specification: TargetEnvSpec.v
* Proofs: TargetEnvProofs.v
* Method: finite tables and prefix reasoning
* Theorems (P_TargetEnv.v), all closed under the global context: `target_env_longest_name`, `target_env_names_round_trip`, `target_envs_consistent`

### C38 — Intrusive lists behave like sequences (proved)

Any sequence of insert-before/after, remove-from-list, splice and move operations on an intrusive list yields the sequence the same list operations produce on a plain sequence, with consistent links in both directions and correct membership flags.

* Code: source/util/ilist.h: IntrusiveList; source/util/ilist_node.h: IntrusiveNodeBase::InsertBefore, RemoveFromList, ReplaceWith
* Model: IList.v
* Specification: IListSpec.v
* Proofs: IListEdges.v, IListProofs.v
* Method: heap refinement of a cyclic list
* Theorems (P_IList.v), all closed under the global context: `intrusive_lists_are_sequences`, `insert_before_itself_refuted`, `neighbours_of_unlinked_node_refuted`
* Scope: All histories of calls that meet their preconditions, observed through iteration in both directions, emptiness, ends, membership and neighbours. Two documented usages are shown not to work: inserting a node before itself, and asking for the neighbours of an unlinked node.

### C39 — Small vectors behave like vectors across the inline/heap boundary (partial)

Any sequence of push_back, pop_back, insert, erase, resize, copy and move yields the same contents as the same operations on a plain vector, for every inline capacity.

* Code: source/util/small_vector.h: SmallVector
* Model: SmallVector.v
* Specification: SmallVectorSpec.v
* Proofs: SmallVectorProofs.v
* Method: heap refinement of a vector, with faults
* Theorems (P_SmallVector.v), all closed under the global context: `small_vectors_are_sequences_partial`, `push_back_own_element`, `push_back_own_element_refuted`, `insert_nothing_refuted`
* Scope: Every program over any number of vectors, any inline capacity and element type, with constructors, assignments and destruction; memory faults are part of the model. The full statement is false for two uses a std::vector allows (refuted theorems): a reference to an own element as argument when the inline buffer is full, and inserting an empty range before an element.

### C40 — The fuzzer shrinker keeps the result interesting and never grows it (proved)

The shrinker's output is interesting, is obtained by replaying a subsequence of the original transformations (in which only the bodies of AddFunction transformations may have been reduced), and the number of transformations never increases.

* Code: source/fuzz/shrinker.cpp: Shrinker::Run, RemoveChunk
* Model: Reducer.v, Shrinker.v
* Specification: LcsSpec.v, ReducerSpec.v, ShrinkerSpec.v
* Proofs: ReducerProofs.v, ShrinkerProofs.v
* Method: loop invariants and a termination measure
* Theorems (P_Shrinker.v), all closed under the global context: `shrinker_output_interesting_and_no_longer`, `shrinker_attempts_partial`, `shrinker_attempts_refuted`, `shrinker_earlier_chunks_unaffected`, `function_reduction_keeps_the_others`
* Scope: The bodies of AddFunction transformations may be reduced, so the subsequence is up to those; without AddFunction it is a plain subsequence. The separate assertion attempt <= step_limit is refuted.

### C41 — A completed reduction is locally minimal (proved)

When the reducer reports completion, every single reduction opportunity its passes still find was tried on that binary and produced an invalid binary or one the interestingness test rejected.

* Code: source/reduce/reducer.cpp: Reducer::RunPasses; source/reduce/reduction_pass.cpp: ReductionPass::TryApplyReduction, ReachedMinimumGranularity
* Model: Reducer.v
* Specification: ReducerSpec.v
* Proofs: ReducerProofs.v
* Method: loop invariant of the reducer: every opportunity was tried since the last change
* Theorems (P_Reducer.v), all closed under the global context: `reducer_complete_is_minimal`

### C42 — The version announced in assembly text is read from its header only (proved)

spvReadEnvironmentFromText returns the environment of the released version announced by the first line of the form '; Version: 1.d' (after optional blanks, with a single digit d) that names one, provided every earlier line is blank or a comment, and fails otherwise.

* Code: source/spirv_target_env.cpp: spvReadEnvironmentFromText
* Model: Bytes.v, ParseNumber.v, TargetEnv.v, TextLex.v
* Specification: TargetEnvSpec.v
* Proofs: TargetEnvProofs.v
* Method: induction on the lines of the text
* Theorems (P_TargetEnv.v), all closed under the global context: `environment_from_text_header`

### C43 — The Vulkan environment chosen is the least capable sufficient one (proved)

spvParseVulkanEnv succeeds exactly if some Vulkan environment supports both requested versions, and returns one that no other sufficient environment undercuts in Vulkan or SPIR-V version.

* Code: source/spirv_target_env.cpp: spvParseVulkanEnv
* Model: Bytes.v, ParseNumber.v, TargetEnv.v, TextLex.v
* Specification: TargetEnvSpec.v
* Proofs: TargetEnvProofs.v
* Method: finite table, order argument
* Theorems (P_TargetEnv.v), all closed under the global context: `vulkan_env_least_sufficient`

### C44 — Assembling any text ends in a module or an error (partial)

Given any text, spvTextToBinary returns, with a binary or with an error code, without an endless loop and without reading outside its strings and vectors.

* Code: source/text.cpp: spvTextToBinaryWithOptions, spvTextEncodeOpcode, spvTextEncodeOperand, encodeInstructionStartingWithOpUnknown; source/text_handler.cpp: AssemblyContext::isStartOfNewInst
* Model: Assembler.v, BinaryParse.v, Bytes.v, Disassembler.v, NameMapper.v, NamedIds.v, Operand.v, ParseNumber.v, TextLex.v, Words.v
* Specification: AssemblerSpec.v, IdSpec.v, NumberSpec.v, ParseSpec.v, RoundTripSpec.v, TextSpec.v
* Proofs: AssemblerTotal.v, BinaryParseProofs.v, NamedIdsProofs.v, NumberProofs.v, OperandProofs.v, OperandTypes.v, RoundTripInst.v, RoundTripLoop.v, RoundTripOperand.v, RoundTripPattern.v, RoundTripProofs.v, RoundTripStep.v, RoundTripToken.v, TextProofs.v, TokenReader.v, WordsProofs.v
* Method: fuel = length of the text, shown sufficient
* Theorems (P_Assembler.v), all closed under the global context: `assembler_total_partial`, `assembler_total_plain_partial`, `assembler_comma_refuted`, `assembler_parenthesis_refuted`, `assembler_unknown_import_refuted`
* Scope: False in general: a comma or parenthesis between words (or a text that starts with NUL) makes the assembler read the first character of an empty string, and an extended-instruction import written with OpUnknown makes it read a word its instruction does not have. Proved for every text without NUL whose words are all non-empty.

### C45 — The iteration count of a loop is the number of times it goes round (partial)

When the loop analysis reports an iteration count, with the step and the initial value, for a loop whose counter starts at a constant, is compared with a constant and is stepped by a constant, then every execution of the loop goes round exactly that many times; and a loop of that form that goes round a positive number of times is reported.

* Code: source/opt/loop_descriptor.cpp: Loop::FindNumberOfIterations, Loop::GetIterations, Loop::FindConditionVariable, Loop::FindConditionBlock, Loop::GetInductionStepOperation, Loop::GetInductionInitValue; source/opt/loop_descriptor.h: Loop
* Model: LoopIter.v
* Specification: LoopIterSpec.v
* Proofs: LoopIterProofs.v
* Method: induction on the visits of the loop header: the counter is start + k*step modulo 2^w; the reported count is the ceiling of a quotient
* Theorems (P_LoopIter.v), all closed under the global context: `loop_count_exact_partial`, `loop_count_complete`, `loop_run_unique`, `loop_count_polarity_refuted`, `loop_count_signedness_refuted`, `loop_count_wrap_refuted`, `loop_count_downwards_refuted`, `loop_count_long_step_refuted`
* Scope: Exact for loops that leave when the condition fails, whose constants are read by their type as the comparison reads them, whose step fits in 32 bits and whose counter does not wrap; without each of these the count is wrong, which is refuted with concrete loops. Completeness for widths up to 32.

### C46 — Partial unrolling executes the body as often as the loop did (partial)

When a loop whose iteration count is not a multiple of the factor is partially unrolled, the residual loop and the unrolled loop together execute the body exactly as often as the original loop.

* Code: source/opt/loop_descriptor.cpp: Loop::GetResidualConditionValue; source/opt/loop_unroller.cpp: LoopUnrollerUtilsImpl::PartiallyUnrollResidualFactor, LoopUtils::PartiallyUnroll
* Model: LoopIter.v
* Specification: LoopIterSpec.v
* Proofs: LoopIterProofs.v
* Method: division with remainder of the count by the factor, on the run characterised for C45
* Theorems (P_LoopIter.v), all closed under the global context: `residual_unroll_partial`, `split_bodies_unique`, `residual_unroll_refuted`, `residual_unroll_down_refuted`
* Scope: Proved for < and >. False in the code for <= and >=: the residual bound is moved by one in the wrong direction, so that too many bodies are executed; the repository's own test expects such an output. The copying of the body itself is not modelled.

### C47 — Accepted block layouts are aligned and free of overlap (partial)

When the validator accepts the explicit layout of a block (Offset, ArrayStride, MatrixStride, RowMajor and ColMajor decorations), the layout follows the scalar, standard or extended layout rules that were asked for: no two numbers in the block share a byte, every member and array element lies at a multiple of its alignment, no vector straddles under the relaxed rules; and a layout that follows the rules is accepted.

* Code: source/val/validate_explicit_layout.cpp: Impl::CheckLayout, CheckStructLayout, CheckArrayLayout, CheckMatrixLayout, GetAlign, GetSize, GetStructMembers; include/spirv-tools/libspirv.h: spvValidate, spvValidatorOptionsSetRelaxBlockLayout, spvValidatorOptionsSetScalarBlockLayout
* Model: ExplicitLayout.v
* Specification: ExplicitLayoutSpec.v
* Proofs: ExplicitLayoutProofs.v, ExplicitLayoutProofs2.v, ExplicitLayoutProofs3.v, ExplicitLayoutProofs4.v
* Method: induction on the type; the sorted list of members is related to pairs in declaration order; the elements of an array repeat modulo 16
* Theorems (P_ExplicitLayout.v), all closed under the global context: `layout_check_exact_partial`, `layout_disjoint_partial`, `layout_aligned_partial`, `layout_sixteen_elements`, `layout_wrap_refuted`, `layout_nested_runtime_refuted`, `layout_marker_refuted`, `layout_unknown_length_refuted`, `layout_runtime_straddle_refuted`
* Scope: The check decides the layout rules, and accepted blocks have disjoint and aligned contents, for blocks whose offsets, strides and counts can be evaluated and that end below 2^32 - 2^16. Beyond that it is false of the code: sizes wrap around at 2^32, the value 4294967295 switches the check off, an array of unknown length and a nested structure with a runtime array count as empty; and only the first element of a runtime array is checked for straddling.

### C48 — Removing loads and stores inside a block does not change what a function does (partial)

The pass that removes loads of a function variable whose value is known from an earlier store or load of the same block, and stores that are overwritten or store back what was loaded, leaves a function that does the same: it takes the same path through its blocks, calls the same functions with the same arguments, returns the same values, and leaves the same contents in every variable that others can see. The pass also comes to an end.

* Code: source/opt/local_single_block_elim_pass.cpp: LocalSingleBlockLoadStoreElim, HasOnlySupportedRefs; source/opt/mem_pass.cpp: GetPtr, IsTargetVar; source/opt/instruction.cpp: GetBaseAddress; include/spirv-tools/optimizer.hpp: CreateLocalSingleBlockLoadStoreElimPass
* Model: LocalElim.v
* Specification: GraphSpec.v, LocalElimSpec.v
* Proofs: LocalElimProofs.v, LocalElimProofs2.v, LocalElimProofs3.v, LocalElimProofs4.v, LocalElimProofs5.v, LocalElimProofs6.v
* Method: simulation of the two runs, instruction by instruction: the invariant of the walk says which id holds the content of each variable at each place of a block; stores that will be killed make the memories differ only in variables whose next access is a store
* Theorems (P_LocalElim.v), all closed under the global context: `local_elim_preserves_partial`, `local_elim_returns`, `local_elim_volatile_refuted`
* Scope: Every defined run of the function is, block by block, a run of the function the pass leaves, on every machine, for functions without volatile accesses that do not store pointers to their own variables; the pass returns on functions whose definitions come before their uses. False in the code with volatile accesses: the pass removes volatile loads and stores. Debug declarations, names and decorations are not modelled.

### C49 — Rewriting variables into ids does not change what a function does (partial)

The pass that replaces the loads of a function's variables by the values stored, and joins values with phi instructions, leaves a function that does the same: it takes the same path through its blocks, has the same effects and returns the same values, and no load of a rewritten variable is left in a block that can be reached. Every id it uses is set by some instruction.

* Code: source/opt/ssa_rewrite_pass.cpp: SSARewriter, GetReachingDef, AddPhiOperands, TryRemoveTrivialPhi, ReplacePhiUsersWith, FinalizePhiCandidates, ApplyReplacements; source/opt/cfg.cpp: ComputePostOrderTraversal, WhileEachBlockInReversePostOrder; include/spirv-tools/optimizer.hpp: CreateSSARewritePass
* Model: LocalElim.v, SsaRewrite.v
* Specification: GraphSpec.v, LocalElimSpec.v, SsaRewriteSpec.v
* Proofs: LocalElimProofs.v, SsaRewriteProofs.v, SsaRewriteProofs2.v, SsaRewriteProofs3.v, SsaRewriteProofs4.v, SsaRewriteProofs5.v
* Method: invariant of the tables under the recursive look-up, with a ghost map from removed phis to what they stand for, joined at each removal: what is recorded for a variable at a block is a value the variable has at the end of the block in every run; then a simulation of the two runs, block by block
* Theorems (P_SsaRewrite.v), all closed under the global context: `ssa_rewrite_preserves_partial`, `ssa_rewrite_no_loads`, `ssa_visit_order`, `ssa_rewrite_stale_refuted`, `ssa_rewrite_full_refuted`, `ssa_rewrite_dangling_refuted`
* Scope: Every defined run of the function is, block by block, a run of the rewritten function, on every machine, whenever the final tables meet two conditions; no loads are left in reachable blocks, without conditions. Without the first condition it is false of the code: a phi that is found to be superfluous at the end overwrites the recorded value of its variable at a block that stores to this variable afterwards, and a later phi takes the old value. Without the second too: a load can be left replaced by a phi that was removed. Not proved: that the recursion ends. Variables that hold pointers, debug declarations and Volatile are not modelled.

### C50 — Replacing the loads of a variable that is stored to once does not change what a function does (partial)

After --eliminate-local-single-store every run of a function whose behaviour was defined is still a run of it: the same blocks in the same order, the same values passed to calls, stores to visible memory and other instructions, the same contents of the variables that others may see and the same values returned. A load is replaced by the one value stored only where the store comes before it on every path, including inside loops, through copies of the pointer, and when the value stored is itself a load that was replaced. And the pass returns.

* Code: source/opt/local_single_store_elim_pass.cpp: LocalSingleStoreElimPass::LocalSingleStoreElim; source/opt/local_single_store_elim_pass.cpp: ProcessVariable; source/opt/local_single_store_elim_pass.cpp: FindSingleStoreAndCheckUses; source/opt/local_single_store_elim_pass.cpp: FindUses; source/opt/local_single_store_elim_pass.cpp: FeedsAStore; source/opt/local_single_store_elim_pass.cpp: RewriteLoads
* Model: LocalElim.v, SingleStore.v
* Specification: GraphSpec.v, LocalElimSpec.v, SingleStoreSpec.v
* Proofs: LocalElimProofs.v, LocalElimProofs2.v, LocalElimProofs3.v, LocalElimProofs4.v, LocalElimProofs5.v, LocalElimProofs6.v, SingleStoreProofs.v, SingleStoreProofs2.v, SingleStoreProofs3.v, SingleStoreProofs4.v
* Method: every pointer to a variable that is accepted is found by the search and its users are those of the function before the pass; the store dominates the load and the definition of the value dominates the store, so at the load the id still has the value stored; simulation of the two runs, block by block
* Theorems (P_SingleStore.v), all closed under the global context: `single_store_preserves_partial`, `single_store_returns`, `single_store_volatile_refuted`
* Scope: For every machine, function, run and correct dominance test: a defined run of the function is a run of the function the pass leaves (simulation, with the invariant that past the store the id stored has the value the variable holds). Proved under the rule that pointers to own variables are not stored. Missing: volatile accesses, for which the statement is false (the pass removes volatile loads), pointers to own variables stored in memory, debug declarations, initializers other than as a store at the start. The pass returns if definitions come before uses in the text.

### C51 — Removing redundant instructions does not change what a function does (partial)

After --local-redundancy-elimination or --redundancy-elimination every run of a function whose behaviour was defined is still a run of it: the same blocks in the same order, the same effects on memory and on everything else, the same values returned. An instruction is removed only if an instruction that computes the same value from the same operands has run before it on every path, also when the operands are phis of loops, and instructions with effects are never removed. Of two instructions of a block that do the same, in either order of the operands if the operation commutes, the second is removed; along the dominator tree also when the first is in a block above. And the passes return.

* Code: source/opt/value_number_table.cpp: ValueNumberTable::AssignValueNumber; source/opt/value_number_table.cpp: BuildDominatorTreeValueNumberTable; source/opt/value_number_table.cpp: ComputeSameValue; source/opt/local_redundancy_elimination.cpp: LocalRedundancyEliminationPass::EliminateRedundanciesInBB; source/opt/redundancy_elimination.cpp: RedundancyEliminationPass::EliminateRedundanciesFrom
* Model: LocalElim.v, Redundancy.v
* Specification: GraphSpec.v, LocalElimSpec.v, RedundancySpec.v
* Proofs: LocalElimProofs.v, RedundancyProofs.v, RedundancyProofs2.v, RedundancyProofs3.v, RedundancyProofs4.v, RedundancyProofs5.v
* Method: a value number stands for a tree of operations, ids and phis; whatever has a value at a place has it from leaves that have values there, where a phi leaf means the last block passed that has these predecessors; a run keeps the value of every tree; ids with the same number have the same value wherever both have one; the table and the renaming by invariants; simulation of the two runs, block by block
* Theorems (P_Redundancy.v), all closed under the global context: `local_redundancy_preserves_partial`, `redundancy_preserves_partial`, `redundancy_returns`, `local_redundancy_removes`, `redundancy_removes`
* Scope: for every function in the shape SPIR-V requires, both passes keep every defined run; missing: modules with several functions, names, decorations and debug information of removed ids; which instructions may be looked up by what they compute is part of the program, not computed from opcodes and types

### C52 — The validator accepts exactly the modules that define ids before they are used (partial)

spvValidate accepts the ids of a module exactly when: every id used is defined, and earlier in the text unless the operand may be a forward reference; branches and merge instructions name blocks of their function and no branch names the first; a block comes after the blocks that lie on every path to it; an id defined in a block is used in reachable blocks only where every path from the start of the function has passed that block; parameters and labels are used in their own function only; and an OpPhi has one value for each predecessor of its block, defined on every path to the end of that predecessor. So in an accepted module every id an instruction uses has been defined, whatever way control takes. The checks return on every module, also with unreachable blocks and endless loops.

* Code: source/val/validate_id.cpp: IdPass; source/val/validate_id.cpp: CheckIdDefinitionDominateUse; source/val/validate_cfg.cpp: PerformCfgChecks; source/val/validate_cfg.cpp: ValidatePhi; source/val/validate_cfg.cpp: ReachabilityPass; source/val/function.cpp: Function::ComputeAugmentedCFG; source/val/basic_block.cpp: BasicBlock::dominates
* Model: Cfa.v, NamedIds.v, ParseNumber.v, TextLex.v, ValidateId.v
* Specification: DfsSpec.v, GraphSpec.v, IdSpec.v, NumberSpec.v, ValidateIdSpec.v
* Proofs: AugmentedProofs.v, CfaProofs.v, DfsDominators.v, DominatorProofs.v, NamedIdsProofs.v, NumberProofs.v, ValidateIdProofs.v, ValidateIdProofs2.v, ValidateIdProofs3.v, ValidateIdProofs4.v, ValidateIdProofs5.v
* Method: the augmented graph adds structural edges to the roots of the reverse traversal only; under the hypothesis these add nothing that can be reached, so that the dominators computed by Cfa.v's algorithm (C05) are those of the control-flow graph; the text checks by induction over the instructions; the path statements from the definition of dominance
* Theorems (P_ValidateId.v), all closed under the global context: `validator_ids_exact_partial`, `accepted_uses_are_defined_partial`, `accepted_phi_values_are_defined_partial`, `validator_ids_exact_refuted`
* Scope: exact for every module in which every block with a merge instruction that adds an edge has a way to a block without successors; without that the statement is refuted: a kernel with an endless loop and a merge instruction that obeys the rule is rejected; missing: forward pointers, debug information, graphs, and the checks on what kind of thing an operand is

### C53 — Moving invariant instructions out of loops does not change what a function does (partial)

After loop-invariant code motion a function does, for all parameters and memory contents and block by block, what it did before: the same branches, the same effects, the same returned values. The module stays in the required form: each id is still defined where control has passed before it is used, no instruction is lost or doubled, and blocks, phis and branches are untouched. Afterwards no loop has an instruction that could be moved: in a block that belongs to a loop and to no loop inside it, every instruction is one that may not be moved or uses a value computed in the loop. The pass returns on every function whose loops have preheaders.

* Code: source/opt/licm_pass.cpp: LICMPass::ProcessLoop; source/opt/licm_pass.cpp: LICMPass::AnalyseAndHoistFromBB; source/opt/licm_pass.cpp: LICMPass::HoistInstruction; source/opt/loop_descriptor.cpp: Loop::ShouldHoistInstruction; source/opt/loop_descriptor.cpp: Loop::AreAllOperandsOutsideLoop; source/opt/instruction.cpp: Instruction::IsOpcodeCodeMotionSafe
* Model: Licm.v, LocalElim.v, NamedIds.v, ParseNumber.v, Redundancy.v, TextLex.v
* Specification: GraphSpec.v, IdSpec.v, LicmSpec.v, LocalElimSpec.v, NumberSpec.v, RedundancySpec.v
* Proofs: LicmProofs.v, LicmProofs2.v, LicmProofs3.v, LicmProofs4.v, LicmProofs5.v, LocalElimProofs.v, NamedIdsProofs.v, NumberProofs.v, RedundancyProofs.v, RedundancyProofs2.v, RedundancyProofs3.v, RedundancyProofs4.v, RedundancyProofs5.v
* Method: one move: every path into the loop passes the preheader, so what dominates a block of the loop from outside dominates the preheader; the new function is in the required form, and runs of the two are related block by block with the invariant that the moved id has the value of its operation wherever it is available on either side; the pass is a sequence of moves; that nothing is left, by the order of the dominator tree and because processing a loop leaves the blocks of the loops inside and beside it alone
* Theorems (P_Licm.v), all closed under the global context: `licm_preserves_partial`, `licm_keeps_shape`, `licm_moves_all`, `licm_returns`, `licm_preserves_refuted`
* Scope: preservation of every defined run is proved for machines on which the operations that may be moved have results for all operands; without that it is false of the code, which moves a guarded integer division to where it is always done (refuted with a witness); that the form is kept, that nothing that could be moved is left, and that the pass returns are proved in full; missing: how loops are found, the making of preheaders (SplitLoopHeader), several functions per module

### C54 — Code sinking does not change what a function does (partial)

The code-sinking pass moves access chains, and loads from memory nothing writes to, down to the block where they are needed. The function then does what it did before: the same effects on memory in the same order, the same returned value, on every execution. Blocks, phis and branches stay as they are, every instruction is still there exactly once, definitions still come before their uses on every path, and an instruction is only moved to a block that is reached through the one it was in. A load is not moved past a store to the same variable, an instruction is not moved to where it is executed more often, and the pass comes to an end.

* Code: source/opt/code_sink.cpp: CodeSinkingPass::FindNewBasicBlockFor; source/opt/code_sink.cpp: CodeSinkingPass::ReferencesMutableMemory; source/opt/code_sink.cpp: CodeSinkingPass::HasPossibleStore; source/opt/code_sink.cpp: CodeSinkingPass::HasUniformMemorySync; source/opt/code_sink.cpp: CodeSinkingPass::IntersectsPath; source/opt/instruction.cpp: Instruction::GetBaseAddress
* Model: Cfa.v, CodeSink.v, DominatorTree.v, Licm.v, LocalElim.v, NamedIds.v, ParseNumber.v, Redundancy.v, TextLex.v
* Specification: CfgSpec.v, CodeSinkSpec.v, DfsSpec.v, GraphSpec.v, IdSpec.v, LicmSpec.v, LocalElimSpec.v, NumberSpec.v, RedundancySpec.v
* Proofs: AugmentedProofs.v, CfaProofs.v, CodeSinkProofs.v, CodeSinkProofs2.v, CodeSinkProofs3.v, CodeSinkProofs4.v, DfsDominators.v, DominatorProofs.v, DominatorTreeProofs.v, LicmProofs.v, LicmProofs2.v, LicmProofs3.v, LicmProofs4.v, LicmProofs5.v, LocalElimProofs.v, NamedIdsProofs.v, NestingProofs.v, NumberProofs.v, RedundancyProofs.v, RedundancyProofs2.v, RedundancyProofs3.v, RedundancyProofs4.v, RedundancyProofs5.v
* Method: one move: the chosen block is on every path from the old block to a use (invariant of the walk; the search for uses ends with a set closed under successors), and is dominated by the old block; so the new function is well formed, and a simulation that leaves open the value of the moved id until the new block is entered shows the runs equal; then induction over the moves; the walk goes down the dominator tree, which bounds its steps
* Theorems (P_CodeSink.v), all closed under the global context: `code_sink_preserves_partial`, `code_sink_keeps_shape`, `code_sink_returns_partial`, `store_check_refuted`, `code_sink_preserves_refuted`, `code_sink_not_more_often_refuted`, `code_sink_returns_refuted`
* Scope: behaviour is kept for every function that writes to none of the variables whose loads the pass takes for constant, shape for every function, and the pass ends if merge blocks are reached when their headers are; refuted in general: the check for stores is false of every variable that is loaded from, so a load can be moved past a store to a Uniform variable; a merge block can be a loop header, where the load is executed more often; an unreachable merge block in an endless loop makes the search endless; missing: memory operands of loads, several functions

### C55 — Merging blocks does not change what a function does or how it is structured (partial)

The block-merging pass puts a block and the block it unconditionally branches to together, if nothing else goes there. The function then does what it did before: it returns exactly if it did, with the same value and the same effects in the same order, and goes on for ever if it did. Every instruction is still there exactly once; the phis of the blocks behind name the block that now comes before them. The structure stays valid: no block gets two merge instructions or becomes the merge block of two constructs, a loop header still ends with a branch and a selection header with a choice, every block named by a merge instruction exists, and no merge block becomes a continue target or a case of a switch. With SPV_KHR_maximal_reconvergence no merge block disappears. The pass comes to an end.

* Code: source/opt/block_merge_util.cpp: CanMergeWithSuccessor; source/opt/block_merge_util.cpp: MergeWithSuccessor; source/opt/block_merge_pass.cpp: BlockMergePass::MergeBlocks
* Model: BlockMerge.v, CodeSink.v, Licm.v, LocalElim.v, NamedIds.v, ParseNumber.v, Redundancy.v, TextLex.v
* Specification: BlockMergeSpec.v, GraphSpec.v, IdSpec.v, LicmSpec.v, LocalElimSpec.v, NumberSpec.v, RedundancySpec.v
* Proofs: BlockMergeProofs.v, BlockMergeProofs2.v, LocalElimProofs.v, NamedIdsProofs.v, NumberProofs.v, RedundancyProofs.v, RedundancyProofs2.v, RedundancyProofs3.v, RedundancyProofs4.v, RedundancyProofs5.v
* Method: one merge: two turns of the old function (the block, its only successor) are one turn of the new one, all others are the same, as the successor has no other way in and phis name predecessors only; the invariants (unique labels, phis, order of the text, structure) hold of the result; then induction over the merges; every turn of the loop makes the rest shorter by one block
* Theorems (P_BlockMerge.v), all closed under the global context: `block_merge_preserves_partial`, `block_merge_keeps_instructions`, `block_merge_keeps_structure`, `block_merge_reconvergence`, `block_merge_returns`
* Scope: behaviour (returns, effects, endless runs), instructions, structure and termination, for every function; missing: phis in blocks that are reached over one edge only (the pass replaces them by their value); which blocks are cases of the switch around them (StructuredCFGAnalysis) is a parameter; line numbers and debug scopes are not modelled

### C56 — Conflicting binding numbers are resolved, with the smallest change (partial)

After the pass that resolves binding conflicts, no two variables of one descriptor set that the same entry point uses, itself or through the functions it calls, have the same binding number. The order of the variables is kept, with a sampler behind the image of the same number; no binding number becomes smaller; every number is the smallest one possible under these conditions; and a module without conflicts is not changed, nor is anything but the resource variables. The pass comes to an end.

* Code: source/opt/resolve_binding_conflicts_pass.cpp: ResolveBindingConflictsPass::Process; source/opt/resolve_binding_conflicts_pass.cpp: ResolveConflicts; source/opt/resolve_binding_conflicts_pass.cpp: Merge; source/opt/resolve_binding_conflicts_pass.cpp: Less; source/opt/resolve_binding_conflicts_pass.cpp: CallGraph
* Model: LocalElim.v, NamedIds.v, ParseNumber.v, ResolveBindings.v, TextLex.v
* Specification: GraphSpec.v, IdSpec.v, LocalElimSpec.v, NumberSpec.v, ResolveBindingsSpec.v
* Proofs: LocalElimProofs.v, NamedIdsProofs.v, NumberProofs.v, ResolveBindingsProofs.v, ResolveBindingsProofs2.v
* Method: depth-first order: callees come first, so folding the sorted merge over it gives for each entry point exactly the variables it needs, strictly sorted; the loop: every number stays between its start and a bound given by its rank in the order, and below every solution, and each turn with a change raises a number, so it ends in the least solution
* Theorems (P_ResolveBindings.v), all closed under the global context: `resolve_bindings_resolves`, `resolve_bindings_no_conflict`, `resolve_bindings_keeps`, `resolve_bindings_returns_partial`, `resolve_bindings_returns_refuted`
* Scope: all of it for every module without recursion in which there is room above the binding numbers (number plus count of variables at most 2^32); refuted without room: two variables with number 4294967295 make the loop endless, since the next number wraps to 0; missing: decoration groups

### C57 — Exactly the unused constants are removed (partial)

The pass that eliminates dead constants removes a constant exactly if nothing needs it: no instruction other than names and decorations mentions it, directly or through constants that are needed themselves. With it go its names and decorations, and nothing else is removed or changed. What is left mentions no constant that was removed. The result does not depend on the order in which the pass works, its assertion on use counts never fails, and it comes to an end.

* Code: source/opt/eliminate_dead_constant_pass.cpp: EliminateDeadConstantPass::Process; source/opt/ir_context.cpp: IRContext::KillDef; source/opt/ir_context.cpp: IRContext::KillNamesAndDecorates; source/opt/decoration_manager.cpp: DecorationManager::AddDecoration; source/opt/reflect.h: IsAnnotationInst; source/opcode.cpp: spvOpcodeIsConstant
* Model: DeadConst.v, LocalElim.v, NamedIds.v, ParseNumber.v, TextLex.v
* Specification: DeadConstSpec.v, GraphSpec.v, IdSpec.v, LocalElimSpec.v, NumberSpec.v
* Proofs: DeadConstProofs.v, LocalElimProofs.v, NamedIdsProofs.v, NumberProofs.v
* Method: invariant: the count of a constant is the number of its uses outside the dead composites found so far, and work list and dead set are together the constants with count zero; at the end the dead set is a fixed point, which contains no needed constant by induction on the derivation, and every other one by induction on the order of definitions
* Theorems (P_DeadConst.v), all closed under the global context: `dead_constants_keeps`, `dead_constants_removes_partial`, `dead_constants_defined_partial`, `dead_constants_order`, `dead_constants_removes_refuted`, `dead_constants_defined_refuted`
* Scope: nothing needed is removed, the assertion never fails, the order makes no difference and the pass ends, for every module; every unneeded constant is removed if only composites and operations mention constants, refuted otherwise (replicated composites); no mention dangles if decorations mention constants as targets only, refuted otherwise (the scope of a UniformId decoration is removed); missing: decoration groups

### C58 — Exactly the functions that can be called are kept, and interfaces list exactly what is used (partial)

The pass that eliminates dead functions keeps a function exactly if an entry point or an exported function is it or calls it, directly or through other functions; what a kept function calls is kept. The pass that removes unused interface variables gives every entry point the list of exactly those variables that must be listed (before version 1.4 inputs and outputs only, never variables of functions) and that the functions it calls mention, each once; execution model, function and name stay, and so does a list that is right already. Both come to an end, also with recursive calls.

* Code: source/opt/ir_context.cpp: IRContext::AddCalls; source/opt/ir_context.cpp: IRContext::ProcessReachableCallTree; source/opt/ir_context.cpp: IRContext::ProcessCallTreeFromRoots; source/opt/eliminate_dead_functions_pass.cpp: EliminateDeadFunctionsPass::Process; source/opt/remove_unused_interface_variables_pass.cpp: RemoveUnusedInterfaceVariablesContext
* Model: CallTree.v, LocalElim.v, NamedIds.v, ParseNumber.v, TextLex.v
* Specification: CallTreeSpec.v, GraphSpec.v, IdSpec.v, LocalElimSpec.v, NumberSpec.v
* Proofs: CallTreeProofs.v, LocalElimProofs.v, NamedIdsProofs.v, NumberProofs.v
* Method: the work list of calls: measure is its length plus the calls of all functions not yet processed; invariant: what a processed function calls is processed or in the list, and all of it is called from a root, so the result is the closure; the interface is a fold over it, and the test whether to write it is shown to be equality of sets
* Theorems (P_CallTree.v), all closed under the global context: `live_functions_exact`, `live_functions_closed`, `interface_exact_partial`, `interface_stays_partial`, `interface_exact_refuted`, `live_functions_mentioned_refuted`
* Scope: kept functions: exact for every module the optimizer loads, but a function that is mentioned other than by a call is removed (refuted); interfaces: exact, except for conditional entry points (made by the linker) whose name, read as a number, is the id of a used variable (refuted); missing: memory operands with operands of their own in tensor loads

### C59 — Flattening decoration groups leaves every decoration on its target (partial)

After the pass that flattens decorations every object and every structure member carries exactly the decorations it carried before, directly or through a group, and each as often. No group is left, and nothing that is left mentions one. Annotations that have nothing to do with groups stay in their places. The names of groups go and all others stay, and the pass comes to an end.

* Code: source/opt/flatten_decoration_pass.cpp: FlattenDecorationPass::Process; source/opt/reflect.h: IsDebug2Inst; source/val/validate_annotation.cpp: ValidateDecorationGroup
* Model: Flatten.v
* Specification: FlattenSpec.v
* Method: the pass is a flat_map over the annotations; membership and counts of what stands for a decoration of a group are those of the concatenated target lists; the loop over names by induction, and the endless case by induction on any fuel
* Theorems (P_Flatten.v), all closed under the global context: `flatten_applied`, `flatten_times`, `flatten_gone`, `flatten_rest`, `flatten_names_partial`, `flatten_names_returns_refuted`
* Scope: decorations: for every list of annotations the validator accepts; names: exact if there are no names of members or no groups; with a group and the name of a member the pass never ends (refuted for every such module)

### C60 — Unifying constants changes no value and leaves no duplicate (proved)

The pass that unifies constants replaces an id only by one that has the same value, whatever the operations of the module mean. It removes nothing but constants without decorations, nothing that is left mentions what it removed, everything else stays in order, and no two undecorated constants that are left have the same opcode, type and operands.

* Code: source/opt/unify_const_pass.cpp: UnifyConstantPass::Process; source/opt/unify_const_pass.cpp: ResultIdTrie; source/opt/def_use_manager.cpp: DefUseManager::GetAnnotations
* Model: Unify.v
* Specification: UnifySpec.v
* Proofs: UnifyProofs.v
* Method: invariant over the prefix: the trie holds exactly the undecorated constants not removed, under their keys with all replacements so far (later replacements do not change them, since constants mention earlier ids only), and every replacement keeps values; equal keys mean equal opcode, type and operands because operand kinds depend on opcode and length
* Theorems (P_Unify.v), all closed under the global context: `unify_values`, `unify_removes`, `unify_result`, `unify_all`, `unify_consistent`
* Scope: for every section in which constants mention only what is defined before them; the trie is a list of its paths; not modelled: names of removed constants, and uses outside the section (they are renamed in the same way)

### C61 — Moving private variables into functions does not change what a module outputs (partial)

The private-to-local pass moves a private variable exactly if instructions use it, all of them in one function, and in the end only to load from it and store through it. Interfaces of entry points lose the variables that are moved and nothing else. The module may output after the pass exactly what it could output before.

* Code: source/opt/private_to_local_pass.cpp: PrivateToLocalPass::Process; source/opt/private_to_local_pass.cpp: PrivateToLocalPass::FindLocalFunction; source/opt/private_to_local_pass.cpp: PrivateToLocalPass::IsValidUse
* Model: PrivateLocal.v
* Specification: PrivateLocalSpec.v
* Method: the search for the function is a fold whose result is characterised by induction; executions of the program with private and with local variables simulate each other: memories agree on what is not moved, the cells of the entry point's call hold what is; functions that do not mention moved variables leave them alone and do not depend on their own cells
* Theorems (P_PrivateLocal.v), all closed under the global context: `private_local_found`, `private_local_interface`, `private_local_outputs_partial`, `private_local_outputs_refuted`
* Scope: which variables are moved, and the interfaces: exact; the outputs are the same, in both directions, if the function is that of the entry point and is not called; refuted for functions that are called more than once (a private variable keeps its value between calls, a local one does not); missing: executions that do not end, types of pointers

### C62 — Packing a structure gives offsets that are aligned, in order and without overlap (partial)

The struct-packing pass succeeds exactly if the offset decorations come in the order of the members and no member would have to move to a higher offset. Each member is then put at the lowest offset the chosen rules allow. Every scalar, vector, array and structure in it is at a multiple of the alignment the rules ask for, and no two members share a byte.

* Code: source/opt/struct_packing_pass.cpp: StructPackingPass::assignStructMemberOffsets; source/opt/struct_packing_pass.cpp: StructPackingPass::getPackedAlignment; source/opt/struct_packing_pass.cpp: StructPackingPass::getPackedSize; source/opt/struct_packing_pass.cpp: StructPackingPass::getPackedArrayStride
* Model: StructPack.v
* Specification: StructPackSpec.v
* Proofs: StructPackProofs.v
* Method: alignments are powers of two, so rounding with bit masks gives the next multiple; a sub-value lies inside the computed size and its alignment divides that of what contains it (induction on where it is stored); the loop is then an invariant on the current offset
* Theorems (P_StructPack.v), all closed under the global context: `pack_exact`, `pack_aligned`, `pack_vec4`, `alignment_exact`, `size_exact`, `pack_disjoint_partial`, `elements_disjoint_partial`, `pack_disjoint_columns_refuted`, `pack_disjoint_scalar_refuted`, `pack_hlsl_refuted`
* Scope: alignment proved for all rules; offsets and no overlap for the rules std140, std430 and scalar, with matrices stored by rows or square (not with scalar rules); no overlap refuted for matrices stored by columns and for any matrix with scalar rules; with HLSL rules a size wraps around below zero; missing: HLSL rules otherwise, overflow of 32 bits, nested structures that are not packed by the same rules

## Findings

Deviations of the code from what its users are told, each with a machine-checked witness:

| property | theorem | what happens |
|---|---|---|
| C02 | `bit_vector_or_flag_exact_refuted` | `BitVector::Or` reports a change when the argument only has more, all-zero, words |
| C06 | `parse_endian_independent_refuted` | names of OpExtInstImport are decoded from words that were not byte-swapped |
| C10 | `preserved_id_bound_refuted` | the id bound wraps for the numeric name 4294967295 |
| C14 | `hex_parse_value_refuted`, `hex_roundtrip_small_refuted` | hex_roundtrip covers all patterns of half, bfloat16, single, double and the 8-bit E4M3 and E5M2 formats, whatever follows in the stream |
| C15 | `cast_carry_refuted`, `cast_subnormal_refuted`, `cast_overflow_refuted`, `cast_nan_payload_refuted`, `cast_small_refuted`, `quantize_subnormal_refuted` | rounding to a narrower float format loses a carry, ignores the mode for subnormals, overflows to infinity in every mode |
| C19 | `traversal_roots_minimal_refuted` | The claim is proved; the header's further remark that the root set is minimal is refuted |
| C20 | `folding_encoding_refuted`, `folding_smod_refuted`, `folding_negated_division_refuted`, `folding_narrow_sconvert_refuted`, `folding_narrow_sdiv_refuted`, `folding_smin_refuted`, `folding_umin_refuted`, `folding_negate_undefined_refuted`, `folding_division_undefined_refuted`, `folding_null_component_refuted` | constant folding of OpSMod, of signed operations on narrow unsigned constants, of min/max/clamp, and undefined C++ operations on 64-bit constants |
| C21 | `rules_negated_division_refuted`, `rules_negated_dividend_refuted`, `rules_double_negative_refuted`, `rules_copy_type_refuted` | rewriting negated signed divisions changes the value for the smallest integer; `rules_copy_type_refuted`: OpCopyObject with an operand of another type |
| C22 | `compact_ids_trailing_lines_refuted` | ids of trailing line instructions are not renumbered |
| C23 | `def_use_reanalysis_refuted` | analysing a used definition again drops its users |
| C27 | `reducer_step_limit_refuted` | the step limit can be exceeded |
| C28 | `link_line_ids_refuted` | ids in line instructions of all modules but the first are not shifted |
| C30 | `undefined_ids_may_share_a_name_refuted` | an id that is never defined can share its name with another |
| C31 | `layout_error_at_first_refuted` | a graph begun inside a function is rejected only at the end |
| C32 | `round_trip_mask_refuted`, `round_trip_padding_refuted`, `round_trip_narrow_refuted`, `round_trip_bound_refuted`, `round_trip_float_type_refuted` | texts that do not assemble back to the module |
| C33 | `simplify_negated_product_refuted`, `simplify_scaled_offset_refuted`, `simplify_repeated_offset_refuted`, `simplify_square_refuted`, `simplify_product_refuted`, `simplify_cancelled_recurrence_refuted`, `simplify_subtracted_unknown_refuted`, `simplify_zero_step_refuted`, `at_least_zero_refuted`, `division_right_operand_refuted` | the scalar evolution simplifier changes values |
| C34 | `different_unknowns_refuted`, `symbolic_stride_refuted`, `symbolic_negative_refuted`, `zero_start_refuted`, `zero_negative_range_refuted`, `zero_opposite_refuted`, `zero_unknown_refuted`, `zero_decreasing_refuted`, `varying_unknown_refuted`, `crossing_equal_refuted`, `gcd_unknown_step_refuted`, `gcd_zero_step_refuted`, `final_trip_message_refuted`, `not_a_recurrence_refuted`, `opposite_slopes_refuted`, `distance_line_comparison_refuted` | the dependence tests declare dependent accesses independent, or report wrong distances |
| C35 | `constants_right_refuted` | a 64-bit switch selector is compared by its first word |
| C38 | `insert_before_itself_refuted`, `neighbours_of_unlinked_node_refuted` | documented usages of the containers that do not work |
| C39 | `push_back_own_element_refuted`, `insert_nothing_refuted` | documented usages of the containers that do not work |
| C40 | `shrinker_attempts_refuted` | the step limit can be exceeded |
| C44 | `assembler_comma_refuted`, `assembler_parenthesis_refuted`, `assembler_unknown_import_refuted` | texts on which the assembler reads past what is there |
| C45 | `loop_count_polarity_refuted`, `loop_count_signedness_refuted`, `loop_count_wrap_refuted`, `loop_count_downwards_refuted`, `loop_count_long_step_refuted` | loops whose reported iteration count is wrong |
| C46 | `residual_unroll_refuted`, `residual_unroll_down_refuted` | partial unrolling of a loop tested with <= or >= executes too many bodies |
| C47 | `layout_wrap_refuted`, `layout_nested_runtime_refuted`, `layout_marker_refuted`, `layout_unknown_length_refuted`, `layout_runtime_straddle_refuted` | overlapping, misaligned or straddling block layouts that the validator accepts |
| C48 | `local_elim_volatile_refuted` | a function with two volatile loads, one of which the pass removes |
| C49 | `ssa_rewrite_stale_refuted`, `ssa_rewrite_full_refuted` | a loop in a loop: the phi of the inner loop is removed at the end, its block gets back the value it had before its store, and the phi of the outer loop takes this: 2 is observed where 3 was stored |
| C49 | `ssa_rewrite_dangling_refuted` | a graph with two back edges and a side entry (Kernel modules): a load is replaced by a removed phi, the output uses an id nothing sets |
| C50 | `single_store_volatile_refuted` | a volatile load after the only store to a variable is removed |
| C52 | `validator_ids_exact_refuted` | a kernel module with an endless loop and a merge instruction in a block before it: the immediate dominators are computed from a mixture of branches and merge edges, and a use that its definition dominates is rejected |
| C53 | `licm_preserves_refuted` | an integer division guarded by a test of its divisor is moved in front of the loop and divides by zero |
| C54 | `store_check_refuted`, `code_sink_preserves_refuted` | HasPossibleStore asks whether every user is a store, so it is false of every variable that is loaded from; a load of a Uniform variable is moved past a store to it |
| C54 | `code_sink_not_more_often_refuted` | an instruction is moved to the merge block of a selection, also if that is a loop header and it is executed more often there |
| C54 | `code_sink_returns_refuted` | the search for a block goes round for ever if the merge block is unreachable and the header of an endless loop |
| C56 | `resolve_bindings_returns_refuted` | two variables of one set with binding 4294967295: the second gets number 0, which is a conflict again, and the loop never ends |
| C57 | `dead_constants_defined_refuted` | uses in annotations do not count, so the scope constant of `OpDecorateId %v UniformId %scope` is removed while the decoration stays: the module mentions an id that is not defined |
| C57 | `dead_constants_removes_refuted` | the operands of a removed OpConstantCompositeReplicateEXT are not followed, so a constant that only it uses stays |
| C58 | `interface_exact_refuted` | ShouldModify starts at operand 3 also for OpConditionalEntryPointINTEL, where that is the name: with the name `a` (the word 97) a used variable with the id 97 is not added to the interface. The linker makes such entry points and runs the pass on them |
| C58 | `live_functions_mentioned_refuted` | only four opcodes count as calls, so a function that is only mentioned by another instruction (OpEnqueueKernel, for example) is removed while the mention stays |
| C59 | `flatten_names_returns_refuted` | the loop over the names does not step over an OpMemberName (the increment is inside the test for OpName), so the pass never ends on a module that has a decoration group and the name of a member |
| C61 | `private_local_outputs_refuted` | a private variable that only one function uses is moved to it even if the function is called more than once: a value stored in one call is lost before the next, so a counter outputs 0, 0 instead of 0, 1 |
| C62 | `pack_disjoint_columns_refuted` | the size of a matrix is computed from its number of rows even if it is stored by columns: the member after a matrix of four columns of two floats is put on its third column |
| C62 | `pack_disjoint_scalar_refuted` | with scalar rules a matrix is counted as one column: the next member is put on the second |
| C62 | `pack_hlsl_refuted` | with HLSL rules the size of an array of one 8-byte number is 16 - 24, which wraps around; the structure is refused |

## Testing the theorems

`seeded/LOG.jsonl` records the edits made to scratch copies of the model (a wrong boundary, a missed
case, a swapped argument, a dropped update), the claim each breaks and the theorems that then fail.
When nothing failed the theorem concerned was tightened, which the entry says.

