{"id": "C01", "title": "Enum/capability sets behave like mathematical sets", "statement": "After any sequence of insert and erase calls, an EnumSet answers contains/count/size/empty exactly as the mathematical set obtained by the same insertions and removals; insert returns true exactly when the value was absent, erase returns 1 exactly when it was present; iteration yields every member exactly once in strictly increasing order; operator== holds exactly when both sets have the same members, whatever the histories; HasAnyOf is true exactly when the argument is empty or the sets intersect.", "quantifier": "every finite sequence of insert/erase operations with every unsigned enum value, every pair of sets so built", "why_tests_cant": "Bucket layout depends on the history (gaps, bucket creation in the middle, bucket removal); tests sample a few histories out of infinitely many.", "anchors": ["source/enum_set.h: EnumSet::insert, erase, contains, FindBucketForValue, InsertBucketFor, Iterator::operator++, HasAnyOf, operator=="]}
{"id": "C02", "title": "Bit vectors behave like sets of indices", "statement": "After any sequence of Set/Clear/Or, Get(i) is true exactly for the indices in the corresponding set; Set and Clear return the previous value of the bit; Or computes the union; operator== holds exactly when both vectors have the same bits set regardless of storage length; Empty is exact; Or reports whether the vector changed.", "quantifier": "all operation sequences, all 32-bit indices, all pairs of vectors with different storage lengths", "why_tests_cant": "Behaviour depends on storage lengths and growth; unbounded histories.", "anchors": ["source/util/bit_vector.h: BitVector::Set, Clear, Get, Empty", "source/util/bit_vector.cpp: BitVector::Or, operator=="]}
{"id": "C03", "title": "String literals survive word encoding", "statement": "Encoding a NUL-free byte string into SPIR-V words and decoding it returns the same string; the encoding occupies exactly floor(n/4)+1 words, is NUL terminated, zero padded, appended after existing words without changing them; decoding reads nothing after the terminating word.", "quantifier": "all byte strings of any length, all vectors appended to, all trailing words", "why_tests_cant": "Length residues and byte values are unbounded; packing bugs show only for particular bytes/lengths.", "anchors": ["source/util/string_utils.h: AppendToVector, MakeVector, MakeString"]}
{"id": "C04", "title": "Bit-field helpers compute exact bit semantics", "statement": "MutateBits/SetHighBits/ClearHighBits change exactly the bits of the named range to the given value; SignExtendValue/ZeroExtendValue produce the two's complement / unsigned value of the low bits; CountSetBits is the population count; LSB isolates the lowest set bit.", "quantifier": "all words of 8/16/32/64 bits, all in-range positions and lengths", "why_tests_cant": "2^64 words times all ranges.", "anchors": ["source/util/bitutils.h: MutateBits, SetHighBits, ClearHighBits, SignExtendValue, ZeroExtendValue, CountSetBits, LSB, IsBitAtPositionSet"]}
{"id": "C05", "title": "Binary parsing never leaves the buffer, always terminates, and reports exactly the words of the module", "statement": "For every word sequence, spvBinaryParse terminates, reads only words inside the given buffer and never calls the instruction callback with words outside it. When it returns success, the words of the parsed instructions, in callback order, concatenate to exactly the module words after the 5-word header, each instruction's declared word count equals the number of words reported, and the operands of each instruction tile its words after the first: contiguous, in order, starting at offset 1 and ending at the word count.", "quantifier": "all word sequences of any length, all grammars (opcode/operand tables), both endiannesses, all callbacks", "why_tests_cant": "Adversarial binaries: arbitrary word counts, widths, truncated strings; infinitely many inputs.", "anchors": ["source/binary.cpp: Parser::parseModule, parseInstruction, parseOperand, setNumericTypeInfoForType, recordNumberType", "source/operand.cpp: spvTakeFirstMatchableOperand, spvExpandOperandSequenceOnce"]}
{"id": "C06", "title": "Parsing is independent of module endianness", "statement": "Parsing a module and parsing the same module with every word byte-swapped give the same result code and the same sequence of callbacks with the same (host-endian) words, operands and ids.", "quantifier": "all word sequences, all grammars, all callbacks", "why_tests_cant": "Every operand kind has its own conversion path; a missed conversion shows up only for particular operand kinds.", "anchors": ["source/binary.cpp: Parser::parseOperand (LITERAL_STRING), parseInstruction", "source/spirv_endian.cpp: spvFixWord, spvBinaryEndianness"]}
{"id": "C07", "title": "Result ids are unique and non-zero in any module that parses", "statement": "If spvBinaryParse succeeds, no result id is 0 and no two instructions reported to the callback have the same non-zero result id, and no reported id operand is 0.", "quantifier": "all word sequences, all grammars", "why_tests_cant": "Histories of definitions are unbounded.", "anchors": ["source/binary.cpp: Parser::parseOperand (RESULT_ID, TYPE_ID, ID)"]}
{"id": "C08", "title": "Parse callbacks stop at the first error", "statement": "Callbacks are issued header first, then instructions in module order; after a callback returns a non-success code no further callback is issued and that code is the result of the parse; if parsing fails at an instruction, the callbacks issued before are exactly those for the preceding instructions.", "quantifier": "all modules, all (stateful) callbacks", "why_tests_cant": "Quantifies over all callback behaviours and all prefixes.", "anchors": ["source/binary.cpp: Parser::parseModule, parseInstruction"]}
{"id": "C09", "title": "Instruction first word packing round-trips", "statement": "Combining a 16-bit word count and a 16-bit opcode into a word and splitting it returns both unchanged, and splitting then combining any 32-bit word returns the word.", "quantifier": "all 2^16 x 2^16 pairs, all 32-bit words", "why_tests_cant": "2^32 cases with no structural bound in the source.", "anchors": ["source/opcode.cpp: spvOpcodeMake, spvOpcodeSplit"]}
{"id": "C10", "title": "Distinct id names get distinct dense ids", "statement": "While assembling, each distinct id name gets one id, used for all its occurrences; distinct names get distinct ids; ids are assigned 1,2,3,... in order of first appearance and the header bound is one more than the largest id. With the preserve-numeric-ids option each numeric name keeps its numeric value, all other names get ids different from every preserved one, and the bound exceeds all ids.", "quantifier": "all sequences of id names, both option settings", "why_tests_cant": "Unbounded sequences of names, interactions between preserved and generated ids.", "anchors": ["source/text_handler.cpp: AssemblyContext::spvNamedIdAssignOrGet, getBound, GetNumericIds", "source/text.cpp: spvTextToBinaryInternal, GetNumericIds"]}
{"id": "C11", "title": "Assembly text layout does not matter", "statement": "Replacing the white space and comments between the words of an assembly text by any other non-empty white space and comments does not change the words seen by the assembler; string literals with spaces, semicolons and escaped quotes stay one word.", "quantifier": "all token sequences, all separators", "why_tests_cant": "Infinitely many layouts; quoting and escaping state machine.", "anchors": ["source/text_handler.cpp: advance, advanceLine, getWord, AssemblyContext::isStartOfNewInst"]}
{"id": "C12", "title": "String literal escaping round-trips between disassembler and assembler", "statement": "For every byte string without NUL, writing it as the disassembler does (quotes, backslash escapes) and reading it with the assembler's word splitter and literal reader returns the original bytes, in any text context following it.", "quantifier": "all NUL-free byte strings (up to the literal length limit), all following texts", "why_tests_cant": "Escape handling depends on arbitrary sequences of backslashes and quotes.", "anchors": ["source/disassemble.cpp: InstructionDisassembler::EmitOperand (LITERAL_STRING)", "source/text.cpp: spvTextToLiteral", "source/text_handler.cpp: getWord"]}
{"id": "C13", "title": "Integer literals round-trip through text", "statement": "For every integer width from 1 to 64 and both signednesses, the decimal text emitted for an encoded literal is accepted for that type and re-encodes to the same words; the parser accepts a number for a type exactly when its value is representable in the type (hexadecimal bit patterns included as documented), and otherwise reports an error and emits nothing.", "quantifier": "all widths 1..64, both signedness, all values / all decimal and hexadecimal texts", "why_tests_cant": "2^64 values times 64 widths times sign handling and overflow boundaries.", "anchors": ["source/util/parse_number.cpp: ParseAndEncodeIntegerNumber, CheckRangeAndIfHexThenSignExtend", "source/util/parse_number.h: ParseNumber", "source/parsed_operand.cpp: EmitNumericLiteral"]}
{"id": "C14", "title": "Hex-float text round-trips bit patterns", "statement": "Printing any 16-, 32- or 64-bit float bit pattern in the disassembler's hexadecimal format and parsing it back yields the identical bit pattern, including zeros, subnormals, infinities and NaN payloads.", "quantifier": "all bit patterns of every format", "why_tests_cant": "2^64 patterns; normalisation of subnormals and trailing zeros has many corner cases.", "anchors": ["source/util/hex_float.h: operator<<(HexFloat), operator>>(HexFloat)"]}
{"id": "C15", "title": "Float narrowing/widening rounds correctly", "statement": "Converting between half, single and double representations preserves every representable value exactly, and otherwise rounds to the neighbour selected by the rounding mode; NaN stays NaN, infinities and signs are preserved.", "quantifier": "all bit patterns, all rounding modes", "why_tests_cant": "2^64 patterns times rounding modes.", "anchors": ["source/util/hex_float.h: HexFloat::castTo, getRoundedNormalizedSignificand"]}
{"id": "C16", "title": "Operand patterns expand to the documented sequences", "statement": "Repeatedly expanding a variable-length operand pattern and taking the first matchable operand yields, for any number of steps, the documented operand sequence (e.g. id, id, ... ; literal,id,literal,id,...), and never fails on a non-empty pattern.", "quantifier": "all patterns, all numbers of steps", "why_tests_cant": "Expansion is lazy and unbounded.", "anchors": ["source/operand.cpp: spvExpandOperandSequenceOnce, spvTakeFirstMatchableOperand, spvPushOperandTypes, spvAlternatePatternFollowingImmediate"]}
{"id": "C17", "title": "Depth-first traversal visits exactly the reachable blocks, in valid pre/post order", "statement": "On any finite graph the traversal terminates, reports each block reachable from the entry (through non-terminal blocks) exactly once in preorder and once in postorder and no other block; every successor that is not an ancestor on the stack is finished before its predecessor in postorder; back edges are reported exactly for edges to a block on the current stack.", "quantifier": "all finite graphs, all entries, all terminal predicates", "why_tests_cant": "Graph shapes are unbounded.", "anchors": ["source/cfa.h: CFA::DepthFirstTraversal"]}
{"id": "C18", "title": "Computed dominators are the true dominators", "statement": "For any finite control-flow graph, the immediate dominators computed from a postorder are exactly the graph-theoretic immediate dominators of every block reachable from the root: a block is an ancestor in the computed tree iff every path from the root goes through it; the computation terminates.", "quantifier": "all finite graphs with a root, all reachable blocks", "why_tests_cant": "Irreducible graphs, arbitrary predecessor orders, arbitrary iteration counts.", "anchors": ["source/cfa.h: CFA::CalculateDominators"]}
{"id": "C19", "title": "The augmented CFG is rooted at the pseudo entry and exit", "statement": "For every list of blocks, every block is reachable from the pseudo entry block in the augmented graph and reaches the pseudo exit block, and the augmented graph adds only edges from the pseudo entry and to the pseudo exit.", "quantifier": "all finite graphs including unreachable cycles and infinite loops", "why_tests_cant": "Arbitrary unreachable cycle structures.", "anchors": ["source/cfa.h: CFA::TraversalRoots, ComputeAugmentedCFG"]}
{"id": "C20", "title": "Integer constant folding computes SPIR-V semantics", "statement": "Whenever the folder replaces an integer/boolean instruction on 32-bit or boolean constants by a constant, the constant equals the value the SPIR-V specification gives for the instruction on those operands whenever it is defined, and the folder itself performs no undefined C++ operation.", "quantifier": "all opcodes handled, all operand values", "why_tests_cant": "2^64 operand pairs per opcode.", "anchors": ["source/opt/fold.cpp: InstructionFolder::UnaryOperate, BinaryOperate, TernaryOperate, FoldBinaryIntegerOpToConstant, FoldBinaryBooleanOpToConstant", "source/opt/const_folding_rules.cpp"]}
{"id": "C21", "title": "Algebraic simplification rules preserve values", "statement": "Every rewriting rule applied by the instruction folder to integer arithmetic (merging adds, subs, negates, multiplications, redundant operations, strength reduction of multiplications into shifts) leaves the value of the instruction unchanged for all values of the non-constant operands.", "quantifier": "all operand values, all constants for which the rule fires", "why_tests_cant": "All 32/64-bit values of free operands.", "anchors": ["source/opt/folding_rules.cpp", "source/opt/strength_reduction_pass.cpp"]}
{"id": "C22", "title": "Id compaction renames consistently and densely", "statement": "CompactIds maps ids injectively onto 1..n in order of first appearance, changes nothing but ids, sets the bound to n+1, and reports a change exactly when some word changed.", "quantifier": "all modules", "why_tests_cant": "Unbounded modules and id assignments.", "anchors": ["source/opt/compact_ids_pass.cpp: CompactIdsPass::Process, GetRemappedId"]}
{"id": "C23", "title": "Def-use information stays exact under all edits", "statement": "After any sequence of analysing, re-analysing, clearing and killing instructions, the def-use manager reports exactly the definition and exactly the uses (user, operand index) of each id present in the analysed instructions.", "quantifier": "all instruction sets and all sequences of updates", "why_tests_cant": "Unbounded update histories.", "anchors": ["source/opt/def_use_manager.cpp: DefUseManager::AnalyzeInstDef, AnalyzeInstUse, ClearInst, ForEachUser"]}
{"id": "C24", "title": "Fresh ids never clash and overflow is reported", "statement": "TakeNextId returns an id that no instruction of the module mentions and that was not handed out before, and never one at or above the configured maximum; when ids run out it returns 0, reports an error to the consumer, records the overflow and leaves the module alone. Recomputing the bound gives the least bound above all ids.", "quantifier": "all modules within bound, all sequences of allocations", "why_tests_cant": "Unbounded allocation histories up to 2^32.", "anchors": ["source/opt/module.h: Module::TakeNextIdBound", "source/opt/ir_context.h: IRContext::TakeNextId"]}
{"id": "C25", "title": "Diff matching is a longest common subsequence", "statement": "The matching computed between two sequences marks equally many elements in both, the k-th marked element of one matches the k-th marked element of the other, and no common subsequence is longer than the returned length.", "quantifier": "all pairs of sequences, all matching predicates", "why_tests_cant": "Exponentially many subsequences.", "anchors": ["source/diff/lcs.h: LongestCommonSubsequence::Get, CalculateLCS, RetrieveMatch"]}
{"id": "C26", "title": "Synonym classes form the smallest equivalence relation", "statement": "After any sequence of Register and MakeEquivalent, IsEquivalent holds exactly for pairs related by the reflexive-symmetric-transitive closure of the merged pairs; GetEquivalenceClass returns each member exactly once; each class has exactly one representative; queries do not change the relation.", "quantifier": "all operation histories", "why_tests_cant": "Path compression mutates state during queries; unbounded histories.", "anchors": ["source/fuzz/equivalence_relation.h: EquivalenceRelation"]}
{"id": "C27", "title": "The reducer only outputs interesting, valid binaries and stops", "statement": "If the reducer finishes with 'complete' or 'reached step limit', the output binary is valid and interesting (it is the input or was accepted by both the validator and the interestingness test); at most step_limit reductions are tried, and the run terminates for every interestingness function.", "quantifier": "all inputs, all interestingness functions, all passes, all step limits", "why_tests_cant": "Quantifies over arbitrary user-supplied functions.", "anchors": ["source/reduce/reducer.cpp: Reducer::Run, RunPasses", "source/reduce/reduction_pass.cpp: ReductionPass::TryApplyReduction, NotifyInteresting"]}
{"id": "C28", "title": "Linking keeps ids of different modules apart", "statement": "The linker renumbers modules so that ids of different input modules never coincide, the resulting bound exceeds all ids, references inside a module keep pointing to the same definitions, and linking fails rather than exceeding the id limit.", "quantifier": "all lists of modules with consistent bounds", "why_tests_cant": "Unbounded numbers and sizes of modules, overflow.", "anchors": ["source/link/linker.cpp: ShiftIdsInModules, GenerateHeader, MergeModules"]}
{"id": "C29", "title": "Linker resolves each import with the export of the same name and type", "statement": "After a successful link every imported symbol has been replaced by the unique exported symbol with the same linkage name; unresolved or multiply-defined symbols are reported as errors; with partial linkage unresolved imports remain.", "quantifier": "all sets of import/export decorations", "why_tests_cant": "Unbounded combinations of names.", "anchors": ["source/link/linker.cpp: GetImportExportPairs, CheckImportExportCompatibility"]}
{"id": "C30", "title": "Friendly names are valid and unique", "statement": "The friendly name mapper gives each id a name made only of identifier characters, stable across queries, and two different ids never get the same name.", "quantifier": "all modules, all names, all sequences of id queries", "why_tests_cant": "Collision suffixes interact with user names arbitrarily.", "anchors": ["source/name_mapper.cpp: FriendlyNameMapper::Sanitize, SaveName, ParseInstruction"]}
{"id": "C31", "title": "The section-layout rule is enforced exactly", "statement": "The validator accepts the order of module-scope instructions exactly when the sequence can be split into the sections of the SPIR-V logical layout in order, and rejects at the first instruction that goes backwards.", "quantifier": "all instruction sequences", "why_tests_cant": "Unbounded sequences.", "anchors": ["source/val/validate_layout.cpp: ModuleScopedInstructions, ModuleLayoutPass", "source/val/validation_state.cpp: ValidationState_t::ProgressToNextLayoutSectionOrder, IsOpcodeInCurrentLayoutSection"]}
{"id": "C32", "title": "Disassemble then assemble reproduces the module", "statement": "Disassembling a module that the parser accepts and assembling the text with numeric ids preserved yields the same instruction words.", "quantifier": "all modules accepted by the parser, all grammars with unambiguous names", "why_tests_cant": "Needs all operand kinds, all literals, all strings.", "anchors": ["source/disassemble.cpp", "source/text.cpp", "source/binary.cpp"]}
{"id": "C33", "title": "Scalar-evolution expressions simplify to equal values", "statement": "Simplifying a scalar expression (adds, subtractions, multiplications, negations, constants, recurrences) yields an expression with the same value for every assignment of the unknowns and every iteration.", "quantifier": "all expressions, all assignments", "why_tests_cant": "Expression trees are unbounded.", "anchors": ["source/opt/scalar_analysis_simplification.cpp: SENodeSimplifyImpl"]}
{"id": "C34", "title": "Loop dependence tests are conservative", "statement": "When the dependence analysis declares two array accesses independent, there are no two iterations within the loop bounds for which the subscripts are equal; reported distances are exact.", "quantifier": "all loop bounds, coefficients and constants", "why_tests_cant": "Unbounded integer domains.", "anchors": ["source/opt/loop_dependence.cpp: ZIVTest, StrongSIVTest, WeakZeroSourceSIVTest, WeakZeroDestinationSIVTest, WeakCrossingSIVTest, GCDMIVTest"]}
{"id": "C35", "title": "Constant propagation terminates and only reports true constants", "statement": "The SSA propagation engine terminates on every function, and a value it reports as constant has that constant value in every execution that reaches it.", "quantifier": "all functions, all executions", "why_tests_cant": "Unbounded CFGs and executions.", "anchors": ["source/opt/propagator.cpp: SSAPropagator::Run, Simulate", "source/opt/ccp_pass.cpp: CCPPass::VisitPhi, VisitAssignment, VisitBranch"]}
{"id": "C36", "title": "Dominance queries on the optimizer's dominator tree are exact", "statement": "For every function, Dominates(a,b) on its dominator tree holds iff both blocks are reachable from the entry and every path from the entry to b meets a; ImmediateDominator returns the immediate dominator; and on its postdominator tree Dominates(a,b) holds iff both blocks can leave the function and every path from b out of the function meets a.", "quantifier": "all functions (finite control-flow graphs), all pairs of blocks", "why_tests_cant": "Unbounded graphs.", "anchors": ["source/opt/dominator_tree.cpp: DominatorTree::Dominates, ResetDFNumbering, DepthFirstSearch"]}
{"id": "C37", "title": "Target environment strings are recognised unambiguously", "statement": "Every canonical environment name is parsed back to its own environment, no name is shadowed by a prefix match of another, and the SPIR-V version reported for it is stable.", "quantifier": "all environments and all input strings", "why_tests_cant": "Prefix matching over arbitrary strings.", "anchors": ["source/spirv_target_env.cpp: spvParseTargetEnv, spvVersionForTargetEnv, spvTargetEnvDescription"]}
{"id": "C38", "title": "Intrusive lists behave like sequences", "statement": "Any sequence of insert-before/after, remove-from-list, splice and move operations on an intrusive list yields the sequence the same list operations produce on a plain sequence, with consistent links in both directions and correct membership flags.", "quantifier": "all operation histories", "why_tests_cant": "Pointer structure histories are unbounded.", "anchors": ["source/util/ilist.h: IntrusiveList", "source/util/ilist_node.h: IntrusiveNodeBase::InsertBefore, RemoveFromList, ReplaceWith"]}
{"id": "C39", "title": "Small vectors behave like vectors across the inline/heap boundary", "statement": "Any sequence of push_back, pop_back, insert, erase, resize, copy and move yields the same contents as the same operations on a plain vector, for every inline capacity.", "quantifier": "all histories, all inline capacities", "why_tests_cant": "Transitions between inline and heap storage at arbitrary points.", "anchors": ["source/util/small_vector.h: SmallVector"]}
{"id": "C40", "title": "The fuzzer shrinker keeps the result interesting and never grows it", "statement": "The shrinker's output is interesting, is obtained by replaying a subsequence of the original transformations (in which only the bodies of AddFunction transformations may have been reduced), and the number of transformations never increases.", "quantifier": "all transformation sequences, all interestingness functions", "why_tests_cant": "Quantifies over arbitrary functions.", "anchors": ["source/fuzz/shrinker.cpp: Shrinker::Run, RemoveChunk"]}
{"id": "C41", "title": "A completed reduction is locally minimal", "statement": "When the reducer reports completion, every single reduction opportunity its passes still find was tried on that binary and produced an invalid binary or one the interestingness test rejected.", "quantifier": "all inputs, all interestingness functions, all passes", "why_tests_cant": "Quantifies over arbitrary functions and over all histories of granularities.", "anchors": ["source/reduce/reducer.cpp: Reducer::RunPasses", "source/reduce/reduction_pass.cpp: ReductionPass::TryApplyReduction, ReachedMinimumGranularity"]}
{"id": "C42", "title": "The version announced in assembly text is read from its header only", "statement": "spvReadEnvironmentFromText returns the environment of the released version announced by the first line of the form '; Version: 1.d' (after optional blanks, with a single digit d) that names one, provided every earlier line is blank or a comment, and fails otherwise.", "quantifier": "all texts", "why_tests_cant": "Unbounded texts; index jumps over lines that may be cut short anywhere.", "anchors": ["source/spirv_target_env.cpp: spvReadEnvironmentFromText"]}
{"id": "C43", "title": "The Vulkan environment chosen is the least capable sufficient one", "statement": "spvParseVulkanEnv succeeds exactly if some Vulkan environment supports both requested versions, and returns one that no other sufficient environment undercuts in Vulkan or SPIR-V version.", "quantifier": "all pairs of version words", "why_tests_cant": "2^64 pairs of version words.", "anchors": ["source/spirv_target_env.cpp: spvParseVulkanEnv"]}
{"id": "C44", "title": "Assembling any text ends in a module or an error", "statement": "Given any text, spvTextToBinary returns, with a binary or with an error code, without an endless loop and without reading outside its strings and vectors.", "quantifier": "all texts and all tables of instruction and operand names", "why_tests_cant": "The texts are unbounded and the operand patterns are rewritten while they are consumed.", "anchors": ["source/text.cpp: spvTextToBinaryWithOptions, spvTextEncodeOpcode, spvTextEncodeOperand, encodeInstructionStartingWithOpUnknown", "source/text_handler.cpp: AssemblyContext::isStartOfNewInst"]}
{"id": "C45", "title": "The iteration count of a loop is the number of times it goes round", "statement": "When the loop analysis reports an iteration count, with the step and the initial value, for a loop whose counter starts at a constant, is compared with a constant and is stepped by a constant, then every execution of the loop goes round exactly that many times; and a loop of that form that goes round a positive number of times is reported.", "quantifier": "all loops with constant start, bound and step, all comparison opcodes, widths and signednesses", "why_tests_cant": "The constants range over 2^192 combinations, and a run can have 2^64 rounds.", "anchors": ["source/opt/loop_descriptor.cpp: Loop::FindNumberOfIterations, Loop::GetIterations, Loop::FindConditionVariable, Loop::FindConditionBlock, Loop::GetInductionStepOperation, Loop::GetInductionInitValue", "source/opt/loop_descriptor.h: Loop"]}
{"id": "C46", "title": "Partial unrolling executes the body as often as the loop did", "statement": "When a loop whose iteration count is not a multiple of the factor is partially unrolled, the residual loop and the unrolled loop together execute the body exactly as often as the original loop.", "quantifier": "all starts, steps, bounds, factors and comparison opcodes", "why_tests_cant": "The constants and the factor are unbounded; the tests compare the text of a few outputs.", "anchors": ["source/opt/loop_descriptor.cpp: Loop::GetResidualConditionValue", "source/opt/loop_unroller.cpp: LoopUnrollerUtilsImpl::PartiallyUnrollResidualFactor, LoopUtils::PartiallyUnroll"]}
{"id": "C47", "title": "Accepted block layouts are aligned and free of overlap", "statement": "When the validator accepts the explicit layout of a block (Offset, ArrayStride, MatrixStride, RowMajor and ColMajor decorations), the layout follows the scalar, standard or extended layout rules that were asked for: no two numbers in the block share a byte, every member and array element lies at a multiple of its alignment, no vector straddles under the relaxed rules; and a layout that follows the rules is accepted.", "quantifier": "all block types (any nesting of structures, arrays, runtime arrays, matrices and vectors, members in any order), all offsets and strides, the three layout modes, with and without relaxed layout", "why_tests_cant": "The rules are about every pair of bytes and every array element of types of unbounded depth and size; tests pin a few blocks and their diagnostics.", "anchors": ["source/val/validate_explicit_layout.cpp: Impl::CheckLayout, CheckStructLayout, CheckArrayLayout, CheckMatrixLayout, GetAlign, GetSize, GetStructMembers", "include/spirv-tools/libspirv.h: spvValidate, spvValidatorOptionsSetRelaxBlockLayout, spvValidatorOptionsSetScalarBlockLayout"]}
{"id": "C48", "title": "Removing loads and stores inside a block does not change what a function does", "statement": "The pass that removes loads of a function variable whose value is known from an earlier store or load of the same block, and stores that are overwritten or store back what was loaded, leaves a function that does the same: it takes the same path through its blocks, calls the same functions with the same arguments, returns the same values, and leaves the same contents in every variable that others can see. The pass also comes to an end.", "quantifier": "all functions (any control flow with loops, any number of variables, access chains and copies of pointers, calls), all inputs, all behaviours of the calls and of the other instructions, all numbers of steps", "why_tests_cant": "A store that is wrongly removed shows only on paths, aliases and values that no test happens to combine; tests compare the text after the pass for a few shaders and execute nothing.", "anchors": ["source/opt/local_single_block_elim_pass.cpp: LocalSingleBlockLoadStoreElim, HasOnlySupportedRefs", "source/opt/mem_pass.cpp: GetPtr, IsTargetVar", "source/opt/instruction.cpp: GetBaseAddress", "include/spirv-tools/optimizer.hpp: CreateLocalSingleBlockLoadStoreElimPass"]}
{"id": "C49", "title": "Rewriting variables into ids does not change what a function does", "statement": "The pass that replaces the loads of a function's variables by the values stored, and joins values with phi instructions, leaves a function that does the same: it takes the same path through its blocks, has the same effects and returns the same values, and no load of a rewritten variable is left in a block that can be reached. Every id it uses is set by some instruction.", "quantifier": "all functions (any control flow, loops with any number of entries and back edges, any number of variables), all inputs, all behaviours of the other instructions, all numbers of steps", "why_tests_cant": "Which phi is superfluous depends on the whole graph of blocks; the tables are updated while recursive look-ups are under way. Tests compare the text after the pass for a few dozen graphs and execute nothing.", "anchors": ["source/opt/ssa_rewrite_pass.cpp: SSARewriter, GetReachingDef, AddPhiOperands, TryRemoveTrivialPhi, ReplacePhiUsersWith, FinalizePhiCandidates, ApplyReplacements", "source/opt/cfg.cpp: ComputePostOrderTraversal, WhileEachBlockInReversePostOrder", "include/spirv-tools/optimizer.hpp: CreateSSARewritePass"]}
{"id": "C50", "title": "Replacing the loads of a variable that is stored to once does not change what a function does", "statement": "After --eliminate-local-single-store every run of a function whose behaviour was defined is still a run of it: the same blocks in the same order, the same values passed to calls, stores to visible memory and other instructions, the same contents of the variables that others may see and the same values returned. A load is replaced by the one value stored only where the store comes before it on every path, including inside loops, through copies of the pointer, and when the value stored is itself a load that was replaced. And the pass returns.", "quantifier": "all functions (any blocks, edges, phis, pointers to parts), all values, inputs, memory contents, lengths of runs, and all behaviours of calls and other instructions; all answers about dominators that are right", "why_tests_cant": "The claim is about all executions of all functions; the renaming is done variable by variable while later variables are looked at through the instructions as they have become.", "anchors": ["source/opt/local_single_store_elim_pass.cpp: LocalSingleStoreElimPass::LocalSingleStoreElim", "source/opt/local_single_store_elim_pass.cpp: ProcessVariable", "source/opt/local_single_store_elim_pass.cpp: FindSingleStoreAndCheckUses", "source/opt/local_single_store_elim_pass.cpp: FindUses", "source/opt/local_single_store_elim_pass.cpp: FeedsAStore", "source/opt/local_single_store_elim_pass.cpp: RewriteLoads"]}
{"id": "C51", "title": "Removing redundant instructions does not change what a function does", "statement": "After --local-redundancy-elimination or --redundancy-elimination every run of a function whose behaviour was defined is still a run of it: the same blocks in the same order, the same effects on memory and on everything else, the same values returned. An instruction is removed only if an instruction that computes the same value from the same operands has run before it on every path, also when the operands are phis of loops, and instructions with effects are never removed. Of two instructions of a block that do the same, in either order of the operands if the operation commutes, the second is removed; along the dominator tree also when the first is in a block above. And the passes return.", "quantifier": "all functions (any blocks, edges, loops, phis with the same predecessors in several blocks), all machines (what the operations compute, what the others do), all choices of operations that commute, all answers about decorations, all dominator trees, all lengths of runs", "why_tests_cant": "The claim is about all executions of all functions; a value number stands for a value that changes from one round of a loop to the next, and numbers are given in text order, also to operands that have none yet.", "anchors": ["source/opt/value_number_table.cpp: ValueNumberTable::AssignValueNumber", "source/opt/value_number_table.cpp: BuildDominatorTreeValueNumberTable", "source/opt/value_number_table.cpp: ComputeSameValue", "source/opt/local_redundancy_elimination.cpp: LocalRedundancyEliminationPass::EliminateRedundanciesInBB", "source/opt/redundancy_elimination.cpp: RedundancyEliminationPass::EliminateRedundanciesFrom"]}
{"id": "C52", "title": "The validator accepts exactly the modules that define ids before they are used", "statement": "spvValidate accepts the ids of a module exactly when: every id used is defined, and earlier in the text unless the operand may be a forward reference; branches and merge instructions name blocks of their function and no branch names the first; a block comes after the blocks that lie on every path to it; an id defined in a block is used in reachable blocks only where every path from the start of the function has passed that block; parameters and labels are used in their own function only; and an OpPhi has one value for each predecessor of its block, defined on every path to the end of that predecessor. So in an accepted module every id an instruction uses has been defined, whatever way control takes. The checks return on every module, also with unreachable blocks and endless loops.", "quantifier": "all modules (any functions, blocks, edges, merge instructions, unreachable parts), all instructions and operands, all paths", "why_tests_cant": "The claim is about all control-flow graphs and all paths through them; tests show single graphs, and a missed dominance error only shows on a path no test takes.", "anchors": ["source/val/validate_id.cpp: IdPass", "source/val/validate_id.cpp: CheckIdDefinitionDominateUse", "source/val/validate_cfg.cpp: PerformCfgChecks", "source/val/validate_cfg.cpp: ValidatePhi", "source/val/validate_cfg.cpp: ReachabilityPass", "source/val/function.cpp: Function::ComputeAugmentedCFG", "source/val/basic_block.cpp: BasicBlock::dominates"]}
{"id": "C53", "title": "Moving invariant instructions out of loops does not change what a function does", "statement": "After loop-invariant code motion a function does, for all parameters and memory contents and block by block, what it did before: the same branches, the same effects, the same returned values. The module stays in the required form: each id is still defined where control has passed before it is used, no instruction is lost or doubled, and blocks, phis and branches are untouched. Afterwards no loop has an instruction that could be moved: in a block that belongs to a loop and to no loop inside it, every instruction is one that may not be moved or uses a value computed in the loop. The pass returns on every function whose loops have preheaders.", "quantifier": "all functions in the form SPIR-V requires, all loops and nests of loops with any blocks inside, all machines (value domains, operations, memories), all inputs and runs of any length", "why_tests_cant": "Which paths a run takes and which operands it has are unbounded; a moved instruction runs on paths on which it did not run before, and tests see only the paths they take.", "anchors": ["source/opt/licm_pass.cpp: LICMPass::ProcessLoop", "source/opt/licm_pass.cpp: LICMPass::AnalyseAndHoistFromBB", "source/opt/licm_pass.cpp: LICMPass::HoistInstruction", "source/opt/loop_descriptor.cpp: Loop::ShouldHoistInstruction", "source/opt/loop_descriptor.cpp: Loop::AreAllOperandsOutsideLoop", "source/opt/instruction.cpp: Instruction::IsOpcodeCodeMotionSafe"]}
{"id": "C54", "title": "Code sinking does not change what a function does", "statement": "The code-sinking pass moves access chains, and loads from memory nothing writes to, down to the block where they are needed. The function then does what it did before: the same effects on memory in the same order, the same returned value, on every execution. Blocks, phis and branches stay as they are, every instruction is still there exactly once, definitions still come before their uses on every path, and an instruction is only moved to a block that is reached through the one it was in. A load is not moved past a store to the same variable, an instruction is not moved to where it is executed more often, and the pass comes to an end.", "quantifier": "all functions (any control-flow graph with selection constructs), all instructions, all meanings of the operations, all inputs and memories, all executions of any length", "why_tests_cant": "Whether all uses lie behind the chosen block is a statement about all paths; whether a load may be moved depends on all instructions between, on all executions. The tests of the pass are single functions with one load.", "anchors": ["source/opt/code_sink.cpp: CodeSinkingPass::FindNewBasicBlockFor", "source/opt/code_sink.cpp: CodeSinkingPass::ReferencesMutableMemory", "source/opt/code_sink.cpp: CodeSinkingPass::HasPossibleStore", "source/opt/code_sink.cpp: CodeSinkingPass::HasUniformMemorySync", "source/opt/code_sink.cpp: CodeSinkingPass::IntersectsPath", "source/opt/instruction.cpp: Instruction::GetBaseAddress"]}
{"id": "C55", "title": "Merging blocks does not change what a function does or how it is structured", "statement": "The block-merging pass puts a block and the block it unconditionally branches to together, if nothing else goes there. The function then does what it did before: it returns exactly if it did, with the same value and the same effects in the same order, and goes on for ever if it did. Every instruction is still there exactly once; the phis of the blocks behind name the block that now comes before them. The structure stays valid: no block gets two merge instructions or becomes the merge block of two constructs, a loop header still ends with a branch and a selection header with a choice, every block named by a merge instruction exists, and no merge block becomes a continue target or a case of a switch. With SPV_KHR_maximal_reconvergence no merge block disappears. The pass comes to an end.", "quantifier": "all functions (any control-flow graph and any nesting of constructs), all chains of blocks, all meanings of the operations, all inputs, all executions of any length including endless ones", "why_tests_cant": "A merge changes the graph, the merge instructions and the phis of other blocks, and the next merge starts from the result; what is kept is a statement about every order of merges in every graph. The tests are single functions with one merge.", "anchors": ["source/opt/block_merge_util.cpp: CanMergeWithSuccessor", "source/opt/block_merge_util.cpp: MergeWithSuccessor", "source/opt/block_merge_pass.cpp: BlockMergePass::MergeBlocks"]}
{"id": "C56", "title": "Conflicting binding numbers are resolved, with the smallest change", "statement": "After the pass that resolves binding conflicts, no two variables of one descriptor set that the same entry point uses, itself or through the functions it calls, have the same binding number. The order of the variables is kept, with a sampler behind the image of the same number; no binding number becomes smaller; every number is the smallest one possible under these conditions; and a module without conflicts is not changed, nor is anything but the resource variables. The pass comes to an end.", "quantifier": "all modules without recursion: any number of functions, entry points, calls, descriptor sets and variables, all binding numbers", "why_tests_cant": "Entry points share variables, so a change for one can create a conflict in another, and the pass repeats until nothing changes; that it ends, and where, is a statement about all histories of changes. The tests of the pass have at most two entry points and a handful of variables.", "anchors": ["source/opt/resolve_binding_conflicts_pass.cpp: ResolveBindingConflictsPass::Process", "source/opt/resolve_binding_conflicts_pass.cpp: ResolveConflicts", "source/opt/resolve_binding_conflicts_pass.cpp: Merge", "source/opt/resolve_binding_conflicts_pass.cpp: Less", "source/opt/resolve_binding_conflicts_pass.cpp: CallGraph"]}
{"id": "C57", "title": "Exactly the unused constants are removed", "statement": "The pass that eliminates dead constants removes a constant exactly if nothing needs it: no instruction other than names and decorations mentions it, directly or through constants that are needed themselves. With it go its names and decorations, and nothing else is removed or changed. What is left mentions no constant that was removed. The result does not depend on the order in which the pass works, its assertion on use counts never fails, and it comes to an end.", "quantifier": "all modules: any number of constants, built from each other in any way, with any names, decorations and uses; all orders in which a hash set gives its elements", "why_tests_cant": "Use counts reach zero along chains of any length and in an order that depends on pointer values; that counts never go below zero and that all chains are followed to the end are statements about all of them. The tests have fixed modules and one order.", "anchors": ["source/opt/eliminate_dead_constant_pass.cpp: EliminateDeadConstantPass::Process", "source/opt/ir_context.cpp: IRContext::KillDef", "source/opt/ir_context.cpp: IRContext::KillNamesAndDecorates", "source/opt/decoration_manager.cpp: DecorationManager::AddDecoration", "source/opt/reflect.h: IsAnnotationInst", "source/opcode.cpp: spvOpcodeIsConstant"]}
{"id": "C58", "title": "Exactly the functions that can be called are kept, and interfaces list exactly what is used", "statement": "The pass that eliminates dead functions keeps a function exactly if an entry point or an exported function is it or calls it, directly or through other functions; what a kept function calls is kept. The pass that removes unused interface variables gives every entry point the list of exactly those variables that must be listed (before version 1.4 inputs and outputs only, never variables of functions) and that the functions it calls mention, each once; execution model, function and name stay, and so does a list that is right already. Both come to an end, also with recursive calls.", "quantifier": "all modules: any number of functions that call each other in any way, also in circles, any entry points, exports and variables", "why_tests_cant": "Which functions are reached is a closure over a call graph of any size and shape; neither its completeness nor the end of the search on circles follows from the fixed modules of the tests.", "anchors": ["source/opt/ir_context.cpp: IRContext::AddCalls", "source/opt/ir_context.cpp: IRContext::ProcessReachableCallTree", "source/opt/ir_context.cpp: IRContext::ProcessCallTreeFromRoots", "source/opt/eliminate_dead_functions_pass.cpp: EliminateDeadFunctionsPass::Process", "source/opt/remove_unused_interface_variables_pass.cpp: RemoveUnusedInterfaceVariablesContext"]}
{"id": "C59", "title": "Flattening decoration groups leaves every decoration on its target", "statement": "After the pass that flattens decorations every object and every structure member carries exactly the decorations it carried before, directly or through a group, and each as often. No group is left, and nothing that is left mentions one. Annotations that have nothing to do with groups stay in their places. The names of groups go and all others stay, and the pass comes to an end.", "quantifier": "all lists of annotations and names: any number of groups with any targets, used any number of times, also not at all", "why_tests_cant": "That no combination of groups, targets and direct decorations loses or adds a decoration, and that the pass ends for every list of names, are statements about all of them; the tests have short fixed lists.", "anchors": ["source/opt/flatten_decoration_pass.cpp: FlattenDecorationPass::Process", "source/opt/reflect.h: IsDebug2Inst", "source/val/validate_annotation.cpp: ValidateDecorationGroup"]}
{"id": "C60", "title": "Unifying constants changes no value and leaves no duplicate", "statement": "The pass that unifies constants replaces an id only by one that has the same value, whatever the operations of the module mean. It removes nothing but constants without decorations, nothing that is left mentions what it removed, everything else stays in order, and no two undecorated constants that are left have the same opcode, type and operands.", "quantifier": "all sections of types, constants and global variables: any number of constants built from each other to any depth, any decorations, any meaning of the constant operations", "why_tests_cant": "Replacements change the keys under which later constants are looked up, along chains of any length; that no chain leads to a wrong or a missed match is a statement about all of them. The tests have fixed short modules.", "anchors": ["source/opt/unify_const_pass.cpp: UnifyConstantPass::Process", "source/opt/unify_const_pass.cpp: ResultIdTrie", "source/opt/def_use_manager.cpp: DefUseManager::GetAnnotations"]}
{"id": "C61", "title": "Moving private variables into functions does not change what a module outputs", "statement": "The private-to-local pass moves a private variable exactly if instructions use it, all of them in one function, and in the end only to load from it and store through it. Interfaces of entry points lose the variables that are moved and nothing else. The module may output after the pass exactly what it could output before.", "quantifier": "all modules and executions: any functions that read, write, call and output depending on what they read, any sets of variables, all initial values", "why_tests_cant": "That a variable keeps nothing from one call to the next that matters is a statement about all sequences of calls; the tests look at the text of the result only.", "anchors": ["source/opt/private_to_local_pass.cpp: PrivateToLocalPass::Process", "source/opt/private_to_local_pass.cpp: PrivateToLocalPass::FindLocalFunction", "source/opt/private_to_local_pass.cpp: PrivateToLocalPass::IsValidUse"]}
{"id": "C62", "title": "Packing a structure gives offsets that are aligned, in order and without overlap", "statement": "The struct-packing pass succeeds exactly if the offset decorations come in the order of the members and no member would have to move to a higher offset. Each member is then put at the lowest offset the chosen rules allow. Every scalar, vector, array and structure in it is at a multiple of the alignment the rules ask for, and no two members share a byte.", "quantifier": "all structures of numbers, vectors, matrices, arrays and structures nested to any depth, all sets of old offsets, all packing rules", "why_tests_cant": "Overlap and alignment depend on the combination of any number of nested members; the tests compare the offsets of a few structures.", "anchors": ["source/opt/struct_packing_pass.cpp: StructPackingPass::assignStructMemberOffsets", "source/opt/struct_packing_pass.cpp: StructPackingPass::getPackedAlignment", "source/opt/struct_packing_pass.cpp: StructPackingPass::getPackedSize", "source/opt/struct_packing_pass.cpp: StructPackingPass::getPackedArrayStride"]}
