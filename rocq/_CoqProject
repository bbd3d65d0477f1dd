-Q theories Verif
theories/Assembler.v
theories/AssemblerSpec.v
theories/AssemblerTotal.v
theories/AugmentedProofs.v
theories/Base.v
theories/BinaryParse.v
theories/BinaryParseModule.v
theories/BinaryParseProofs.v
theories/BitUtilsProofs.v
theories/BitVector.v
theories/BitVectorProofs.v
theories/BitVectorSpec.v
theories/BlockMerge.v
theories/BlockMergeProofs.v
theories/BlockMergeProofs2.v
theories/BlockMergeSpec.v
theories/Bytes.v
theories/CallTree.v
theories/CallTreeProofs.v
theories/CallTreeSpec.v
theories/Cfa.v
theories/CfaProofs.v
theories/CfgSpec.v
theories/CodeSink.v
theories/CodeSinkProofs.v
theories/CodeSinkProofs2.v
theories/CodeSinkProofs3.v
theories/CodeSinkProofs4.v
theories/CodeSinkSpec.v
theories/CompactIds.v
theories/CompactIdsProofs.v
theories/DeadConst.v
theories/DeadConstProofs.v
theories/DeadConstSpec.v
theories/DefUse.v
theories/DefUseProofs.v
theories/DefUseSpec.v
theories/DfsDominators.v
theories/DfsSpec.v
theories/Disassembler.v
theories/DominatorProofs.v
theories/DominatorTree.v
theories/DominatorTreeProofs.v
theories/EnumSet.v
theories/EnumSetProofs.v
theories/EquivProofs.v
theories/EquivRel.v
theories/EquivSpec.v
theories/ExplicitLayout.v
theories/ExplicitLayoutProofs.v
theories/ExplicitLayoutProofs2.v
theories/ExplicitLayoutProofs3.v
theories/ExplicitLayoutProofs4.v
theories/ExplicitLayoutSpec.v
theories/Flatten.v
theories/FlattenSpec.v
theories/Fold.v
theories/FoldProofs.v
theories/FoldProofs2.v
theories/FoldProofs3.v
theories/FoldProofs4.v
theories/FoldProofs5.v
theories/FoldProofs6.v
theories/FoldProofs7.v
theories/FoldProofs8.v
theories/FoldRules.v
theories/FoldRulesProofs.v
theories/FoldRulesProofs2.v
theories/FoldRulesProofs3.v
theories/FoldRulesProofs4.v
theories/FoldRulesProofs5.v
theories/FoldRulesSpec.v
theories/FoldSpec.v
theories/GraphSpec.v
theories/HexFloat.v
theories/HexFloatProofs.v
theories/HexFloatProofs10.v
theories/HexFloatProofs11.v
theories/HexFloatProofs12.v
theories/HexFloatProofs13.v
theories/HexFloatProofs2.v
theories/HexFloatProofs3.v
theories/HexFloatProofs4.v
theories/HexFloatProofs5.v
theories/HexFloatProofs6.v
theories/HexFloatProofs7.v
theories/HexFloatProofs8.v
theories/HexFloatProofs9.v
theories/HexFloatSpec.v
theories/IList.v
theories/IListEdges.v
theories/IListProofs.v
theories/IListSpec.v
theories/IdBound.v
theories/IdSpec.v
theories/IrModule.v
theories/IrSpec.v
theories/Layout.v
theories/LayoutLang.v
theories/LayoutProofs.v
theories/LayoutSpec.v
theories/Lcs.v
theories/LcsProofs.v
theories/LcsSpec.v
theories/Licm.v
theories/LicmProofs.v
theories/LicmProofs2.v
theories/LicmProofs3.v
theories/LicmProofs4.v
theories/LicmProofs5.v
theories/LicmSpec.v
theories/Linker.v
theories/LinkerProofs.v
theories/LinkerResolveProofs.v
theories/LinkerSpec.v
theories/LinkerSymbolProofs.v
theories/LocalElim.v
theories/LocalElimProofs.v
theories/LocalElimProofs2.v
theories/LocalElimProofs3.v
theories/LocalElimProofs4.v
theories/LocalElimProofs5.v
theories/LocalElimProofs6.v
theories/LocalElimSpec.v
theories/LoopDep.v
theories/LoopDepProofs.v
theories/LoopDepProofs2.v
theories/LoopDepProofs3.v
theories/LoopDepProofs4.v
theories/LoopDepSpec.v
theories/LoopIter.v
theories/LoopIterProofs.v
theories/LoopIterSpec.v
theories/NameMapper.v
theories/NamedIds.v
theories/NamedIdsProofs.v
theories/NestingProofs.v
theories/NumberProofs.v
theories/NumberSpec.v
theories/Operand.v
theories/OperandProofs.v
theories/OperandTypes.v
theories/P_Assembler.v
theories/P_BinaryParse.v
theories/P_BitVector.v
theories/P_BlockMerge.v
theories/P_CallTree.v
theories/P_Cfa.v
theories/P_CodeSink.v
theories/P_CompactIds.v
theories/P_DeadConst.v
theories/P_DefUse.v
theories/P_EnumSet.v
theories/P_Equiv.v
theories/P_ExplicitLayout.v
theories/P_Flatten.v
theories/P_Fold.v
theories/P_FoldRules.v
theories/P_HexFloat.v
theories/P_IList.v
theories/P_IdBound.v
theories/P_Layout.v
theories/P_Lcs.v
theories/P_Licm.v
theories/P_Linker.v
theories/P_LocalElim.v
theories/P_LoopDep.v
theories/P_LoopIter.v
theories/P_NameMapper.v
theories/P_Operand.v
theories/P_PrivateLocal.v
theories/P_Propagator.v
theories/P_Reducer.v
theories/P_Redundancy.v
theories/P_ResolveBindings.v
theories/P_RoundTrip.v
theories/P_Scev.v
theories/P_Shrinker.v
theories/P_SingleStore.v
theories/P_SmallVector.v
theories/P_SsaRewrite.v
theories/P_StructPack.v
theories/P_TargetEnv.v
theories/P_Text.v
theories/P_Unify.v
theories/P_ValidateId.v
theories/P_Words.v
theories/ParseEndian.v
theories/ParseNumber.v
theories/ParseSpec.v
theories/PrivateLocal.v
theories/PrivateLocalSpec.v
theories/Propagator.v
theories/PropagatorProofs.v
theories/PropagatorProofs2.v
theories/PropagatorProofs3.v
theories/PropagatorProofs4.v
theories/PropagatorProofs5.v
theories/PropagatorProofs6.v
theories/PropagatorSpec.v
theories/Reducer.v
theories/ReducerProofs.v
theories/ReducerSpec.v
theories/Redundancy.v
theories/RedundancyProofs.v
theories/RedundancyProofs2.v
theories/RedundancyProofs3.v
theories/RedundancyProofs4.v
theories/RedundancyProofs5.v
theories/RedundancySpec.v
theories/ResolveBindings.v
theories/ResolveBindingsProofs.v
theories/ResolveBindingsProofs2.v
theories/ResolveBindingsSpec.v
theories/RoundTripInst.v
theories/RoundTripLoop.v
theories/RoundTripOperand.v
theories/RoundTripPattern.v
theories/RoundTripProofs.v
theories/RoundTripSpec.v
theories/RoundTripStep.v
theories/RoundTripToken.v
theories/Scev.v
theories/ScevProofs.v
theories/ScevProofs2.v
theories/ScevProofs3.v
theories/ScevProofs4.v
theories/ScevProofs5.v
theories/ScevSpec.v
theories/SetSpec.v
theories/Shrinker.v
theories/ShrinkerProofs.v
theories/ShrinkerSpec.v
theories/SingleStore.v
theories/SingleStoreProofs.v
theories/SingleStoreProofs2.v
theories/SingleStoreProofs3.v
theories/SingleStoreProofs4.v
theories/SingleStoreSpec.v
theories/SmallVector.v
theories/SmallVectorProofs.v
theories/SmallVectorSpec.v
theories/SsaRewrite.v
theories/SsaRewriteProofs.v
theories/SsaRewriteProofs2.v
theories/SsaRewriteProofs3.v
theories/SsaRewriteProofs4.v
theories/SsaRewriteProofs5.v
theories/SsaRewriteSpec.v
theories/StrengthProofs.v
theories/StrengthReduction.v
theories/StrengthSpec.v
theories/StructPack.v
theories/StructPackProofs.v
theories/StructPackSpec.v
theories/TargetEnv.v
theories/TargetEnvProofs.v
theories/TargetEnvSpec.v
theories/TextLex.v
theories/TextProofs.v
theories/TextSpec.v
theories/TokenReader.v
theories/Unify.v
theories/UnifyProofs.v
theories/UnifySpec.v
theories/ValidateId.v
theories/ValidateIdProofs.v
theories/ValidateIdProofs2.v
theories/ValidateIdProofs3.v
theories/ValidateIdProofs4.v
theories/ValidateIdProofs5.v
theories/ValidateIdSpec.v
theories/Words.v
theories/WordsProofs.v
