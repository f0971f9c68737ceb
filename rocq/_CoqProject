-Q theories Verif
theories/Assoc.v
theories/TableModel.v
theories/TableProofs.v
theories/TableProperties.v
theories/JumpFunctionsModel.v
theories/JumpFunctionsProofs.v
theories/JumpFunctionsProperties.v
theories/IDESolverModel.v
theories/IDESpec.v
theories/IDEPhase1.v
theories/IDEPhase2.v
theories/IDEInvariant.v
theories/IDESound.v
theories/IDEPrecision.v
theories/IDESchedule.v
theories/IDETermination.v
theories/IDEResults.v
theories/IDEInstances.v
theories/IDEProperties.v
theories/IFDSModel.v
theories/IFDSSpec.v
theories/IFDSProofs.v
theories/IFDSProperties.v
theories/SolverAPIModel.v
theories/SolverAPIProofs.v
theories/SolverAPIProperties.v
theories/LatticeModel.v
theories/LatticeSpec.v
theories/LatticeProofs.v
theories/LatticeProperties.v
theories/EdgeFunctionModel.v
theories/EdgeFunctionProofs.v
theories/EdgeFunctionInstances.v
theories/EdgeFunctionProperties.v
theories/FlowFunctionsModel.v
theories/FlowFunctionsSpec.v
theories/FlowFunctionsProofs.v
theories/FlowFunctionsProperties.v
theories/EquivClassMapModel.v
theories/EquivClassMapSpec.v
theories/EquivClassMapProofs.v
theories/EquivClassMapProperties.v
theories/FlowCacheModel.v
theories/FlowCacheSpec.v
theories/FlowCacheProofs.v
theories/FlowCacheProperties.v
theories/BitVectorSetModel.v
theories/BitVectorSetSpec.v
theories/BitVectorSetProofs.v
theories/BitVectorSetProperties.v
theories/StableVectorModel.v
theories/StableVectorSpec.v
theories/StableVectorProofs.v
theories/StableVectorProperties.v
theories/DFAMinimizerModel.v
theories/DFAMinimizerSpec.v
theories/DFAMinimizerProofs.v
theories/DFAMinimizerProperties.v
theories/CallStringModel.v
theories/CallStringSpec.v
theories/CallStringProofs.v
theories/CallStringProperties.v
theories/IntraMonoModel.v
theories/IntraMonoSpec.v
theories/IntraMonoProofs.v
theories/IntraMonoProperties.v
theories/LLVMCFGModel.v
theories/LLVMCFGSpec.v
theories/LLVMCFGProofs.v
theories/LLVMCFGProperties.v
theories/InterMonoModel.v
theories/InterMonoSpec.v
theories/InterMonoProofs.v
theories/InterMonoProperties.v
theories/LCAModel.v
theories/LCASpec.v
theories/LCAProofs.v
theories/LCAProperties.v
theories/GLCAModel.v
theories/GLCASpec.v
theories/GLCAProofs.v
theories/GLCAProperties.v
theories/XTaintModel.v
theories/XTaintSpec.v
theories/XTaintProofs.v
theories/XTaintProperties.v
theories/TypeStateModel.v
theories/TypeStateSpec.v
theories/TypeStateProofs.v
theories/TypeStateProperties.v
theories/IIAModel.v
theories/IIASpec.v
theories/IIAProofs.v
theories/IIAProperties.v
theories/CallGraphModel.v
theories/CallGraphSpec.v
theories/CallGraphProofs.v
theories/CallGraphProperties.v
theories/CGBuilderModel.v
theories/CGBuilderSpec.v
theories/CGBuilderProofs.v
theories/CGBuilderProperties.v
theories/UtilitiesModel.v
theories/UtilitiesSpec.v
theories/UtilitiesProofs.v
theories/UtilitiesProperties.v
theories/AliasSetModel.v
theories/AliasSetSpec.v
theories/AliasSetProofs.v
theories/AliasSetModuleProofs.v
theories/AliasSetMergeProofs.v
theories/AliasSetSafeProofs.v
theories/AliasSetJsonProofs.v
theories/AliasSetProperties.v
theories/TypeHierarchyModel.v
theories/TypeHierarchySpec.v
theories/TypeHierarchyProofs.v
theories/TypeHierarchyJsonProofs.v
theories/TypeHierarchyProperties.v
theories/ResolverModel.v
theories/ResolverSpec.v
theories/ResolverProofs.v
theories/ResolverProperties.v
theories/TypeGraphModel.v
theories/TypeGraphProofs.v
theories/TypeGraphProperties.v
theories/MaybeUniquePtrModel.v
theories/MaybeUniquePtrSpec.v
theories/MaybeUniquePtrProofs.v
theories/MaybeUniquePtrProperties.v
theories/SeedsModel.v
theories/SeedsProperties.v
theories/SolverResultsModel.v
theories/SolverResultsProperties.v
theories/EdgeFunctionMemModel.v
theories/EdgeFunctionMemSpec.v
theories/EdgeFunctionMemProofs.v
theories/EdgeFunctionMemProperties.v
theories/LLVMFlowFunctionsModel.v
theories/LLVMFlowFunctionsSpec.v
theories/LLVMFlowFunctionsProofs.v
theories/LLVMFlowFunctionsProperties.v
theories/LCAProgramModel.v
theories/LCAProgramSpec.v
theories/LCAProgramProofs.v
theories/LCAProgramSim.v
theories/LCAProgramTerm.v
theories/LCAProgramProperties.v
theories/IRProgramModel.v
theories/IRProgramSpec.v
theories/IRProgramProofs.v
theories/IRProgramSim.v
theories/IRProgramExamples.v
theories/UninitModel.v
theories/UninitSpec.v
theories/UninitProofs.v
theories/UninitProperties.v
theories/TaintModel.v
theories/TaintSpec.v
theories/TaintProofs.v
theories/TaintProperties.v
theories/ExplodedSuperGraphModel.v
theories/ExplodedSuperGraphSpec.v
theories/ExplodedSuperGraphProofs.v
theories/ExplodedSuperGraphExamples.v
theories/ExplodedSuperGraphProperties.v
theories/PathDagModel.v
theories/PathDagSpec.v
theories/PathDagGraphs.v
theories/PathDagProofs.v
theories/PathDagReverse.v
theories/PathDagResults.v
theories/PathDagProperties.v
theories/AmlModel.v
theories/AmlSpec.v
theories/AmlProofs.v
theories/AmlProperties.v
theories/PathFilterModel.v
theories/PathFilterSpec.v
theories/PathFilterProofs.v
theories/PathFlattenProofs.v
theories/PathFilterResults.v
theories/PathFilterProperties.v
theories/BranchConstraintModel.v
theories/BranchConstraintSpec.v
theories/BranchCacheProofs.v
theories/BranchConstraintProofs.v
theories/BranchConstraintProperties.v
theories/BranchVariableProofs.v
theories/GlobalModelModel.v
theories/GlobalModelSpec.v
theories/GlobalModelProofs.v
theories/GlobalModelProperties.v
theories/IRDBModel.v
theories/IRDBSpec.v
theories/IRDBProofs.v
theories/IRDBProperties.v
theories/DIHierarchyModel.v
theories/DIHierarchySpec.v
theories/DIHierarchyProofs.v
theories/DIHierarchyBuild.v
theories/DIHierarchyProperties.v
theories/TaintConfigModel.v
theories/TaintConfigSpec.v
theories/TaintConfigProofs.v
theories/TaintConfigProperties.v
theories/IntraMonoCover.v
theories/FullConstModel.v
theories/FullConstSpec.v
theories/FullConstProofs.v
theories/FullConstProperties.v
theories/OTFModel.v
theories/OTFSpec.v
theories/OTFProofs.v
theories/OTFProperties.v
theories/SecureHeapModel.v
theories/SecureHeapSpec.v
theories/SecureHeapProofs.v
theories/SecureHeapProperties.v
theories/ConstAnalysisModel.v
theories/ConstAnalysisSpec.v
theories/ConstAnalysisProofs.v
theories/ConstAnalysisProperties.v
theories/MonoUninitModel.v
theories/MonoUninitSpec.v
theories/MonoUninitProofs.v
theories/MonoUninitProperties.v
theories/MonoTaintModel.v
theories/MonoTaintSpec.v
theories/MonoTaintProofs.v
theories/MonoTaintProperties.v
theories/FlowFactsModel.v
theories/FlowFactsSpec.v
theories/FlowFactsProofs.v
theories/FlowFactsProperties.v
theories/PAMMModel.v
theories/PAMMSpec.v
theories/PAMMProofs.v
theories/PAMMProperties.v
theories/EnumNamesModel.v
theories/EnumNamesSpec.v
theories/EnumNamesProofs.v
theories/EnumNamesProperties.v
