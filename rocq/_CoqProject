-Q theories Verif
theories/Base.v
theories/Scalar.v
theories/Tensor.v
theories/Types.v
theories/Sym.v
theories/Phi.v
theories/Den.v
theories/Term.v
theories/Lining.v
theories/Outline.v
theories/Dominators.v
theories/InlineMemo.v
theories/PhiTerm.v
theories/DenFree.v
theories/SpecPhi.v
theories/Checkers.v
theories/LiningFacts.v
theories/PropLining.v
theories/Equiv.v
theories/ClipShift.v
theories/TreeReduce.v
theories/TypesFacts.v
theories/Typing.v
theories/PropBasics.v
theories/DenWf.v
theories/Naive.v
theories/PropNaive.v
theories/Layout.v
theories/Frontend.v
theories/Sample.v
theories/PropFrontend.v
theories/Sizes.v
theories/Cache.v
theories/Value.v
theories/PropSizes.v
theories/NdOps.v
theories/NdFacts.v
theories/Yarr.v
theories/Axial.v
theories/AxialFacts.v
theories/AxialOps.v
theories/Codegen.v
theories/IndexOps.v
theories/YOps.v
theories/CodegenSafe.v
theories/CodegenGet.v
theories/CodegenCtx.v
theories/CodegenCases.v
theories/Subst.v
theories/Lift.v
theories/CodegenAxes.v
theories/CodegenCorrect.v
theories/CodegenSub.v
theories/SumFacts.v
theories/CodegenRed.v
theories/Subscripts.v
theories/LiftSem.v
theories/EinOps.v
theories/CodegenEin.v
theories/ReduceOps.v
theories/CodegenReduce.v
theories/CodegenGo.v
theories/FastPad.v
theories/PropAxes.v
theories/Compile.v
theories/StrictCode.v
theories/PropCodegen.v
theories/PropReduce.v
theories/PropTree.v
theories/PropEinsum.v
theories/YTerm.v
theories/YFit.v
theories/YWf.v
theories/Cancel.v
theories/GenCheck.v
theories/PropArray.v
theories/Machine.v
theories/MachineSim.v
theories/MachineRun.v
theories/MachineSafe.v
theories/Inplace.v
theories/PropMachine.v
theories/Torch.v
theories/PropTorch.v
theories/Soa.v
theories/SoaTyp.v
theories/SoaOps.v
theories/SoaFacts.v
theories/SoaReduce.v
theories/SoaMain.v
theories/PropSoa.v
theories/SizeClasses.v
theories/Moments.v
theories/MomentFacts.v
theories/SizeSound.v
theories/SizeSafe.v
theories/PropClasses.v
theories/Visits.v
theories/OutlinePass.v
theories/OutlineTree.v
theories/OutlineTotal.v
theories/PropOutline.v
theories/OutlineBinders.v
theories/SoaWf.v
theories/CodegenMemo.v
theories/CodegenLocal.v
theories/MemoSound.v
theories/Tidy.v
theories/Pipeline.v
theories/PropPipeline.v
theories/PropMemo.v
theories/YTyping.v
theories/PropYtyp.v
theories/CodeBinders.v
theories/CodeStage.v
theories/PropCompiled.v
theories/Backend.v
theories/BackendRun.v
theories/OutlineHeads.v
theories/CodeShape.v
theories/PropBackend.v
theories/Comprehension.v
theories/ComprehensionSem.v
theories/Slice.v
theories/WhereVec.v
theories/PropComprehension.v
theories/Boundary.v
theories/PropBoundary.v
theories/Pretty.v
theories/Lines.v
theories/PropPretty.v
theories/Once.v
theories/OnceNaive.v
theories/PropOnce.v
theories/PropRuns.v
theories/PropLayout.v
theories/PropMore.v
theories/PropCalls.v
theories/Rename.v
theories/Direct.v
theories/Check.v
theories/PropDirect.v
theories/Close.v
theories/PropClose.v
theories/Varargs.v
theories/PropVarargs.v
theories/PropCheck.v
theories/PrettyY.v
theories/PropPrettyY.v
theories/Graph.v
theories/PropGraph.v
