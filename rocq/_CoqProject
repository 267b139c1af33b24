-Q theories Verif
theories/Base.v
theories/Value.v
theories/Slab.v
theories/SlabProofs.v
theories/ValueSpec.v
theories/ValueProofs.v
theories/Print.v
theories/PrintSpec.v
theories/PrintProofs.v
theories/CString.v
theories/Closure.v
theories/CStringProofs.v
theories/Properties1.v
theories/Tree.v
theories/Cache.v
theories/TreeSpec.v
theories/TreeProofs.v
theories/Properties2.v
theories/Tails.v
theories/Eval.v
theories/Sexp.v
theories/EvalSpec.v
theories/EvalProofs.v
theories/Sem1.v
theories/Sem2.v
theories/Sem3.v
theories/Sem4.v
theories/Sem5.v
theories/TailsProofs.v
theories/TailsSem.v
theories/TailsRec.v
theories/Cases.v
theories/Properties3.v
theories/Lexer.v
theories/LexerSpec.v
theories/LexerProofs.v
theories/ReadSpec.v
theories/Parser.v
theories/ParserProofs.v
theories/ReadProofs.v
theories/Properties4.v
theories/Heap.v
theories/HeapSpec.v
theories/HeapProofs.v
theories/HeapOps.v
theories/Properties5.v
theories/HEval.v
theories/HEvalSpec.v
theories/HEvalBase.v
theories/HEvalTails.v
theories/HEvalProofs.v
theories/HEvalRun.v
theories/HEvalBoot.v
theories/Properties6.v
theories/BuiltinSpec.v
theories/Sem6.v
theories/Properties7.v
theories/LibText.v
theories/Lib.v
theories/LibSpec.v
theories/LibBase.v
theories/LibProofs.v
theories/LibDerived.v
theories/LibMore.v
theories/LibAssoc.v
theories/LibSort.v
theories/LibNum.v
theories/LibCases.v
theories/Properties8.v
theories/HSimSpec.v
theories/HSimBase.v
theories/HSimOps.v
theories/HSimList.v
theories/HSimMix.v
theories/HSimPure.v
theories/HSimLisp.v
theories/HSimState.v
theories/HSimChan.v
theories/HSimMark.v
theories/HSimCall.v
theories/HSimLoop.v
theories/HSimPrim.v
theories/HSimEval.v
theories/HSimTree.v
theories/HSimFlag.v
theories/HSimOwn.v
theories/HSimTop.v
theories/Properties9.v
theories/Path.v
theories/Load.v
theories/HostSpec.v
theories/HostProofs.v
theories/HostRun.v
theories/HostMain.v
theories/Properties10.v
theories/Unix.v
theories/UnixSpec.v
theories/UnixProofs.v
theories/Args.v
theories/ArgsSpec.v
theories/ArgsProofs.v
theories/Properties11.v
theories/LibText2.v
theories/Lib2.v
theories/Lib2Spec.v
theories/Lib2Proofs.v
theories/Properties12.v
theories/Install.v
theories/InstallSpec.v
theories/Properties13.v
theories/Main.v
theories/MainSpec.v
theories/MainProofs.v
theories/Properties14.v
theories/LibText3.v
theories/LibText4.v
theories/Lib3.v
theories/Lib3Spec.v
theories/Lib3Term.v
theories/Lib3Assert.v
theories/Lib3Run.v
theories/Lib3Args.v
theories/Properties15.v
theories/Properties16.v
theories/Input.v
theories/InputSpec.v
theories/Properties17.v
theories/RHeap.v
theories/REval.v
theories/RSimSpec.v
theories/RSim.v
theories/RSim2.v
theories/HBars.v
theories/RSimTop.v
theories/RSlabProofs.v
theories/Properties18.v
theories/HRead.v
theories/HReadProofs.v
theories/HReadSim.v
theories/HReadChan.v
theories/Properties19.v
theories/HTree.v
theories/HTreeSpec.v
theories/HTreeSim.v
theories/HTreeCount.v
theories/HTreeProofs.v
theories/HTreeOps.v
theories/HTreeTame.v
theories/HTreeAdd.v
theories/HTreeRun.v
theories/Properties20.v
theories/Info.v
theories/InfoProofs.v
theories/Properties21.v
theories/CcSpec.v
theories/CcProofs.v
theories/Properties22.v
theories/Cc2Spec.v
theories/Cc2Proofs.v
theories/Properties23.v
theories/Cc3Proofs.v
theories/Cc4Proofs.v
theories/Properties24.v
theories/Cc5Proofs.v
theories/Properties25.v
theories/Cc6Spec.v
theories/Cc6Proofs.v
theories/Properties26.v
theories/Cc7Spec.v
theories/Cc7Proofs.v
theories/Cc8Proofs.v
theories/Cc9Proofs.v
theories/Cc10Proofs.v
theories/Properties27.v
