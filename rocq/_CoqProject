-Q theories Verif
theories/Py.v
theories/Spec.v
theories/ContextModel.v
theories/PyFacts.v
theories/SpecFacts.v
theories/ContextSpec.v
theories/ContextFacts.v
theories/ContextInit.v
theories/ContextOps.v
theories/ContextMut.v
theories/ContextEffects.v
theories/ContextMisc.v
theories/ContextReduce.v
theories/ContextEq.v
theories/ContextFinal.v
theories/Properties_Context.v
theories/ClosureModel.v
theories/ClosureFacts.v
theories/Properties_Closure.v
theories/DgSpec.v
theories/DgModel.v
theories/DgFacts.v
theories/DgMain.v
theories/DgCons.v
theories/DgCxt.v
theories/DgCond.v
theories/DgFinal.v
theories/Properties_Dg.v
theories/MemoModel.v
theories/MemoFacts.v
theories/Properties_Memo.v
theories/LatticeSpec.v
theories/LatticeModel.v
theories/NorrisFacts.v
theories/LatticeFacts.v
theories/Properties_Lattice.v
theories/FilterModel.v
theories/FilterFacts.v
theories/FilterFacts2.v
theories/Properties_Filter.v
theories/ProbSpec.v
theories/ProbModel.v
theories/ProbFacts.v
theories/Properties_Prob.v
theories/FactorSpec.v
theories/FactorModel.v
theories/FactorFacts.v
theories/FactorFacts2.v
theories/FactorFacts3.v
theories/Properties_Factor.v
theories/RandomModel.v
theories/RandomFacts.v
theories/Properties_Random.v
theories/CoverSpec.v
theories/CoverModel.v
theories/CoverFacts.v
theories/Properties_Cover.v
theories/StrSpec.v
theories/StrModel.v
theories/ImpStrModel.v
theories/StrFacts.v
theories/Properties_Imp.v
theories/FileModel.v
theories/CxtFileModel.v
theories/FileSpec.v
theories/FileFacts.v
theories/CxtFileFacts.v
theories/TxtFileFacts.v
theories/DotSpec.v
theories/DotModel.v
theories/DotFacts.v
theories/Properties_Files.v
theories/Properties_Dot.v
theories/AiModel.v
theories/AiFacts.v
theories/AiRound.v
theories/AiFinal.v
theories/Properties_Ai.v
theories/ExplModel.v
theories/ExplSpec.v
theories/ExplFacts.v
theories/ExplDb.v
theories/ExplFinal.v
theories/Properties_Expl.v
theories/PatternModel.v
theories/PatternSpec.v
theories/PatternFacts.v
theories/Properties_Pattern.v
theories/MvModel.v
theories/MvFacts.v
theories/ScaleSpec.v
theories/ScaleFacts.v
theories/Properties_Mv.v
theories/PartialModel.v
theories/PartialSpec.v
theories/PartialFacts.v
theories/Properties_Partial.v
theories/ExploreModel.v
theories/ExploreSpec.v
theories/ExploreFacts.v
theories/ExploreFinal.v
theories/NumFacts.v
theories/Properties_Explore.v
theories/BiUnarModel.v
theories/BiUnarSpec.v
theories/BiUnarFacts.v
theories/Properties_BiUnar.v
theories/PExploreModel.v
theories/PExploreSpec.v
theories/PExploreFacts.v
theories/Properties_PExplore.v
theories/CoverCanon.v
theories/Properties_Canon.v
theories/HeapModel.v
theories/HeapSpec.v
theories/HeapFacts.v
theories/Properties_Heap.v
theories/CrossFacts.v
theories/CrossFacts2.v
theories/Properties_Cross.v
theories/BasicSpec.v
theories/BasicFacts.v
theories/Properties_Basic.v
theories/CallModel.v
theories/CallSpec.v
theories/CallFacts.v
theories/Properties_Call.v
theories/LexModel.v
theories/LexSpec.v
theories/LexFacts.v
theories/Properties_Lex.v
theories/StabFacts.v
theories/Properties_Stab.v
theories/MulSpec.v
theories/MulFacts.v
theories/Properties_Mul.v
theories/SizeFacts.v
theories/Properties_Size.v
theories/MsgModel.v
theories/MsgSpec.v
theories/MsgFacts.v
theories/Properties_Msg.v
theories/WrapModel.v
theories/WrapSpec.v
theories/WrapFacts.v
theories/Properties_Wrap.v
theories/WrapAiModel.v
theories/WrapAiFacts.v
theories/Properties_WrapAi.v
theories/CostModel.v
theories/CostFacts.v
theories/Properties_Cost.v
theories/IncrModel.v
theories/IncrSpec.v
theories/IncrFacts.v
theories/Properties_Incr.v
theories/ExtractFacts.v
theories/Properties_Extract.v
theories/UndoSpec.v
theories/UndoFacts.v
theories/Properties_Undo.v
theories/Properties_Commute.v
theories/Properties_Iceberg.v
theories/Properties_Thresh.v
theories/Properties_Bounds.v
theories/ShowModel.v
theories/ShowFacts.v
theories/Properties_Show.v
theories/SeqModel.v
theories/Properties_Seq.v
theories/Properties_SysTop.v
theories/Properties_Paths.v
theories/LatAliasModel.v
theories/Properties_LatAlias.v
theories/Properties_Cross2.v
theories/MvFileFacts.v
theories/Properties_MvFile.v
theories/ShareModel.v
theories/ShareSpec.v
theories/ShareFacts.v
theories/Properties_Share.v
theories/FloatModel.v
theories/FloatSpec.v
theories/FloatReal.v
theories/FloatFacts.v
theories/FloatFacts2.v
theories/FloatFacts3.v
theories/Properties_Float.v
theories/GenModel.v
theories/GenSpec.v
theories/GenFacts.v
theories/GenFacts2.v
theories/GenFacts3.v
theories/GenFacts4.v
theories/GenFacts5.v
theories/GenFacts6.v
theories/Properties_Gen.v
