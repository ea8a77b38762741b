-Q theories Verif
theories/PyBase.v
theories/OrderSpec.v
theories/ParitySpec.v
theories/SpaceModel.v
theories/IndicesModel.v
theories/PartitionModel.v
theories/ElemModel.v
theories/ElemSpec.v
theories/CompatSpec.v
theories/IterProofs.v
theories/CodeModel.v
theories/MacroModel.v
theories/WickModel.v
theories/WickSpec.v
theories/OrderProofs.v
theories/ParityProofs.v
theories/SpaceProofs.v
theories/IndicesProofs.v
theories/PartitionSpec.v
theories/PartitionProofs.v
theories/ElemProofs.v
theories/HalfProofs.v
theories/CumulantProofs.v
theories/CodeProofs.v
theories/CompatProofs.v
theories/BacktrackProofs.v
theories/SortProofs.v
theories/WickProofs.v
theories/ValueSpec.v
theories/DriverProofs.v
theories/MacroSpec.v
theories/MacroProofs.v
theories/ConnectProofs.v
theories/ConnectedProofs.v
theories/ValueProofs.v
theories/IndexModel.v
theories/IndexProofs.v
theories/TermModel.v
theories/SymmetryModel.v
theories/CombineModel.v
theories/CombineSpec.v
theories/TextProofs.v
theories/TermSpec.v
theories/SpinProofs.v
theories/TermProofs.v
theories/SumProofs.v
theories/RenameProofs.v
theories/OperatorProofs.v
theories/CombineProofs.v
theories/CombineValue.v
theories/SimplifyProofs.v
theories/SimplifyValue.v
theories/FreshProofs.v
theories/CanonProofs.v
theories/PropTerm.v
theories/PropSimplify.v
theories/ScheduleProofs.v
theories/BchModel.v
theories/BchSpec.v
theories/BchProofs.v
theories/TaskProofs.v
theories/PermuteModel.v
theories/PermuteSpec.v
theories/PermuteProofs.v
theories/OpenProofs.v
theories/AmbitModel.v
theories/AmbitSpec.v
theories/AmbitText.v
theories/AmbitPerm.v
theories/AmbitValue.v
theories/AmbitDriver.v
theories/AmbitMain.v
theories/FileModel.v
theories/FileProofs.v
theories/PrintModel.v
theories/PrintSpec.v
theories/PrintProofs.v
theories/FillProofs.v
theories/T3Proofs.v
theories/SymmetrySpec.v
theories/SymmetryProofs.v
theories/SympyProofs.v
theories/SympyValue.v
theories/SympyShape.v
theories/SpinCaseSpec.v
theories/PropCanon.v
theories/CommProofs.v
theories/PropElem.v
theories/PropWick.v
theories/ContractSpec.v
theories/ContractValue.v
theories/ReturnSpec.v
theories/ReturnProofs.v
theories/SimplifyReturns.v
theories/SpinCaseModel.v
theories/SpinCaseProofs.v
theories/SingletProofs.v
theories/SingletSpec.v
theories/ArrangeProofs.v
theories/SingletValue.v
theories/ExciteModel.v
theories/ExciteProofs.v
theories/SingletModel.v
theories/SingletTerm.v
theories/PropSchedule.v
theories/PropContract.v
theories/LoopSpec.v
theories/BchLoop.v
theories/LevelSpec.v
theories/ClosureProofs.v
theories/LevelProofs.v
theories/PropOperator.v
theories/SeriesProofs.v
theories/FamilySpec.v
theories/FamilyProofs.v
theories/FockSpec.v
theories/ExtensionProofs.v
theories/FockProofs.v
theories/FamilySets.v
theories/FockWick.v
theories/FockValue.v
theories/FockTerms.v
theories/FockMatrix.v
theories/PropFock.v
theories/SeriesSpec.v
theories/PropExcite.v
theories/PropLevels.v
theories/SeriesOperator.v
theories/PropBch.v
theories/NestedOperator.v
theories/PipelineTerms.v
theories/PropSeries.v
theories/ConnectedWords.v
theories/ConnectedFamilies.v
theories/ConnectedForms.v
theories/ConnectedFock.v
theories/ConnectedTerms.v
theories/PropNested.v
theories/PipelineLevels.v
theories/SingleProofs.v
theories/DiagonalSpec.v
theories/SimplifyDiagonal.v
theories/ContractReturns.v
theories/ContractReturnSpec.v
theories/SeriesReturns.v
theories/BilinearProofs.v
theories/PoolModel.v
theories/PoolProofs.v
theories/SeriesOrder.v
theories/RecursiveOrder.v
theories/PropAmbit.v
theories/PropPrint.v
theories/CodeTransport.v
theories/PipelineSpec.v
theories/PipelineCode.v
theories/PropPipeline.v
theories/PropWritten.v
theories/PropContractReturn.v
theories/PropTotal.v
theories/PropSymmetry.v
theories/PropReturn.v
theories/PropSpinCases.v
theories/PropSpace.v
theories/PropSinglet.v
theories/LinearModel.v
theories/NestedOrder.v
theories/PropBilinear.v
theories/PropSeriesOrder.v
theories/ProcessModel.v
theories/PropProcess.v
theories/PropPool.v
theories/PropPermute.v
theories/PathModel.v
theories/PathSpec.v
theories/PathProofs.v
theories/PropPath.v
theories/PropPartition.v
theories/MergeSpec.v
theories/MergeMoves.v
theories/MergeLabels.v
theories/MergeGroups.v
theories/MergeWords.v
theories/MergeProofs.v
theories/MergeClosed.v
theories/MergeSeries.v
theories/PropMerge.v
theories/PropMacro.v
theories/PropLoop.v
theories/PropLinear.v
theories/LatexModel.v
theories/LatexSpec.v
theories/LatexProofs.v
theories/LimitProofs.v
theories/PropLimit.v
theories/PropLatex.v
theories/PropIndices.v
theories/PropIndex.v
theories/GradientModel.v
theories/PropGradient.v
theories/HessianModel.v
theories/HessianSpec.v
theories/HessianProofs.v
theories/PropHessian.v
theories/CounterModel.v
theories/PropFile.v
theories/PropEqual.v
theories/PropDiagonal.v
theories/MergeDecide.v
theories/PropDecide.v
theories/ConstructModel.v
theories/PropConstruct.v
theories/PropCode.v
theories/CompatModel.v
theories/PropCompat.v
theories/PropCombine.v
