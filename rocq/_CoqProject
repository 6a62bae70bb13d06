-Q theories Verif
theories/Base.v
theories/Arith.v
theories/Quality.v
theories/Utm.v
theories/Hierarchy.v
theories/Values.v
theories/Qualities.v
theories/Partitions.v
theories/Partitioners.v
theories/Search.v
theories/Aggregation.v
theories/BaseFacts.v
theories/UtmFacts.v
theories/UtmProofs.v
theories/SpecTree.v
theories/TreeFacts.v
theories/HierarchyFacts.v
theories/HierarchyStop.v
theories/HierarchyProofs.v
theories/P_Matrix.v
theories/P_Hierarchy.v
theories/SpecParts.v
theories/OFacts.v
theories/LexR.v
theories/OReal.v
theories/OProofs.v
theories/P_Ordered.v
theories/TreePath.v
theories/CoverFacts.v
theories/HFacts.v
theories/HReal.v
theories/HProofs.v
theories/P_Hier.v
theories/DFacts.v
theories/DSel.v
theories/DReal.v
theories/DProofs.v
theories/P_Spatio.v
theories/OQual.v
theories/SpecInfo.v
theories/InfoFacts.v
theories/SpecData.v
theories/OInfo.v
theories/DataFacts.v
theories/NormFacts.v
theories/Sim.v
theories/ODataProofs.v
theories/P_OrderedData.v
theories/HQual.v
theories/HDataProofs.v
theories/DataCons.v
theories/P_HierData.v
theories/TreeDec.v
theories/DQual.v
theories/DDataProofs.v
theories/P_SpatioData.v
theories/P_SpatioNot.v
theories/SpecSearch.v
theories/SearchFacts.v
theories/SearchProofs.v
theories/SearchReal.v
theories/SearchInst.v
theories/SearchGet.v
theories/P_Search.v
theories/AucData.v
theories/P_SearchGet.v
theories/P_SearchEx.v
theories/P_Operators.v
theories/SpecValues.v
theories/ValuesFacts.v
theories/ValuesProofs.v
theories/P_Values.v
theories/SpecAgg.v
theories/AggFacts.v
theories/AggProofs.v
theories/P_Aggregates.v
theories/P_Single.v
theories/Ieee.v
theories/SpecIeee.v
theories/SearchMeasure.v
theories/IeeeFacts.v
theories/IeeeDiverge.v
theories/P_Ieee.v
theories/SearchRes.v
theories/QualInv.v
theories/DegFacts.v
theories/IeeeConv.v
theories/P_Degenerate.v
theories/P_Pipeline.v
theories/TradeoffHeap.v
theories/SpecHeap.v
theories/HeapFacts.v
theories/HeapFactsD.v
theories/Session.v
theories/SessionFacts.v
theories/SessionInst.v
theories/P_Heap.v
theories/P_Session.v
theories/RApi.v
theories/SpecR.v
theories/RFacts.v
theories/P_RApi.v
theories/P_RCurve.v
theories/RDefFacts.v
theories/P_RDefined.v
theories/HierCheck.v
theories/P_HierCheck.v
theories/P_IeeeOps.v
theories/RHelpers.v
theories/SpecMacro.v
theories/GetPath.v
theories/MacroFacts.v
theories/HMacroFacts.v
theories/P_RMacro.v
theories/Slicer.v
theories/SpecSlicer.v
theories/SlicerFacts.v
theories/P_Slicer.v
theories/CounterFacts.v
theories/P_Counter.v
theories/SpecPj.v
theories/PjFacts.v
theories/PjTree.v
theories/P_Pj.v
theories/P_EmptyBranch.v
theories/P_EmptyTrace.v
theories/P_PjExamples.v
theories/P_EndToEnd.v
theories/P_RootPlace.v
theories/P_EndExample.v
theories/SpecBest.v
theories/P_RBest.v
theories/P_RootFirst.v
theories/P_RootFirstEx.v
theories/SpecFile.v
theories/P_File.v
theories/P_FileEx.v
theories/SpecNear.v
theories/NearFacts.v
theories/ONear.v
theories/HNear.v
theories/DNear.v
theories/P_Near.v
theories/P_NearEx.v
theories/SpecNum.v
theories/NumFacts.v
theories/ONum.v
theories/HQualA.v
theories/DQualA.v
theories/TreeNum.v
theories/HNum.v
theories/DNum.v
theories/TreeOpt.v
theories/LogRef.v
theories/P_Num.v
theories/P_NumEx.v
theories/SpecNorm.v
theories/NormNum.v
theories/NormAll.v
theories/P_Norm.v
theories/P_NormEx.v
theories/SpecDouble.v
theories/DoubleFacts.v
theories/P_Double.v
theories/P_DoubleEx.v
theories/SpecRNum.v
theories/RNumFacts.v
theories/P_RNum.v
theories/P_RNumEx.v
theories/SpecAuc.v
theories/AucNum.v
theories/P_Auc.v
theories/SpecShape.v
theories/P_Shape.v
theories/Words.v
theories/P_Words.v
theories/SpecSym.v
theories/P_Sym.v
theories/P_Mirror.v
theories/P_MirrorNot.v
theories/P_Rename.v
theories/SpecOverlap.v
theories/P_Overlap.v
theories/P_Overlap2.v
theories/P_Nested.v
theories/P_NestedR.v
theories/SpecProduct.v
theories/P_Product.v
theories/P_ProductR.v
theories/SpecRagged.v
theories/RaggedFacts.v
theories/P_Ragged.v
theories/Cost.v
theories/CostFacts.v
theories/P_Cost.v
theories/P_Reversed.v
theories/P_IeeeResults.v
theories/KeepFacts.v
theories/KeepSlices.v
theories/P_Keep.v
theories/P_KeepEx.v
theories/SpecResample.v
theories/ResampleFacts.v
theories/ResampleBest.v
theories/P_Resample.v
theories/SpecTypes.v
theories/TypesFacts.v
theories/TypesCells.v
theories/P_Types.v
theories/P_TypesEx.v
theories/SpecZoom.v
theories/ZoomFacts.v
theories/ZoomTree.v
theories/ZoomGrid.v
theories/P_Zoom.v
theories/P_ZoomHier.v
theories/P_ZoomSpatio.v
theories/P_ZoomEx.v
theories/SpecPad.v
theories/PadFacts.v
theories/P_Pad.v
theories/P_PadEx.v
theories/SpecRefine.v
theories/P_Refine.v
theories/P_RefineEx.v
theories/SpecCopies.v
theories/P_Copies.v
theories/P_CopiesEx.v
theories/SpecCopiesS.v
theories/P_CopiesSpatio.v
theories/P_CopiesSEx.v
theories/SpecFinerS.v
theories/P_FinerSpatio.v
theories/P_FinerValue.v
theories/P_FinerSEx.v
theories/P_FinerNormal.v
theories/P_FinerNEx.v
theories/P_Slider.v
theories/P_SliderEx.v
theories/P_CopiesSNormal.v
theories/P_CopiesSNEx.v
theories/P_HeapStale.v
theories/P_HeapStaleEx.v
theories/P_Repeat.v
theories/P_RepeatEx.v
