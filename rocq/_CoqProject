-Q theories Verif
theories/Base.v
theories/ModelBox.v
theories/ModelBuild.v
theories/ModelSearch.v
theories/ModelSerial.v
theories/ModelMemory.v
theories/ModelPython.v
theories/Spec.v
theories/SpecSerial.v
theories/SpecMemory.v
theories/SpecPython.v
theories/Instances.v
theories/Lemmas.v
theories/BuildProofs.v
theories/BuildOrder.v
theories/BuildShape.v
theories/BuildThms.v
theories/SearchProofs.v
theories/SearchThms.v
theories/Metrics.v
theories/Visitors.v
theories/QueryThms.v
theories/BoxThms.v
theories/TopThms.v
theories/SafeThms.v
theories/MetricThms.v
theories/UserThms.v
theories/UniqThms.v
theories/CellThms.v
theories/ExtraThms.v
theories/SerialThms.v
theories/MemoryThms.v
theories/ParThms.v
theories/ParSearch.v
theories/PythonThms.v
theories/PyArrayThms.v
theories/PyTopThms.v
theories/PyLpThms.v
theories/MoreThms.v
theories/Examples.v
theories/PyExamples.v
theories/PropBuild.v
theories/PropSearch.v
theories/PropBox.v
theories/PropMetric.v
theories/PropSerial.v
theories/PropMemory.v
theories/PropPython.v
theories/SpecRound.v
theories/Floats.v
theories/FloatThms.v
theories/OrdThms.v
theories/FloatSearch.v
theories/FloatQuery.v
theories/FloatEx.v
theories/FloatTop.v
theories/PropFloat.v
theories/ModelCover.v
theories/SpecCover.v
theories/OrdQuery.v
theories/ExactQuery.v
theories/CoverThms.v
theories/CoverTerm.v
theories/CoverSearch.v
theories/CoverQuery.v
theories/SpecReal.v
theories/CoverReal.v
theories/SpecCoverFloat.v
theories/CoverFloat.v
theories/CoverFloatThms.v
theories/CoverFloatTop.v
theories/CoverEx.v
theories/CoverTop.v
theories/PropCover.v
theories/ModelForest.v
theories/ModelAdapt.v
theories/SpecAdapt.v
theories/AdaptThms.v
theories/AdaptTop.v
theories/SpecForest.v
theories/PriorityThms.v
theories/PriorityExact.v
theories/Reflect.v
theories/ForestThms.v
theories/ForestTop.v
theories/ForestEx.v
theories/PropForest.v
theories/ForestMore.v
theories/ForestMoreEx.v
theories/PropForestMore.v
theories/PropAdapt.v
theories/ModelFormat.v
theories/SpecFormat.v
theories/FormatThms.v
theories/FormatMnist.v
theories/FormatText.v
theories/FormatTop.v
theories/PropFormat.v
theories/UserMore.v
theories/UserEx.v
theories/PropUser.v
theories/ModelLife.v
theories/SpecLife.v
theories/LifeThms.v
theories/LifeMore.v
theories/LifeEx.v
theories/PropLife.v
theories/ModelInt.v
theories/SpecInt.v
theories/IntThms.v
theories/IntTop.v
theories/IntEx.v
theories/IntWrap.v
theories/PropInt.v
theories/ModelHeap.v
theories/SpecHeap.v
theories/HeapThms.v
theories/HeapTop.v
theories/HeapEnd.v
theories/HeapEx.v
theories/PropHeap.v
theories/SpecStale.v
theories/StaleThms.v
theories/StaleEx.v
theories/PropStale.v
theories/SpecShape.v
theories/ShapeThms.v
theories/ShapeEx.v
theories/PropShape.v
theories/SpecCompare.v
theories/CompareThms.v
theories/CompareEx.v
theories/PropCompare.v
theories/SpecApprox.v
theories/FloatApprox.v
theories/ApproxTop.v
theories/PropApprox.v
theories/SpecLoad.v
theories/LoadThms.v
theories/LoadInv.v
theories/LoadEx.v
theories/PropLoad.v
theories/ModelFloatFile.v
theories/FloatFile.v
theories/PropFloatFile.v
theories/SpecCoverInv.v
theories/CoverInv.v
theories/CoverInvTop.v
theories/CoverInvEx.v
theories/CoverInvProof.v
theories/PropCoverInv.v
theories/CoverFloatEx.v
theories/PropCoverFloat.v
theories/SpecPyFloat.v
theories/PyFloat.v
theories/PyFloatEx.v
theories/PropPyFloat.v
theories/SpecWork.v
theories/WorkThms.v
theories/WorkEx.v
theories/PropWork.v
theories/SpecFile.v
theories/FileThms.v
theories/FileEx.v
theories/PropFile.v
theories/SpecCircle.v
theories/FloatTopo.v
theories/FloatCircle.v
theories/CircleQuery.v
theories/CircleThms.v
theories/CircleEx.v
theories/PropCircle.v
theories/SpecInf.v
theories/InfBuild.v
theories/InfThms.v
theories/InfSearch.v
theories/InfQuery.v
theories/InfEx.v
theories/PropInf.v
theories/SpecSpread.v
theories/SpreadThms.v
theories/SpreadExact.v
theories/SpreadFloat.v
theories/SpreadEx.v
theories/PropSpread.v
theories/ModelThrow.v
theories/SpecThrow.v
theories/ThrowThms.v
theories/ThrowTop.v
theories/ThrowEx.v
theories/PropThrow.v
theories/ModelFused.v
theories/SpecFused.v
theories/FusedThms.v
theories/FusedQuery.v
theories/FusedTop.v
theories/FusedGrid.v
theories/FusedEx.v
theories/PropFused.v
theories/ModelNarrow.v
theories/SpecNarrow.v
theories/NarrowThms.v
theories/NarrowEx.v
theories/PropNarrow.v
theories/ModelOracle.v
theories/OracleThms.v
theories/OracleEx.v
theories/PropOracle.v
theories/ModelPrecision.v
theories/PrecisionThms.v
theories/PrecisionEx.v
theories/PropPrecision.v
theories/LeafThms.v
theories/PropLeaves.v
