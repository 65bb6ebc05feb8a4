-Q theories Verif
theories/Base.v
theories/Spec.v
theories/KernelBase.v
theories/BaseProofs.v
theories/ComplProofs.v
theories/MsaModel.v
theories/MsaProofs.v
theories/MsaComplProofs.v
theories/MsaStatements.v
theories/Examples.v
theories/PropMsa.v
theories/McaModel.v
theories/McaProofs.v
theories/PropMca.v
theories/HashModel.v
theories/HashTableProofs.v
theories/HashProofs.v
theories/HashOps.v
theories/HashStatements.v
theories/PropHash.v
theories/InnerModel.v
theories/InnerProofs.v
theories/PropInner.v
theories/HeapModel.v
theories/HeapPrimProofs.v
theories/HeapProofs.v
theories/HeapRowProofs.v
theories/HeapStatements.v
theories/HeapQueue.v
theories/PropHeap.v
theories/Conc.v
theories/ConcProofs.v
theories/ScanModel.v
theories/ScanProofs.v
theories/ScanStatements.v
theories/PropScan.v
theories/WorkModel.v
theories/WorkProofs.v
theories/PropWork.v
theories/MemModel.v
theories/MemProofs.v
theories/PropMem.v
theories/Assemble.v
theories/DriverModel.v
theories/DriverBase.v
theories/DriverProofs.v
theories/AlgModel.v
theories/AlgProofs.v
theories/DriverStatements.v
theories/RaceProofs.v
theories/SeqStatements.v
theories/PropDriver.v
theories/InnerDriverModel.v
theories/InnerDriverProofs.v
theories/InnerDriverStatements.v
theories/PropInnerDriver.v
theories/PolyModel.v
theories/PolyProofs.v
theories/PropPoly.v
theories/ParModel.v
theories/ParProofs.v
theories/MatModel.v
theories/MatProofs.v
theories/MatSpec.v
theories/ConvProofs.v
theories/SortProofs.v
theories/MatStatements.v
theories/PropMat.v
theories/IndexModel.v
theories/PropIndex.v
theories/ObjModel.v
theories/ObjSpec.v
theories/ObjProofs.v
theories/PropObj.v
theories/LegacyScanModel.v
theories/LegacyScanProofs.v
theories/PropLegacyScan.v
theories/IsectModel.v
theories/IsectProofs.v
theories/PropIsect.v
theories/KvSortModel.v
theories/KvSortProofs.v
theories/PropKvSort.v
theories/TransModel.v
theories/TransProofs.v
theories/TransFill.v
theories/PropTrans.v
theories/GraphSpec.v
theories/GraphModel.v
theories/GraphProofs.v
theories/GraphCalls.v
theories/TriProofs.v
theories/PropGraph.v
theories/BinModel.v
theories/TwoPassModel.v
theories/TwoPassProofs.v
theories/BinProofs.v
theories/PropBin.v
theories/SpaModel.v
theories/SpaProofs.v
theories/PropSpa.v
theories/LpModel.v
theories/LpProofs.v
theories/MaskHashModel.v
theories/MaskHashProofs.v
theories/PropMaskHash.v
theories/HashHwModel.v
theories/HashHwProofs.v
theories/PropHashHw.v
theories/NohashModel.v
theories/NohashProofs.v
theories/PropNohash.v
theories/HeapImplModel.v
theories/HeapImplRowProofs.v
theories/HeapImplMcaProofs.v
theories/HeapImplProofs.v
theories/HeapImplStuck.v
theories/PropHeapImpl.v
theories/HeapCscModel.v
theories/HeapCscRowProofs.v
theories/HeapCscProofs.v
theories/PropHeapCsc.v
theories/RadixModel.v
theories/RadixProofs.v
theories/PropRadix.v
theories/OuterModel.v
theories/OuterMachProofs.v
theories/OuterThreadProofs.v
theories/OuterSortProofs.v
theories/OuterCopyProofs.v
theories/OuterProofs.v
theories/PropOuter.v
theories/PropOuterKey.v
theories/BcSpec.v
theories/BcWalks.v
theories/BcModel.v
theories/BcProofs.v
theories/BcCalls.v
theories/PropBc.v
theories/IoSpec.v
theories/IoModel.v
theories/IoProofs.v
theories/PropIo.v
theories/TriAllModel.v
theories/TriAllSpec.v
theories/TriAllProofs.v
theories/TriAllCalls.v
theories/TriAllCount.v
theories/PropTriAll.v
theories/HeatModel.v
theories/PropHeat.v
theories/ReportModel.v
theories/PropReport.v
theories/GtModel.v
theories/GtSpec.v
theories/GtProofs.v
theories/PropGt.v
theories/RmatModel.v
theories/RmatProofs.v
theories/RmatSpec.v
theories/RmatGenProofs.v
theories/PropRmat.v
theories/ShufModel.v
theories/ShufSpec.v
theories/ShufProofs.v
theories/PropShuf.v
theories/EqModel.v
theories/EqProofs.v
theories/PropEq.v
theories/BitModel.v
theories/BitSpec.v
theories/BitProofs.v
theories/PropBit.v
theories/RefModel.v
theories/RefSpec.v
theories/RefProofs.v
theories/PropRef.v
theories/GrbSpec.v
theories/GrbModel.v
theories/GrbProofs.v
theories/PropGrb.v
theories/GutModel.v
theories/GutSpec.v
theories/GutProofs.v
theories/PropGut.v
theories/Outer2Model.v
theories/Outer2Proofs.v
theories/PropOuter2.v
theories/BlockModel.v
theories/BlockSpec.v
theories/BlockProofs.v
theories/BlockCalls.v
theories/PropBlock.v
theories/CsrFileModel.v
theories/CsrFileSpec.v
theories/CsrFileProofs.v
theories/PropCsrFile.v
theories/SplitModel.v
theories/SplitProofs.v
theories/PropSplit.v
theories/RunModel.v
theories/RunSpec.v
theories/RunProofs.v
theories/PropRun.v
theories/MainModel.v
theories/MainSpec.v
theories/MainProofs.v
theories/MainCalls.v
theories/PropMain.v
theories/TriMainModel.v
theories/TriMainSpec.v
theories/TriMainCalls.v
theories/TriMainLoops.v
theories/PropTriMain.v
theories/AllMainModel.v
theories/AllMainSpec.v
theories/AllMainLoops.v
theories/AllMainProofs.v
theories/AllMainCalls.v
theories/PropAllMain.v
theories/PairsModel.v
theories/PairsProofs.v
theories/MergeProofs.v
theories/MergeLoops.v
theories/PropPairs.v
theories/GenModel.v
theories/GenProofs.v
theories/PropGen.v
theories/ParTcModel.v
theories/ParTcProofs.v
theories/PropParTc.v
theories/SampleModel.v
theories/SampleProofs.v
theories/PropSample.v
theories/SpaMainModel.v
theories/SpaMainSpec.v
theories/SpaMainProofs.v
theories/PropSpaMain.v
theories/HashMainModel.v
theories/HashMainProofs.v
theories/PropHashMain.v
theories/HashProdModel.v
theories/HashProdSpec.v
theories/HashProdProofs.v
theories/PropHashProd.v
theories/HeapProgModel.v
theories/HeapProgProofs.v
theories/PropHeapProg.v
theories/OuterProgModel.v
theories/OuterProgProofs.v
theories/PropOuterProg.v
