-Q theories Verif
theories/Base.v
theories/IntervalModel.v
theories/Spec.v
theories/LoiModel.v
theories/LoiProofs.v
theories/IntervalProofs.v
theories/PropsInterval.v
theories/LcaModel.v
theories/LcaSpec.v
theories/GridProofs.v
theories/InitProofs.v
theories/SearchProofs.v
theories/IterProofs.v
theories/LcaProofs.v
theories/LcaProofs2.v
theories/LcaProofs3.v
theories/CellArrayModel.v
theories/CellArrayProofs.v
theories/RowsProofs.v
theories/PropsLca.v
theories/PropsCellArray.v
theories/SubsetModel.v
theories/TreeProofs.v
theories/ScanProofs.v
theories/LeafProofs.v
theories/LeafProofs2.v
theories/SubsetProofs.v
theories/SubsetSpec.v
theories/SubsetProofs2.v
theories/PropsSubset.v
theories/NumModel.v
theories/NumProofs.v
theories/NumSpec.v
theories/PolyProofs.v
theories/PropsNum.v
theories/StencilModel.v
theories/NumberingProofs.v
theories/StencilProofs.v
theories/PropsStencil.v
theories/MeshModel.v
theories/MeshProofs.v
theories/PropsMesh.v
theories/AdaptModel.v
theories/AdaptProofs.v
theories/TagProofs.v
theories/PropsAdapt.v
theories/TransferProofs.v
theories/PropsTransfer.v
theories/GradModel.v
theories/GradProofs.v
theories/PropsGrad.v
theories/InterfaceModel.v
theories/InterfaceProofs.v
theories/PropsInterface.v
theories/GeomModel.v
theories/GeomProofs.v
theories/PropsGeom.v
theories/ParModel.v
theories/ParProofs.v
theories/PropsPar.v
theories/MpiModel.v
theories/MpiProofs.v
theories/PropsMpi.v
theories/FluxModel.v
theories/BoundaryProofs.v
theories/PropsBoundary.v
theories/FluxProofs.v
theories/PropsFlux.v
theories/MrModel.v
theories/MrProofs.v
theories/PropsMr.v
theories/GhostModel.v
theories/PropsBc.v
theories/GhostProofs.v
theories/PropsGhost.v
theories/BcProofs.v
theories/PropsOuter.v
theories/HartenModel.v
theories/HartenProofs.v
theories/HartenProofs2.v
theories/HartenProofs3.v
theories/PropsHarten.v
theories/DetailProofs.v
theories/CriteriaProofs.v
theories/AroundProofs.v
theories/PropsDetail.v
theories/LoopProofs.v
theories/PropsLoop.v
theories/PropsExact.v
theories/DetermProofs.v
theories/PropsDeterm.v
theories/AmrModel.v
theories/AmrProofs.v
theories/AmrProofs2.v
theories/AmrProofs3.v
theories/PropsAmr.v
theories/AmrProofs4.v
theories/PropsAmrGhost.v
theories/AmrLoopModel.v
theories/AmrProofs5.v
theories/AmrProofs6.v
theories/PropsAmrLoop.v
theories/FvModel.v
theories/FvProofs.v
theories/FvProofs2.v
theories/FvProofs3.v
theories/PropsFv.v
theories/TimeModel.v
theories/PropsTime.v
theories/PeriodicModel.v
theories/PeriodicProofs.v
theories/PropsPeriodic.v
theories/PeriodicProofs2.v
theories/PropsPeriodic2.v
theories/PeriodicProofs3.v
theories/PeriodicProofs4.v
theories/PropsPeriodic3.v
theories/ReconModel.v
theories/ReconProofs.v
theories/ReconProofs2.v
theories/PropsRecon.v
theories/ReconProofs3.v
theories/PropsRecon2.v
theories/MeshTransferModel.v
theories/MeshTransferProofs.v
theories/MeshTransferProofs2.v
theories/PropsMeshTransfer.v
theories/LinFluxModel.v
theories/LinFluxProofs.v
theories/LinFluxProofs2.v
theories/PropsLinFlux.v
theories/AssemblyModel.v
theories/AssemblyProofs.v
theories/AssemblyProofs2.v
theories/PropsAssembly.v
theories/AssemblyProofs3.v
theories/AssemblyProofs4.v
theories/AssemblyProofs5.v
theories/AssemblyProofs6.v
theories/AssemblyProofs7.v
theories/PropsAssembly2.v
theories/PropsAssembly3.v
theories/NnzModel.v
theories/NnzProofs.v
theories/NnzProofs2.v
theories/PropsNnz.v
theories/SumModel.v
theories/SumProofs.v
theories/SumProofs2.v
theories/PropsSum.v
theories/SumNnzModel.v
theories/SumNnzProofs.v
theories/PropsSumNnz.v
theories/BlockModel.v
theories/BlockProofs.v
theories/PropsBlock.v
theories/IoModel.v
theories/PropsIo.v
theories/GaussModel.v
theories/PropsGauss.v
theories/BlockVecModel.v
theories/PropsBlockVec.v
theories/ExistsModel.v
theories/PropsExists.v
