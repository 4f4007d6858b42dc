-Q theories Verif
theories/Util.v
theories/StableSort.v
theories/RowModel.v
theories/RowProofs.v
theories/RowProps.v
theories/GridModel.v
theories/GridProofs.v
theories/GridProps.v
theories/SymModel.v
theories/SymProofs.v
theories/AbelianModel.v
theories/AbelianProofs.v
theories/AbelianProps.v
theories/Su2Model.v
theories/Su2Proofs.v
theories/Su2Props.v
theories/Cplx.v
theories/CatSpec.v
theories/CatProofs.v
theories/Tower.v
theories/FinRing.v
theories/AnyonModel.v
theories/AnyonProofs.v
theories/AnyonProofs2.v
theories/ZNAnyonProofs.v
theories/AnyonProps.v
theories/ProductModel.v
theories/ProductProofs.v
theories/ProductCat.v
theories/SymEqModel.v
theories/SymEqProofs.v
theories/ProductProps.v
theories/LabelsModel.v
theories/LabelsProofs.v
theories/LabelsProps.v
theories/Sums.v
theories/MappingModel.v
theories/MappingProofs.v
theories/MappingProps.v
theories/LexOrder.v
theories/CostModel.v
theories/CostProofs.v
theories/CostProps.v
theories/DtypeModel.v
theories/DtypeProps.v
theories/SunModel.v
theories/SunProofs.v
theories/SunIndex.v
theories/SunProps.v
theories/SpaceModel.v
theories/SpaceSpec.v
theories/SpaceProofs.v
theories/SpaceProofs2.v
theories/SpaceProofs3.v
theories/SpaceProofs4.v
theories/SpaceProofs5.v
theories/SpaceProofs6.v
theories/SpaceProofs7.v
theories/DropModel.v
theories/DropProofs.v
theories/SpaceProps.v
theories/PipeModel.v
theories/PipeProofs.v
theories/PipeProofs2.v
theories/PipeProofs3.v
theories/PipeProofs4.v
theories/PipeProofs5.v
theories/PipeProps.v
theories/StarMat.v
theories/StarCplx.v
theories/TreeModel.v
theories/TreeProofs.v
theories/TreeProofs2.v
theories/TreeProofs3.v
theories/TreeProofs4.v
theories/TreeProofs5.v
theories/TreeProofs6.v
theories/TreeProofs7.v
theories/TreeProofs8.v
theories/TreeProofs9.v
theories/TreeProps.v
theories/FormalSum.v
theories/TensorModel.v
theories/TensorSpec.v
theories/TensorProofs.v
theories/TensorProofs2.v
theories/TensorProofs3.v
theories/TensorProofs4.v
theories/TensorProofs5.v
theories/TensorProofs6.v
theories/TensorProps.v
theories/BlockModel.v
theories/BlockProofs.v
theories/SparseModel.v
theories/SparseSpec.v
theories/SparseProofs.v
theories/SparseProofs2.v
theories/SparseProofs3.v
theories/SparseProofs4.v
theories/SparseProofs5.v
theories/SparseProofs6.v
theories/SparseCharge.v
theories/SparseCompose.v
theories/SparseCompose2.v
theories/SparseCompose3.v
theories/SparseCompose4.v
theories/SparseDense.v
theories/SparseDense2.v
theories/SparseProps.v
theories/CombineModel.v
theories/CombineSpec.v
theories/CombineProofs.v
theories/CombineProofs2.v
theories/CombineProofs3.v
theories/CombineProofs4.v
theories/CombineProofs5.v
theories/CombineProofs6.v
theories/CombineProps.v
theories/TruncModel.v
theories/TruncSpec.v
theories/TruncProofs.v
theories/TruncProofs2.v
theories/TruncProofs3.v
theories/TruncProps.v
theories/ConfigModel.v
theories/ConfigSpec.v
theories/ConfigProofs.v
theories/ConfigProps.v
theories/FactoryModel.v
theories/FactoryProps.v
theories/PermLegsModel.v
theories/PermLegsSpec.v
theories/PermLegsProofs.v
theories/PermLegsProofs2.v
theories/PermLegsProofs3.v
theories/PermLegsProofs4.v
theories/PermLegsProofs5.v
theories/PermLegsProofs6.v
theories/PermLegsProofs7.v
theories/PermLegsProps.v
theories/Hilbert.v
theories/LinOpModel.v
theories/LinOpSpec.v
theories/LinOpProofs.v
theories/LinOpMat.v
theories/LinOpProps.v
theories/KrylovModel.v
theories/KrylovSpec.v
theories/KrylovProofs.v
theories/KrylovProofs2.v
theories/KrylovProofs3.v
theories/KrylovProofs4.v
theories/KrylovProofs5.v
theories/KrylovProofs6.v
theories/KrylovProps.v
theories/LegOpsModel.v
theories/LegOpsSpec.v
theories/LegOpsProofs.v
theories/LegOpsProofs2.v
theories/LegOpsProofs3.v
theories/LegOpsProofs4.v
theories/LegOpsProofs5.v
theories/LegOpsProofs6.v
theories/LegOpsProofs7.v
theories/LegOpsProps.v
theories/GmresModel.v
theories/GmresSpec.v
theories/GmresProofs.v
theories/GmresProofs2.v
theories/GmresProofs3.v
theories/GmresProofs4.v
theories/GmresProofs5.v
theories/GmresProofs6.v
theories/GmresProps.v
theories/ArnoldiModel.v
theories/ArnoldiSpec.v
theories/ArnoldiProofs.v
theories/ArnoldiProofs2.v
theories/ArnoldiProofs3.v
theories/ArnoldiProofs4.v
theories/ArnoldiProofs5.v
theories/ArnoldiProofs6.v
theories/ArnoldiProps.v
theories/Hdf5Model.v
theories/Hdf5Spec.v
theories/Hdf5Proofs.v
theories/Hdf5Proofs2.v
theories/Hdf5Proofs3.v
theories/Hdf5Proofs4.v
theories/Hdf5Proofs5.v
theories/Hdf5Proofs6.v
theories/Hdf5Proofs7.v
theories/Hdf5Props.v
theories/ConvertModel.v
theories/ConvertSpec.v
theories/ConvertProofs.v
theories/ConvertProofs2.v
theories/ConvertProofs3.v
theories/ConvertProofs4.v
theories/ConvertProofs5.v
theories/ConvertProofs6.v
theories/ConvertProofs7.v
theories/ConvertProofs8.v
theories/ConvertProps.v
theories/FtOpsModel.v
theories/FtOpsSpec.v
theories/FtOpsProofs.v
theories/FtOpsProofs2.v
theories/FtOpsProofs3.v
theories/FtOpsProofs4.v
theories/FtOpsProofs5.v
theories/FtOpsProofs6.v
theories/FtOpsProofs7.v
theories/FtOpsProofs8.v
theories/FtOpsProofs9.v
theories/FtOpsProofs10.v
theories/FtOpsProps.v
theories/MoveModel.v
theories/FtMapModel.v
theories/FtMapSpec.v
theories/FtMapProofs.v
theories/FtMapProofs2.v
theories/FtMapProofs3.v
theories/FtMapProofs4.v
theories/FtMapProofs5.v
theories/FtMapProofs6.v
theories/FtMapProofs7.v
theories/FtMapProofs8.v
theories/FtMapProofs9.v
theories/FtMapProofs10.v
theories/FtMapProofs11.v
theories/FtMapProofs12.v
theories/FtMapProofs13.v
theories/FtMapProofs14.v
theories/FtMapProofs15.v
theories/FtMapProofs16.v
theories/FtMapProofs17.v
theories/FtMapProps.v
theories/CatBend.v
theories/CatBend2.v
theories/BendSpec.v
theories/TwistModel.v
theories/CatBend3.v
theories/BendProofs.v
theories/BendProofs2.v
theories/BendProofs3.v
theories/BendProofs4.v
theories/BendProps.v
theories/InnerSpec.v
theories/InnerProofs.v
theories/InnerProofs2.v
theories/InnerProofs3.v
theories/InnerProps.v
theories/FtScaleModel.v
theories/FtScaleProofs.v
theories/FtScaleProofs2.v
theories/FtScaleProofs3.v
theories/FtScaleProps.v
theories/AbDecModel.v
theories/AbDecSpec.v
theories/AbDecProofs.v
theories/AbDecProofs2.v
theories/AbDecProofs3.v
theories/AbDecProofs4.v
theories/AbDecProps.v
theories/AbDiagModel.v
theories/AbDiagProofs.v
theories/AbDiagProofs2.v
theories/AbDiagProofs3.v
theories/AbDiagProofs4.v
theories/AbDiagProps.v
theories/MaskModel.v
theories/MaskSpec.v
theories/MaskProofs.v
theories/MaskProofs2.v
theories/MaskProofs3.v
theories/MaskProofs4.v
theories/MaskProofs5.v
theories/MaskProofs6.v
theories/MaskProps.v
theories/SiteModel.v
theories/SiteSpec.v
theories/SiteProofs1.v
theories/SiteProofs2.v
theories/SiteProofs3.v
theories/SiteProofs4.v
theories/SiteProofs5.v
theories/SiteProps.v
theories/CouplingModel.v
theories/CouplingSpec.v
theories/CouplingProofs1.v
theories/CouplingProofs2.v
theories/CouplingProofs3.v
theories/CouplingProofs4.v
theories/CouplingProofs5.v
theories/CouplingProofs6.v
theories/CouplingProps.v
theories/QuadraticProps.v
theories/CPermModel.v
theories/CPermSpec.v
theories/CPermProofs1.v
theories/CPermProofs2.v
theories/CPermProofs3.v
theories/CPermProofs4.v
theories/CPermProofs5.v
theories/CPermProps.v
theories/PlanarModel.v
theories/PlanarSpec.v
theories/PlanarProofs1.v
theories/PlanarProofs2.v
theories/PlanarProofs3.v
theories/PlanarProofs4.v
theories/PlanarProofs5.v
theories/PlanarProofs6.v
theories/PlanarProofs7.v
theories/PlanarProofs8.v
theories/PlanarProps.v
theories/PtModel.v
theories/PtSpec.v
theories/PtProofs1.v
theories/PtProofs2.v
theories/PtProofs3.v
theories/PtProofs4.v
theories/PtProofs5.v
theories/PtProps.v
theories/PcModel.v
theories/PcSpec.v
theories/PcProofs1.v
theories/PcProofs2.v
theories/PcProofs3.v
theories/PcProps.v
theories/TdModel.v
theories/TdSpec.v
theories/TdProofs1.v
theories/TdProofs2.v
theories/TdProofs3.v
theories/TdProps.v
theories/OpModel.v
theories/OpSpec.v
theories/OpProofs.v
theories/OpProps.v
theories/PcombModel.v
theories/PcombSpec.v
theories/PcombProofs1.v
theories/PcombProofs2.v
theories/PcombProofs3.v
theories/PcombProps.v
