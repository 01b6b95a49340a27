-Q theories Verif
theories/TreeVecModel.v
theories/TreeVecSpec.v
theories/TreeVecProofs.v
theories/TreeVecMut.v
theories/TreeVecRefine.v
theories/TreeVecMono.v
theories/PropsTreeVec.v
theories/F64.v
theories/F64Arith.v
theories/CurveOrderModel.v
theories/CurveOrderSpec.v
theories/CurveOrderProofs.v
theories/CurveOrderProofs2.v
theories/CurveOrderProofs3.v
theories/CacheModel.v
theories/PropsCurveOrder.v
theories/GeomModel.v
theories/SegmentsModel.v
theories/SegmentsSpec.v
theories/SegmentsProofs.v
theories/SegmentsProofs2.v
theories/SegmentsProofs3.v
theories/SegmentsProofs4.v
theories/SegmentsProofs5.v
theories/PropsSegments.v
theories/SweepModel.v
theories/SweepSpec.v
theories/SweepProofs.v
theories/SweepProofs2.v
theories/SweepProofs3.v
theories/SweepProofs4.v
theories/SweepProofs5.v
theories/SweepProofs6.v
theories/SweepProofs7.v
theories/SweepProofs8.v
theories/SweepProofs9.v
theories/SweepProofs10.v
theories/SweepCheck.v
theories/SweepReach.v
theories/PropsSweep.v
theories/PropsLivelock.v
theories/PropsInsertion.v
theories/RangeModel.v
theories/RangeSpec.v
theories/RangeProofs.v
theories/RangeProofs2.v
theories/RangeProofs3.v
theories/RangeProofs4.v
theories/RangeProofs5.v
theories/RangeProofs6.v
theories/PropsRange.v
theories/SegRangeModel.v
theories/SegRangeSpec.v
theories/SegRangeProofs.v
theories/PropsSegRange.v
theories/TopoModel.v
theories/TopoSpec.v
theories/TopoProofs.v
theories/TopoProofs2.v
theories/TopoProofs3.v
theories/TopoProofs4.v
theories/TopoProofs5.v
theories/TopoProofs6.v
theories/TopoProofs7.v
theories/TopoProofs8.v
theories/TopoProofs9.v
theories/TopoProofs10.v
theories/PropsTopo.v
theories/BinOpModel.v
theories/PropsBinOp.v
theories/ContoursModel.v
theories/ContoursSpec.v
theories/ContoursProofs.v
theories/ContoursProofs2.v
theories/ContoursProofs3.v
theories/PolyExample.v
theories/PropsContours.v
theories/WindSpec.v
theories/WindProofs.v
theories/WindProofs2.v
theories/WindProofs3.v
theories/WindProofs4.v
theories/WindProofs5.v
theories/PropsWind.v
theories/FromPathsModel.v
theories/FromPathsProofs.v
theories/PropsFromPaths.v
theories/MergeSpec.v
theories/MergeProofs.v
theories/MergeProofs2.v
theories/MergeProofs3.v
theories/MergeProofs4.v
theories/MergeProofs5.v
theories/PropsMerge.v
theories/ScanModel.v
theories/ScanProofs.v
theories/ScanProofs2.v
theories/ScanProofs3.v
theories/ScanProofs4.v
theories/ScanProofs5.v
theories/ScanProofs6.v
theories/ScanSpec.v
theories/PropsScan.v
theories/PosModel.v
theories/PosSpec.v
theories/PosProofs.v
theories/PosProofs2.v
theories/PosProofs3.v
theories/PosProofs4.v
theories/PosProofs5.v
theories/PosProofs6.v
theories/PropsPos.v
theories/MixExample.v
theories/PropsLayout.v
theories/OrderAbs.v
theories/OrderSpec.v
theories/OrderScan.v
theories/OrderProofs.v
theories/OrderProofs2.v
theories/OrderProofs3.v
theories/PropsOrder.v
theories/CompareModel.v
theories/CompareSpec.v
theories/CompareArith.v
theories/CompareProofs.v
theories/CompareProofs2.v
theories/CompareProofs3.v
theories/CompareProofs4.v
theories/CompareProofs5.v
theories/CompareProofs6.v
theories/PropsCompare.v
theories/PathModel.v
theories/PathSpec.v
theories/PathProofs.v
theories/PropsPath.v
theories/HumpExample.v
theories/PropsPathFigures.v
theories/ExactModel.v
theories/ExactSpec.v
theories/ExactProofs.v
theories/ExactProofs2.v
theories/ExactProofs3.v
theories/ExactProofs4.v
theories/ExactProofs5.v
theories/PropsExact.v
theories/LineModel.v
theories/LineSpec.v
theories/LineProofs.v
theories/LineProofs2.v
theories/PropsLine.v
theories/QuadModel.v
theories/QuadSpec.v
theories/NearArith.v
theories/QuadProofs.v
theories/QuadProofs2.v
theories/PropsQuad.v
theories/CallbackModel.v
theories/CallbackSpec.v
theories/CallbackProofs.v
theories/CallbackProofs2.v
theories/PropsCallback.v
theories/CubicModel.v
theories/CubicSpec.v
theories/CubicProofs.v
theories/CubicProofs2.v
theories/CubicProofs3.v
theories/CubicProofs4.v
theories/CubicProofs5.v
theories/CubicGrid.v
theories/PropsCubic.v
theories/CubicProofs6.v
theories/PropsCubicBand.v
theories/PieceModel.v
theories/PieceSpec.v
theories/PieceProofs.v
theories/PropsPiece.v
theories/BoundsModel.v
theories/BoundsSpec.v
theories/BoundsProofs.v
theories/PropsBounds.v
theories/ChainSpec.v
theories/ChainProofs.v
theories/ChainProofs2.v
theories/PropsChain.v
theories/PropsScanLive.v
theories/CloseSpec.v
theories/CloseProofs.v
theories/PropsClose.v
theories/BinaryModel.v
theories/PropsBinary.v
