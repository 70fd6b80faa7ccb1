-Q theories Verif
theories/AdapterModel.v
theories/AdjacencyFacts.v
theories/AdjacencyModel.v
theories/AdjacencyProps.v
theories/AdjacencySpec.v
theories/ArrayFacts.v
theories/ArrayModel.v
theories/ArrayProps.v
theories/ArraySpec.v
theories/AsciiModel.v
theories/AsciiProps.v
theories/AsciiSpec.v
theories/AutotuneModel.v
theories/AutotuneProps.v
theories/AutotuneSpec.v
theories/BalancerModel.v
theories/BalancerProps.v
theories/BalancerSpec.v
theories/Base.v
theories/BisectDoubleFacts.v
theories/BisectDoubleModel.v
theories/BisectDoubleProps.v
theories/BisectDoubleSpec.v
theories/BisectRangeFacts.v
theories/BisectionFacts.v
theories/BisectionProps.v
theories/BoxFacts.v
theories/BoxModel.v
theories/BoxProps.v
theories/BoxSpec.v
theories/BytesFacts.v
theories/CacheFacts.v
theories/CacheModel.v
theories/CacheProps.v
theories/CacheSpec.v
theories/CeilFacts.v
theories/CeilModel.v
theories/CeilProps.v
theories/CheckerFacts.v
theories/CheckerProps.v
theories/CollectFacts.v
theories/CollectModel.v
theories/CollectProps.v
theories/CollectSpec.v
theories/ConfigFacts.v
theories/CoordFacts.v
theories/CoordModel.v
theories/CoordProps.v
theories/CoordSpec.v
theories/CudaFacts.v
theories/CudaFilterFacts.v
theories/CudaFilterModel.v
theories/CudaFilterProps.v
theories/CudaFilterSpec.v
theories/CudaGridFacts.v
theories/CudaGridModel.v
theories/CudaGridProps.v
theories/CudaGridSpec.v
theories/CudaKernelFacts.v
theories/CudaModel.v
theories/CudaProps.v
theories/CudaRun.v
theories/CudaSoAFacts.v
theories/CudaSoAModel.v
theories/CudaSoAProps.v
theories/CudaSoASame.v
theories/CudaSoASpec.v
theories/CudaSpec.v
theories/CudaStepperFacts.v
theories/CudaStepperModel.v
theories/CudaStepperProps.v
theories/CudaStepperSpec.v
theories/DataflowFacts.v
theories/DataflowLive.v
theories/DataflowModel.v
theories/DataflowProps.v
theories/DataflowSafe.v
theories/DataflowSpec.v
theories/DisplacedFacts.v
theories/DistScotchFacts.v
theories/DistScotchModel.v
theories/DistScotchProps.v
theories/DistScotchSlices.v
theories/DistScotchSpec.v
theories/ExpandProps.v
theories/FileFacts.v
theories/FileModel.v
theories/FileProps.v
theories/FilterFacts.v
theories/FlatArrayModel.v
theories/FlatArrayProps.v
theories/FlatArraySpec.v
theories/FlatVectorModel.v
theories/FlatVectorProps.v
theories/FlatVectorSpec.v
theories/FloatFacts.v
theories/GeometryProps.v
theories/GridFacts.v
theories/GridModel.v
theories/GridProps.v
theories/GridReach.v
theories/GridSpec.v
theories/HIndexingFacts.v
theories/HIndexingIter.v
theories/HIndexingModel.v
theories/HIndexingProps.v
theories/HaloFacts.v
theories/HaloRadiusProps.v
theories/HaloSpec.v
theories/HilbertFacts.v
theories/HoodFacts.v
theories/HoodModel.v
theories/HoodProps.v
theories/HpxLinkFacts.v
theories/HpxLinkModel.v
theories/HpxLinkProps.v
theories/HpxLinkSpec.v
theories/HpxSimFacts.v
theories/HpxSimModel.v
theories/HpxSimProps.v
theories/HpxSimSpec.v
theories/ImageFacts.v
theories/ImageModel.v
theories/ImagePalette.v
theories/ImageProps.v
theories/ImageSpec.v
theories/LayoutFacts.v
theories/LinkFacts.v
theories/LinkProps.v
theories/LinkSpec.v
theories/ListFacts.v
theories/MemberRows.v
theories/MeshRunProps.v
theories/MeshRunSpec.v
theories/MesherFacts.v
theories/MesherModel.v
theories/MesherProps.v
theories/MesherSpec.v
theories/MeshlessFacts.v
theories/MeshlessModel.v
theories/MeshlessProps.v
theories/MeshlessSpec.v
theories/MultiFacts.v
theories/MultiModel.v
theories/MultiProps.v
theories/MultiSpec.v
theories/NodeGridFacts.v
theories/OffsetFacts.v
theories/OffsetModel.v
theories/OffsetProps.v
theories/OffsetSpec.v
theories/OozeDoubleFacts.v
theories/OozeDoubleModel.v
theories/OozeDoubleProps.v
theories/OptimizerModel.v
theories/OptimizerProps.v
theories/ParMemFacts.v
theories/ParMemModel.v
theories/ParMemProps.v
theories/ParMemProtocol.v
theories/ParMemSpec.v
theories/ParamFacts.v
theories/ParamModel.v
theories/ParamProps.v
theories/ParamSpec.v
theories/PartitionFacts.v
theories/PartitionManagerFacts.v
theories/PartitionManagerModel.v
theories/PartitionManagerProps.v
theories/PartitionManagerSpec.v
theories/PartitionModel.v
theories/PartitionSpec.v
theories/PatchFacts.v
theories/PatchModel.v
theories/PatchProps.v
theories/PatchSpec.v
theories/PolytopeFacts.v
theories/PolytopeInv.v
theories/PolytopeModel.v
theories/PolytopeProps.v
theories/PolytopeRun.v
theories/PolytopeSpec.v
theories/ProxyModel.v
theories/ProxyProps.v
theories/RandomDoubleFacts.v
theories/RandomDoubleModel.v
theories/RandomDoubleProps.v
theories/RegionAdj.v
theories/RegionEnc.v
theories/RegionExpand.v
theories/RegionFlat.v
theories/RegionGeometry.v
theories/RegionHist.v
theories/RegionHistory.v
theories/RegionIter.v
theories/RegionIterModel.v
theories/RegionModel.v
theories/RegionObjModel.v
theories/RegionOps.v
theories/RegionOpsModel.v
theories/RegionProps.v
theories/RegionReach.v
theories/RegionRep.v
theories/RegionSeek.v
theories/RegionSeekModel.v
theories/RegionSpec.v
theories/RegionStreaks.v
theories/RegionTree.v
theories/RegionWrap.v
theories/ReorderFacts.v
theories/ReorderModel.v
theories/ReorderProps.v
theories/ReorderSpec.v
theories/ScheduleFacts.v
theories/ScheduleModel.v
theories/ScheduleProps.v
theories/ScheduleSpec.v
theories/ScotchFacts.v
theories/ScotchModel.v
theories/ScotchProps.v
theories/ScotchRegions.v
theories/ScotchSpec.v
theories/SeekProps.v
theories/SelectorFacts.v
theories/SelectorModel.v
theories/SelectorProps.v
theories/SelectorReach.v
theories/SelectorSpec.v
theories/SellFacts.v
theories/SellModel.v
theories/SellProps.v
theories/SellSpec.v
theories/SetupFacts.v
theories/SetupModel.v
theories/SetupProps.v
theories/SetupSpec.v
theories/SfcFacts.v
theories/SfcModel.v
theories/SfcProps.v
theories/SiloFacts.v
theories/SiloModel.v
theories/SiloProps.v
theories/SiloSpec.v
theories/SimplexBest.v
theories/SimplexFacts.v
theories/SimplexModel.v
theories/SimplexProps.v
theories/SimplexSpec.v
theories/SoAFacts.v
theories/SoAModel.v
theories/SoAProps.v
theories/SoAReach.v
theories/SoARep.v
theories/SoASpec.v
theories/SoATransfer.v
theories/SoAUpdate.v
theories/StencilFacts.v
theories/StencilModel.v
theories/StencilProps.v
theories/StencilSpec.v
theories/StepperFacts.v
theories/StepperModel.v
theories/StepperProps.v
theories/StepperSpec.v
theories/StreakFilterFacts.v
theories/StringFacts.v
theories/StringModel.v
theories/StringProps.v
theories/StringSpec.v
theories/StripesConfig.v
theories/StripesFacts.v
theories/StripesModel.v
theories/StripesProps.v
theories/StripesSpec.v
theories/StripingFacts.v
theories/StripingProps.v
theories/ThreadFacts.v
theories/ThreadModel.v
theories/ThreadPlanes.v
theories/ThreadProps.v
theories/ThreadRun.v
theories/ThreadSpec.v
theories/TopologyFacts.v
theories/TraceFacts.v
theories/TraceModel.v
theories/TraceProps.v
theories/TraceSpec.v
theories/TypemapFacts.v
theories/TypemapModel.v
theories/TypemapProps.v
theories/TypemapSpec.v
theories/UpdateFacts.v
theories/UpdateModel.v
theories/UpdateProps.v
theories/UpdateSpec.v
theories/WriterModel.v
theories/WriterProps.v
theories/ZcurveFacts.v
