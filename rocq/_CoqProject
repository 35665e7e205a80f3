-Q theories Verif
theories/Outcome.v
theories/ListUtil.v
theories/WordsModel.v
theories/WordsProofs.v
theories/WordsProps.v
theories/RangeModel.v
theories/RangeProofs.v
theories/LPSetModel.v
theories/ProbeTheory.v
theories/LPSetProofs.v
theories/LPSetHistory.v
theories/LPSetIter.v
theories/LPSetSpec.v
theories/LPSetProps.v
theories/LPMapModel.v
theories/LPMapProofs.v
theories/LPMapSpec.v
theories/LPMapProps.v
theories/LPMultiMapModel.v
theories/LPMultiMapProofs.v
theories/LPMultiMapSpec.v
theories/LPMultiMapProps.v
theories/BitSetModel.v
theories/BitSetProofs.v
theories/BitSetMore.v
theories/BitSetSpec.v
theories/BitSetProps.v
theories/Conc.v
theories/ConcBitSetModel.v
theories/ConcBitSetProofs.v
theories/ConcBitSetSpec.v
theories/ConcBitSetProps.v
theories/ConcSetModel.v
theories/ConcProbe.v
theories/ConcSetProofs.v
theories/ConcSetWait.v
theories/ConcSetSpec.v
theories/ConcSetMerge.v
theories/ConcSetPhase.v
theories/ConcSetLoad.v
theories/ConcSetProps.v
theories/ConcMapModel.v
theories/ConcMapProofs.v
theories/ConcMapVal.v
theories/ConcMMVal.v
theories/ConcMapSpec.v
theories/ConcMapCopy.v
theories/ConcMapProps.v
theories/BlockModel.v
theories/BlockProofs.v
theories/BlockIter.v
theories/BlockSpec.v
theories/BlockProps.v
theories/SortModel.v
theories/SortProofs.v
theories/SortProps.v
theories/IdModel.v
theories/IdProofs.v
theories/IdProps.v
theories/SimplexModel.v
theories/SimplexProofs.v
theories/PointModel.v
theories/PointProofs.v
theories/SimplexProps.v
theories/PointProps.v
theories/GeoModel.v
theories/GeoSpec.v
theories/GeoProofs.v
theories/GeoCirc.v
theories/GeoBox.v
theories/GeoProps.v
theories/AABBModel.v
theories/AABBProofs.v
theories/AABBTop.v
theories/AABBProps.v
theories/PartModel.v
theories/PartStats.v
theories/PartSpec.v
theories/PartProofs.v
theories/PartConc.v
theories/PartTop.v
theories/PartProps.v
theories/TreeModel.v
theories/TreeSpec.v
theories/TreeProofs.v
theories/TreeTop.v
theories/TreeCalls.v
theories/TreeProps.v
theories/GrowModel.v
theories/GrowProofs.v
theories/GrowTabs.v
theories/GrowSafe.v
theories/GrowKeep.v
theories/GrowSpec.v
theories/GrowSeq.v
theories/GrowQuiet.v
theories/GrowProps.v
theories/Pool.v
theories/EdgeModel.v
theories/EdgeSpec.v
theories/EdgeProofs.v
theories/EdgeProps.v
theories/NbrModel.v
theories/NbrSpec.v
theories/NbrProofs.v
theories/NbrProps.v
theories/WhereModel.v
theories/WhereSpec.v
theories/WhereProofs.v
theories/WhereProps.v
theories/VisitModel.v
theories/VisitProofs.v
theories/MergeModel.v
theories/MergeSpec.v
theories/MergeProofs.v
theories/MergeUpdate.v
theories/MergeProps.v
theories/CheckModel.v
theories/CheckSpec.v
theories/CheckProofs.v
theories/CheckProps.v
theories/InfModel.v
theories/InfProofs.v
theories/InfProps.v
theories/NearModel.v
theories/NearSpec.v
theories/NearProofs.v
theories/NearGeo.v
theories/NearProps.v
theories/SampleModel.v
theories/SampleSpec.v
theories/SampleProofs.v
theories/SampleSeq.v
theories/SampleSort.v
theories/SampleProps.v
theories/MapperModel.v
theories/MapperProps.v
theories/GenModel.v
theories/GenProofs.v
theories/GenProps.v
theories/KWayModel.v
theories/KWayProofs.v
theories/KWayRet.v
theories/KWayProps.v
theories/MakerModel.v
theories/MakerProofs.v
theories/MakerCheck.v
theories/MakerProps.v
theories/AssignModel.v
theories/AssignProofs.v
theories/AssignProps.v
theories/BisectModel.v
theories/BisectSpec.v
theories/BisectProofs.v
theories/BisectBox.v
theories/BisectProps.v
theories/DelSpec.v
theories/DelGeo.v
theories/DelMerge.v
theories/StepModel.v
theories/TriSpec.v
theories/StepBase.v
theories/StepEdge.v
theories/StepJoin.v
theories/StepProofs.v
theories/PlaceSpec.v
theories/DelPlace.v
theories/StepPlaced.v
theories/DcModel.v
theories/DcSpec.v
theories/DcBase.v
theories/MeshSpec.v
theories/MeshProofs.v
theories/DcHits.v
theories/DcProofs.v
theories/StepEx.v
theories/DcEx.v
theories/SplitModel.v
theories/SplitProofs.v
theories/SplitEx.v
theories/TopSpec.v
theories/TopProofs.v
theories/StepCase.v
theories/TopRuns.v
theories/LbModel.v
theories/LbSpec.v
theories/LbLevel.v
theories/LbProofs.v
theories/LbEx.v
theories/DcProps.v
theories/LbTrees.v
theories/LbTop.v
theories/LbProps.v
theories/KTree.v
theories/WayProps.v
theories/SampModel.v
theories/SampProofs.v
theories/SampProps.v
theories/NestProofs.v
theories/NestTop.v
theories/NestProps.v
theories/HypSpec.v
theories/BinTree.v
theories/HypProofs.v
theories/HypProps.v
theories/EstProofs.v
theories/EstProps.v
theories/FlatSpec.v
theories/FlatProofs.v
theories/FlatProps.v
theories/SelfModel.v
theories/SelfSpec.v
theories/SelfProofs.v
theories/SelfProps.v
theories/AgreeModel.v
theories/AgreeSpec.v
theories/AgreeProofs.v
theories/AgreeProps.v
theories/CallModel.v
theories/CallSpec.v
theories/CallProofs.v
theories/CallProps.v
theories/PredModel.v
theories/PredSpec.v
theories/PredProofs.v
theories/FloatProofs.v
theories/FloatInit.v
theories/PredProps.v
theories/PureModel.v
theories/PureProps.v
theories/ExpModel.v
theories/ExpSpec.v
theories/ExpProofs.v
theories/ExpProps.v
theories/ExpGen.v
theories/ExpGenProps.v
theories/BsonModel.v
theories/BsonProps.v
theories/LoadModel.v
theories/LoadProps.v
theories/MonModel.v
theories/MonProps.v
theories/LogModel.v
theories/LogProps.v
theories/ExpansModel.v
theories/ExpansProps.v
theories/ErrFree.v
theories/ErrFreeProps.v
theories/AdaptModel.v
theories/AdaptProps.v
theories/AdaptExactProps.v
theories/AdaptFullModel.v
theories/AdaptGridProps.v
