-Q theories Verif
theories/Prelude.v
theories/UtilModel.v
theories/UtilProof.v
theories/UtilProps.v
theories/ArraySpec.v
theories/SegtreeSpec.v
theories/SegtreeModel.v
theories/SegtreeProof.v
theories/SegtreeProps.v
theories/FenwickSpec.v
theories/FenwickModel.v
theories/FenwickProof.v
theories/FenwickProps.v
theories/SparseSpec.v
theories/SparseModel.v
theories/SparseProof.v
theories/SparseProps.v
theories/UnionFindModel.v
theories/UnionFindProof.v
theories/UnionFindProps.v
theories/HeapModel.v
theories/HeapSpec.v
theories/HeapList.v
theories/HeapProps.v
theories/PrefixModel.v
theories/PrefixSpec.v
theories/PrefixProof.v
theories/PrefixProps.v
theories/LazySpec.v
theories/LazyModel.v
theories/LazyProof.v
theories/LazyTop.v
theories/LazyProps.v
theories/IntModel.v
theories/NumModel.v
theories/NumSpec.v
theories/NumProof.v
theories/NumProps.v
theories/NumTheory.v
theories/IMathModel.v
theories/IMathSpec.v
theories/IMathProof.v
theories/IMathRoot.v
theories/IMathProps.v
theories/ModIntModel.v
theories/ModIntSpec.v
theories/ModIntProof.v
theories/FactorialModel.v
theories/FactorialSpec.v
theories/FactorialProof.v
theories/ModIntProps.v
theories/DijkstraModel.v
theories/DijkstraSpec.v
theories/DijkstraProof.v
theories/DijkstraProps.v
theories/MatchingModel.v
theories/MatchingSpec.v
theories/MatchingProof.v
theories/MatchingProps.v
theories/DinicModel.v
theories/DinicSpec.v
theories/DinicProof.v
theories/DinicProps.v
theories/SccModel.v
theories/SccSpec.v
theories/SccProof.v
theories/SccProps.v
theories/TreeSpec.v
theories/TreeProof.v
theories/LiftModel.v
theories/LiftProof.v
theories/LiftProps.v
theories/HldSpec.v
theories/HldModel.v
theories/HldTree.v
theories/HldProof.v
theories/HldOps.v
theories/HldProps.v
theories/AhoSpec.v
theories/AhoModel.v
theories/AhoStr.v
theories/AhoTrie.v
theories/AhoBuild.v
theories/AhoProof.v
theories/AhoProps.v
theories/MonoidSpec.v
theories/MonoidModel.v
theories/MonoidProps.v
theories/InputSpec.v
theories/InputModel.v
theories/InputProps.v
theories/RecModel.v
theories/RecProps.v
theories/ModIntTextProps.v
theories/PspMath.v
theories/PspInt.v
theories/PspCert.v
theories/PspRun.v
theories/PspSound.v
theories/PspLimb.v
theories/PspMain.v
theories/PrimalityProps.v
theories/ReleaseModel.v
theories/ReleaseProps.v
theories/UnionFindSpec.v
theories/UnionFindRefProps.v
theories/PartialOps.v
theories/SegtreeChkModel.v
theories/SegtreeChkProof.v
theories/SegtreeChkProps.v
theories/FenwickChkModel.v
theories/FenwickChkProof.v
theories/FenwickChkProps.v
theories/LazyChkModel.v
theories/LazyChkProof.v
theories/LazyChkGood.v
theories/LazyChkTop.v
theories/LazyChkProps.v
theories/SccPanic.v
theories/DinicNeg.v
theories/ConcModel.v
theories/ConcProof.v
theories/ConcProps.v
theories/SparseChkModel.v
theories/SparseChkProps.v
theories/LazyDebugProps.v
theories/CompSpec.v
theories/CompTree.v
theories/CompLift.v
theories/CompProps.v
theories/CompHldSpec.v
theories/CompHldTree.v
theories/CompHldProof.v
theories/CompHldOps.v
theories/CompHldProps.v
theories/FreeSpec.v
theories/SegtreeFree.v
theories/SegtreeFreeProps.v
theories/WordModel.v
theories/WordSpec.v
theories/WordProof.v
theories/WordProps.v
theories/NumReleaseModel.v
theories/NumReleaseProps.v
theories/PrefixCountModel.v
theories/PrefixRelSpec.v
theories/PrefixRelProof.v
theories/PrefixRelProps.v
theories/BisectSpec.v
theories/EffectSpec.v
theories/EffectModel.v
theories/EffectProof.v
theories/EffectLazyProof.v
theories/EffectProps.v
theories/Unwind.v
theories/AhoUnwindModel.v
theories/AhoUnwindSpec.v
theories/AhoUnwindProof.v
theories/AhoUnwindProps.v
theories/TreeUnwindModel.v
theories/TreeUnwindSpec.v
theories/TreeUnwindProof.v
theories/FenwickUnwindProof.v
theories/TreeUnwindProps.v
theories/PrefixLogModel.v
theories/PrefixLogProof.v
theories/GraphReleaseModel.v
theories/GraphReleaseSpec.v
theories/GraphReleaseProof.v
theories/GraphReleaseProps.v
theories/LazyUnwindModel.v
theories/LazyUnwindSpec.v
theories/LazyUnwindCode.v
theories/LazyUnwindGhost.v
theories/LazyUnwindProof.v
theories/LazyUnwindTop.v
theories/LazyUnwindOps.v
theories/LazyUnwindProps.v
theories/MatchingUnwindModel.v
theories/MatchingUnwindSpec.v
theories/MatchingUnwindProof.v
theories/MatchingUnwindProps.v
theories/InputUnwindModel.v
theories/InputUnwindSpec.v
theories/InputUnwindProps.v
theories/UfUnwindModel.v
theories/UfUnwindSpec.v
theories/UfUnwindProps.v
theories/DinicUnwindModel.v
theories/DinicUnwindCode.v
theories/DinicUnwindSpec.v
theories/DinicUnwindProof.v
theories/DinicUnwindProps.v
theories/Eff.v
theories/EffSpec.v
theories/SegtreeEffModel.v
theories/LazyEffModel.v
theories/FenwickEffModel.v
theories/SparseEffModel.v
theories/SegtreeEffProof.v
theories/LazyEffProof.v
theories/FenwickEffProof.v
theories/EffProps.v
theories/LiftDfsSpec.v
theories/LiftDfsProof.v
theories/LiftDfsProps.v
theories/ResidueModel.v
theories/ResidueProof.v
theories/ResidueSpec.v
theories/ResidueProps.v
theories/DijkstraLogModel.v
theories/DijkstraLogSpec.v
theories/DijkstraLogProof.v
theories/DijkstraLogProps.v
theories/GraphWorkModel.v
theories/GraphWorkProof.v
theories/GraphWorkSpec.v
theories/GraphFlowWorkProof.v
theories/GraphWorkProps.v
theories/HldChkModel.v
theories/HldEffSpec.v
theories/HldEffModel.v
theories/HldChkProof.v
theories/HldEffProof.v
theories/HldEffProps.v
theories/AhoWorkModel.v
theories/AhoWorkSpec.v
theories/AhoWorkProof.v
theories/AhoWorkProps.v
theories/TreeWorkModel.v
theories/TreeWorkSpec.v
theories/TreeWorkProof.v
theories/TreeNestProof.v
theories/TreeWorkProps.v
theories/UfWorkModel.v
theories/UfWorkSpec.v
theories/UfWorkProof.v
theories/UfTightProof.v
theories/UfWorkProps.v
theories/SccExactProof.v
theories/GraphNestModel.v
theories/GraphNestSpec.v
theories/SccNestProof.v
theories/MatchingNestProof.v
theories/DinicNestProof.v
theories/GraphNestProps.v
theories/RelProof.v
theories/LawlessSpec.v
theories/LazyRel.v
theories/LazyFree.v
theories/LazyLawless.v
theories/HldLawless.v
theories/LawlessProps.v
theories/MixSpec.v
theories/FenwickMix.v
theories/SparseMix.v
theories/MixProps.v
theories/NumWorkModel.v
theories/NumWorkSpec.v
theories/NumWorkProof.v
theories/NumWorkPrime.v
theories/NumWorkProps.v
theories/RecBorrowSpec.v
theories/RecBorrowModel.v
theories/RecBorrowProps.v
theories/AhoReleaseModel.v
theories/AhoReleaseSpec.v
theories/AhoReleaseProof.v
theories/AhoReleaseProps.v
theories/UnreducedSpec.v
theories/UnreducedProof.v
theories/UnreducedProps.v
theories/HldUnwindModel.v
theories/HldUnwindSpec.v
theories/HldUnwindCode.v
theories/HldUnwindProof.v
theories/HldUnwindProps.v
theories/CoverSpec.v
theories/CoverProof.v
theories/CoverProps.v
theories/WordsSpec.v
theories/WordsProof.v
theories/WordsProps.v
theories/DebugModel.v
theories/DebugSpec.v
theories/DebugProps.v
theories/EulerSpec.v
theories/EulerModel.v
theories/EulerProof.v
theories/EulerProps.v
theories/TreeAgreeProof.v
theories/TreeAgreeProps.v
theories/FieldModel.v
theories/FieldSpec.v
theories/FieldProof.v
theories/FieldProps.v
theories/LinkModel.v
theories/LinkSpec.v
theories/LinkProof.v
theories/KruskalProof.v
theories/LinkProps.v
theories/WeightedSpec.v
theories/WeightedModel.v
theories/WeightedProof.v
theories/WeightedProps.v
theories/ArrAgreeModel.v
theories/ArrAgreeProof.v
theories/ArrAgreeProps.v
theories/SatSpec.v
theories/SatModel.v
theories/SatProof.v
theories/SatProps.v
theories/MengerSpec.v
theories/MengerProof.v
theories/MengerProps.v
theories/ShortRelSpec.v
theories/ShortRelModel.v
theories/ShortRelProof.v
theories/ShortRelProps.v
theories/FlowRelSpec.v
theories/FlowRelModel.v
theories/FlowRelProof.v
theories/FlowRelProps.v
theories/NumAgreeSpec.v
theories/NumAgreeProof.v
theories/NumAgreeProps.v
theories/TallyModel.v
theories/TallySpec.v
theories/TallyProof.v
theories/TallyProps.v
theories/SccRelModel.v
theories/SccRelSpec.v
theories/SccRelProof.v
theories/SccRelProps.v
theories/BinHeapModel.v
theories/BinHeapSpec.v
theories/BinHeapProof.v
theories/BinHeapProps.v
theories/BinHeapWorkModel.v
theories/BinHeapWorkSpec.v
theories/BinHeapWorkProof.v
theories/BinHeapDijkstraProof.v
theories/BinHeapWorkProps.v
theories/TreeMetricModel.v
theories/TreeMetricSpec.v
theories/TreeMetricProof.v
theories/TreeMetricProps.v
theories/MatchRelModel.v
theories/MatchRelSpec.v
theories/MatchRelProof.v
theories/MatchRelProps.v
theories/AhoLateSpec.v
theories/AhoLateProof.v
theories/AhoLateProps.v
theories/LiftLevelModel.v
theories/LiftLevelProof.v
theories/LiftLevelProps.v
theories/RingModel.v
theories/RingSpec.v
theories/RingProof.v
theories/RingProps.v
theories/HeapDebugModel.v
theories/HeapDebugSpec.v
theories/HeapDebugProps.v
theories/VirtModel.v
theories/VirtSpec.v
theories/VirtProof.v
theories/VirtProps.v
theories/BipModel.v
theories/BipSpec.v
theories/BipProof.v
theories/BipProps.v
theories/CircModel.v
theories/CircSpec.v
theories/CircProof.v
theories/CircProps.v
theories/SpaceSpec.v
theories/SpaceModel.v
theories/SpaceProof.v
theories/SpaceHeapProof.v
theories/SpaceProps.v
theories/RangeAddModel.v
theories/RangeAddSpec.v
theories/RangeAddProof.v
theories/RangeAddProps.v
theories/SelectModel.v
theories/SelectSpec.v
theories/SelectProof.v
theories/SelectProps.v
theories/ChainModel.v
theories/ChainSpec.v
theories/ChainProof.v
theories/ChainProps.v
theories/RmqModel.v
theories/RmqProof.v
theories/RmqProps.v
theories/JumpSpec.v
theories/JumpProof.v
theories/JumpProps.v
theories/HldPosModel.v
theories/HldPosSpec.v
theories/HldPosProof.v
theories/HldPosProps.v
theories/BinHeapUnwindModel.v
theories/BinHeapUnwindSpec.v
theories/BinHeapUnwindProof.v
theories/BinHeapUnwindProps.v
theories/LiftUnwindModel.v
theories/LiftUnwindSpec.v
theories/LiftUnwindProof.v
theories/LiftUnwindProps.v
theories/HeapUseModel.v
theories/HeapUseSpec.v
theories/HeapUseProof.v
theories/HeapUseProps.v
theories/PrimTreeModel.v
theories/PrimTreeSpec.v
theories/PrimTreeProof.v
theories/PrimTreeProps.v
theories/PathSumModel.v
theories/PathSumSpec.v
theories/PathSumProof.v
theories/PathSumProps.v
theories/PalinModel.v
theories/PalinSpec.v
theories/PalinProof.v
theories/PalinProps.v
theories/CryptModel.v
theories/CryptSpec.v
theories/CryptProof.v
theories/CryptProps.v
theories/HuffmanModel.v
theories/HuffmanSpec.v
theories/HuffmanProof.v
theories/HuffmanProps.v
theories/TreeAddSpec.v
theories/TreeAddModel.v
theories/TreeAddProof.v
theories/TreeAddProps.v
theories/SteinerSpec.v
theories/SteinerModel.v
theories/SteinerProof.v
theories/SteinerProps.v
theories/CountSpec.v
theories/CountModel.v
theories/CountProof.v
theories/CountProps.v
theories/SieveSpec.v
theories/SieveModel.v
theories/SieveProof.v
theories/SieveProps.v
theories/LexSpec.v
theories/LexModel.v
theories/LexProof.v
theories/LexProps.v
theories/RoomModel.v
theories/RoomProof.v
theories/RoomProps.v
theories/SccRoomModel.v
theories/SccRoomProof.v
theories/SccNeedProof.v
theories/SccRoomProps.v
theories/DistinctModel.v
theories/DistinctSpec.v
theories/DistinctProof.v
theories/DistinctProps.v
theories/JosephusModel.v
theories/JosephusSpec.v
theories/JosephusProof.v
theories/JosephusProps.v
theories/SlotModel.v
theories/SlotProof.v
theories/SlotBuildProof.v
theories/SlotProps.v
theories/SpanSpec.v
theories/SpanModel.v
theories/SpanProof.v
theories/SpanProps.v
theories/LightSpec.v
theories/LightModel.v
theories/LightProof.v
theories/LightProps.v
