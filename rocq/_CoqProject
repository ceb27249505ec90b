-Q theories Verif
theories/Prelude.v
theories/RootsModel.v
theories/RootsProofs.v
theories/RootsProps.v
theories/StepModel.v
theories/StepProofs.v
theories/StepProps.v
theories/DiffModel.v
theories/DiffProofs.v
theories/DiffProps.v
theories/FixModel.v
theories/FixProofs.v
theories/FixProps.v
theories/PolyModel.v
theories/PolyProofs.v
theories/PolyProps.v
theories/VecModel.v
theories/VecProofs.v
theories/VecProps.v
theories/UtilsModel.v
theories/UtilsProps.v
theories/DistModel.v
theories/DistObjProps.v
theories/DistFamProps.v
theories/DistMixProps.v
theories/MomModel.v
theories/MomProps.v
theories/KinModel.v
theories/KinProps.v
theories/KinCldProps.v
theories/CopoModel.v
theories/CopoProps.v
theories/CopoStatProps.v
theories/CopoPenProps.v
theories/CopoMultiModel.v
theories/LinAlg.v
theories/CopoMultiProps.v
theories/CopoTupleProps.v
theories/CopoDataModel.v
theories/CopoDataProps.v
theories/FlashModel.v
theories/FlashRRProps.v
theories/FlashProps.v
theories/Deriv.v
theories/AcmModel.v
theories/AcmProps.v
theories/AcmMixProps.v
theories/AcmHeapProps.v
theories/EosModel.v
theories/EosProps.v
theories/CubicProps.v
theories/NumBounds.v
theories/PropModel.v
theories/PropMixProps.v
theories/PropVapProps.v
theories/Erf.v
theories/HmtModel.v
theories/HmtProps.v
theories/WallProps.v
theories/TrigRootsProps.v
theories/FlowModel.v
theories/FlowProps.v
theories/ColebrookProps.v
theories/RheoProps.v
theories/SettleProps.v
theories/RtdModel.v
theories/RtdProps.v
theories/RtdDispProps.v
theories/PrvProps.v
theories/PrvLiqProps.v
theories/PrvTwoProps.v
theories/QnLinModel.v
theories/QnLinProps.v
theories/ConvProps.v
theories/JcrModel.v
theories/JcrProps.v
theories/DataModel.v
theories/DataProps.v
theories/ReactModel.v
theories/ReactProps.v
theories/FitModel.v
theories/DriftProps.v
theories/FitProps.v
theories/RkProps.v
theories/NdiffProps.v
theories/CacheModel.v
theories/CacheProps.v
theories/EosInitProps.v
theories/TaitModel.v
theories/TaitProps.v
theories/AcmMoreProps.v
theories/EosCritProps.v
theories/DistPlotModel.v
theories/DistPlotProps.v
theories/EqPlotModel.v
theories/EqPlotProps.v
theories/CopoPlotModel.v
theories/CopoPlotProps.v
theories/RootsConvProps.v
theories/FixConvProps.v
theories/LnBounds.v
theories/VapAnchorProps.v
theories/TextModel.v
theories/TextProps.v
theories/SecLocProps.v
theories/JcrEllProps.v
theories/FitRegionProps.v
theories/LucasProps.v
theories/TransportProps.v
theories/IvTac.v
theories/DocTac.v
theories/DocPropExamples.v
theories/DocFlowExamples.v
theories/DocHmtExamples.v
theories/DocStepExamples.v
theories/DocMiscExamples.v
theories/TestExamples.v
theories/DimProps.v
theories/DimProps2.v
theories/CorrProps.v
theories/ErfcProps.v
theories/FickProps.v
theories/FickProps2.v
theories/NbarProps.v
theories/NbarProps2.v
theories/TruncProps.v
theories/GoldProps.v
theories/CopoAzeoProps.v
theories/CaseProps.v
theories/Case2Props.v
theories/OracleProps.v
theories/Case3Props.v
theories/QrProps.v
theories/Case4Props.v
theories/Case5Props.v
theories/Case6Props.v
theories/Case7Props.v
theories/Case8Props.v
theories/Case9Props.v
theories/Case10Props.v
theories/Case11Props.v
theories/Case12Props.v
theories/QuantProps.v
theories/Case13Props.v
theories/TightProps.v
theories/Case14Props.v
theories/Case15Props.v
theories/Case16Props.v
theories/Case17Props.v
theories/Case18Props.v
theories/Case19Props.v
theories/Case20Props.v
theories/Case21Props.v
theories/Case22Props.v
theories/QuadModel.v
theories/QuadProps.v
theories/Case23Props.v
theories/Tight2Props.v
theories/Tight3Props.v
