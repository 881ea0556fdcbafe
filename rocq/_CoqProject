-Q theories Verif
theories/BitHeapModel.v
theories/BitHeapSpec.v
theories/BitHeapProofs.v
theories/BitHeapProd.v
theories/BitHeapScheme.v
theories/BitHeapProps.v
theories/HwIntModel.v
theories/HwIntSpec.v
theories/HwIntProofs.v
theories/HwIntProps.v
theories/QUtil.v
theories/FpFormatModel.v
theories/FpFormatSpec.v
theories/FpFormatProofs.v
theories/FpFormatProofs2.v
theories/FpFormatProps.v
theories/SpecialModel.v
theories/SpecialSpec.v
theories/SpecialProps.v
theories/FixedModel.v
theories/FixedSpec.v
theories/FixedProps.v
theories/SizingModel.v
theories/SizingProps.v
theories/RtlFixedModel.v
theories/RtlFixedProps.v
theories/IntervalModel.v
theories/IntervalSpec.v
theories/IntervalProps.v
theories/IntervalTight.v
theories/LogicModel.v
theories/LogicProps.v
theories/NamesModel.v
theories/NamesProps.v
theories/PassesModel.v
theories/PassesProps.v
theories/GraphModel.v
theories/GraphProps.v
theories/PolyModel.v
theories/PolyProps.v
theories/RoundSpec.v
theories/RoundProofs.v
theories/RoundRne.v
theories/LimbModel.v
theories/LimbExact.v
theories/LimbRound.v
theories/LimbBounds.v
theories/LimbProps.v
theories/IndexModel.v
theories/IndexProps.v
theories/TableModel.v
theories/TableProps.v
theories/DequantModel.v
theories/DequantProps.v
theories/Exp2iModel.v
theories/Exp2iProps.v
theories/RandModel.v
theories/RandProps.v
theories/RemquoModel.v
theories/RemquoProofs.v
theories/RemquoProps.v
theories/FmodModel.v
theories/FmodProps.v
theories/PayneModel.v
theories/PayneProps.v
theories/DomModel.v
theories/DomProofs.v
theories/DomProps.v
theories/BlocksModel.v
theories/BlocksProofs.v
theories/BlocksProps.v
theories/PipeModel.v
theories/PipeSpec.v
theories/PipeProofs.v
theories/PipeProps.v
theories/LinModel.v
theories/LinSpec.v
theories/LinProofs.v
theories/LinProofs2.v
theories/LinCollapse.v
theories/LinProps.v
theories/TruncModel.v
theories/TruncProps.v
theories/AdderModel.v
theories/AdderProofs.v
theories/AdderProofs2.v
theories/AdderProofs3.v
theories/AdderProps.v
theories/LowerModel.v
theories/LowerProofs.v
theories/LowerProps.v
theories/SupportModel.v
theories/SupportProps.v
theories/SupportProps2.v
theories/VeltProofs.v
theories/MpLibModel.v
theories/MpLibProps.v
theories/MpLibSub.v
theories/VecModel.v
theories/VecSpec.v
theories/VecProofs.v
theories/VecLanes.v
theories/VecProps.v
theories/VecProps2.v
theories/CheckModel.v
theories/CheckSpec.v
theories/CheckProofs.v
theories/CheckAccept.v
theories/CheckDegraded.v
theories/CheckLoops.v
theories/CheckUlp.v
theories/CheckProps.v
theories/CgenModel.v
theories/CgenSpec.v
theories/CgenProofs.v
theories/CgenSim.v
theories/CgenMain.v
theories/CgenStmt.v
theories/CgenTotal.v
theories/CgenFinal.v
theories/CgenScope.v
theories/CgenProps.v
theories/SsaModel.v
theories/SsaSpec.v
theories/SsaProofs.v
theories/SsaBlock.v
theories/SsaMain.v
theories/SsaInv.v
theories/SsaSim.v
theories/SsaOnce.v
theories/SsaProps.v
theories/DivModel.v
theories/DivCore.v
theories/DivProofs.v
theories/DivRange.v
theories/DivScheme.v
theories/DivOnes.v
theories/DivProps.v
theories/LimbTriple.v
theories/LimbTripleProps.v
theories/SqrtModel.v
theories/SqrtSpec.v
theories/SqrtErr.v
theories/SqrtCore.v
theories/SqrtRange.v
theories/SqrtSeed.v
theories/SqrtProofs.v
theories/SqrtHard.v
theories/SqrtProps.v
theories/PowModel.v
theories/PowSpec.v
theories/PowProofs.v
theories/PowExp.v
theories/PowProps.v
theories/RealLn2.v
theories/RealUtil.v
theories/ExpModel.v
theories/ExpSpec.v
theories/ExpReduce.v
theories/ExpRecon.v
theories/ExpProofs.v
theories/ExpProps.v
theories/Exp2Model.v
theories/Exp2Proofs.v
theories/Exp2Accuracy.v
theories/Exp2Props.v
theories/LogModel.v
theories/LogSpec.v
theories/LogLimb.v
theories/LogReduce.v
theories/LogCore.v
theories/LogProofs.v
theories/LogDouble.v
theories/LogProps.v
theories/RealLog.v
theories/LogNear.v
theories/LogExist.v
theories/CbrtModel.v
theories/CbrtSpec.v
theories/CbrtReal.v
theories/CbrtProofs.v
theories/CbrtAcc.v
theories/CbrtTab.v
theories/CbrtSpecial.v
theories/CbrtProps.v
theories/MpfmaModel.v
theories/MpfmaProofs.v
theories/MpfmaProofs2.v
theories/MpfmaProofs3.v
theories/MpfmaProps.v
theories/FixMpfmaModel.v
theories/FixMpfmaSpec.v
theories/FixMpfmaProofs.v
theories/FixMpfmaProps.v
theories/LlvmModel.v
theories/LlvmSpec.v
theories/MaskModel.v
theories/MaskSpec.v
theories/MaskProps.v
theories/LlvmProofs.v
theories/LlvmProps.v
theories/VlaSpec.v
theories/VlaModel.v
theories/VlaProps.v
theories/RvvModel.v
theories/RvvSpec.v
theories/RvvProofs.v
theories/RvvProps.v
theories/RvvProps2.v
theories/ArrModel.v
theories/ArrSpec.v
theories/ArrProps.v
theories/RecipModel.v
theories/RecipProofs.v
theories/RecipProofs2.v
theories/RecipProps.v
theories/TypModel.v
theories/TypSpec.v
theories/TypProofs.v
theories/TypProps.v
theories/BipModel.v
theories/BipProps.v
theories/VproModel.v
theories/VproSpec.v
theories/VproProofs.v
theories/VproIds.v
theories/VproProps.v
theories/PwModel.v
theories/PwSpec.v
theories/PwProofs.v
theories/PwProps.v
theories/AxfModel.v
theories/AxfSpec.v
theories/AxfProofs.v
theories/AxfProps.v
theories/Bf16Model.v
theories/Bf16Spec.v
theories/Bf16Proofs.v
theories/Bf16Props.v
theories/MpcModel.v
theories/MpcSpec.v
theories/MpcProps.v
theories/FmaModel.v
theories/FmaSpec.v
theories/FmaProofs.v
theories/FmaProps.v
theories/ShareModel.v
theories/ShareSpec.v
theories/ShareProofs.v
theories/ShareProps.v
theories/EngModel.v
theories/EngSpec.v
theories/EngProofs.v
theories/EngProps.v
theories/TsumModel.v
theories/TsumSpec.v
theories/TsumProofs.v
theories/TsumProps.v
theories/VbModel.v
theories/VbSpec.v
theories/VbProofs.v
theories/VbProps.v
theories/McModel.v
theories/McSpec.v
theories/McProofs.v
theories/McProps.v
theories/SelModel.v
theories/SelSpec.v
theories/SelProofs.v
theories/SelProps.v
theories/TravModel.v
theories/TravSpec.v
theories/TravProofs.v
theories/TravProps.v
theories/RlgModel.v
theories/RlgSpec.v
theories/RlgProofs.v
theories/RlgProps.v
theories/RepModel.v
theories/RepSpec.v
theories/RepProofs.v
theories/RepProps.v
theories/AttrModel.v
theories/AttrSpec.v
theories/AttrProofs.v
theories/AttrProps.v
theories/ExtModel.v
theories/ExtSpec.v
theories/ExtProofs.v
theories/ExtProps.v
theories/AsmModel.v
theories/AsmSpec.v
theories/AsmProofs.v
theories/AsmProps.v
theories/RswModel.v
theories/RswSpec.v
theories/RswProps.v
theories/GpiModel.v
theories/GpiProps.v
