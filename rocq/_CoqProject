-Q theories Verif
theories/ModInvModel.v
theories/ModInvProofs.v
theories/ModInvProps.v
theories/CrtModel.v
theories/CrtProofs.v
theories/CrtProps.v
theories/LiftModel.v
theories/LiftProofs.v
theories/LiftProps.v
theories/PrimesModel.v
theories/PrimesProofs.v
theories/PrimesProps.v
theories/MonoSpec.v
theories/MonoSpecProofs.v
theories/MonoModel.v
theories/MonoProofs.v
theories/MonoCmpProofs.v
theories/MonoDivProofs.v
theories/MonoProps.v
theories/HashModel.v
theories/HashProofs.v
theories/HashProps.v
theories/LinSpec.v
theories/LaSpec.v
theories/LaModel.v
theories/LaProofs.v
theories/LaRowProofs.v
theories/LaSysProofs.v
theories/LaProps.v
theories/HilbSpec.v
theories/HilbModel.v
theories/HilbProofs.v
theories/HilbLoopProofs.v
theories/HilbProps.v
theories/PolySpec.v
theories/PolyProofs.v
theories/TaylorModel.v
theories/TaylorProofs.v
theories/DescModel.v
theories/DescProofs.v
theories/DescLoopProofs.v
theories/RootProofs.v
theories/DescProps.v
theories/IsolModel.v
theories/IsolSpec.v
theories/IsolProofs.v
theories/IsolBisProofs.v
theories/IsolBoundProofs.v
theories/IsolSepProofs.v
theories/IsolTermProofs.v
theories/IsolProps.v
theories/EvalModel.v
theories/EvalProofs.v
theories/EvalProps.v
theories/RefineModel.v
theories/RefineProofs.v
theories/RefineRunProofs.v
theories/RefineProps.v
theories/BoxModel.v
theories/BoxProofs.v
theories/BoxProps.v
theories/InputSpec.v
theories/InputModel.v
theories/InputProofs.v
theories/InputRunProofs.v
theories/InputProps.v
theories/ImportModel.v
theories/ImportProofs.v
theories/ImportProps.v
theories/GbSpec.v
theories/GbProofs.v
theories/F4Model.v
theories/UpdProofs.v
theories/UpdProps.v
theories/Dickson.v
theories/F4Rows.v
theories/SymbProofs.v
theories/SelProofs.v
theories/MatProofs.v
theories/GbIdeal.v
theories/RoundProofs.v
theories/FinalProofs.v
theories/F4Props.v
theories/TraceModel.v
theories/TraceLaProofs.v
theories/TraceProofs.v
theories/TraceRun.v
theories/TraceApply.v
theories/TraceProps.v
theories/FpSpec.v
theories/NmodModel.v
theories/FpProofs.v
theories/BmModel.v
theories/BmProofs.v
theories/BmProps.v
theories/FglmSpec.v
theories/FglmModel.v
theories/MatVecProofs.v
theories/SeqProofs.v
theories/HankelProofs.v
theories/ShapeProofs.v
theories/ParamProofs.v
theories/FglmCore.v
theories/FglmProps.v
theories/FglmExample.v
theories/BuildModel.v
theories/StairProofs.v
theories/BuildProofs.v
theories/BasisProofs.v
theories/LinTabProofs.v
theories/BuildProps.v
theories/NfSpec.v
theories/NfModel.v
theories/NfProofs.v
theories/NfProps.v
theories/StepSpec.v
theories/StepModel.v
theories/StepProofs.v
theories/ParamIdeal.v
theories/F4Fuel.v
theories/PointSpec.v
theories/PointProofs.v
theories/StepProps.v
theories/ParseSpec.v
theories/ParseModel.v
theories/ParseProofs.v
theories/ParseProps.v
theories/DupSpec.v
theories/DupModel.v
theories/DupProofs.v
theories/DupProps.v
theories/GliftSpec.v
theories/GliftModel.v
theories/GliftProofs.v
theories/GliftRun.v
theories/GliftProps.v
theories/QparSpec.v
theories/QparModel.v
theories/QparProofs.v
theories/QparRun.v
theories/QparProps.v
theories/PrintSpec.v
theories/PrintModel.v
theories/PrintProofs.v
theories/PrintProps.v
theories/DenseSpec.v
theories/DenseModel.v
theories/DenseProofs.v
theories/DenseRun.v
theories/DenseProps.v
theories/OutSpec.v
theories/OutModel.v
theories/OutProofs.v
theories/OutProps.v
theories/ProbSpec.v
theories/ProbModel.v
theories/ProbProofs.v
theories/ProbProps.v
theories/DlaModel.v
theories/DlaProofs.v
theories/DlaRun.v
theories/DlaF4.v
theories/DlaProps.v
theories/ElimSpec.v
theories/ElimProofs.v
theories/ElimProps.v
theories/QgbSpec.v
theories/QgbProofs.v
theories/QgbExist.v
theories/QgbProps.v
theories/QgbEx.v
theories/SatModel.v
theories/QuotProofs.v
theories/QuotProps.v
theories/SatSpec.v
theories/SatAlg.v
theories/SatLa.v
theories/SatKer.v
theories/SatRed.v
theories/SatProofs.v
theories/SatProps.v
theories/HspModel.v
theories/HspProps.v
theories/RurSpec.v
theories/RurSub.v
theories/RurProofs.v
theories/RurLift.v
theories/RurStep.v
theories/RurProps.v
theories/RurEx.v
theories/RexFp.v
theories/RexProofs.v
theories/RexGen.v
theories/RexProps.v
theories/RexEx.v
theories/NumProofs.v
theories/NsSpec.v
theories/NsModel.v
theories/NsProofs.v
theories/NsSeq.v
theories/NsPoints.v
theories/NsEx.v
theories/NsRun.v
theories/NsStep.v
theories/RingEx.v
theories/NsProps.v
theories/NsCase.v
theories/DrvModel.v
theories/DrvShape.v
theories/DrvProofs.v
theories/DrvProps.v
theories/DrvCase.v
theories/LibSpec.v
theories/LibModel.v
theories/LibProofs.v
theories/LibProps.v
theories/LibCase.v
theories/JulSpec.v
theories/JulModel.v
theories/JulProps.v
theories/QdrvModel.v
theories/QdrvProofs.v
theories/QdrvProps.v
theories/QdrvEx.v
theories/QlaSpec.v
theories/QlaModel.v
theories/QlaProofs.v
theories/QlaRow.v
theories/QlaSys.v
theories/QlaRed.v
theories/QlaTop.v
theories/QlaProps.v
theories/QlaEx.v
theories/CliSpec.v
theories/CliModel.v
theories/CliProofs.v
theories/CliProps.v
theories/ColSpec.v
theories/ColModel.v
theories/ColProofs.v
theories/ColProps.v
theories/LnullSpec.v
theories/LnullModel.v
theories/LnullProofs.v
theories/LnullProps.v
theories/AppSpec.v
theories/AppModel.v
theories/AppProofs.v
theories/AppRunProofs.v
theories/AppProps.v
theories/PmbModel.v
theories/PmbProps.v
theories/PopovProps.v
theories/MatPolyModel.v
theories/MatPolyProps.v
theories/HomModel.v
theories/HomProps.v
