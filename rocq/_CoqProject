-Q theories Verif
theories/Base.v
theories/Lists.v
theories/Num.v
theories/NumLaws.v
theories/UtilsModel.v
theories/UtilsSpec.v
theories/UtilsProofs.v
theories/UtilsRProofs.v
theories/GridProofs.v
theories/View.v
theories/UtilsProps.v
theories/HypsModel.v
theories/HypsSpec.v
theories/HypsProofs.v
theories/HypsProps.v
theories/Monad.v
theories/WrapperModel.v
theories/WrapperSpec.v
theories/WrapperProofs.v
theories/WrapperProps.v
theories/BOModel.v
theories/BOSpec.v
theories/BOProofs.v
theories/BOProofs2.v
theories/BOProps.v
theories/NumFin.v
theories/TreesModel.v
theories/TreesSpec.v
theories/TreesProofs.v
theories/TreesRProofs.v
theories/TreesPool.v
theories/TreesTotal.v
theories/TreesTop.v
theories/TreesProps.v
theories/SamplingFloat.v
theories/SamplingModel.v
theories/SamplingSpec.v
theories/SamplingProofs.v
theories/SamplingProps.v
theories/Gauss.v
theories/AcqModel.v
theories/AcqSpec.v
theories/AcqProofs.v
theories/AcqProps.v
theories/KernelSpec.v
theories/PSD.v
theories/CovModel.v
theories/CovMx.v
theories/CovSpec.v
theories/CovProofs.v
theories/CovProofs2.v
theories/CovGrad.v
theories/CovProps.v
theories/TreesBest.v
theories/RStruct.v
theories/MatLib.v
theories/Contracts.v
theories/GPModel.v
theories/GPSpec.v
theories/GPProofs.v
theories/GPMx.v
theories/GPProofs2.v
theories/GPProofs3.v
theories/GPProps.v
theories/LikModel.v
theories/LikSpec.v
theories/LikMx.v
theories/LikProofs.v
theories/HypOptModel.v
theories/HypOptSpec.v
theories/HypOptProofs.v
theories/LikProofs2.v
theories/LikProps.v
theories/MatDeriv.v
theories/GradSpec.v
theories/LikGrad.v
theories/GradReal.v
theories/TPGrad.v
theories/GammaWitness.v
theories/GradProps.v
theories/ThompsonModel.v
theories/ThompsonSpec.v
theories/ThompsonProofs.v
theories/ThompsonProofs2.v
theories/PredictOpt.v
theories/ThompsonReal.v
theories/ThompsonProps.v
theories/LoggerModel.v
theories/LoggerSpec.v
theories/LoggerProofs.v
theories/LoggerProps.v
theories/BOAcqModel.v
theories/BOAcqSpec.v
theories/BOAcqProofs.v
theories/BOFullModel.v
theories/BOFullProofs.v
theories/BOFullProps.v
theories/BOAffineSpec.v
theories/BOAffineProofs.v
theories/BOAffineProps.v
theories/BOProgram.v
theories/BOTotalSpec.v
theories/BOTotalProofs.v
theories/BOTotalRun.v
theories/BOTotalClass.v
theories/BOTotalOpt.v
theories/BOTotalFull.v
theories/BOTotalSet.v
theories/BOTotalProps.v
theories/BOObject.v
theories/ResumeSpec.v
theories/RelProofs.v
theories/ResumeProofs.v
theories/ResumeObject.v
theories/ResumeProps.v
theories/UseSpec.v
theories/UseProofs.v
theories/UseProps.v
theories/PlotModel.v
theories/PlotSpec.v
theories/PlotProofs.v
theories/PlotStep.v
theories/PlotAccept.v
theories/PlotRun.v
theories/PlotProps.v
theories/PredSpec.v
theories/PredMx.v
theories/PredProofs.v
theories/PredLik.v
theories/PredUnits.v
theories/PredInv.v
theories/PredSeq.v
theories/PredProps.v
theories/FloatSpec.v
theories/FloatOps.v
theories/FloatNorm.v
theories/TreesTotalN.v
theories/FloatTrees.v
theories/FloatAcq.v
theories/BOTotalN.v
theories/FloatRun.v
theories/FloatGP.v
theories/FloatProps.v
theories/FunSpec.v
theories/FunProofs.v
theories/FunProps.v
theories/ThompsonRunSpec.v
theories/ThompsonTotal.v
theories/ThompsonTotalProps.v
theories/TreesUnitsSpec.v
theories/TreesUnits.v
theories/TreesUnitsProps.v
theories/StudentProofs.v
theories/StudentProps.v
theories/PredChol.v
theories/PredCholSeq.v
theories/PredCholProps.v
theories/OrderAlg.v
theories/OrderProofs.v
theories/OrderRef.v
theories/OrderProps.v
theories/FitSpec.v
theories/FitProofs.v
theories/FitProps.v
theories/MutModel.v
theories/MutSpec.v
theories/MutProofs.v
theories/MutProps.v
theories/AcqJitter.v
theories/AcqJitterProps.v
theories/RespProofs.v
theories/RespProps.v
theories/FloatOrder.v
theories/FloatOrderProps.v
theories/TightSpec.v
theories/TightProofs.v
theories/TightProps.v
theories/NearSpec.v
theories/NearMx.v
theories/NearProofs.v
theories/NearReal.v
theories/NearProofs2.v
theories/NearProps.v
theories/WarpSpec.v
theories/WarpProofs.v
theories/WarpProps.v
theories/RidgeSpec.v
theories/RidgeMx.v
theories/RidgeReal.v
theories/RidgeProofs.v
theories/RidgeProps.v
theories/MoveSpec.v
theories/MoveProofs.v
theories/MoveSamplers.v
theories/MoveRun.v
theories/MoveWitness.v
theories/MoveProps.v
theories/OriginSpec.v
theories/OriginCov.v
theories/OriginRun.v
theories/OriginProps.v
theories/RegretSpec.v
theories/RegretReal.v
theories/RegretProofs.v
theories/RegretRun.v
theories/RegretMain.v
theories/RegretProps.v
theories/TimeSpec.v
theories/TimeProofs.v
theories/TimeProps.v
theories/SignProofs.v
theories/SignProps.v
theories/DampSpec.v
theories/DampProofs.v
theories/DampProps.v
theories/LogRunModel.v
theories/LogRunSpec.v
theories/LogRunProofs.v
theories/LogRunMain.v
theories/LogRunProps.v
theories/ShapeSpec.v
theories/ShapeProofs.v
theories/ShapeProps.v
theories/LogFunModel.v
theories/LogFunSpec.v
theories/LogFunProofs.v
theories/LogFunProps.v
theories/TDampMx.v
theories/TDampProofs.v
theories/TDampProps.v
theories/RobustProofs.v
theories/RobustProps.v
theories/RobustT.v
theories/RobustTProps.v
