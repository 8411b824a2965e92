-Q theories Verif
theories/Base.v
theories/Scalar.v
theories/F64.v
theories/ModelMatrix.v
theories/ModelLU.v
theories/ModelCholesky.v
theories/ModelQR.v
theories/ModelHypot.v
theories/ModelSVD.v
theories/Hoare.v
theories/Spec.v
theories/MatrixProofs.v
theories/MatrixProofs2.v
theories/MtProofs.v
theories/MatrixThms.v
theories/PropMatrix.v
theories/LUProofs.v
theories/LUThms.v
theories/PropLU.v
theories/CholProofs.v
theories/CholThms.v
theories/PropChol.v
theories/QRProofs.v
theories/QRSolve.v
theories/QRThms.v
theories/PropQR.v
theories/Rel.v
theories/SpecGarbage.v
theories/B64.v
theories/GarbageSvd.v
theories/GarbageEigen.v
theories/GarbageThms.v
theories/PropGarbage.v
theories/SpecOps.v
theories/OpsThms.v
theories/PropOps.v
theories/MiscThms.v
theories/PropMisc.v
theories/ModelUtil.v
theories/SpecUtil.v
theories/UtilThms.v
theories/PropUtil.v
theories/ModelUsize.v
theories/UsizeThms.v
theories/PropUsize.v
theories/ModelEigen.v
theories/SpecDecomp.v
theories/Orth.v
theories/TredProofs.v
theories/TqlProofs.v
theories/EigenProofs.v
theories/OrthesProofs.v
theories/EigenThms.v
theories/PropEigen.v
theories/SvdBidiag.v
theories/SvdIter.v
theories/SvdThms.v
theories/PropSVD.v
theories/DirectThms.v
theories/PropDirect.v
theories/HqrStep.v
theories/HqrSweep.v
theories/HqrIter.v
theories/HqrMore.v
theories/HqrTwo.v
theories/HqrAll.v
theories/HqrBack.v
theories/HqrFinal.v
theories/HqrThms.v
theories/PropHqr.v
theories/Replay.v
theories/SpecFloat64.v
theories/FloatBase.v
theories/FloatThms.v
theories/PropFloat.v
theories/LUEval.v
theories/FloatLU.v
theories/FloatLUThms.v
theories/PropFloatLU.v
theories/SpecFloatPrio.v
theories/FloatPrio.v
theories/FloatPrioThms.v
theories/PropFloatPrio.v
theories/FloatSolveFin.v
theories/FloatSolveFinThms.v
theories/PropFloatSolveFin.v
theories/FloatCholFin.v
theories/FloatCholFinThms.v
theories/PropFloatCholFin.v
theories/FloatNanThms.v
theories/PropFloatNan.v
theories/FloatCholPrioThms.v
theories/PropFloatCholPrio.v
theories/CholEval.v
theories/FloatChol.v
theories/FloatCholThms.v
theories/PropFloatChol.v
theories/FloatCholFull.v
theories/FloatCholFullThms.v
theories/PropFloatCholFull.v
theories/FloatMoreThms.v
theories/PropFloatMore.v
theories/QREval.v
theories/RealVec.v
theories/QRReal.v
theories/FloatQR.v
theories/FloatQRThms.v
theories/PropFloatQR.v
theories/FloatQRPrio.v
theories/FloatQRPrioThms.v
theories/PropFloatQRPrio.v
theories/Safe.v
theories/SafeSvd.v
theories/FloatRobustThms.v
theories/PropFloatRobust.v
theories/SpecInt.v
theories/IntThms.v
theories/PropInt.v
theories/B32.v
theories/SpecFloat32.v
theories/Float32Base.v
theories/Float32Thms.v
theories/PropFloat32.v
theories/Float32LU.v
theories/Float32LUThms.v
theories/PropFloat32LU.v
theories/SpecFloat32Prio.v
theories/Float32Prio.v
theories/Float32PrioThms.v
theories/PropFloat32Prio.v
theories/Float32SolveFin.v
theories/Float32SolveFinThms.v
theories/PropFloat32SolveFin.v
theories/Float32CholFin.v
theories/Float32CholFinThms.v
theories/PropFloat32CholFin.v
theories/Float32NanThms.v
theories/PropFloat32Nan.v
theories/Float32CholPrioThms.v
theories/PropFloat32CholPrio.v
theories/Float32Chol.v
theories/Float32CholThms.v
theories/PropFloat32Chol.v
theories/Float32CholFull.v
theories/Float32CholFullThms.v
theories/PropFloat32CholFull.v
theories/Float32MoreThms.v
theories/PropFloat32More.v
theories/RealVec32.v
theories/QRReal32.v
theories/Float32QR.v
theories/Float32QRThms.v
theories/PropFloat32QR.v
theories/Float32QRPrio.v
theories/Float32QRPrioThms.v
theories/PropFloat32QRPrio.v
theories/Float32RobustThms.v
theories/PropFloat32Robust.v
theories/Float32HangThms.v
theories/PropFloat32Hang.v
theories/ModelUnwind.v
theories/SpecUnwind.v
theories/UnwindThms.v
theories/PropUnwind.v
theories/ModelIO.v
theories/SpecIO.v
theories/IOThms.v
theories/PropIO.v
theories/SpecFloatPinv.v
theories/FloatPinvThms.v
theories/PropFloatPinv.v
theories/SpecFloatPinvPrio.v
theories/FloatPinvPrioThms.v
theories/PropFloatPinvPrio.v
theories/SpecFloat32Pinv.v
theories/Float32PinvThms.v
theories/PropFloat32Pinv.v
theories/SpecFloat32PinvPrio.v
theories/Float32PinvPrioThms.v
theories/PropFloat32PinvPrio.v
theories/FloatQRSolveThms.v
theories/PropFloatQRSolve.v
theories/Float32QRSolveThms.v
theories/PropFloat32QRSolve.v
theories/FloatRankThms.v
theories/PropFloatRank.v
theories/Float32RankThms.v
theories/PropFloat32Rank.v
theories/FloatSingThms.v
theories/PropFloatSing.v
theories/Float32SingThms.v
theories/PropFloat32Sing.v
