-Q theories Verif

theories/Base.v
theories/DistModel.v
theories/DistSpec.v
theories/DistProofs.v
theories/DistProofs2.v
theories/GridModel.v
theories/GridProofs.v
theories/P_Dist.v
theories/AlgModel.v
theories/AlgSpec.v
theories/AlgProofs1.v
theories/AlgProofs2.v
theories/AlgProofs3.v
theories/AlgProofs4.v
theories/AlgKeep.v
theories/AlgStill.v
theories/AlgProofs5.v
theories/AlgSim.v
theories/AlgTrace.v
theories/AlgTraceProofs.v
theories/AlgProofs6.v
theories/AlgObs.v
theories/AlgEx.v
theories/AlgWit.v
theories/P_Alg.v
theories/DlaModel.v
theories/ColModel.v
theories/ColSpec.v
theories/ColProofs1.v
theories/ColProofs2.v
theories/InplProofs.v
theories/ColProofs3.v
theories/ColResid.v
theories/ColEx.v
theories/QrEx.v
theories/P_Dla.v
theories/PerfModel.v
theories/PerfSpec.v
theories/PerfProofs.v
theories/PerfEx.v
theories/P_Perf.v
theories/ConfigModel.v
theories/ConfigSpec.v
theories/ConfigProofs.v
theories/P_Config.v
theories/FilterSpec.v
theories/FilterProofs.v
theories/ShiftProofs.v
theories/ShiftRun.v
theories/FilterEx.v
theories/ExactSpec.v
theories/ChebProofs.v
theories/ExactFilter.v
theories/ExactEx.v
theories/ExactSolve.v
theories/FloatSpec.v
theories/FloatDrift.v
theories/FloatEx.v
theories/P_Float.v
theories/P_Filter.v
theories/AlgLast.v
theories/AlgMono.v
theories/ColOrth.v
theories/ColStill.v
theories/OrthSpec.v
theories/OrthProofs.v
theories/Spectral.v
theories/OrthSolve.v
theories/OrthEx.v
theories/KyFan.v
theories/OrthMpi.v
theories/LapackSpec.v
theories/LapackProofs.v
theories/LapackSolve.v
theories/LapackEx.v
theories/P_Orth.v
theories/FlatModel.v
theories/FlatSpec.v
theories/FlatProofs.v
theories/FlatProofs2.v
theories/FlatProofs3.v
theories/FlatProofs4.v
theories/P_Flat.v
theories/RedistModel.v
theories/RedistSpec.v
theories/RedistProofs.v
theories/RedistProofs2.v
theories/GatherProofs.v
theories/GatherProofs2.v
theories/GatherProofs3.v
theories/P_Redist.v
theories/SpmdModel.v
theories/SpmdSpec.v
theories/SpmdProofs.v
theories/SpmdProofs2.v
theories/KerModel.v
theories/KerSpec.v
theories/KerProofs1.v
theories/KerProofs2.v
theories/KerProofs3.v
theories/KerProofs4.v
theories/KerProofs5.v
theories/KerProofs6.v
theories/KerProofs7.v
theories/KerProofs8.v
theories/KerProofs9.v
theories/KerAlg.v
theories/KerProofs10.v
theories/KerProofs11.v
theories/KerSpan.v
theories/KerInst.v
theories/KerInst2.v
theories/KerEx.v
theories/P_Ker.v
theories/LanczosSpec.v
theories/LanczosProofs.v
theories/P_Lanczos.v
theories/ClientModel.v
theories/DsModel.v
theories/DsSpec.v
theories/DsProofs1.v
theories/DsProofs2.v
theories/DsProofs3.v
theories/DsProofs4.v
theories/DsProofs5.v
theories/DsProofs6.v
theories/DsProofs7.v
theories/SolveClient.v
theories/DsProofs8.v
theories/DsEx.v
theories/BlkProofs.v
theories/BlkSolve.v
theories/BlkEx.v
theories/P_Ds.v
theories/P_Lapack.v
theories/IoModel.v
theories/IoSpec.v
theories/IoProofs.v
theories/P_Io.v
theories/AlgSim2.v
theories/DlaSim.v
theories/ColRel.v
theories/GpuModel.v
theories/GpuSpec.v
theories/GpuProofs1.v
theories/GpuProofs2.v
theories/GpuProofs3.v
theories/LanczosSteps.v
theories/LanczosVec.v
theories/GpuEx.v
theories/P_Gpu.v
theories/CukModel.v
theories/CukSpec.v
theories/CukTabs.v
theories/CukProofs1.v
theories/CukProofs2.v
theories/CukProofs3.v
theories/CukProofs4.v
theories/CukProofs5.v
theories/CukProofs6.v
theories/CukProofs7.v
theories/CukMain.v
theories/CukEx.v
theories/P_Cuk.v
theories/AlgSim3.v
theories/MgpuModel.v
theories/MgpuSpec.v
theories/MgpuProofs1.v
theories/MgpuProofs2.v
theories/CawModel.v
theories/CawSpec.v
theories/CawProofs.v
theories/MgpuProofs3.v
theories/MgpuEx.v
theories/P_Mgpu.v
theories/MemModel.v
theories/MemSpec.v
theories/MemProofs.v
theories/MemProofs2.v
theories/MemLife.v
theories/MemLog.v
theories/MemEx.v
theories/P_Mem.v
theories/FlopModel.v
theories/FlopSpec.v
theories/FlopProofs.v
theories/FlopSolve.v
theories/P_Flop.v
theories/AlgSimLe.v
theories/DlaSimLe.v
theories/AsyncModel.v
theories/AsyncSpec.v
theories/AsyncProofs.v
theories/AsyncGpu.v
theories/AsyncSolve.v
theories/AsyncMgpu.v
theories/AsyncFinal.v
theories/AsyncEx.v
theories/P_Async.v
theories/FfiModel.v
theories/FfiSpec.v
theories/FfiProofs.v
theories/FfiRoom.v
theories/P_Ffi.v
theories/ConvSpec.v
theories/AlgSpan.v
theories/Conv.v
theories/ColSpan.v
theories/ApproxSpec.v
theories/ConvSolve.v
theories/ConvRun.v
theories/ConvEx.v
theories/P_Conv.v
theories/BlasDoc.v
theories/WrapModel.v
theories/WrapTable.v
theories/WrapSpec.v
theories/WorkSpec.v
theories/WrapProofs.v
theories/WrapPerf.v
theories/WrapBad.v
theories/WrapWork.v
theories/NormModel.v
theories/NormSpec.v
theories/NormProofs.v
theories/WrapEx.v
theories/P_Wrap.v
theories/MatModel.v
theories/MatSpec.v
theories/MatProofs.v
theories/P_Mat.v
theories/CollModel.v
theories/CollSpec.v
theories/CollProofs.v
theories/P_Coll.v
theories/SubModel.v
theories/SubProofs.v
theories/P_Sub.v
theories/Stop.v
theories/StopSpec.v
theories/ResidSpec.v
theories/AlgStop.v
theories/ColStop.v
theories/StopSolve.v
theories/StopFinal.v
theories/StopEx.v
theories/P_Stop.v
theories/AlgQr.v
theories/ScalModel.v
theories/ScalSpec.v
theories/ScalProofs1.v
theories/ScalProofs2.v
theories/ScalProofs3.v
theories/ScalSolve.v
theories/ScalEx.v
theories/P_Scal.v
theories/P_ScalSolve.v
theories/BackSpec.v
theories/BackSpec2.v
theories/InplOrth.v
theories/BackSolve.v
theories/BackEx.v
theories/P_Back.v
theories/AlgSim4.v
theories/ReuseBase.v
theories/ReuseSpec.v
theories/ReuseSeq.v
theories/ReuseInpl.v
theories/ReuseEq.v
theories/ReuseKeep.v
theories/ReuseSolve.v
theories/ReuseEx.v
theories/P_Reuse.v
theories/CawProofs2.v
theories/DegSpec.v
theories/DegProofs.v
theories/DegEx.v
theories/P_Deg.v
theories/SfModel.v
theories/SfSpec.v
theories/SfProofs1.v
theories/SfProofs2.v
theories/SfProofs3.v
theories/SfProofs4.v
theories/SfProofs5.v
theories/SfEx.v
theories/P_Sf.v
theories/SiModel.v
theories/SiSpec.v
theories/SiProofs1.v
theories/SiProofs2.v
theories/SiProofs3.v
theories/SiEx.v
theories/P_Si.v
theories/SxRel.v
theories/SxSpec.v
theories/SxProofs1.v
theories/SxProofs2.v
theories/SxProofs3.v
theories/SxEx.v
theories/P_Sx.v
theories/SgModel.v
theories/SgSpec.v
theories/SgProofs1.v
theories/SgProofs2.v
theories/SgProofs3.v
theories/SgEx.v
theories/P_Sg.v
theories/SgRel.v
theories/SgProofs4.v
theories/P_Sgx.v
theories/SuSpec.v
theories/SuProofs1.v
theories/SuProofs2.v
theories/SuSpec2.v
theories/SuProofs3.v
theories/SuProofs4.v
theories/SuEx.v
theories/P_Su.v
theories/P_Sux.v
theories/ReqSpec.v
theories/ReqProofs.v
theories/P_Req.v
theories/RgSpec.v
theories/RgSpec2.v
theories/RgProofs.v
theories/RgProofs2.v
theories/RgProofs3.v
theories/RgProofs4.v
theories/P_Rg.v
theories/DwModel.v
theories/DwSpec.v
theories/DwProofs.v
theories/P_Dw.v
theories/RsModel.v
theories/RsSpec.v
theories/RsProofs.v
theories/P_Rs.v
theories/AmgModel.v
theories/AmgSpec.v
theories/AmgProofs.v
theories/AmgEx.v
theories/P_Amg.v
theories/AmgSess.v
theories/AsyncSess.v
theories/P_AmgSess.v
theories/BackAsync.v
theories/BackAsync2.v
theories/P_BackAsync.v
