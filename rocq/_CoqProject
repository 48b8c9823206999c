-Q theories Verif
theories/Base.v
theories/XR.v
theories/SampleModel.v
theories/SampleSpec.v
theories/SampleProofs.v
theories/SampleRound.v
theories/Prop_Sample.v
theories/PAModel.v
theories/FilterModel.v
theories/TrajModel.v
theories/WeightSpec.v
theories/WeightProofs.v
theories/FilterSpec.v
theories/FilterProofs.v
theories/Prop_Weights.v
theories/TrajProofs.v
theories/FilterTotal.v
theories/ExampleModel.v
theories/FilterSem.v
theories/Prop_Filter.v
theories/Prop_Traj.v
theories/Prop_Live.v
theories/Prop_Cond.v
theories/SmoothModel.v
theories/SmoothSpec.v
theories/SmoothProofs.v
theories/SmoothBsi.v
theories/SmoothRs.v
theories/Perms.v
theories/SmoothLaw.v
theories/SmoothRsas.v
theories/SmoothMcmc.v
theories/SmoothExample.v
theories/Prop_Bsi.v
theories/SmoothPath.v
theories/Prop_Smooth.v
theories/MhSpec.v
theories/MhProofs.v
theories/MhTotal.v
theories/Prop_Mh.v
theories/EstModel.v
theories/Prop_Est.v
theories/EmModel.v
theories/AlphaProofs.v
theories/EmProofs.v
theories/Prop_Em.v
theories/UtilModel.v
theories/Prop_Util.v
theories/ObjModel.v
theories/Prop_Obj.v
theories/RMat.v
theories/KalmanModel.v
theories/LinAlg.v
theories/Gauss.v
theories/Moments.v
theories/Prop_Kalman.v
theories/MatDeriv.v
theories/Storage.v
theories/LtvModel.v
theories/Prop_Ltv.v
theories/MlnlgModel.v
theories/MlnlgProofs.v
theories/Prop_Mlnlg.v
theories/Prop_Rbps.v
theories/NlgModel.v
theories/Prop_Nlg.v
theories/HierModel.v
theories/Prop_Hier.v
theories/Prop_Law.v
theories/HeapModel.v
theories/HeapSpec.v
theories/HeapProofs.v
theories/HeapTraj.v
theories/HeapOf.v
theories/Prop_Heap.v
theories/HeapSmooth.v
theories/HeapSmoothSpec.v
theories/HeapSmoothProofs.v
theories/HeapSmoothOf.v
theories/Prop_HeapSmooth.v
theories/ProtoSpec.v
theories/ProtoProofs.v
theories/ProtoMh.v
theories/Prop_Proto.v
theories/Prop_Fail.v
theories/MlnlgEmModel.v
theories/Prop_MlnlgEm.v
theories/MargModel.v
theories/Prop_Marg.v
theories/MlnlgProposeModel.v
theories/Prop_Propose.v
theories/DynModel.v
theories/Prop_Dyn.v
theories/GradTestModel.v
theories/Prop_GradTest.v
theories/HeapRefineSpec.v
theories/HeapRefine.v
theories/HeapRefineTraj.v
theories/Prop_HeapRefine.v
theories/HeapSmoothRefineSpec.v
theories/HeapSmoothRefine.v
theories/Prop_HeapSmoothRefine.v
theories/EvidenceSpec.v
theories/Evidence.v
theories/Prop_Evidence.v
theories/FfbsiSpec.v
theories/Ffbsi.v
theories/Prop_Ffbsi.v
theories/GibbsSpec.v
theories/Gibbs.v
theories/GibbsRun.v
theories/GibbsKernel.v
theories/GibbsThree.v
theories/Prop_Gibbs.v
theories/Prop_Anc.v
theories/SirSpec.v
theories/Sir.v
theories/Prop_Sir.v
theories/GradLoopModel.v
theories/GradLoops.v
theories/Prop_GradLoops.v
theories/FilterProtoSpec.v
theories/FilterProto.v
theories/Prop_FilterProto.v
theories/Prop_Apf.v
theories/PfySirSpec.v
theories/PfySir.v
theories/Prop_PfySir.v
theories/ApfSpec.v
theories/Apf.v
theories/Prop_ApfMean.v
theories/PathSpec.v
theories/Path.v
theories/Prop_Path.v
