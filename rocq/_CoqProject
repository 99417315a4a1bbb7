-Q theories Verif
theories/Base.v
theories/BaseProofs.v
theories/WorkModel.v
theories/WorkSpec.v
theories/WorkProofs.v
theories/WorkProps.v
theories/Expr.v
theories/ExprProofs.v
theories/KernelModel.v
theories/KernelSpec.v
theories/KernelProofs.v
theories/KernelProps.v
theories/CodeModel.v
theories/CodeSpec.v
theories/CodeProofs.v
theories/CodeProps.v
theories/AlgModel.v
theories/AlgSpec.v
theories/AlgProofs.v
theories/AlgProps.v
theories/MonModel.v
theories/MonProofs.v
theories/MonProps.v
theories/OrdModel.v
theories/OrdSpec.v
theories/OrdProofs.v
theories/OrdProps.v
theories/RKModel.v
theories/RKSpec.v
theories/RKProofs.v
theories/RKTaylor.v
theories/RKProps.v
theories/AdvModel.v
theories/AdvSpec.v
theories/AdvProofs.v
theories/AdvProps.v
theories/FDModel.v
theories/FDSpec.v
theories/FDForn.v
theories/FDProofs.v
theories/FDProps.v
theories/ShiftModel.v
theories/ShiftSpec.v
theories/ShiftProofs.v
theories/ShiftProps.v
theories/DiscModel.v
theories/DiscSpec.v
theories/DiscProofs.v
theories/DiscRun.v
theories/DiscMain.v
theories/DiscProps.v
theories/WenoModel.v
theories/WenoSpec.v
theories/WenoPoly.v
theories/WenoProofs.v
theories/WenoProps.v
theories/TenoModel.v
theories/TenoSpec.v
theories/TenoProofs.v
theories/TenoProps.v
theories/EulerSpec.v
theories/EulerModel.v
theories/EulerProofs.v
theories/RoeProofs.v
theories/EulerProps.v
theories/LLFModel.v
theories/LLFSpec.v
theories/LLFProofs.v
theories/LLFProps.v
theories/ContactProofs.v
theories/ContactProps.v
theories/EinModel.v
theories/EinSpec.v
theories/EinProofs.v
theories/EinProps.v
theories/SkewModel.v
theories/SkewProps.v
theories/BCModel.v
theories/BCSpec.v
theories/BCProofs.v
theories/BCKern.v
theories/BCMirror.v
theories/BCOrder.v
theories/BCVec.v
theories/BCProps.v
theories/BCStm.v
theories/BCGasSpec.v
theories/BCGas.v
theories/BCPoint.v
theories/BCWallProps.v
theories/BCIso.v
theories/BCIsoProps.v
theories/PerProps.v
theories/MBModel.v
theories/MBProps.v
theories/OneModel.v
theories/OneSpec.v
theories/OneLin.v
theories/OneNorm.v
theories/OneProofs.v
theories/OneProps.v
theories/NSModel.v
theories/NSProps.v
theories/FiltModel.v
theories/FiltSpec.v
theories/FiltProofs.v
theories/SFDProps.v
theories/BinProofs.v
theories/BinProps.v
theories/SplineModel.v
theories/SplineProofs.v
theories/SplineProps.v
theories/ShockModel.v
theories/ShockSpec.v
theories/ShockProps.v
theories/MetModel.v
theories/MetSpec.v
theories/MetCalc.v
theories/MetProofs.v
theories/MetEqn.v
theories/MetProps.v
theories/ProgModel.v
theories/ProgSpec.v
theories/ProgProofs.v
theories/ProgProps.v
theories/StoreModel.v
theories/StoreSpec.v
theories/StoreProofs.v
theories/StoreRun.v
theories/StoreShock.v
theories/StoreProps.v
theories/LoopModel.v
theories/LoopProofs.v
theories/LoopProps.v
theories/SomeModel.v
theories/SomeSpec.v
theories/SomeLoop.v
theories/SomeProofs.v
theories/SomeMain.v
theories/SomeProps.v
theories/WFModel.v
theories/WFSpec.v
theories/WFProofs.v
theories/WFProps.v
theories/UserModel.v
theories/UserSpec.v
theories/UserProofs.v
theories/UserProps.v
theories/HybModel.v
theories/HybSpec.v
theories/HybProofs.v
theories/HybMore.v
theories/HybProps.v
theories/HybRefuted.v
theories/InvSpec.v
theories/InvProofs.v
theories/InvProps.v
theories/OneFirst.v
theories/BC2Model.v
theories/BC2Spec.v
theories/BC2Proofs.v
theories/BC2WallProps.v
theories/BC2LawalProps.v
theories/BC2StripProps.v
theories/BC2InletProps.v
theories/BC2SlipProps.v
theories/BC2Props.v
theories/InitModel.v
theories/InitSpec.v
theories/InitProofs.v
theories/InitProg.v
theories/InitProps.v
theories/BndModel.v
theories/BndSpec.v
theories/BndKern.v
theories/BndProofs.v
theories/BndExist.v
theories/BndProps.v
theories/SideModel.v
theories/SideSpec.v
theories/SideRun.v
theories/SideMain.v
theories/SideRefuse.v
theories/SideProps.v
theories/FaceModel.v
theories/FaceSpec.v
theories/FaceKern.v
theories/FaceTime.v
theories/FaceProofs.v
theories/FaceEnd.v
theories/FaceProps.v
theories/CapModel.v
theories/CapSpec.v
theories/CapProofs.v
theories/CapMore.v
theories/CapProps.v
theories/ShkModel.v
theories/ShkSpec.v
theories/ShkProofs.v
theories/ShkProps.v
theories/KatzModel.v
theories/KatzSpec.v
theories/KatzProofs.v
theories/KatzPoly.v
theories/KatzProps.v
theories/SimModel.v
theories/SimSpec.v
theories/SimProps.v
theories/Loop2Model.v
theories/Loop2Wall.v
theories/Loop2Proofs.v
theories/Loop2Prog.v
theories/Loop2Props.v
theories/Store2Spec.v
theories/StoreWall.v
theories/Store2Run.v
theories/Store2Diff.v
theories/Store2Prog.v
theories/Store2Props.v
theories/Init2Model.v
theories/Init2Spec.v
theories/Init2Proofs.v
theories/Init2Props.v
theories/HelpModel.v
theories/HelpSpec.v
theories/HelpProofs.v
theories/HelpProps.v
theories/StripModel.v
theories/StripSpec.v
theories/StripProofs.v
theories/StripProps.v
theories/ParamSpec.v
theories/ParamProofs.v
theories/ParamProps.v
theories/CaseSpec.v
theories/CaseProofs.v
theories/CaseProps.v
theories/NSAnsSpec.v
theories/NSAnsProofs.v
theories/NSAnsProps.v
theories/AgreeProofs.v
theories/AgreeProps.v
theories/FlatSpec.v
theories/FlatProofs.v
theories/FlatProps.v
