-Q theories Verif
theories/Util.v
theories/StatModel.v
theories/StatSpec.v
theories/StatProofs.v
theories/StatQual.v
theories/StatFloat.v
theories/StatFilter.v
theories/StatProps.v
theories/FsetModel.v
theories/FsetSpec.v
theories/FsetProofs.v
theories/FsetBuckets.v
theories/FsetAdd.v
theories/FsetGridModel.v
theories/FsetGrid.v
theories/FsetFinal.v
theories/FsetSep.v
theories/FsetProps.v
theories/DistModel.v
theories/DistSpec.v
theories/DistProofs.v
theories/DistProps.v
theories/CoordModel.v
theories/CoordSpec.v
theories/CoordProofs.v
theories/CoordProps.v
theories/Geo.v
theories/CamModel.v
theories/CamSpec.v
theories/CamProofs.v
theories/CamUndist.v
theories/CamProps.v
theories/MultiModel.v
theories/MultiSpec.v
theories/MultiProofs.v
theories/MultiProps.v
theories/PatchModel.v
theories/PatchSpec.v
theories/PatchProofs.v
theories/PatchProps.v
theories/GradModel.v
theories/GradSpec.v
theories/GradProofs.v
theories/GradProps.v
theories/PyrModel.v
theories/PyrSpec.v
theories/PyrProofs.v
theories/PyrProps.v
theories/AvgModel.v
theories/AvgSpec.v
theories/AvgProofs.v
theories/AvgProps.v
theories/AlignModel.v
theories/AlignSpec.v
theories/AlignProofs.v
theories/AlignLoop.v
theories/AlignProps.v
theories/CovModel.v
theories/CovSpec.v
theories/CovProofs.v
theories/CovProps.v
theories/Lie.v
theories/FiltModel.v
theories/FiltSpec.v
theories/FiltProofs.v
theories/FiltJac.v
theories/FiltFull.v
theories/FiltKin.v
theories/FiltMore.v
theories/FiltProps.v
theories/UpdModel.v
theories/UpdSpec.v
theories/UpdProofs.v
theories/UpdProps.v
theories/OutModel.v
theories/OutSpec.v
theories/OutProofs.v
theories/OutMore.v
theories/OutProps.v
theories/ImgModel.v
theories/ImgSpec.v
theories/ImgProofs.v
theories/ImgForce.v
theories/ImgAdd.v
theories/ImgHist.v
theories/ImgFinal.v
theories/ImgProps.v
theories/CandModel.v
theories/CandSpec.v
theories/CandProofs.v
theories/CandLinModel.v
theories/CandLin.v
theories/CandProps.v
theories/NodeModel.v
theories/NodeSpec.v
theories/NodeProofs.v
theories/NodeSync.v
theories/NodePub.v
theories/LoadModel.v
theories/LoadSpec.v
theories/LoadProofs.v
theories/LockModel.v
theories/LockProofs.v
theories/NodeProps.v
theories/SceneModel.v
theories/SceneSpec.v
theories/SceneProofs.v
theories/SceneGeo.v
theories/SceneGeo2.v
theories/SceneProps.v
theories/ViewModel.v
theories/ViewSpec.v
theories/ViewProofs.v
theories/ViewMove.v
theories/ViewDraw.v
theories/ViewProps.v
theories/MsgModel.v
theories/MsgSpec.v
theories/MsgProofs.v
theories/MsgMore.v
theories/MsgProps.v
theories/CopyModel.v
theories/CopySpec.v
theories/CopyProofs.v
theories/CopyProps.v
theories/InnoModel.v
theories/InnoSpec.v
theories/InnoProofs.v
theories/InnoProps.v
theories/MotionModel.v
theories/MotionSpec.v
theories/MotionProofs.v
theories/MotionProps.v
theories/AccModel.v
theories/AccSpec.v
theories/AccProofs.v
theories/AccProps.v
theories/EllModel.v
theories/EllSpec.v
theories/EllProofs.v
theories/EllProps.v
theories/TrackModel.v
theories/TrackSpec.v
theories/TrackProofs.v
theories/TrackProps.v
theories/HorModel.v
theories/HorSpec.v
theories/HorProofs.v
theories/HorProps.v
theories/BornModel.v
theories/BornSpec.v
theories/BornProps.v
theories/CalModel.v
theories/CalSpec.v
theories/CalProps.v
theories/ElemModel.v
theories/ElemSpec.v
theories/ElemProofs.v
theories/ElemProps.v
theories/YprModel.v
theories/YprSpec.v
theories/YprProofs.v
theories/YprProps.v
theories/DragModel.v
theories/DragSpec.v
theories/DragProps.v
theories/ConfModel.v
theories/ConfSpec.v
theories/ConfProofs.v
theories/ConfProps.v
theories/DetSpec.v
theories/DetProofs.v
theories/DetProps.v
theories/SlotModel.v
theories/SlotSpec.v
theories/SlotProofs.v
theories/SlotProps.v
theories/KalSpec.v
theories/KalProofs.v
theories/KalInv.v
theories/KalProps.v
theories/GaugeSpec.v
theories/GaugeProofs.v
theories/GaugeProps.v
theories/IsoSpec.v
theories/IsoProofs.v
theories/IsoProps.v
theories/PermSpec.v
theories/PermProofs.v
theories/PermProps.v
theories/ImgSim.v
theories/LinkModel.v
theories/LinkSpec.v
theories/LinkProofs.v
theories/LinkProps.v
theories/LinkSim.v
theories/LinkSimProps.v
theories/EyesModel.v
theories/EyesSpec.v
theories/EyesProps.v
theories/IeeeModel.v
theories/IeeeSpec.v
theories/IeeeReal.v
theories/IeeeProofs.v
theories/IeeeAcc.v
theories/IeeePos.v
theories/IeeeProps.v
theories/BestSpec.v
theories/BestProofs.v
theories/BestProps.v
theories/IpyrModel.v
theories/IpyrSpec.v
theories/IpyrProofs.v
theories/IpyrProps.v
theories/IscoreModel.v
theories/IscoreSpec.v
theories/IscoreReal.v
theories/IscoreEig.v
theories/IscoreProofs.v
theories/IscoreProps.v
theories/NanModel.v
theories/NanSpec.v
theories/NanProofs.v
theories/NanProps.v
theories/StampModel.v
theories/StampSpec.v
theories/StampProofs.v
theories/StampProps.v
theories/IbuckModel.v
theories/IbuckSpec.v
theories/IbuckProofs.v
theories/IbuckProps.v
theories/IdistModel.v
theories/IdistSpec.v
theories/IdistProofs.v
theories/IdistProps.v
theories/IavgModel.v
theories/IavgSpec.v
theories/IavgProofs.v
theories/IavgReal.v
theories/IavgProps.v
theories/StatTimeSpec.v
theories/StatTimeProps.v
theories/IgoodModel.v
theories/IgoodSpec.v
theories/IgoodProofs.v
theories/IgoodProps.v
theories/CntModel.v
theories/CntSpec.v
theories/CntProofs.v
theories/CntProps.v
theories/CamReSpec.v
theories/CamReproj.v
theories/CamReProps.v
theories/TightProps.v
theories/ImsgModel.v
theories/ImsgSpec.v
theories/ImsgProofs.v
theories/ImsgProps.v
theories/IcamModel.v
theories/IcamSpec.v
theories/IcamProofs.v
theories/IcamAcc.v
theories/IcamProps.v
theories/IcamAccSpec.v
theories/IcamSph.v
theories/IcamEqui.v
theories/IcamAccProps.v
theories/IbackModel.v
theories/IbackSpec.v
theories/IbackProofs.v
theories/IbackUnit.v
theories/IbackProps.v
theories/IbjacModel.v
theories/IbjacProofs.v
theories/IbjacProps.v
theories/IjacSpec.v
theories/IjacProofs.v
theories/IjacEqui.v
theories/IjacProps.v
theories/IpjacModel.v
theories/IpjacSpec.v
theories/IpjacProofs.v
theories/IpjacProps.v
