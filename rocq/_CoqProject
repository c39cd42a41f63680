-Q theories Verif
theories/Base.v
theories/Defs.v
theories/SpecArray.v
theories/ArrayProofs.v
theories/PropArray.v
theories/ArrayIO.v
theories/PropIO.v
theories/Approx.v
theories/PropMisc.v
theories/ZDO.v
theories/ZDOProofs.v
theories/ZDOInv.v
theories/ZDORelease.v
theories/PropZDO.v
theories/ZDORel.v
theories/MxLib.v
theories/Cholesky.v
theories/Kalman.v
theories/KFilter.v
theories/KFProofs.v
theories/PropKalman.v
theories/LKFRel.v
theories/ZDOTime.v
theories/LKFTrue.v
theories/ZDOSizes.v
theories/EKFProofs.v
theories/EKFJac.v
theories/EKFDemo.v
theories/KSize.v
theories/PropLKF.v
theories/PropEKF.v
theories/PropKSize.v
theories/Vec3.v
theories/Rot.v
theories/SpecRot.v
theories/RotProofs.v
theories/RotProofs2.v
theories/RotProofs3.v
theories/PropRot.v
theories/Orient.v
theories/SpecOrient.v
theories/OrientProofs.v
theories/PropOrient.v
theories/Kine.v
theories/SpecKine.v
theories/KineProofs.v
theories/KineProofs2.v
theories/KineProofs3.v
theories/KineUpdate.v
theories/PropKine.v
theories/PropKine2.v
theories/Tilt.v
theories/TiltProofs.v
theories/PropTilt.v
theories/Lipm.v
theories/LipmFilter.v
theories/SpecLipm.v
theories/LipmProofs.v
theories/LipmScale.v
theories/LipmUnidim.v
theories/PropLipm.v
theories/Simulator.v
theories/SimProofs.v
theories/PropSim.v
theories/Sensors.v
theories/SensorProofs.v
theories/PropSensors.v
theories/Noise.v
theories/NoiseProofs.v
theories/PropNoise.v
theories/Logger.v
theories/SpecLogger.v
theories/LoggerProofs.v
theories/PropLogger.v
theories/KinObs.v
theories/SpecKin.v
theories/KinProofs.v
theories/KinInv.v
theories/KinThms.v
theories/KinMeas.v
theories/KinHist.v
theories/KinIter.v
theories/PropKin.v
theories/KinCov.v
theories/SpecKinCov.v
theories/KinCovProofs.v
theories/KinCovThms.v
theories/PropKinCov.v
theories/KinSum.v
theories/SpecKinSum.v
theories/SegProofs.v
theories/KinSumProofs.v
theories/KinSumProofs2.v
theories/KinSumThms.v
theories/PropKinSum.v
theories/KinDyn.v
theories/SpecKinDyn.v
theories/KinDynProofs.v
theories/KinDynProofs2.v
theories/KinDynThms.v
theories/KinDynMeas.v
theories/KinDynMotion.v
theories/PropKinDyn.v
theories/KinRest.v
theories/PropKinRest.v
theories/KalmanTV.v
theories/PropTV.v
theories/KalmanConv.v
theories/PropConv.v
theories/KinInput.v
theories/SpecKinInput.v
theories/KinInputProofs.v
theories/KinInputThms.v
theories/PropKinInput.v
theories/ImuSys.v
theories/SpecImu.v
theories/ImuProofs.v
theories/ExpDeriv.v
theories/ImuThms.v
theories/PropImu.v
theories/FlexSys.v
theories/SpecFlex.v
theories/FlexDyn.v
theories/FlexProofs.v
theories/FlexThms.v
theories/PropFlex.v
theories/FlexEst.v
theories/SpecFlexEst.v
theories/FlexEstProofs.v
theories/FlexEstThms.v
theories/PropFlexEst.v
theories/Frozen.v
theories/PropFrozen.v
theories/FlexCov.v
theories/FlexCovProofs.v
theories/PropFlexCov.v
theories/Offline.v
theories/OfflineProofs.v
theories/PropOffline.v
theories/OfflineFlex.v
theories/OfflineFlexProofs.v
theories/PropOfflineFlex.v
theories/Traj.v
theories/TrajProofs.v
theories/PropTraj.v
theories/KinQuery.v
theories/KinQueryProofs.v
theories/PropKinQuery.v
theories/KinNan.v
theories/KinNanProofs.v
theories/PropKinNan.v
theories/KalmanLS.v
theories/KalmanLSThms.v
theories/PropKalmanLS.v
theories/KinEkf.v
theories/KinEkfProofs.v
theories/KinEkfThms.v
theories/PropKinEkf.v
theories/KalmanBound.v
theories/LipmBound.v
theories/PropKalmanBound.v
theories/TiltConv.v
theories/TiltConvThms.v
theories/PropTiltConv.v
theories/KalmanMean.v
theories/EkfFlags.v
theories/PropKalmanMean.v
theories/PropFeed.v
theories/LipmConv.v
theories/LipmUReset.v
theories/PropLipmConv.v
theories/PropUnidimBound.v
theories/KalmanTVConv.v
theories/PropTVConv.v
theories/KinTrack.v
theories/PropKinTrack.v
