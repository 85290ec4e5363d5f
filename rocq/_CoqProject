-Q theories Verif

theories/Model_Tracker.v
theories/Spec_Tracker.v
theories/Proofs_Tracker.v
theories/Model_Float32.v
theories/Proofs_Float32.v
theories/Properties_Tracker.v
theories/Model_Element.v
theories/Spec_Element.v
theories/Proofs_Element.v
theories/Properties_Element.v
theories/Model_Push.v
theories/Spec_Push.v
theories/Proofs_Push.v
theories/Properties_Push.v
theories/Model_Bunch.v
theories/Spec_Bunch.v
theories/Proofs_Bunch.v
theories/Properties_Bunch.v
theories/Model_Interp.v
theories/Spec_Interp.v
theories/Proofs_Interp.v
theories/Properties_Interp.v
theories/Model_Deposit.v
theories/Spec_Deposit.v
theories/Proofs_Deposit.v
theories/Properties_Deposit.v
theories/Proofs_Ruyten.v
theories/Model_Laser.v
theories/Spec_Laser.v
theories/Proofs_Laser.v
theories/Properties_Laser.v
theories/Proofs_Pulse.v
theories/Proofs_Profile.v
theories/Model_Optics.v
theories/Spec_Optics.v
theories/Proofs_Optics.v
theories/Properties_Optics.v
theories/Proofs_Optics2.v
theories/Proofs_Optics3.v
theories/Model_CSR.v
theories/Spec_CSR.v
theories/Proofs_CSR.v
theories/Properties_CSR.v
theories/Proofs_CSR2.v
theories/Proofs_CSR3.v
theories/Proofs_CSR4.v
theories/Proofs_CSR5.v
theories/Proofs_CSR6.v
theories/Proofs_CSR7.v
theories/Proofs_CSR8.v
theories/Proofs_CSR9.v
theories/Proofs_CSR10.v
theories/Proofs_CSR11.v
theories/Model_TM.v
theories/Spec_TM.v
theories/Proofs_TM.v
theories/Properties_TM.v
theories/Proofs_TM2.v
theories/Proofs_TM3.v
theories/Proofs_TM4.v
theories/Proofs_TM5.v
theories/Proofs_TM6.v
theories/Model_Stage.v
theories/Spec_Stage.v
theories/Proofs_Stage.v
theories/Properties_Stage.v
theories/Proofs_Stage2.v
theories/Model_Psi.v
theories/Spec_Psi.v
theories/Proofs_Psi.v
theories/Properties_Psi.v
theories/Proofs_Psi2.v
theories/Proofs_Psi3.v
theories/Proofs_Psi4.v
theories/Proofs_Psi5.v
theories/Proofs_Psi6.v
theories/Model_BTheta.v
theories/Spec_BTheta.v
theories/Proofs_BTheta.v
theories/Properties_BTheta.v
theories/Proofs_BTheta2.v
theories/Proofs_BTheta3.v
theories/Proofs_BTheta4.v
theories/Model_QS.v
theories/Spec_QS.v
theories/Proofs_QS.v
theories/Properties_QS.v
theories/Proofs_QS2.v
theories/Proofs_QS3.v
theories/Proofs_QS4.v
theories/Proofs_QS5.v
theories/Proofs_QS6.v
theories/Proofs_QS7.v
theories/Proofs_QS8.v
theories/Spec_QS2.v
theories/Proofs_QS9.v
theories/Model_Gen.v
theories/Spec_Gen.v
theories/Proofs_Gen.v
theories/Properties_Gen.v
theories/Proofs_Gen2.v
theories/Model_Fluid.v
theories/Spec_Fluid.v
theories/Proofs_Fluid.v
theories/Properties_Fluid.v
theories/Proofs_Fluid2.v
theories/Proofs_Fluid3.v
theories/Model_RZ.v
theories/Spec_RZ.v
theories/Proofs_RZ.v
theories/Properties_RZ.v
theories/Proofs_RZ2.v
theories/Proofs_RZ3.v
theories/Model_Par.v
theories/Spec_Par.v
theories/Proofs_Par.v
theories/Properties_Par.v
theories/Proofs_Par2.v
theories/Proofs_Par3.v
theories/Model_Crash.v
theories/Spec_Crash.v
theories/Proofs_Crash.v
theories/Properties_Crash.v
theories/Proofs_Crash2.v
theories/Model_TrackFl.v
theories/Spec_TrackFl.v
theories/Proofs_TrackFl.v
theories/Properties_TrackFl.v
theories/Proofs_TrackFl2.v
theories/Proofs_Float64.v
theories/Proofs_TrackFl3.v
theories/Model_Run.v
theories/Spec_Run.v
theories/Proofs_Solo.v
theories/Proofs_Run.v
theories/Properties_Run.v
theories/Model_Progress.v
theories/Spec_Progress.v
theories/Proofs_Progress.v
theories/Properties_Progress.v
theories/Model_Lasy.v
theories/Spec_Lasy.v
theories/Proofs_Lasy.v
theories/Properties_Lasy.v
theories/Model_Settings.v
theories/Spec_Settings.v
theories/Properties_Settings.v
theories/Model_Params.v
theories/Spec_Params.v
theories/Properties_Params.v
theories/Proofs_IEEE.v
theories/Properties_IEEE.v
theories/Model_Sim.v
theories/Spec_Sim.v
theories/Proofs_Sim.v
theories/Proofs_Sim2.v
theories/Proofs_Sim3.v
theories/Proofs_Sim4.v
theories/Proofs_Sim5.v
theories/Proofs_Sim6.v
theories/Proofs_Sim7.v
theories/Properties_Sim.v
theories/Spec_Neutral.v
theories/Proofs_Skip.v
theories/Proofs_Neutral.v
theories/Properties_Neutral.v
theories/Spec_Causal.v
theories/Proofs_Causal.v
theories/Proofs_Causal2.v
theories/Proofs_Causal3.v
theories/Proofs_Causal4.v
theories/Properties_Causal.v
theories/Spec_Diffraction.v
theories/Proofs_Energy.v
theories/Proofs_Diffraction.v
theories/Properties_Diffraction.v
theories/Proofs_Group.v
theories/Proofs_Group2.v
theories/Spec_Group.v
theories/Proofs_Group3.v
theories/Proofs_Total.v
theories/Proofs_Keep.v
theories/Properties_Total.v
theories/Properties_Group.v
theories/Spec_Split.v
theories/Proofs_Split.v
theories/Proofs_Split2.v
theories/Properties_Split.v
theories/Spec_Conv.v
theories/Proofs_Conv.v
theories/Proofs_Conv2.v
theories/Proofs_Conv3.v
theories/Proofs_Conv4.v
theories/Proofs_Conv5.v
theories/Proofs_Conv6.v
theories/Proofs_Ord.v
theories/Proofs_Ord2.v
theories/Proofs_Ord3.v
theories/Proofs_Ord4.v
theories/Proofs_Ord5.v
theories/Proofs_Ord6.v
theories/Proofs_Ord7.v
theories/Proofs_Ord8.v
theories/Properties_Conv.v
theories/Spec_Volume.v
theories/Proofs_Volume.v
theories/Proofs_Volume2.v
theories/Proofs_Volume3.v
theories/Proofs_Volume4.v
theories/Proofs_Volume5.v
theories/Properties_Volume.v
theories/Model_Own.v
theories/Spec_Own.v
theories/Proofs_Own.v
theories/Proofs_Own2.v
theories/Properties_Own.v
theories/Spec_Circle.v
theories/Proofs_Circle.v
theories/Proofs_Circle2.v
theories/Proofs_Circle3.v
theories/Properties_Circle.v
theories/Spec_Angular.v
theories/Proofs_Angular.v
theories/Proofs_Angular2.v
theories/Properties_Angular.v
theories/Spec_Speed.v
theories/Proofs_Speed.v
theories/Properties_Speed.v
theories/Spec_Gain.v
theories/Proofs_Gain.v
theories/Properties_Gain.v
