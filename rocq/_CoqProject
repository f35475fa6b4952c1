-Q theories Verif
theories/CCG_Model.v
theories/CCG_Real.v
theories/CCG_Spec.v
theories/CCG_Proofs.v
theories/CCG_Conv.v
theories/CCG_Results.v
theories/CCG_Results2.v
theories/CCG_Hom.v
theories/CCG_Q.v
theories/CCG_Sim.v
theories/CCG_Invariance.v
theories/CCG_Misc.v
theories/CCG_Witness.v
theories/CCG_Returns.v
theories/CG_Base.v
theories/CCG_Finite.v
theories/CCG_FiniteRun.v
theories/CCG_FiniteForce.v
theories/CCG_Stuck.v
theories/CCG_Stuck2.v
theories/Contact_Model.v
theories/Contact_Proofs.v
theories/Contact_Spec.v
theories/Contact_Results.v
theories/Contact_Results2.v
theories/Contact_Results3.v
theories/CCG_Load.v
theories/Contact_Load.v
theories/Prop_Contact.v
theories/Prop_Solver.v
theories/FFT_Base.v
theories/Py.v
theories/HalfSpace_Model.v
theories/HalfSpace_Proofs.v
theories/Thickness.v
theories/HalfSpace_Spec.v
theories/HalfSpace_Results.v
theories/HalfSpace_Results2.v
theories/HalfSpace_Results3.v
theories/HalfSpace_Witness.v
theories/Prop_HalfSpace.v
theories/Free_Model.v
theories/Pixel.v
theories/Free_Spec.v
theories/Free_Proofs.v
theories/Free_Results.v
theories/Prop_Free.v
theories/Systems_Model.v
theories/Systems_Spec.v
theories/Systems_Proofs.v
theories/Systems_Results.v
theories/Systems_Results2.v
theories/Prop_Systems.v
theories/Tools_Model.v
theories/Tools_Spec.v
theories/Tools_Proofs.v
theories/Prop_Tools.v
theories/Factory_Model.v
theories/Prop_Factory.v
theories/Logger_Model.v
theories/Logger_Spec.v
theories/Logger_Proofs.v
theories/Logger_Files.v
theories/Logger_Read.v
theories/Prop_Logger.v
theories/NetCDF_Model.v
theories/NetCDF_Spec.v
theories/NetCDF_Proofs.v
theories/NetCDF_Session.v
theories/NetCDF_Round.v
theories/NetCDF_Cursor.v
theories/Prop_NetCDF.v
theories/Pipeline_Model.v
theories/Pipeline_Spec.v
theories/Pipeline_Proofs.v
theories/Pipeline_Sort.v
theories/Pipeline_Results.v
theories/Pipeline_More.v
theories/Pipeline_Out.v
theories/Prop_Pipeline.v
theories/Hertz_Model.v
theories/Calc.v
theories/Hertz_Proofs.v
theories/Hertz_Surface.v
theories/Hertz_Disp.v
theories/Hertz_Interior.v
theories/Hertz_Equilibrium.v
theories/Hertz_Balance.v
theories/Hertz_Axis.v
theories/Hertz_Tangential.v
theories/Prop_Hertz.v
theories/Westergaard_Model.v
theories/Westergaard_Proofs.v
theories/Westergaard_Mean.v
theories/Westergaard_Log.v
theories/Westergaard_Disp.v
theories/Prop_Westergaard.v
theories/Cone_Model.v
theories/Cone_Proofs.v
theories/Prop_Cone.v
theories/GreenwoodTripp_Model.v
theories/GreenwoodTripp_Elliptic.v
theories/GreenwoodTripp_Spec.v
theories/GreenwoodTripp_Kernel.v
theories/GreenwoodTripp_Proofs.v
theories/Prop_GreenwoodTripp.v
theories/Isotropic_Model.v
theories/Isotropic_Proofs.v
theories/Elasticity_Spec.v
theories/Isotropic_Field.v
theories/Prop_Isotropic.v
theories/Anisotropic_Model.v
theories/Anisotropic_Spec.v
theories/Anisotropic_Tensor.v
theories/Anisotropic_Field.v
theories/Anisotropic_Proofs.v
theories/Anisotropic_Theory.v
theories/Anisotropic_Betti.v
theories/Anisotropic_Main.v
theories/Anisotropic_Kernel.v
theories/Anisotropic_Example.v
theories/Anisotropic_Rotated.v
theories/Prop_Anisotropic.v
theories/Prop_NetCDF_Files.v
theories/NetCDF_Open_Model.v
theories/NetCDF_Open_Spec.v
theories/NetCDF_Open_Proofs.v
theories/NetCDF_Grid.v
theories/Prop_NetCDF_Open.v
theories/HardWall_Model.v
theories/HardWall_Spec.v
theories/HardWall_Proofs.v
theories/HardWall_Results.v
theories/Prop_HardWall.v
theories/Motion_Spec.v
theories/Motion_Base.v
theories/Motion_Space.v
theories/Motion_Solver.v
theories/Motion_Pipeline.v
theories/Prop_Motion.v
theories/Signorini_Spec.v
theories/Signorini_Base.v
theories/Signorini_Periodic.v
theories/Prop_Signorini.v
theories/Prop_Finite.v
theories/Prop_Stuck.v
theories/Prop_FiniteForce.v
theories/Work_Spec.v
theories/Work_Proofs.v
theories/Prop_Work.v
theories/Simple_Model.v
theories/Simple_Proofs.v
theories/Prop_Simple.v
theories/Plastic_Spec.v
theories/Plastic_Base.v
theories/Plastic_Proofs.v
theories/CCG_Plastic.v
theories/CCG_Harden.v
theories/CCG_Spurious.v
theories/Prop_Plastic.v
theories/Float_Model.v
theories/Float_Spec.v
theories/Float_Proofs.v
theories/Float_IEEE.v
theories/Float_Round_Spec.v
theories/Float_Double.v
theories/Float_Round.v
theories/Float_Witness.v
theories/Prop_Float.v
theories/Float_Double_Witness.v
theories/Prop_FloatReal.v
theories/Prop_FloatHalfSpace.v
theories/FloatExact_Spec.v
theories/FloatExact.v
theories/Prop_FloatExact.v
theories/SolverLog_Model.v
theories/SolverLog_Spec.v
theories/SolverLog_Proofs.v
theories/SolverLog_Exec.v
theories/Prop_SolverLog.v
theories/TextMap_Model.v
theories/TextMap_Spec.v
theories/TextMap_Proofs.v
theories/Prop_TextMap.v
theories/NetRun_Model.v
theories/NetRun_Spec.v
theories/NetRun_Proofs.v
theories/Prop_NetRun.v
theories/Cli_Model.v
theories/Cli_Spec.v
theories/Cli_Results.v
theories/Prop_Cli.v
theories/CCG_Active.v
theories/CliMap_Spec.v
theories/Prop_CliMap.v
theories/Substrate_Contact_Spec.v
theories/Substrate_Contact.v
theories/Prop_SubstrateContact.v
theories/Substrate_Witness.v
theories/Prop_SubstrateLoad.v
theories/Prop_SolverSteps.v
theories/Prop_HalfSpaceK.v
theories/Substrate_Plastic.v
theories/Substrate_Plastic_Spec.v
theories/Prop_SubstratePlastic.v
theories/Substrate_Work.v
theories/Substrate_Work_Spec.v
theories/Prop_SubstrateWork.v
theories/Units_Spec.v
theories/Units_Proofs.v
theories/Prop_Units.v
theories/FreeUnits_Spec.v
theories/FreeUnits_Proofs.v
theories/Prop_FreeUnits.v
theories/Free_Energy.v
theories/Prop_FreeEnergy.v
theories/FreeMotion_Spec.v
theories/Prop_FreeMotion.v
theories/FreeDomain_Spec.v
theories/Prop_FreeDomain.v
theories/Prop_CliLayer.v
theories/GreenwoodLimits_Model.v
theories/Prop_GreenwoodLimits.v
theories/Prop_SubstrateFinite.v
theories/Prop_CliTable.v
theories/Prop_Minimizer.v
theories/Bounds_Model.v
theories/Prop_Bounds.v
theories/Prop_BoundsContact.v
