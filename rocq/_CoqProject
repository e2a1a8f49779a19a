-Q theories Verif
theories/Lib/Base.v
theories/Lib/Congruence.v
theories/Lib/Script.v
theories/Lib/Sums.v
theories/Lib/Tensor3.v
theories/Lib/Vec3.v
theories/Lib/Writes.v
theories/Spec/Analytic.v
theories/Spec/ArcLength.v
theories/Spec/AugLag.v
theories/Spec/Bar.v
theories/Spec/Beam.v
theories/Spec/BeamElm.v
theories/Spec/Continuum.v
theories/Spec/Driver.v
theories/Spec/FdInput.v
theories/Spec/Frame.v
theories/Spec/History.v
theories/Spec/Hooke.v
theories/Spec/HyperElastic.v
theories/Spec/Labels.v
theories/Spec/LinElement.v
theories/Spec/LinMain.v
theories/Spec/LinMaterial.v
theories/Spec/LinModes.v
theories/Spec/LinNorms.v
theories/Spec/LinSystem.v
theories/Spec/LoadInput.v
theories/Spec/Loads.v
theories/Spec/McStatic.v
theories/Spec/Mixed.v
theories/Spec/Modes.v
theories/Spec/Mortar.v
theories/Spec/MxElement.v
theories/Spec/NlElement.v
theories/Spec/NormPrint.v
theories/Spec/Norms.v
theories/Spec/Options.v
theories/Spec/PlasticInput.v
theories/Spec/Plasticity.v
theories/Spec/Plate.v
theories/Spec/PlateSol.v
theories/Spec/PlateSys.v
theories/Spec/PointLoads.v
theories/Spec/Reread.v
theories/Spec/ResultPoints.v
theories/Spec/Rigid.v
theories/Spec/Section.v
theories/Spec/Shell.v
theories/Spec/ShellText.v
theories/Spec/SpatialTangent.v
theories/Spec/StressOut.v
theories/Spec/TextInput.v
theories/Spec/Texture.v
theories/Spec/Thermal.v
theories/Spec/Threads.v
theories/Spec/ThreeField.v
theories/Spec/Truss.v
theories/Model/AnaInput.v
theories/Model/Analytic.v
theories/Model/ArcLength.v
theories/Model/AugLag.v
theories/Model/Bar.v
theories/Model/BarInput.v
theories/Model/Beam.v
theories/Model/BeamElm.v
theories/Model/BouFuncs.v
theories/Model/Boundary.v
theories/Model/Cable.v
theories/Model/ContactInput.v
theories/Model/Continuum.v
theories/Model/Couplings.v
theories/Model/Driver.v
theories/Model/Dumps.v
theories/Model/Expand.v
theories/Model/FdInput.v
theories/Model/FileNames.v
theories/Model/Frame.v
theories/Model/History.v
theories/Model/Knots.v
theories/Model/Labels.v
theories/Model/LinElement.v
theories/Model/LinIsotropic.v
theories/Model/LinMain.v
theories/Model/LinMaterial.v
theories/Model/LinModes.v
theories/Model/LinNorms.v
theories/Model/LinSystem.v
theories/Model/LineLoad.v
theories/Model/LoadInput.v
theories/Model/Loads.v
theories/Model/LocalSys.v
theories/Model/MatInput.v
theories/Model/McStatic.v
theories/Model/Mixed.v
theories/Model/Modal.v
theories/Model/Modes.v
theories/Model/Mortar.v
theories/Model/MxElement.v
theories/Model/NeoHooke.v
theories/Model/NlElement.v
theories/Model/NormPrint.v
theories/Model/Norms.v
theories/Model/NuGuard.v
theories/Model/Options.v
theories/Model/Plastic.v
theories/Model/PlasticInput.v
theories/Model/Plate.v
theories/Model/PlateSys.v
theories/Model/PointLoads.v
theories/Model/Programs.v
theories/Model/Reread.v
theories/Model/Restart.v
theories/Model/ResultPoints.v
theories/Model/ReturnMap.v
theories/Model/Rigid.v
theories/Model/Section.v
theories/Model/Shell.v
theories/Model/ShellText.v
theories/Model/StressOut.v
theories/Model/Superelement.v
theories/Model/Tables.v
theories/Model/TextInput.v
theories/Model/Texture.v
theories/Model/Thermal.v
theories/Model/Threads.v
theories/Model/ThreeField.v
theories/Model/Truss.v
theories/Proofs/AlgoTangent.v
theories/Proofs/Analytic.v
theories/Proofs/ArcLength.v
theories/Proofs/AugLag.v
theories/Proofs/Bar.v
theories/Proofs/Beam.v
theories/Proofs/BeamAxes.v
theories/Proofs/BeamData.v
theories/Proofs/BeamElm.v
theories/Proofs/BeamElmCex.v
theories/Proofs/BeamElmFin.v
theories/Proofs/BeamElmThm.v
theories/Proofs/BeamGlobal.v
theories/Proofs/BeamMass.v
theories/Proofs/BeamThy.v
theories/Proofs/BouFuncs.v
theories/Proofs/Boundary.v
theories/Proofs/Buffers.v
theories/Proofs/Cable.v
theories/Proofs/CableSecond.v
theories/Proofs/ContactInput.v
theories/Proofs/Continuum.v
theories/Proofs/ContinuumAxi.v
theories/Proofs/ContinuumHoop.v
theories/Proofs/ContinuumK.v
theories/Proofs/ContinuumKin.v
theories/Proofs/ContinuumLoad.v
theories/Proofs/Couplings.v
theories/Proofs/Driver.v
theories/Proofs/DriverStatus.v
theories/Proofs/Dumps.v
theories/Proofs/Expand.v
theories/Proofs/FdInput.v
theories/Proofs/FileNames.v
theories/Proofs/Frame.v
theories/Proofs/History.v
theories/Proofs/Knots.v
theories/Proofs/Labels.v
theories/Proofs/LinElement.v
theories/Proofs/LinIsotropic.v
theories/Proofs/LinMain.v
theories/Proofs/LinMaterial.v
theories/Proofs/LinModes.v
theories/Proofs/LinNorms.v
theories/Proofs/LinSystem.v
theories/Proofs/LineLoad.v
theories/Proofs/LoadInput.v
theories/Proofs/Loads.v
theories/Proofs/LocalSys.v
theories/Proofs/Lshape.v
theories/Proofs/LshapeEdge.v
theories/Proofs/McStatic.v
theories/Proofs/Mixed.v
theories/Proofs/Mixed2.v
theories/Proofs/Mixed3.v
theories/Proofs/Modal.v
theories/Proofs/Modes.v
theories/Proofs/Mortar.v
theories/Proofs/MortarTan.v
theories/Proofs/MxElement.v
theories/Proofs/MxList.v
theories/Proofs/MxPoint.v
theories/Proofs/MxPure.v
theories/Proofs/NeoHooke.v
theories/Proofs/NlElement.v
theories/Proofs/NlFbar.v
theories/Proofs/NlMaterial.v
theories/Proofs/NlPoint.v
theories/Proofs/NlPure.v
theories/Proofs/NlWitness.v
theories/Proofs/NormPrint.v
theories/Proofs/Norms.v
theories/Proofs/NormsPlate.v
theories/Proofs/NuGuard.v
theories/Proofs/Options.v
theories/Proofs/Plastic.v
theories/Proofs/PlasticInput.v
theories/Proofs/PlasticTangent.v
theories/Proofs/Plate.v
theories/Proofs/PlateLoad.v
theories/Proofs/PlateRef.v
theories/Proofs/PlateSol.v
theories/Proofs/PlateSys.v
theories/Proofs/PointLoads.v
theories/Proofs/Programs.v
theories/Proofs/RefDisp.v
theories/Proofs/Reread.v
theories/Proofs/Restart.v
theories/Proofs/ResultPoints.v
theories/Proofs/ReturnMap.v
theories/Proofs/Rigid.v
theories/Proofs/Section.v
theories/Proofs/Shell.v
theories/Proofs/ShellSol.v
theories/Proofs/ShellText.v
theories/Proofs/ShellVar.v
theories/Proofs/StressOut.v
theories/Proofs/Superelement.v
theories/Proofs/Tables.v
theories/Proofs/TextInput.v
theories/Proofs/Texture.v
theories/Proofs/Thermal.v
theories/Proofs/Threads.v
theories/Proofs/ThreeField.v
theories/Proofs/Truss.v
theories/Props/AnaInput.v
theories/Props/Analytic.v
theories/Props/ArcLength.v
theories/Props/AugLag.v
theories/Props/Bar.v
theories/Props/BarInput.v
theories/Props/Beam.v
theories/Props/BeamElm.v
theories/Props/BouFuncs.v
theories/Props/Boundary.v
theories/Props/Cable.v
theories/Props/Contact.v
theories/Props/ContactInput.v
theories/Props/Continuum.v
theories/Props/Couplings.v
theories/Props/Driver.v
theories/Props/Dumps.v
theories/Props/Expand.v
theories/Props/FdInput.v
theories/Props/FileNames.v
theories/Props/Frame.v
theories/Props/Hyperelastic.v
theories/Props/Knots.v
theories/Props/Labels.v
theories/Props/LinElement.v
theories/Props/LinMain.v
theories/Props/LinMaterial.v
theories/Props/LinModes.v
theories/Props/LinNorms.v
theories/Props/LinSystem.v
theories/Props/LoadInput.v
theories/Props/Loads.v
theories/Props/LocalSys.v
theories/Props/MatInput.v
theories/Props/Material.v
theories/Props/McStatic.v
theories/Props/Mixed.v
theories/Props/Modal.v
theories/Props/Modes.v
theories/Props/MxElement.v
theories/Props/NlElement.v
theories/Props/NormPrint.v
theories/Props/Norms.v
theories/Props/Options.v
theories/Props/Plastic.v
theories/Props/PlasticInput.v
theories/Props/PlasticTangent.v
theories/Props/Plate.v
theories/Props/PlateSys.v
theories/Props/PointLoads.v
theories/Props/Programs.v
theories/Props/RefSol.v
theories/Props/Reread.v
theories/Props/Restart.v
theories/Props/ResultPoints.v
theories/Props/Shell.v
theories/Props/ShellText.v
theories/Props/StressOut.v
theories/Props/Superelement.v
theories/Props/Tables.v
theories/Props/TextInput.v
theories/Props/Texture.v
theories/Props/Threads.v
theories/Props/ThreeField.v
theories/Props/Truss.v
