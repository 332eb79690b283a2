-Q theories Verif
theories/Model_X.v
theories/Spec_X.v
theories/Proofs_X.v
theories/Model_Jenks.v
theories/Spec_Jenks.v
theories/Proofs_Jenks.v
theories/Model_Likelihood.v
theories/Spec_Likelihood.v
theories/Proofs_Likelihood.v
theories/Model_Sage.v
theories/Proofs_Sage.v
theories/Model_MonteCarlo.v
theories/Spec_MonteCarlo.v
theories/Proofs_MonteCarlo.v
theories/Model_Joint.v
theories/Spec_Joint.v
theories/Proofs_Joint.v
theories/Proofs_Mixture.v
theories/Model_Constraints.v
theories/Spec_Constraints.v
theories/Proofs_Constraints.v
theories/Model_Graph.v
theories/Spec_Graph.v
theories/Proofs_Graph.v
theories/Model_Guru.v
theories/Spec_Guru.v
theories/Proofs_Guru.v
theories/Model_Config.v
theories/Spec_Config.v
theories/Proofs_Config.v
theories/Model_Transform.v
theories/Spec_Transform.v
theories/Proofs_Transform.v
theories/Proofs_Jacobian.v
theories/Model_Coordinates.v
theories/Proofs_Spins.v
theories/Model_Cosmology.v
theories/Proofs_Cosmology.v
theories/Proofs_Block.v
theories/Model_Powerlaw.v
theories/Spec_Density.v
theories/Proofs_Powerlaw.v
theories/Proofs_PowerlawJvp.v
theories/Model_Gauss.v
theories/Proofs_Gauss.v
theories/Model_Mass.v
theories/Proofs_Mass.v
theories/Proofs_MassGrid.v
theories/Proofs_Integral.v
theories/Model_Spin.v
theories/Proofs_Spin.v
theories/Model_Dirichlet.v
theories/Proofs_Dirichlet.v
theories/Model_MultiSpin.v
theories/Proofs_MultiSpin.v
theories/Model_Redshift.v
theories/Proofs_Redshift.v
theories/Proofs_Trapezoid.v
theories/Proofs_RedshiftIntegral.v
theories/Model_Key.v
theories/Model_Numpyro.v
theories/Spec_Numpyro.v
theories/Proofs_Numpyro.v
theories/Model_FlowMC.v
theories/Proofs_FlowMC.v
theories/Model_Population.v
theories/Proofs_Population.v
theories/Spec_Population.v
theories/Model_Errors.v
theories/Spec_Errors.v
theories/Model_Injections.v
theories/Spec_Injections.v
theories/Proofs_Injections.v
theories/Model_Discrete.v
theories/Spec_Discrete.v
theories/Proofs_Discrete.v
theories/Model_Train.v
theories/Model_NPLMG.v
theories/Spec_NPLMG.v
theories/Proofs_NPLMG.v
theories/Proofs_NPLMGUnread.v
theories/Model_Neural.v
theories/Spec_Neural.v
theories/Proofs_Neural.v
theories/Model_Smoothed.v
theories/Spec_Smoothed.v
theories/Proofs_Smoothed.v
theories/Model_SmoothedDensity.v
theories/Spec_SmoothedDensity.v
theories/Proofs_SmoothedDensity.v
theories/Spec_Priors.v
theories/Model_NumpyroSites.v
theories/Spec_NumpyroSites.v
theories/Proofs_NumpyroSites.v
theories/Model_PPD.v
theories/Spec_PPD.v
theories/Proofs_PPD.v
theories/Model_ChiEff.v
theories/Spec_ChiEff.v
theories/Proofs_ChiEff.v
theories/Model_Factory.v
theories/Spec_Factory.v
theories/Model_Genie.v
theories/Spec_Genie.v
theories/Proofs_Genie.v
theories/Proofs_GenieErrors.v
theories/Spec_Cosmology.v
theories/Proofs_Friedmann.v
theories/Model_RealRing.v
theories/Model_MVN.v
theories/Spec_MVN.v
theories/Proofs_MVN.v
theories/Model_Monk.v
theories/Model_Hybrid.v
theories/Spec_Hybrid.v
theories/Spec_FlowMC.v
theories/Spec_Invariance.v
theories/Proofs_Invariance.v
theories/Proofs_HMC.v
theories/Model_Settings.v
theories/Spec_Settings.v
theories/Proofs_Settings.v
theories/Model_Scripts.v
theories/Spec_Scripts.v
theories/Proofs_Scripts.v
theories/Model_JointSpin.v
theories/Spec_JointSpin.v
theories/Proofs_Clog.v
theories/Proofs_JointSpin.v
theories/Proofs_JointDensity.v
theories/Proofs_Dilog.v
theories/Model_GaussianSpin.v
theories/Spec_GaussianSpin.v
theories/Proofs_GaussianSpin.v
theories/Model_Produce.v
theories/Spec_Produce.v
theories/Proofs_Produce.v
theories/Model_TrainUse.v
theories/Spec_TrainUse.v
theories/Model_Plots.v
theories/Spec_Plots.v
theories/Proofs_Plots.v
theories/Model_Chains.v
theories/Spec_Chains.v
theories/Proofs_Chains.v
theories/Model_Draws.v
theories/Spec_Draws.v
theories/Proofs_Draws.v
theories/Model_Command.v
theories/Spec_Command.v
theories/Proofs_Command.v
theories/Model_NutsSettings.v
theories/Spec_NutsSettings.v
theories/Proofs_NutsSettings.v
theories/Model_Shapes.v
theories/Spec_Shapes.v
theories/Proofs_Shapes.v
theories/Model_Rounding.v
theories/Spec_Rounding.v
theories/Proofs_Rounding.v
theories/Spec_Buckets.v
theories/Proofs_Buckets.v
theories/Proofs_Rate.v
theories/Model_RoundedDistance.v
theories/Spec_RoundedDistance.v
theories/Proofs_RoundedDistance.v
theories/Model_LoaderFile.v
theories/Spec_LoaderFile.v
theories/Proofs_LoaderFile.v
theories/Model_Environment.v
theories/Spec_Environment.v
theories/Proofs_Environment.v
theories/Spec_MassBetween.v
theories/Proofs_MassBetween.v
theories/Model_Scatter.v
theories/Spec_Scatter.v
theories/Proofs_Scatter.v
theories/Model_RoundedPower.v
theories/Spec_RoundedPower.v
theories/Proofs_RoundedPower.v
theories/Model_Names.v
theories/Spec_Names.v
theories/Proofs_Names.v
theories/Model_RoundedNormal.v
theories/Spec_RoundedNormal.v
theories/Proofs_RoundedNormal.v
theories/Spec_RoundedTail.v
theories/Proofs_RoundedTail.v
theories/Model_Spence.v
theories/Proofs_Spence.v
theories/Model_PyTree.v
theories/Spec_PyTree.v
theories/Proofs_PyTree.v
theories/Model_Template.v
theories/Spec_Template.v
theories/Proofs_Template.v
theories/Model_Planck.v
theories/Proofs_Planck.v
theories/Model_Dims.v
theories/Model_Network.v
theories/Spec_Network.v
theories/Model_Loss.v
theories/Spec_Loss.v
theories/Props_Likelihood.v
theories/Props_MonteCarlo.v
theories/Props_Joint.v
theories/Props_Constraints.v
theories/Props_Guru.v
theories/Props_Transform.v
theories/Props_Cosmology.v
theories/Props_Block.v
theories/Props_Powerlaw.v
theories/Props_Mass.v
theories/Props_Spin.v
theories/Props_Dirichlet.v
theories/Props_MultiSpin.v
theories/Props_Redshift.v
theories/Props_Numpyro.v
theories/Props_FlowMC.v
theories/Props_Population.v
theories/Props_Errors.v
theories/Props_Injections.v
theories/Props_Discrete.v
theories/Props_Train.v
theories/Props_NPLMG.v
theories/Props_Neural.v
theories/Props_Smoothed.v
theories/Props_SmoothedDensity.v
theories/Props_Priors.v
theories/Props_NumpyroSites.v
theories/Props_GuruAccept.v
theories/Props_PPD.v
theories/Props_ChiEff.v
theories/Props_Factory.v
theories/Props_Genie.v
theories/Props_Friedmann.v
theories/Props_MVN.v
theories/Props_Monk.v
theories/Proofs_Hybrid.v
theories/Model_MultiSpinFull.v
theories/Spec_MultiSpin.v
theories/Props_Hybrid.v
theories/Props_EccMatters.v
theories/Props_HMC.v
theories/Props_Settings.v
theories/Props_Scripts.v
theories/Props_JointSpin.v
theories/Props_SpinValues.v
theories/Props_MultiSpinFull.v
theories/Props_GaussianSpin.v
theories/Props_Produce.v
theories/Props_TrainUse.v
theories/Props_Plots.v
theories/Props_Conversions.v
theories/Props_Chains.v
theories/Props_Draws.v
theories/Props_GenieSettings.v
theories/Props_Command.v
theories/Props_NutsSettings.v
theories/Props_Shapes.v
theories/Props_Rounding.v
theories/Props_Buckets.v
theories/Props_Rate.v
theories/Props_RoundedDistance.v
theories/Props_LoaderFile.v
theories/Props_Environment.v
theories/Props_MassBetween.v
theories/Props_Scatter.v
theories/Props_RoundedPower.v
theories/Props_Names.v
theories/Props_RoundedNormal.v
theories/Props_RoundedTail.v
theories/Props_Spence.v
theories/Props_PyTree.v
theories/Props_Template.v
theories/Props_Planck.v
theories/Props_Dims.v
theories/Props_Network.v
theories/Props_Loss.v
