(** The list of all input keys, InputKeys::list (src/include/smash/input_keys.h:6077-6377),
    with the labels, the number of versions and the value type of the declaration of each
    key (line given behind each entry).  Default values and validators are not listed. *)
From Coq Require Import List String.
Import ListNotations.
From Verif Require Import ConfigModel.
Local Open Scope string_scope.

Definition input_keys : list key_info := [
  KeyInfo ["particles"] 1 false; (* particles, 1120 *)
  KeyInfo ["decaymodes"] 1 false; (* decaymodes, 1124 *)
  KeyInfo ["General"; "End_Time"] 1 false; (* gen_endTime, 1142 *)
  KeyInfo ["General"; "Modus"] 1 false; (* gen_modus, 1168 *)
  KeyInfo ["General"; "Nevents"] 1 false; (* gen_nevents, 1184 *)
  KeyInfo ["General"; "Randomseed"] 1 false; (* gen_randomseed, 1197 *)
  KeyInfo ["General"; "Minimum_Nonempty_Ensembles"; "Maximum_Ensembles_Run"] 1 false; (* gen_minNonEmptyEnsembles_maximumEnsembles, 1210 *)
  KeyInfo ["General"; "Minimum_Nonempty_Ensembles"; "Number"] 1 false; (* gen_minNonEmptyEnsembles_number, 1222 *)
  KeyInfo ["General"; "Delta_Time"] 1 false; (* gen_deltaTime, 1253 *)
  KeyInfo ["General"; "Derivatives_Mode"] 1 false; (* gen_derivativesMode, 1276 *)
  KeyInfo ["General"; "Discrete_Weight"] 1 false; (* gen_smearingDiscreteWeight, 1293 *)
  KeyInfo ["General"; "Ensembles"] 1 false; (* gen_ensembles, 1323 *)
  KeyInfo ["General"; "Expansion_Rate"] 1 false; (* gen_expansionRate, 1341 *)
  KeyInfo ["General"; "Field_Derivatives_Mode"] 1 false; (* gen_fieldDerivativesMode, 1370 *)
  KeyInfo ["General"; "Gauss_Cutoff_In_Sigma"] 1 false; (* gen_smearingGaussCutoffInSigma, 1385 *)
  KeyInfo ["General"; "Gaussian_Sigma"] 1 false; (* gen_smearingGaussianSigma, 1398 *)
  KeyInfo ["General"; "Metric_Type"] 1 false; (* gen_metricType, 1415 *)
  KeyInfo ["General"; "Rest_Frame_Density_Derivatives_Mode"] 3 false; (* gen_restFrameDensityDerivativeMode, 1440 *)
  KeyInfo ["General"; "Smearing_Mode"] 1 false; (* gen_smearingMode, 1500 *)
  KeyInfo ["General"; "Testparticles"] 1 false; (* gen_testparticles, 1532 *)
  KeyInfo ["General"; "Time_Step_Mode"] 1 false; (* gen_timeStepMode, 1556 *)
  KeyInfo ["General"; "Triangular_Range"] 1 false; (* gen_smearingTriangularRange, 1569 *)
  KeyInfo ["General"; "Use_Grid"] 1 false; (* gen_useGrid, 1583 *)
  KeyInfo ["Logging"; "default"] 1 false; (* log_default, 1599 *)
  KeyInfo ["Logging"; "Box"] 1 false; (* log_box, 1615 *)
  KeyInfo ["Logging"; "Collider"] 1 false; (* log_collider, 1628 *)
  KeyInfo ["Logging"; "Configuration"] 1 false; (* log_yamlConfiguration, 1641 *)
  KeyInfo ["Logging"; "Experiment"] 1 false; (* log_experiment, 1656 *)
  KeyInfo ["Logging"; "GrandcanThermalizer"] 1 false; (* log_grandcanThermalizer, 1669 *)
  KeyInfo ["Logging"; "InitialConditions"] 1 false; (* log_initialConditions, 1684 *)
  KeyInfo ["Logging"; "List"] 1 false; (* log_list, 1699 *)
  KeyInfo ["Logging"; "Main"] 1 false; (* log_main, 1712 *)
  KeyInfo ["Logging"; "Output"] 1 false; (* log_output, 1725 *)
  KeyInfo ["Logging"; "Sphere"] 1 false; (* log_sphere, 1764 *)
  KeyInfo ["Logging"; "Action"] 1 false; (* log_action, 1780 *)
  KeyInfo ["Logging"; "Clock"] 1 false; (* log_clock, 1793 *)
  KeyInfo ["Logging"; "CrossSections"] 1 false; (* log_crossSections, 1806 *)
  KeyInfo ["Logging"; "DecayModes"] 1 false; (* log_decayModes, 1821 *)
  KeyInfo ["Logging"; "Density"] 1 false; (* log_density, 1834 *)
  KeyInfo ["Logging"; "Distributions"] 1 false; (* log_distributions, 1847 *)
  KeyInfo ["Logging"; "FindScatter"] 1 false; (* log_findScatter, 1862 *)
  KeyInfo ["Logging"; "Fpe"] 1 false; (* log_fpe, 1874 *)
  KeyInfo ["Logging"; "Grid"] 1 false; (* log_grid, 1887 *)
  KeyInfo ["Logging"; "HyperSurfaceCrossing"] 1 false; (* log_hyperSurfaceCrossing, 1900 *)
  KeyInfo ["Logging"; "InputParser"] 1 false; (* log_inputParser, 1915 *)
  KeyInfo ["Logging"; "Lattice"] 1 false; (* log_lattice, 1928 *)
  KeyInfo ["Logging"; "Nucleus"] 1 false; (* log_nucleus, 1941 *)
  KeyInfo ["Logging"; "ParticleType"] 1 false; (* log_particleType, 1954 *)
  KeyInfo ["Logging"; "PauliBlocking"] 1 false; (* log_pauliBlocking, 1969 *)
  KeyInfo ["Logging"; "Potentials"] 1 false; (* log_potentials, 1738 *)
  KeyInfo ["Logging"; "Propagation"] 1 false; (* log_propagation, 1984 *)
  KeyInfo ["Logging"; "Pythia"] 1 false; (* log_pythia, 1999 *)
  KeyInfo ["Logging"; "Resonances"] 1 false; (* log_resonances, 2012 *)
  KeyInfo ["Logging"; "RootSolver"] 1 false; (* log_rootsolver, 1751 *)
  KeyInfo ["Logging"; "ScatterAction"] 1 false; (* log_scatterAction, 2025 *)
  KeyInfo ["Logging"; "ScatterActionMulti"] 1 false; (* log_scatterActionMulti, 2041 *)
  KeyInfo ["Logging"; "Tmn"] 1 false; (* log_tmn, 2055 *)
  KeyInfo ["Version"] 3 false; (* version, 2066 *)
  KeyInfo ["Collision_Term"; "Additional_Elastic_Cross_Section"] 1 false; (* collTerm_additionalElasticCrossSection, 2108 *)
  KeyInfo ["Collision_Term"; "Collision_Criterion"] 1 false; (* collTerm_collisionCriterion, 2156 *)
  KeyInfo ["Collision_Term"; "Cross_Section_Scaling"] 1 false; (* collTerm_crossSectionScaling, 2173 *)
  KeyInfo ["Collision_Term"; "Elastic_Cross_Section"] 1 false; (* collTerm_elasticCrossSection, 2188 *)
  KeyInfo ["Collision_Term"; "Elastic_NN_Cutoff_Sqrts"] 1 false; (* collTerm_elasticNNCutoffSqrts, 2206 *)
  KeyInfo ["Collision_Term"; "Total_Cross_Section_Strategy"] 1 false; (* collTerm_totXsStrategy, 2629 *)
  KeyInfo ["Collision_Term"; "Pseudoresonance"] 1 false; (* collTerm_pseudoresonance, 2508 *)
  KeyInfo ["Collision_Term"; "Fixed_Min_Cell_Length"] 1 false; (* collTerm_fixedMinCellLength, 2221 *)
  KeyInfo ["Collision_Term"; "Force_Decays_At_End"] 1 false; (* collTerm_forceDecaysAtEnd, 2234 *)
  KeyInfo ["Collision_Term"; "Ignore_Minimum_Decay_Width_For_Decays_At_The_End"] 1 false; (* collTerm_ignoreDecayWidthAtTheEnd, 2325 *)
  KeyInfo ["Collision_Term"; "Include_Weak_And_EM_Decays_At_The_End"] 3 false; (* collTerm_includeDecaysAtTheEnd, 2299 *)
  KeyInfo ["Collision_Term"; "Decay_Initial_Particles"] 1 false; (* collTerm_decayInitial, 2248 *)
  KeyInfo ["Collision_Term"; "Included_2to2"] 1 false; (* collTerm_includedTwoToTwo, 2284 *)
  KeyInfo ["Collision_Term"; "Isotropic"] 1 false; (* collTerm_isotropic, 2340 *)
  KeyInfo ["Collision_Term"; "Maximum_Cross_Section"] 1 false; (* collTerm_maximumCrossSection, 2368 *)
  KeyInfo ["Collision_Term"; "Multi_Particle_Reactions"] 1 false; (* collTerm_multiParticleReactions, 2415 *)
  KeyInfo ["Collision_Term"; "NNbar_Treatment"] 1 false; (* collTerm_nnbarTreatment, 2441 *)
  KeyInfo ["Collision_Term"; "No_Collisions"] 1 false; (* collTerm_noCollisions, 2458 *)
  KeyInfo ["Collision_Term"; "Only_Warn_For_High_Probability"] 1 false; (* collTerm_onlyWarnForHighProbability, 2474 *)
  KeyInfo ["Collision_Term"; "Resonance_Lifetime_Modifier"] 1 false; (* collTerm_resonanceLifetimeModifier, 2534 *)
  KeyInfo ["Collision_Term"; "Spin_Interactions"] 1 false; (* collTerm_spinInteractions, 2549 *)
  KeyInfo ["Collision_Term"; "Strings"] 1 false; (* collTerm_strings, 2565 *)
  KeyInfo ["Collision_Term"; "Strings_with_Probability"] 1 false; (* collTerm_stringsWithProbability, 2597 *)
  KeyInfo ["Collision_Term"; "Two_to_One"] 1 false; (* collTerm_twoToOne, 2643 *)
  KeyInfo ["Collision_Term"; "Use_AQM"] 1 false; (* collTerm_useAQM, 2673 *)
  KeyInfo ["Collision_Term"; "Pauli_Blocking"; "Gaussian_Cutoff"] 1 false; (* collTerm_pauliBlocking_gaussianCutoff, 2685 *)
  KeyInfo ["Collision_Term"; "Pauli_Blocking"; "Momentum_Averaging_Radius"] 1 false; (* collTerm_pauliBlocking_momentumAveragingRadius, 2697 *)
  KeyInfo ["Collision_Term"; "Pauli_Blocking"; "Spatial_Averaging_Radius"] 1 false; (* collTerm_pauliBlocking_spatialAveragingRadius, 2712 *)
  KeyInfo ["Collision_Term"; "String_Transition"; "KN_Offset"] 1 false; (* collTerm_stringTrans_KNOffset, 2726 *)
  KeyInfo ["Collision_Term"; "String_Transition"; "PiPi_Offset"] 1 false; (* collTerm_stringTrans_pipiOffset, 2741 *)
  KeyInfo ["Collision_Term"; "String_Transition"; "Sqrts_Lower"] 1 false; (* collTerm_stringTrans_lower, 2754 *)
  KeyInfo ["Collision_Term"; "String_Transition"; "Sqrts_Range_NN"] 1 false; (* collTerm_stringTrans_rangeNN, 2771 *)
  KeyInfo ["Collision_Term"; "String_Transition"; "Sqrts_Range_Npi"] 1 false; (* collTerm_stringTrans_rangeNpi, 2788 *)
  KeyInfo ["Collision_Term"; "String_Transition"; "Sqrts_Range_Width"] 1 false; (* collTerm_stringTrans_range_width, 2805 *)
  KeyInfo ["Collision_Term"; "String_Parameters"; "Diquark_Supp"] 1 false; (* collTerm_stringParam_diquarkSuppression, 2818 *)
  KeyInfo ["Collision_Term"; "String_Parameters"; "Form_Time_Factor"] 1 false; (* collTerm_stringParam_formTimeFactor, 2831 *)
  KeyInfo ["Collision_Term"; "String_Parameters"; "Formation_Time"] 1 false; (* collTerm_stringParam_formationTime, 2843 *)
  KeyInfo ["Collision_Term"; "String_Parameters"; "Gluon_Beta"] 1 false; (* collTerm_stringParam_gluonBeta, 2856 *)
  KeyInfo ["Collision_Term"; "String_Parameters"; "Gluon_Pmin"] 1 false; (* collTerm_stringParam_gluonPMin, 2870 *)
  KeyInfo ["Collision_Term"; "String_Parameters"; "Mass_Dependent_Formation_Times"] 1 false; (* collTerm_stringParam_mDependentFormationTimes, 2884 *)
  KeyInfo ["Collision_Term"; "String_Parameters"; "Quark_Alpha"] 1 false; (* collTerm_stringParam_quarkAlpha, 2899 *)
  KeyInfo ["Collision_Term"; "String_Parameters"; "Quark_Beta"] 1 false; (* collTerm_stringParam_quarkBeta, 2912 *)
  KeyInfo ["Collision_Term"; "String_Parameters"; "Popcorn_Rate"] 1 false; (* collTerm_stringParam_popcornRate, 2927 *)
  KeyInfo ["Collision_Term"; "String_Parameters"; "Power_Particle_Formation"] 1 false; (* collTerm_stringParam_powerParticleFormation, 2943 *)
  KeyInfo ["Collision_Term"; "String_Parameters"; "Prob_proton_to_d_uu"] 1 false; (* collTerm_stringParam_probabilityPToDUU, 2959 *)
  KeyInfo ["Collision_Term"; "String_Parameters"; "Separate_Fragment_Baryon"] 1 false; (* collTerm_stringParam_separateFragmentBaryon, 2974 *)
  KeyInfo ["Collision_Term"; "String_Parameters"; "Sigma_Perp"] 1 false; (* collTerm_stringParam_sigmaPerp, 2994 *)
  KeyInfo ["Collision_Term"; "String_Parameters"; "Strange_Supp"] 1 false; (* collTerm_stringParam_strangeSuppression, 3012 *)
  KeyInfo ["Collision_Term"; "String_Parameters"; "String_Sigma_T"] 1 false; (* collTerm_stringParam_stringSigmaT, 3025 *)
  KeyInfo ["Collision_Term"; "String_Parameters"; "String_Tension"] 1 false; (* collTerm_stringParam_stringTension, 3040 *)
  KeyInfo ["Collision_Term"; "String_Parameters"; "StringZ_A"] 1 false; (* collTerm_stringParam_stringZA, 3053 *)
  KeyInfo ["Collision_Term"; "String_Parameters"; "StringZ_A_Leading"] 1 false; (* collTerm_stringParam_stringZALeading, 3067 *)
  KeyInfo ["Collision_Term"; "String_Parameters"; "StringZ_B"] 1 false; (* collTerm_stringParam_stringZB, 3080 *)
  KeyInfo ["Collision_Term"; "String_Parameters"; "StringZ_B_Leading"] 1 false; (* collTerm_stringParam_stringZBLeading, 3095 *)
  KeyInfo ["Collision_Term"; "String_Parameters"; "Use_Monash_Tune"] 1 false; (* collTerm_stringParam_useMonashTune, 3112 *)
  KeyInfo ["Collision_Term"; "Dileptons"; "Decays"] 1 false; (* collTerm_dileptons_decays, 3129 *)
  KeyInfo ["Collision_Term"; "Photons"; "2to2_Scatterings"] 1 false; (* collTerm_photons_twoToTwoScatterings, 3141 *)
  KeyInfo ["Collision_Term"; "Photons"; "Bremsstrahlung"] 1 false; (* collTerm_photons_bremsstrahlung, 3153 *)
  KeyInfo ["Collision_Term"; "Photons"; "Fractional_Photons"] 1 false; (* collTerm_photons_fractionalPhotons, 3166 *)
  KeyInfo ["Collision_Term"; "Heavy_Flavor"; "AQM_Bottom_Suppression"] 1 false; (* collTerm_HF_AQMbSuppression, 2079 *)
  KeyInfo ["Collision_Term"; "Heavy_Flavor"; "AQM_Charm_Suppression"] 1 false; (* collTerm_HF_AQMcSuppression, 2092 *)
  KeyInfo ["Modi"; "Collider"; "E_Kin"] 1 false; (* modi_collider_eKin, 3185 *)
  KeyInfo ["Modi"; "Collider"; "E_Tot"] 1 false; (* modi_collider_eTot, 3201 *)
  KeyInfo ["Modi"; "Collider"; "P_Lab"] 1 false; (* modi_collider_pLab, 3218 *)
  KeyInfo ["Modi"; "Collider"; "Sqrtsnn"] 1 false; (* modi_collider_sqrtSNN, 3233 *)
  KeyInfo ["Modi"; "Collider"; "Calculation_Frame"] 1 false; (* modi_collider_calculationFrame, 3257 *)
  KeyInfo ["Modi"; "Collider"; "Collisions_Within_Nucleus"] 1 false; (* modi_collider_collisionWithinNucleus, 3273 *)
  KeyInfo ["Modi"; "Collider"; "Fermi_Motion"] 1 false; (* modi_collider_fermiMotion, 3289 *)
  KeyInfo ["Modi"; "Collider"; "Initial_Distance"] 1 false; (* modi_collider_initialDistance, 3305 *)
  KeyInfo ["Modi"; "Collider"; "Projectile"; "Diffusiveness"] 1 false; (* modi_collider_projectile_diffusiveness, 3326 *)
  KeyInfo ["Modi"; "Collider"; "Target"; "Diffusiveness"] 1 false; (* modi_collider_target_diffusiveness, 3333 *)
  KeyInfo ["Modi"; "Collider"; "Projectile"; "Particles"] 1 true; (* modi_collider_projectile_particles, 3353 *)
  KeyInfo ["Modi"; "Collider"; "Target"; "Particles"] 1 true; (* modi_collider_target_particles, 3359 *)
  KeyInfo ["Modi"; "Collider"; "Projectile"; "Radius"] 1 false; (* modi_collider_projectile_radius, 3380 *)
  KeyInfo ["Modi"; "Collider"; "Target"; "Radius"] 1 false; (* modi_collider_target_radius, 3387 *)
  KeyInfo ["Modi"; "Collider"; "Projectile"; "Saturation_Density"] 1 false; (* modi_collider_projectile_saturationDensity, 3403 *)
  KeyInfo ["Modi"; "Collider"; "Target"; "Saturation_Density"] 1 false; (* modi_collider_target_saturationDensity, 3410 *)
  KeyInfo ["Modi"; "Collider"; "Projectile"; "E_Kin"] 1 false; (* modi_collider_projectile_eKin, 3429 *)
  KeyInfo ["Modi"; "Collider"; "Target"; "E_Kin"] 1 false; (* modi_collider_target_eKin, 3434 *)
  KeyInfo ["Modi"; "Collider"; "Projectile"; "E_Tot"] 1 false; (* modi_collider_projectile_eTot, 3448 *)
  KeyInfo ["Modi"; "Collider"; "Target"; "E_Tot"] 1 false; (* modi_collider_target_eTot, 3453 *)
  KeyInfo ["Modi"; "Collider"; "Projectile"; "P_Lab"] 1 false; (* modi_collider_projectile_pLab, 3475 *)
  KeyInfo ["Modi"; "Collider"; "Target"; "P_Lab"] 1 false; (* modi_collider_target_pLab, 3480 *)
  KeyInfo ["Modi"; "Collider"; "Projectile"; "Custom"; "File_Directory"] 1 false; (* modi_collider_projectile_custom_fileDirectory, 3499 *)
  KeyInfo ["Modi"; "Collider"; "Target"; "Custom"; "File_Directory"] 1 false; (* modi_collider_target_custom_fileDirectory, 3505 *)
  KeyInfo ["Modi"; "Collider"; "Projectile"; "Custom"; "File_Name"] 1 false; (* modi_collider_projectile_custom_fileName, 3518 *)
  KeyInfo ["Modi"; "Collider"; "Target"; "Custom"; "File_Name"] 1 false; (* modi_collider_target_custom_fileName, 3523 *)
  KeyInfo ["Modi"; "Collider"; "Projectile"; "Deformed"; "Automatic"] 1 false; (* modi_collider_projectile_deformed_automatic, 3559 *)
  KeyInfo ["Modi"; "Collider"; "Target"; "Deformed"; "Automatic"] 1 false; (* modi_collider_target_deformed_automatic, 3564 *)
  KeyInfo ["Modi"; "Collider"; "Projectile"; "Deformed"; "Beta_2"] 1 false; (* modi_collider_projectile_deformed_beta2, 3577 *)
  KeyInfo ["Modi"; "Collider"; "Target"; "Deformed"; "Beta_2"] 1 false; (* modi_collider_target_deformed_beta2, 3582 *)
  KeyInfo ["Modi"; "Collider"; "Projectile"; "Deformed"; "Beta_3"] 1 false; (* modi_collider_projectile_deformed_beta3, 3597 *)
  KeyInfo ["Modi"; "Collider"; "Target"; "Deformed"; "Beta_3"] 1 false; (* modi_collider_target_deformed_beta3, 3602 *)
  KeyInfo ["Modi"; "Collider"; "Projectile"; "Deformed"; "Beta_4"] 1 false; (* modi_collider_projectile_deformed_beta4, 3617 *)
  KeyInfo ["Modi"; "Collider"; "Target"; "Deformed"; "Beta_4"] 1 false; (* modi_collider_target_deformed_beta4, 3622 *)
  KeyInfo ["Modi"; "Collider"; "Projectile"; "Deformed"; "Gamma"] 1 false; (* modi_collider_projectile_deformed_gamma, 3637 *)
  KeyInfo ["Modi"; "Collider"; "Target"; "Deformed"; "Gamma"] 1 false; (* modi_collider_target_deformed_gamma, 3642 *)
  KeyInfo ["Modi"; "Collider"; "Projectile"; "Alpha_Clustered"; "Automatic"] 1 false; (* modi_collider_projectile_alphaClustered_automatic, 3678 *)
  KeyInfo ["Modi"; "Collider"; "Target"; "Alpha_Clustered"; "Automatic"] 1 false; (* modi_collider_target_alphaClustered_automatic, 3684 *)
  KeyInfo ["Modi"; "Collider"; "Projectile"; "Alpha_Clustered"; "Side_Length"] 1 false; (* modi_collider_projectile_alphaClustered_sideLength, 3698 *)
  KeyInfo ["Modi"; "Collider"; "Target"; "Alpha_Clustered"; "Side_Length"] 1 false; (* modi_collider_target_alphaClustered_sideLength, 3704 *)
  KeyInfo ["Modi"; "Collider"; "Projectile"; "Orientation"; "Phi"] 1 false; (* modi_collider_projectile_orientation_phi, 3731 *)
  KeyInfo ["Modi"; "Collider"; "Target"; "Orientation"; "Phi"] 1 false; (* modi_collider_target_orientation_phi, 3736 *)
  KeyInfo ["Modi"; "Collider"; "Projectile"; "Orientation"; "Psi"] 1 false; (* modi_collider_projectile_orientation_psi, 3767 *)
  KeyInfo ["Modi"; "Collider"; "Target"; "Orientation"; "Psi"] 1 false; (* modi_collider_target_orientation_psi, 3772 *)
  KeyInfo ["Modi"; "Collider"; "Projectile"; "Orientation"; "Random_Rotation"] 1 false; (* modi_collider_projectile_orientation_randRot, 3786 *)
  KeyInfo ["Modi"; "Collider"; "Target"; "Orientation"; "Random_Rotation"] 1 false; (* modi_collider_target_orientation_randRot, 3791 *)
  KeyInfo ["Modi"; "Collider"; "Projectile"; "Orientation"; "Theta"] 1 false; (* modi_collider_projectile_orientation_theta, 3749 *)
  KeyInfo ["Modi"; "Collider"; "Target"; "Orientation"; "Theta"] 1 false; (* modi_collider_target_orientation_theta, 3754 *)
  KeyInfo ["Modi"; "Collider"; "Impact"; "Max"] 1 false; (* modi_collider_impact_max, 3806 *)
  KeyInfo ["Modi"; "Collider"; "Impact"; "Random_Reaction_Plane"] 1 false; (* modi_collider_impact_randomReactionPlane, 3819 *)
  KeyInfo ["Modi"; "Collider"; "Impact"; "Range"] 1 false; (* modi_collider_impact_range, 3832 *)
  KeyInfo ["Modi"; "Collider"; "Impact"; "Sample"] 1 false; (* modi_collider_impact_sample, 3861 *)
  KeyInfo ["Modi"; "Collider"; "Impact"; "Value"] 1 false; (* modi_collider_impact_value, 3874 *)
  KeyInfo ["Modi"; "Collider"; "Impact"; "Values"] 1 false; (* modi_collider_impact_values, 3892 *)
  KeyInfo ["Modi"; "Collider"; "Impact"; "Yields"] 1 false; (* modi_collider_impact_yields, 3908 *)
  KeyInfo ["Modi"; "Collider"; "Initial_Conditions"; "Energy_Density_Threshold"] 1 false; (* modi_collider_initialConditions_eDenThreshold, 4037 *)
  KeyInfo ["Modi"; "Collider"; "Initial_Conditions"; "Delay_Initial_Elastic"] 1 false; (* modi_collider_initialConditions_delayInitialElastic, 4126 *)
  KeyInfo ["Modi"; "Collider"; "Initial_Conditions"; "Fluidization_Cells"] 1 false; (* modi_collider_initialConditions_fluidCells, 4080 *)
  KeyInfo ["Modi"; "Collider"; "Initial_Conditions"; "Formation_Time_Fraction"] 1 false; (* modi_collider_initialConditions_formTimeFraction, 4145 *)
  KeyInfo ["Modi"; "Collider"; "Initial_Conditions"; "Fluidizable_Processes"] 1 false; (* modi_collider_initialConditions_fluidProcesses, 4108 *)
  KeyInfo ["Modi"; "Collider"; "Initial_Conditions"; "Lower_Bound"] 1 false; (* modi_collider_initialConditions_lowerBound, 3943 *)
  KeyInfo ["Modi"; "Collider"; "Initial_Conditions"; "Proper_Time_Scaling"] 1 false; (* modi_collider_initialConditions_scaling, 3983 *)
  KeyInfo ["Modi"; "Collider"; "Initial_Conditions"; "Maximum_Time"] 1 false; (* modi_collider_initialConditions_maxTime, 4067 *)
  KeyInfo ["Modi"; "Collider"; "Initial_Conditions"; "Minimum_Time"] 1 false; (* modi_collider_initialConditions_minTime, 4053 *)
  KeyInfo ["Modi"; "Collider"; "Initial_Conditions"; "Proper_Time"] 1 false; (* modi_collider_initialConditions_properTime, 3964 *)
  KeyInfo ["Modi"; "Collider"; "Initial_Conditions"; "pT_Cut"] 1 false; (* modi_collider_initialConditions_pTCut, 4003 *)
  KeyInfo ["Modi"; "Collider"; "Initial_Conditions"; "Rapidity_Cut"] 1 false; (* modi_collider_initialConditions_rapidityCut, 4021 *)
  KeyInfo ["Modi"; "Collider"; "Initial_Conditions"; "Type"] 1 false; (* modi_collider_initialConditions_type, 3927 *)
  KeyInfo ["Modi"; "Sphere"; "Init_Multiplicities"] 1 true; (* modi_sphere_initialMultiplicities, 4169 *)
  KeyInfo ["Modi"; "Sphere"; "Radius"] 1 false; (* modi_sphere_radius, 4182 *)
  KeyInfo ["Modi"; "Sphere"; "Start_Time"] 1 false; (* modi_sphere_startTime, 4194 *)
  KeyInfo ["Modi"; "Sphere"; "Temperature"] 1 false; (* modi_sphere_temperature, 4206 *)
  KeyInfo ["Modi"; "Sphere"; "Account_Resonance_Widths"] 1 false; (* modi_sphere_accountResonanceWidths, 4228 *)
  KeyInfo ["Modi"; "Sphere"; "Add_Radial_Velocity"] 1 false; (* modi_sphere_addRadialVelocity, 4248 *)
  KeyInfo ["Modi"; "Sphere"; "Add_Radial_Velocity_Exponent"] 1 false; (* modi_sphere_addRadialVelocityExponent, 4263 *)
  KeyInfo ["Modi"; "Sphere"; "Baryon_Chemical_Potential"] 1 false; (* modi_sphere_baryonChemicalPotential, 4278 *)
  KeyInfo ["Modi"; "Sphere"; "Charge_Chemical_Potential"] 1 false; (* modi_sphere_chargeChemicalPotential, 4293 *)
  KeyInfo ["Modi"; "Sphere"; "Initial_Condition"] 1 false; (* modi_sphere_initialCondition, 4317 *)
  KeyInfo ["Modi"; "Sphere"; "Strange_Chemical_Potential"] 1 false; (* modi_sphere_strangeChemicalPotential, 4334 *)
  KeyInfo ["Modi"; "Sphere"; "Heavy_Flavor_Multiplier"] 1 false; (* modi_sphere_heavyFlavorMultiplier, 4357 *)
  KeyInfo ["Modi"; "Sphere"; "Use_Thermal_Multiplicities"] 1 false; (* modi_sphere_useThermalMultiplicities, 4378 *)
  KeyInfo ["Modi"; "Sphere"; "Jet"; "Jet_PDG"] 1 false; (* modi_sphere_jet_jetPdg, 4401 *)
  KeyInfo ["Modi"; "Sphere"; "Jet"; "Jet_Momentum"] 1 false; (* modi_sphere_jet_jetMomentum, 4413 *)
  KeyInfo ["Modi"; "Sphere"; "Jet"; "Jet_Position"] 1 false; (* modi_sphere_jet_jetPosition, 4427 *)
  KeyInfo ["Modi"; "Sphere"; "Jet"; "Back_To_Back"] 1 false; (* modi_sphere_jet_backToBack, 4443 *)
  KeyInfo ["Modi"; "Sphere"; "Jet"; "Back_To_Back_Separation"] 1 false; (* modi_sphere_jet_backToBackSeparation, 4459 *)
  KeyInfo ["Modi"; "Box"; "Init_Multiplicities"] 1 true; (* modi_box_initialMultiplicities, 4478 *)
  KeyInfo ["Modi"; "Box"; "Initial_Condition"] 1 false; (* modi_box_initialCondition, 4499 *)
  KeyInfo ["Modi"; "Box"; "Length"] 1 false; (* modi_box_length, 4511 *)
  KeyInfo ["Modi"; "Box"; "Start_Time"] 1 false; (* modi_box_startTime, 4524 *)
  KeyInfo ["Modi"; "Box"; "Temperature"] 1 false; (* modi_box_temperature, 4536 *)
  KeyInfo ["Modi"; "Box"; "Account_Resonance_Widths"] 1 false; (* modi_box_accountResonanceWidths, 4565 *)
  KeyInfo ["Modi"; "Box"; "Baryon_Chemical_Potential"] 1 false; (* modi_box_baryonChemicalPotential, 4578 *)
  KeyInfo ["Modi"; "Box"; "Charge_Chemical_Potential"] 1 false; (* modi_box_chargeChemicalPotential, 4591 *)
  KeyInfo ["Modi"; "Box"; "Equilibration_Time"] 1 false; (* modi_box_equilibrationTime, 4607 *)
  KeyInfo ["Modi"; "Box"; "Strange_Chemical_Potential"] 1 false; (* modi_box_strangeChemicalPotential, 4621 *)
  KeyInfo ["Modi"; "Box"; "Use_Thermal_Multiplicities"] 1 false; (* modi_box_useThermalMultiplicities, 4635 *)
  KeyInfo ["Modi"; "Box"; "Jet"; "Jet_Momentum"] 1 false; (* modi_box_jet_jetMomentum, 4660 *)
  KeyInfo ["Modi"; "Box"; "Jet"; "Jet_PDG"] 1 false; (* modi_box_jet_jetPdg, 4673 *)
  KeyInfo ["Modi"; "List"; "File_Directory"] 1 false; (* modi_list_fileDirectory, 4687 *)
  KeyInfo ["Modi"; "List"; "Filename"] 1 false; (* modi_list_filename, 4702 *)
  KeyInfo ["Modi"; "List"; "File_Prefix"] 1 false; (* modi_list_filePrefix, 4715 *)
  KeyInfo ["Modi"; "List"; "Shift_Id"] 1 false; (* modi_list_shiftId, 4732 *)
  KeyInfo ["Modi"; "List"; "Optional_Quantities"] 1 false; (* modi_list_optionalQuantities, 4795 *)
  KeyInfo ["Modi"; "ListBox"; "File_Directory"] 1 false; (* modi_listBox_fileDirectory, 4811 *)
  KeyInfo ["Modi"; "ListBox"; "Filename"] 1 false; (* modi_listBox_filename, 4824 *)
  KeyInfo ["Modi"; "ListBox"; "File_Prefix"] 1 false; (* modi_listBox_filePrefix, 4837 *)
  KeyInfo ["Modi"; "ListBox"; "Length"] 1 false; (* modi_listBox_length, 4850 *)
  KeyInfo ["Modi"; "ListBox"; "Shift_Id"] 1 false; (* modi_listBox_shiftId, 4863 *)
  KeyInfo ["Modi"; "ListBox"; "Optional_Quantities"] 1 false; (* modi_listBox_optionalQuantities, 4877 *)
  KeyInfo ["Output"; "Density_Type"] 1 false; (* output_densityType, 4901 *)
  KeyInfo ["Output"; "Output_Interval"] 1 false; (* output_outputInterval, 4916 *)
  KeyInfo ["Output"; "Output_Times"] 1 false; (* output_outputTimes, 4940 *)
  KeyInfo ["Output"; "Particles"; "Format"] 1 false; (* output_particles_format, 4977 *)
  KeyInfo ["Output"; "Collisions"; "Format"] 1 false; (* output_collisions_format, 4984 *)
  KeyInfo ["Output"; "Dileptons"; "Format"] 1 false; (* output_dileptons_format, 4991 *)
  KeyInfo ["Output"; "Photons"; "Format"] 1 false; (* output_photons_format, 4998 *)
  KeyInfo ["Output"; "Initial_Conditions"; "Format"] 1 false; (* output_initialConditions_format, 5003 *)
  KeyInfo ["Output"; "Rivet"; "Format"] 1 false; (* output_rivet_format, 5011 *)
  KeyInfo ["Output"; "Coulomb"; "Format"] 1 false; (* output_coulomb_format, 5016 *)
  KeyInfo ["Output"; "Thermodynamics"; "Format"] 1 false; (* output_thermodynamics_format, 5021 *)
  KeyInfo ["Output"; "Particles"; "Extended"] 1 false; (* output_particles_extended, 5049 *)
  KeyInfo ["Output"; "Particles"; "Quantities"] 1 false; (* output_particles_quantities, 5065 *)
  KeyInfo ["Output"; "Particles"; "Only_Final"] 1 false; (* output_particles_onlyFinal, 5084 *)
  KeyInfo ["Output"; "Collisions"; "Extended"] 1 false; (* output_collisions_extended, 5105 *)
  KeyInfo ["Output"; "Collisions"; "Quantities"] 1 false; (* output_collisions_quantities, 5122 *)
  KeyInfo ["Output"; "Collisions"; "Print_Start_End"] 1 false; (* output_collisions_printStartEnd, 5138 *)
  KeyInfo ["Output"; "Dileptons"; "Extended"] 1 false; (* output_dileptons_extended, 5156 *)
  KeyInfo ["Output"; "Dileptons"; "Quantities"] 1 false; (* output_dileptons_quantities, 5173 *)
  KeyInfo ["Output"; "Photons"; "Extended"] 1 false; (* output_photons_extended, 5193 *)
  KeyInfo ["Output"; "Photons"; "Quantities"] 1 false; (* output_photons_quantities, 5210 *)
  KeyInfo ["Output"; "Initial_Conditions"; "Extended"] 1 false; (* output_initialConditions_extended, 5230 *)
  KeyInfo ["Output"; "Initial_Conditions"; "Quantities"] 1 false; (* output_initialConditions_quantities, 5247 *)
  KeyInfo ["Output"; "Initial_Conditions"; "Lower_Bound"] 3 false; (* output_initialConditions_lowerBound, 5263 *)
  KeyInfo ["Output"; "Initial_Conditions"; "Proper_Time"] 3 false; (* output_initialConditions_properTime, 5278 *)
  KeyInfo ["Output"; "Initial_Conditions"; "pT_Cut"] 3 false; (* output_initialConditions_pTCut, 5293 *)
  KeyInfo ["Output"; "Initial_Conditions"; "Rapidity_Cut"] 3 false; (* output_initialConditions_rapidityCut, 5308 *)
  KeyInfo ["Output"; "Rivet"; "Analyses"] 1 false; (* output_rivet_analyses, 5332 *)
  KeyInfo ["Output"; "Rivet"; "Cross_Section"] 1 false; (* output_rivet_crossSection, 5345 *)
  KeyInfo ["Output"; "Rivet"; "Ignore_Beams"] 1 false; (* output_rivet_ignoreBeams, 5361 *)
  KeyInfo ["Output"; "Rivet"; "Logging"] 1 true; (* output_rivet_logging, 5376 *)
  KeyInfo ["Output"; "Rivet"; "Paths"] 1 false; (* output_rivet_paths, 5391 *)
  KeyInfo ["Output"; "Rivet"; "Preloads"] 1 false; (* output_rivet_preloads, 5405 *)
  KeyInfo ["Output"; "Rivet"; "Weights"; "Cap"] 1 false; (* output_rivet_weights_cap, 5423 *)
  KeyInfo ["Output"; "Rivet"; "Weights"; "Deselect"] 1 false; (* output_rivet_weights_deselect, 5436 *)
  KeyInfo ["Output"; "Rivet"; "Weights"; "NLO_Smearing"] 1 false; (* output_rivet_weights_nloSmearing, 5452 *)
  KeyInfo ["Output"; "Rivet"; "Weights"; "No_Multi"] 1 false; (* output_rivet_weights_noMulti, 5467 *)
  KeyInfo ["Output"; "Rivet"; "Weights"; "Nominal"] 1 false; (* output_rivet_weights_nominal, 5482 *)
  KeyInfo ["Output"; "Rivet"; "Weights"; "Select"] 1 false; (* output_rivet_weights_select, 5497 *)
  KeyInfo ["Output"; "Thermodynamics"; "Only_Participants"] 1 false; (* output_thermodynamics_onlyParticipants, 5543 *)
  KeyInfo ["Output"; "Thermodynamics"; "Position"] 1 false; (* output_thermodynamics_position, 5556 *)
  KeyInfo ["Output"; "Thermodynamics"; "Quantities"] 1 false; (* output_thermodynamics_quantites, 5585 *)
  KeyInfo ["Output"; "Thermodynamics"; "Smearing"] 1 false; (* output_thermodynamics_smearing, 5625 *)
  KeyInfo ["Output"; "Thermodynamics"; "Type"] 1 false; (* output_thermodynamics_type, 5643 *)
  KeyInfo ["Lattice"; "Automatic"] 1 false; (* lattice_automatic, 5670 *)
  KeyInfo ["Lattice"; "Cell_Number"] 1 false; (* lattice_cellNumber, 5684 *)
  KeyInfo ["Lattice"; "Origin"] 1 false; (* lattice_origin, 5703 *)
  KeyInfo ["Lattice"; "Periodic"] 1 false; (* lattice_periodic, 5720 *)
  KeyInfo ["Lattice"; "Potentials_Affect_Thresholds"] 1 false; (* lattice_potentialsAffectThreshold, 5733 *)
  KeyInfo ["Lattice"; "Sizes"] 1 false; (* lattice_sizes, 5747 *)
  KeyInfo ["Potentials"; "Use_Potentials_Outside_Lattice"] 1 false; (* potentials_use_potentials_outside_lattice, 5762 *)
  KeyInfo ["Potentials"; "Skyrme"; "Skyrme_A"] 1 false; (* potentials_skyrme_skyrmeA, 5776 *)
  KeyInfo ["Potentials"; "Skyrme"; "Skyrme_B"] 1 false; (* potentials_skyrme_skyrmeB, 5788 *)
  KeyInfo ["Potentials"; "Skyrme"; "Skyrme_Tau"] 1 false; (* potentials_skyrme_skyrmeTau, 5801 *)
  KeyInfo ["Potentials"; "Symmetry"; "gamma"] 1 false; (* potentials_symmetry_gamma, 5816 *)
  KeyInfo ["Potentials"; "Symmetry"; "S_Pot"] 1 false; (* potentials_symmetry_sPot, 5828 *)
  KeyInfo ["Potentials"; "VDF"; "Coeffs"] 1 false; (* potentials_vdf_coeffs, 5840 *)
  KeyInfo ["Potentials"; "VDF"; "Powers"] 1 false; (* potentials_vdf_powers, 5855 *)
  KeyInfo ["Potentials"; "VDF"; "Sat_rhoB"] 1 false; (* potentials_vdf_satRhoB, 5867 *)
  KeyInfo ["Potentials"; "Coulomb"; "R_Cut"] 1 false; (* potentials_coulomb_rCut, 5879 *)
  KeyInfo ["Potentials"; "Momentum_Dependence"; "C"] 1 false; (* potentials_momentum_dependence_C, 5892 *)
  KeyInfo ["Potentials"; "Momentum_Dependence"; "Lambda"] 1 false; (* potentials_momentum_dependence_Lambda, 5905 *)
  KeyInfo ["Forced_Thermalization"; "Cell_Number"] 1 false; (* forcedThermalization_cellNumber, 5924 *)
  KeyInfo ["Forced_Thermalization"; "Critical_Edens"] 1 false; (* forcedThermalization_criticalEDensity, 5937 *)
  KeyInfo ["Forced_Thermalization"; "Start_Time"] 1 false; (* forcedThermalization_startTime, 5950 *)
  KeyInfo ["Forced_Thermalization"; "Timestep"] 1 false; (* forcedThermalization_timestep, 5962 *)
  KeyInfo ["Forced_Thermalization"; "Algorithm"] 1 false; (* forcedThermalization_algorithm, 5985 *)
  KeyInfo ["Forced_Thermalization"; "Lattice_Sizes"] 1 false; (* forcedThermalization_latticeSizes, 6008 *)
  KeyInfo ["Forced_Thermalization"; "Microcanonical"] 1 false (* forcedThermalization_microcanonical, 6031 *)
].
