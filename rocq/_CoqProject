-Q theories Verif

theories/Base.v
theories/BaseLemmas.v
theories/Registry_Model.v
theories/Registry_Spec.v
theories/Registry_Proofs.v
theories/Registry_Props.v
theories/Constraints_Model.v
theories/Constraints_Spec.v
theories/Constraints_Proofs.v
theories/Constraints_Proofs2.v
theories/ConstraintsIO_Model.v
theories/ConstraintsIO_Proofs.v
theories/Constraints_Props.v
theories/Observables_Model.v
theories/Observables_Spec.v
theories/Observables_Proofs.v
theories/Observables_Props.v
theories/Likelihood_Model.v
theories/Likelihood_Spec.v
theories/Likelihood_Proofs.v
theories/Likelihood_Props.v
theories/Covariance_Model.v
theories/Covariance_Spec.v
theories/Covariance_Proofs.v
theories/Covariance_Props.v
theories/Average_Model.v
theories/Average_Proofs.v
theories/Average_Props.v
theories/InstanceIO_Model.v
theories/InstanceIO_Proofs.v
theories/InstanceIO_Props.v
theories/Citations_Model.v
theories/Citations_Spec.v
theories/Citations_Proofs.v
theories/Citations_Props.v
theories/Regex.v
theories/Parsing_Model.v
theories/Parsing_Spec.v
theories/Parsing_Proofs.v
theories/Parsing_Proofs2.v
theories/Parsing_Proofs3.v
theories/Parsing_Proofs4.v
theories/Parsing_Proofs5.v
theories/Parsing_Proofs6.v
theories/Parsing_Proofs7.v
theories/Parsing_Props.v
theories/Functions_Model.v
theories/Functions_Spec.v
theories/Functions_Proofs.v
theories/Functions_Proofs2.v
theories/Functions_Props.v
theories/Dist_Model.v
theories/Dist_Spec.v
theories/Dist_Proofs.v
theories/Dist_Proofs2.v
theories/Dist_Proofs3.v
theories/Dist_Proofs4.v
theories/Dist_Props.v
theories/Numerical_Model.v
theories/Numerical_Spec.v
theories/Numerical_Proofs.v
theories/Numerical_Proofs2.v
theories/Numerical_Props.v
theories/DistNames_Model.v
theories/DistNames_Spec.v
theories/DistNames_Proofs.v
theories/DistNames_Props.v
theories/Loading_Model.v
theories/Loading_Spec.v
theories/Loading_Proofs.v
theories/Loading_Proofs2.v
theories/Loading_Props.v
theories/Running_Model.v
theories/Running_Spec.v
theories/Running_Proofs.v
theories/Running_Proofs2.v
theories/Running_Proofs3.v
theories/Running_Props.v
theories/Basics_Model.v
theories/Basics_Spec.v
theories/Basics_Proofs.v
theories/Basics_Proofs2.v
theories/Basics_Proofs3.v
theories/Basics_Props.v
theories/RealField.v
theories/MVN_Model.v
theories/MVN_Spec.v
theories/MVN_Proofs.v
theories/MVN_Proofs2.v
theories/MVN_Proofs3.v
theories/MVN_Proofs4.v
theories/MVN_Props.v
theories/Mixing_Model.v
theories/Mixing_Spec.v
theories/Mixing_Proofs.v
theories/Mixing_Proofs2.v
theories/Mixing_Proofs3.v
theories/Mixing_Proofs4.v
theories/Mixing_Props.v
theories/Angular_Model.v
theories/Angular_Spec.v
theories/Angular_Proofs.v
theories/Angular_Proofs2.v
theories/Angular_Proofs3.v
theories/Angular_Proofs4.v
theories/Angular_Proofs5.v
theories/Angular_Proofs6.v
theories/Angular_Proofs7.v
theories/Angular_Proofs8.v
theories/Angular_Proofs9.v
theories/Angular_Props.v
theories/AngularFF_Spec.v
theories/AngularFF_Proofs.v
theories/AngularFF_Props.v
theories/Decays_Model.v
theories/Decays_Spec.v
theories/Decays_Proofs.v
theories/Decays_Proofs2.v
theories/Decays_Proofs3.v
theories/Decays_Proofs4.v
theories/Decays_Proofs5.v
theories/Decays_Props.v
theories/DecaysNC_Model.v
theories/DecaysNC_Spec.v
theories/DecaysNC_Proofs.v
theories/DecaysNC_Proofs2.v
theories/DecaysNC_Proofs3.v
theories/DecaysNC_Proofs4.v
theories/DecaysNC_Proofs5.v
theories/DecaysNC_Props.v
theories/DecaysP_Props.v
theories/DecaysBs_Model.v
theories/DecaysBs_Spec.v
theories/DecaysBs_Proofs.v
theories/DecaysBs_Proofs2.v
theories/DecaysBs_Props.v
theories/EFT_Model.v
theories/EFT_Spec.v
theories/EFT_Proofs.v
theories/EFT_Props.v
theories/Leptonic_Model.v
theories/Leptonic_Spec.v
theories/Leptonic_Proofs.v
theories/Leptonic_Props.v
theories/FormFactors_Model.v
theories/FormFactors_Spec.v
theories/FormFactors_Proofs.v
theories/FormFactors_Proofs2.v
theories/FormFactors_Proofs3.v
theories/FormFactors_Proofs4.v
theories/FormFactors_Proofs5.v
theories/FormFactors_Props.v
theories/EW_Model.v
theories/EW_Spec.v
theories/EW_Proofs.v
theories/EW_Proofs2.v
theories/EW_Props.v
theories/Higgs_Props.v
theories/LFV_Model.v
theories/LFV_Spec.v
theories/LFV_Proofs.v
theories/LFV_Props.v
theories/LFV2_Props.v
theories/EDM_Props.v
theories/Rare_Model.v
theories/Rare_Spec.v
theories/Rare_Proofs.v
theories/Rare_Props.v
theories/RareK_Props.v
theories/RareG_Props.v
theories/RareL_Spec.v
theories/RareL_Proofs.v
theories/RareL_Props.v
theories/RareH_Props.v
theories/WCtot_Model.v
theories/WCtot_Spec.v
theories/WCtot_Proofs.v
theories/WCtot_Props.v
theories/Onium_Model.v
theories/Onium_Proofs.v
theories/Onium_Props.v
theories/Beta_Model.v
theories/Beta_Proofs.v
theories/Beta_Props.v
theories/Kaon_Model.v
theories/Kaon_Props.v
theories/Baryon_Model.v
theories/Baryon_Props.v
theories/Dilep_Model.v
theories/Dilep_Props.v
