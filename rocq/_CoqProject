-Q theories Verif
theories/Py.v
theories/Calc2.v
theories/RealFun.v
theories/Const_Model.v
theories/Geo_Model.v
theories/Geo_Proofs.v
theories/Geo_Props.v
theories/Lens_Spec.v
theories/Lens_Lib.v
theories/Cosmo_Model.v
theories/LensBase_Model.v
theories/LensBase_Proofs.v
theories/LensBase_Props.v
theories/Multiplane_Model.v
theories/Multiplane_Proofs.v
theories/Multiplane2_Proofs.v
theories/Multiplane_Props.v
theories/LensBasic_Model.v
theories/LensBasic_Proofs.v
theories/LensBasic2_Proofs.v
theories/LensBasic_Props.v
theories/Angle_Model.v
theories/Angle_Spec.v
theories/Angle_Proofs.v
theories/Angle2_Proofs.v
theories/Angle_Props.v
theories/Interp1_Model.v
theories/Interp1_Proofs.v
theories/Interp1_Props.v
theories/CosmoTable_Model.v
theories/CosmoTable_Proofs.v
theories/CosmoTight_Proofs.v
theories/Cosmo_Props.v
theories/Interp2_Model.v
theories/Interp2_Spec.v
theories/Interp2_Proofs.v
theories/Interp2_Props.v
theories/Bicubic_Model.v
theories/Bicubic_Proofs.v
theories/Bicubic2_Proofs.v
theories/Bicubic_Props.v
theories/Fsum.v
theories/Reduce_Model.v
theories/Reduce_Spec.v
theories/Reduce_Proofs.v
theories/Reduce_Props.v
theories/Cluster_Model.v
theories/Cluster_Proofs.v
theories/Cluster_Props.v
theories/LM_Model.v
theories/LM_Spec.v
theories/LM_Proofs.v
theories/LM_Props.v
theories/Gauss_Model.v
theories/Gauss_Proofs.v
theories/Gauss_Props.v
theories/Tri_Model.v
theories/Tri_Spec.v
theories/Tri_Proofs.v
theories/Tri2_Proofs.v
theories/Tri3_Proofs.v
theories/Tri_Props.v
theories/Wcs_Model.v
theories/Wcs_Spec.v
theories/Wcs_Proofs.v
theories/Wcs_Props.v
theories/Quad_Model.v
theories/Quad_Spec.v
theories/Quad_Proofs.v
theories/Quad_Props.v
theories/Wirtinger.v
theories/Epl_Model.v
theories/Epl_Spec.v
theories/Epl_Proofs.v
theories/Epl2_Proofs.v
theories/Epl3_Proofs.v
theories/Epl4_Proofs.v
theories/Epl5_Proofs.v
theories/Epl_Props.v
theories/Multipole_Model.v
theories/Multipole_Proofs.v
theories/Multipole_Props.v
theories/Jaffe_Model.v
theories/Jaffe_Proofs.v
theories/Jaffe2_Proofs.v
theories/Jaffe_Props.v
theories/Nfw_Model.v
theories/Nfw_Spec.v
theories/Nfw_Proofs.v
theories/Nfw2_Proofs.v
theories/Nfw3_Proofs.v
theories/Nfw_Props.v
theories/Derive1.v
theories/Tnfw_Model.v
theories/Tnfw_Proofs.v
theories/Tnfw2_Proofs.v
theories/Tnfw3_Proofs.v
theories/Tnfw4_Proofs.v
theories/Tnfw_Props.v
theories/EncMass_Model.v
theories/EncMass_Proofs.v
theories/EncMass_Props.v
theories/Dft_Model.v
theories/Dft_Proofs.v
theories/PixConv_Model.v
theories/PixConv_Spec.v
theories/PixConv_Proofs.v
theories/PixConv2_Proofs.v
theories/PixConv3_Proofs.v
theories/PixConv_Props.v
theories/PixMap_Model.v
theories/PixMap_Spec.v
theories/PixMap_Proofs.v
theories/PixMap_Props.v
theories/Light_Model.v
theories/Light_Spec.v
theories/Light_Proofs.v
theories/Light_Props.v
theories/Sim_Model.v
theories/Sim_Spec.v
theories/Sim_Proofs.v
theories/Sim2_Proofs.v
theories/Sim_Props.v
theories/Micro_Model.v
theories/Micro_Proofs.v
theories/Micro_Props.v
theories/Build_Model.v
theories/Build_Spec.v
theories/Build_Proofs.v
theories/Build_Props.v
theories/Const_Proofs.v
theories/Const_Props.v
theories/Halo_Model.v
theories/Halo_Proofs.v
theories/Halo_Props.v
theories/Multiplane3_Proofs.v
theories/Plane_Props.v
theories/Sheet_Proofs.v
theories/Sheet_Props.v
theories/Images_Proofs.v
theories/Images_Props.v
theories/Backend_Model.v
theories/Backend_Spec.v
theories/Backend_Proofs.v
theories/Backend_Props.v
theories/Project_Spec.v
theories/Project_Proofs.v
theories/Project2_Proofs.v
theories/Project_Props.v
theories/PixPad_Spec.v
theories/PixPad_Proofs.v
theories/PixPad_Props.v
theories/HalfLight_Spec.v
theories/HalfLight_Proofs.v
theories/HalfLight_Props.v
theories/FinDiff_Spec.v
theories/FinDiff_Proofs.v
theories/FinDiff_Props.v
theories/Rigid_Spec.v
theories/Rigid_Proofs.v
theories/Rigid_Props.v
theories/Ad_Model.v
theories/Ad_Spec.v
theories/Ad_Proofs.v
theories/AdLens_Model.v
theories/AdLens_Spec.v
theories/AdLens_Proofs.v
theories/AdLens2_Proofs.v
theories/AdLens3_Proofs.v
theories/AdEpl_Model.v
theories/AdEpl_Spec.v
theories/AdEpl_Proofs.v
theories/AdEpl2_Proofs.v
theories/Ad_Props.v
theories/Rev_Model.v
theories/Rev_Spec.v
theories/Rev_Proofs.v
theories/RevLens_Proofs.v
theories/RevLens2_Proofs.v
theories/Rev_Props.v
theories/Einstein_Spec.v
theories/Einstein_Proofs.v
theories/Einstein_Props.v
theories/Shear_Spec.v
theories/Shear_Proofs.v
theories/Shear_Props.v
theories/Round_Proofs.v
theories/Round_Props.v
theories/Series_Proofs.v
theories/Series2_Proofs.v
theories/D2Limit.v
theories/EplLimit_Proofs.v
theories/EplLimit_Props.v
theories/Far_Spec.v
theories/Far_Proofs.v
theories/Far_Props.v
theories/Delay_Spec.v
theories/Delay_Proofs.v
theories/Delay_Props.v
theories/Scale_Spec.v
theories/Scale_Proofs.v
theories/Scale2_Proofs.v
theories/Scale3_Proofs.v
theories/Scale_Props.v
theories/Falls_Spec.v
theories/Falls_Proofs.v
theories/Falls2_Proofs.v
theories/Falls3_Proofs.v
theories/Falls_Props.v
theories/Mirror_Spec.v
theories/Mirror_Proofs.v
theories/Mirror2_Proofs.v
theories/Mirror_Props.v
theories/PixMean_Spec.v
theories/PixMean_Proofs.v
theories/PixMean2_Proofs.v
theories/PixMean_Props.v
theories/Hubble_Spec.v
theories/Hubble_Proofs.v
theories/Hubble_Props.v
theories/PsfEffect_Spec.v
theories/PsfEffect_Proofs.v
theories/PsfEffect_Props.v
theories/Root_Spec.v
theories/Root_Proofs.v
theories/Root2_Proofs.v
theories/Root_Props.v
theories/AdPix_Model.v
theories/AdPix_Spec.v
theories/AdPix_Proofs.v
theories/AdPix_Props.v
theories/Behind_Spec.v
theories/Behind_Proofs.v
theories/Behind_Props.v
theories/Limits_Proofs.v
theories/Limits_Props.v
theories/AdSim_Model.v
theories/AdSim_Spec.v
theories/AdSim_Proofs.v
theories/AdSim2_Proofs.v
theories/AdSim3_Proofs.v
theories/AdSim4_Proofs.v
theories/AdSim_Props.v
theories/Soft_Spec.v
theories/Soft_Proofs.v
theories/Soft2_Proofs.v
theories/Soft_Props.v
theories/AdConv_Model.v
theories/AdConv_Spec.v
theories/AdConv_Proofs.v
theories/AdConv2_Proofs.v
theories/AdConv_Props.v
theories/Lost_Proofs.v
theories/Lost2_Proofs.v
theories/Lost3_Proofs.v
theories/Weak_Proofs.v
theories/Weak2_Proofs.v
theories/Weak3_Proofs.v
theories/Weak4_Proofs.v
theories/Weak5_Proofs.v
theories/Lost_Props.v
theories/AdMicro_Model.v
theories/AdMicro_Spec.v
theories/AdMicro_Proofs.v
theories/AdMicro_Props.v
theories/Born_Proofs.v
theories/Born_Props.v
theories/Approx_Spec.v
theories/Approx_Proofs.v
theories/Approx_Props.v
theories/Farther_Spec.v
theories/Farther_Proofs.v
theories/Farther_Props.v
theories/AdMulti_Model.v
theories/AdMulti_Spec.v
theories/AdMulti_Proofs.v
theories/AdMulti2_Proofs.v
theories/AdMulti3_Proofs.v
theories/AdMulti_Props.v
theories/AdCosmo_Model.v
theories/AdCosmo_Spec.v
theories/AdCosmo_Proofs.v
theories/AdCosmo2_Proofs.v
theories/AdCosmo3_Proofs.v
theories/AdCosmo4_Proofs.v
theories/AdCosmo_Props.v
theories/Whole_Spec.v
theories/Whole_Proofs.v
theories/Whole2_Proofs.v
theories/Whole3_Proofs.v
theories/Whole_Props.v
theories/MicroStat_Spec.v
theories/MicroStat_Proofs.v
theories/MicroStat_Props.v
theories/Focus_Proofs.v
theories/Focus_Props.v
theories/AdHalo_Model.v
theories/AdHalo_Spec.v
theories/AdHalo_Proofs.v
theories/AdHalo2_Proofs.v
theories/AdHalo_Props.v
theories/First_Spec.v
theories/First_Proofs.v
theories/First2_Proofs.v
theories/First3_Proofs.v
theories/First4_Proofs.v
theories/First_Props.v
theories/Single_Spec.v
theories/Single_Proofs.v
theories/Single_Props.v
theories/Twist_Spec.v
theories/Twist_Proofs.v
theories/Twist_Props.v
theories/Where_Spec.v
theories/Where_Proofs.v
theories/Where_Props.v
theories/Gentle_Spec.v
theories/Gentle_Proofs.v
theories/Gentle_Props.v
theories/Four_Spec.v
theories/Four_Proofs.v
theories/Four_Props.v
theories/Ring_Spec.v
theories/Ring_Proofs.v
theories/Ring2_Proofs.v
theories/Ring3_Proofs.v
theories/Ring_Props.v
theories/Count_Spec.v
theories/Count_Proofs.v
theories/Count2_Proofs.v
theories/Count_Props.v
theories/Stars_Spec.v
theories/Stars_Proofs.v
theories/Stars2_Proofs.v
theories/Stars_Props.v
theories/Flux_Spec.v
theories/Flux_Proofs.v
theories/Flux_Props.v
theories/AdJac_Model.v
theories/AdJac_Spec.v
theories/AdJac_Proofs.v
theories/AdJac2_Proofs.v
theories/AdJac_Props.v
theories/AdJac3_Proofs.v
theories/Area_Spec.v
theories/Area_Proofs.v
theories/Area_Props.v
theories/Star_Spec.v
theories/Star_Proofs.v
theories/Star2_Proofs.v
theories/Star3_Proofs.v
theories/Star_Props.v
theories/Cross_Spec.v
theories/Cross_Proofs.v
theories/Cross_Props.v
theories/Split_Proofs.v
theories/Split_Props.v
theories/Cusp_Proofs.v
theories/Cusp_Props.v
theories/Eval_Model.v
theories/Eval_Spec.v
theories/Eval_Proofs.v
theories/Eval_Props.v
theories/Conc_Spec.v
theories/Conc_Proofs.v
theories/Conc_Props.v
theories/Degen_Spec.v
theories/Degen_Proofs.v
theories/Degen_Props.v
theories/Gxy_Proofs.v
theories/Gxy_Props.v
theories/Gxy_Spec.v
theories/Gxy2_Proofs.v
theories/Gxy2_Props.v
theories/Choice_Model.v
theories/Choice_Spec.v
theories/Choice_Proofs.v
theories/Choice_Props.v
theories/Rng_Model.v
theories/Rng_Spec.v
theories/Rng_Proofs.v
theories/Rng_Props.v
theories/Mosaic_Proofs.v
theories/Mosaic_Props.v
theories/Astro_Spec.v
theories/Astro_Proofs.v
theories/Astro_Props.v
theories/Invert_Spec.v
theories/Invert_Proofs.v
theories/Invert2_Proofs.v
theories/Invert_Props.v
theories/Clock_Spec.v
theories/Clock_Proofs.v
theories/Clock_Props.v
theories/Glow_Spec.v
theories/Glow_Proofs.v
theories/Glow_Props.v
theories/Wheel_Spec.v
theories/Wheel_Proofs.v
theories/Wheel_Props.v
theories/Zeta_Spec.v
theories/Zeta_Proofs.v
theories/Zeta_Props.v
theories/Pile_Spec.v
theories/Pile_Proofs.v
theories/Pile_Props.v
