-Q theories Verif
theories/Base.v
theories/Loop_Model.v
theories/Loop_Proofs.v
theories/Loop_Props.v
theories/Pool_Model.v
theories/Pool_Proofs.v
theories/Pool_Proofs2.v
theories/Pool_Props.v
theories/Opip_Model.v
theories/Opip_Proofs.v
theories/Opip_Proofs2.v
theories/Opip_Props.v
theories/Ipip_Model.v
theories/Ipip_Proofs.v
theories/Ipip_Proofs2.v
theories/Ipip_Proofs3.v
theories/Ipip_Props.v
theories/CFile_Model.v
theories/CFile_Proofs.v
theories/CFile_Props.v
theories/Sim_Model.v
theories/Sim_Proofs.v
theories/Sim_Proofs2.v
theories/Sim_Proofs3.v
theories/Sim_Props.v
theories/Slice_Model.v
theories/Slice_Proofs.v
theories/Slice_Props.v
theories/Vec.v
theories/Chain_Model.v
theories/Chain_Spec.v
theories/Chain_Proofs.v
theories/Chain_Props.v
theories/Force_Model.v
theories/Force_Spec.v
theories/Force_Proofs.v
theories/Force_Props.v
theories/System_Model.v
theories/System_Spec.v
theories/System_Proofs.v
theories/System_Proofs2.v
theories/System_Proofs3.v
theories/System_Proofs4.v
theories/System_Props.v
theories/Order_Props.v
theories/BS_Model.v
theories/BS_Spec.v
theories/BS_Proofs.v
theories/BS_Proofs2.v
theories/BS_Proofs3.v
theories/BS_Proofs4.v
theories/BS_Props.v
theories/Ctrl_Model.v
theories/Ctrl_Spec.v
theories/Ctrl_Proofs.v
theories/Ctrl_Proofs2.v
theories/Ctrl_Props.v
theories/Radau_Model.v
theories/Radau_Spec.v
theories/Radau_Proofs.v
theories/Radau_Proofs2.v
theories/Radau_Proofs3.v
theories/Radau_Proofs4.v
theories/Radau_Proofs5.v
theories/Radau_Props.v
theories/Kahan_Model.v
theories/Kahan_Proofs.v
theories/Kahan_Proofs2.v
theories/Kahan_Props.v
theories/Bisect_Model.v
theories/Bisect_Proofs.v
theories/Bisect_Props.v
theories/PN_Spec.v
theories/PN_Proofs.v
theories/PN_Props.v
theories/Orbit_Model.v
theories/Orbit_Spec.v
theories/Orbit_Proofs.v
theories/Orbit_Proofs2.v
theories/Orbit_Proofs3.v
theories/Orbit_Props.v
theories/Anom_Proofs.v
theories/Anom_Proofs2.v
theories/Anom_Props.v
theories/Scat_Proofs.v
theories/Scat_Props.v
theories/Manip_Model.v
theories/Manip_Spec.v
theories/Manip_Proofs.v
theories/Manip_Props.v
theories/Diag_Model.v
theories/Diag_Spec.v
theories/Diag_Proofs.v
theories/Diag_Props.v
theories/Reg_Spec.v
theories/Reg_Proofs.v
theories/Reg_Props.v
theories/Reg2_Props.v
theories/Tight_Props.v
theories/Text.v
theories/Part_Model.v
theories/Part_Spec.v
theories/Part_Props.v
theories/Conf_Model.v
theories/Conf_Props.v
theories/Tool_Model.v
theories/Tool_Props.v
theories/Disk_Tables.v
theories/Disk_Model.v
theories/Disk_Spec.v
theories/Disk_Proofs.v
theories/Disk_Proofs2.v
theories/Disk64_Model.v
theories/Disk64_Proofs.v
theories/Disk_Props.v
theories/Alpha_Spec.v
theories/Alpha_Proofs.v
theories/Alpha_Props.v
theories/Orbnew_Model.v
theories/Orbnew_Props.v
theories/Manip2_Model.v
theories/Manip2_Props.v
theories/Own_Model.v
theories/Own_Spec.v
theories/Own_Proofs.v
theories/Own_Props.v
theories/CLin_Model.v
theories/CLin_Spec.v
theories/CLin_Proofs.v
theories/CLin_Props.v
theories/Build_Model.v
theories/Build_Spec.v
theories/Build_Proofs.v
theories/Build_Props.v
theories/Meth_Model.v
theories/Meth_Spec.v
theories/Meth_Proofs.v
theories/Meth_Proofs2.v
theories/Meth_Proofs3.v
theories/Meth_Proofs4.v
theories/Meth_Props.v
theories/Ias_Model.v
theories/Ias_Spec.v
theories/Ias_Proofs.v
theories/Ias_Proofs2.v
theories/Ias_Props.v
theories/Rad_Spec.v
theories/Rad_Proofs.v
theories/Rad_Props.v
theories/Bsel_Spec.v
theories/Bsel_Proofs.v
theories/Bsel_Props.v
theories/BS_Proofs5.v
theories/BS_Props2.v
theories/CLin_Proofs2.v
theories/Disk_Proofs3.v
theories/Lazy_Model.v
theories/Lazy_Spec.v
theories/Lazy_Proofs.v
theories/Lazy_Props.v
theories/Hier_Model.v
theories/Hier_Props.v
theories/Name_Model.v
theories/Name_Props.v
theories/Star_Model.v
theories/Star_Props.v
theories/Inv_Spec.v
theories/Inv_Proofs.v
theories/Inv_Props.v
theories/Ctrl_Props2.v
theories/Disk2_Props.v
theories/CDer_Props.v
theories/Ias2_Props.v
theories/Unit_Proofs.v
theories/Unit_Model.v
theories/Unit_Props.v
theories/Par_Model.v
theories/Par_Proofs.v
theories/Par_Proofs2.v
theories/Par_Spec.v
theories/Par_Proofs3.v
theories/Par_Props.v
theories/Tool2_Props.v
theories/Arr_Model.v
theories/Arr_Spec.v
theories/Arr_Proofs.v
theories/Arr_Proofs2.v
theories/Arr_Props.v
theories/Iotext_Model.v
theories/Iotext_Props.v
theories/Axes_Spec.v
theories/Axes_Proofs.v
theories/Axes_Proofs2.v
theories/Axes_Props.v
theories/Nan_Model.v
theories/Nan_Spec.v
theories/Nan_Proofs.v
theories/Nan_Proofs2.v
theories/Nan_Proofs3.v
theories/Nan_Proofs4.v
theories/Nan_Proofs5.v
theories/Nan_Proofs6.v
theories/Nan_Props.v
theories/Fsim_Model.v
theories/Fsim_Spec.v
theories/Fsim_Proofs.v
theories/Fsim_Proofs2.v
theories/Fsim_Proofs3.v
theories/Fsim_Proofs4.v
theories/Fsim_Proofs5.v
theories/Fsim_Props.v
theories/Fchain_Model.v
theories/Fchain_Spec.v
theories/Fchain_Proofs.v
theories/Fchain_Proofs2.v
theories/Fchain_Props.v
theories/Fnewt_Model.v
theories/Fnewt_Spec.v
theories/Fnewt_Proofs.v
theories/Fnewt_Proofs2.v
theories/Fnewt_Proofs3.v
theories/Fnewt_Proofs4.v
theories/Fnewt_Props.v
theories/Ieee_Model.v
theories/Ieee_Spec.v
theories/Ieee_Proofs.v
theories/Ieee_Proofs2.v
theories/Ieee_Proofs3.v
theories/Ieee_Props.v
theories/Ieee_Props2.v
theories/Inewt_Proofs.v
theories/Inewt_Props.v
theories/Bfun_Spec.v
theories/Bfun_Proofs.v
theories/Bfun_Props.v
theories/Islice_Model.v
theories/Islice_Spec.v
theories/Islice_Proofs.v
theories/Islice_Proofs2.v
theories/Islice_Props.v
theories/Ikah_Model.v
theories/Ikah_Spec.v
theories/Ikah_Proofs.v
theories/Ikah_Proofs2.v
theories/Ikah_Proofs3.v
theories/Ikah_Props.v
theories/Ibis_Model.v
theories/Ibis_Spec.v
theories/Ibis_Proofs.v
theories/Ibis_Proofs2.v
theories/Ibis_Proofs3.v
theories/Ibis_Proofs4.v
theories/Ibis_Props.v
theories/Ianom_Model.v
theories/Ianom_Spec.v
theories/Ianom_Proofs.v
theories/Ianom_Proofs2.v
theories/Ianom_Proofs3.v
theories/Ianom_Props.v
theories/Ianom_Cases.v
theories/Tsq_Model.v
theories/Tsq_Spec.v
theories/Tsq_Proofs.v
theories/Tsq_Proofs2.v
theories/Tsq_Props.v
theories/Inum_Model.v
theories/Inum_Spec.v
theories/Inum_Proofs.v
theories/Inum_Props.v
theories/Inum_Props2.v
theories/Inum_Cases.v
theories/Tgr_Model.v
theories/Tgr_Spec.v
theories/Tgr_Proofs.v
theories/Tgr_Proofs2.v
theories/Tgr_Proofs3.v
theories/Tgr_Proofs4.v
theories/Tgr_Props.v
theories/Tgr_Cases.v
theories/Enc_Model.v
theories/Enc_Spec.v
theories/Enc_Proofs.v
theories/Encw_Model.v
theories/Encw_Spec.v
theories/Encw_Proofs.v
theories/Enc_Proofs2.v
theories/Enc_Props.v
theories/Enc_Cases.v
theories/Tsl_Model.v
theories/Tsl_Spec.v
theories/Tsl_Proofs.v
theories/Tsl_Proofs2.v
theories/Tsl_Proofs3.v
theories/Tsl_Props.v
theories/Tsl_Cases.v
theories/Enc_Proofs3.v
theories/Tfe_Model.v
theories/Tfe_Spec.v
theories/Tfe_Proofs.v
theories/Tfe_Proofs2.v
theories/Tfe_Proofs3.v
theories/Tfe_Props.v
theories/Tfe_Cases.v
theories/Tre_Model.v
theories/Tre_Spec.v
theories/Tre_Proofs.v
theories/Tre_Proofs2.v
theories/Tre_Props.v
theories/Tre_Cases.v
theories/Trc_Model.v
theories/Trc_Spec.v
theories/Trc_Proofs.v
theories/Trc_Props.v
theories/Trc_Cases.v
