-Q theories Verif
theories/Base.v
theories/Tree_Model.v
theories/Tree_Spec.v
theories/Tree_Proofs.v
theories/Tree_Props.v
theories/Quad_Model.v
theories/Quad_Spec.v
theories/Quad_Proofs.v
theories/Quad_HProofs.v
theories/Quad_SProofs.v
theories/Quad_Facts.v
theories/Quad_MProofs.v
theories/Quad_Props.v
theories/Arr.v
theories/Nlp.v
theories/LinObj_Model.v
theories/LinObj_Spec.v
theories/LinObj_Proofs.v
theories/LinObj_Props.v
theories/FP_Model.v
theories/FP_Spec.v
theories/FP_Proofs.v
theories/FP_Proofs2.v
theories/FP_Props.v
theories/Prob_Model.v
theories/Prob_Spec.v
theories/Prob_Proofs.v
theories/Prob_Props.v
theories/OA_Model.v
theories/OA_Spec.v
theories/OA_Proofs.v
theories/OA_Proofs2.v
theories/OA_Proofs3.v
theories/OA_Proofs4.v
theories/OA_Proofs5.v
theories/OA_Props.v
theories/Oad_Model.v
theories/Oad_Spec.v
theories/Oad_Proofs.v
theories/Oad_Proofs2.v
theories/Oad_Props.v
theories/Bqp_Model.v
theories/Bqp_Spec.v
theories/Bqp_Proofs.v
theories/Bqp_Props.v
theories/Itf_Model.v
theories/Itf_Spec.v
theories/Itf_Proofs.v
theories/Itf_Props.v
theories/Bab_Model.v
theories/Bab_Spec.v
theories/Bab_Proofs.v
theories/Bab_Props.v
theories/Nls_Model.v
theories/Nls_Spec.v
theories/Nls_Proofs.v
theories/Nls_Props.v
theories/Io_Model.v
theories/Io_Spec.v
theories/Io_Proofs.v
theories/Io_Props.v
theories/Brc_Model.v
theories/Brc_Spec.v
theories/Brc_Proofs.v
theories/Brc_Proofs2.v
theories/Brc_Proofs3.v
theories/Brc_Proofs4.v
theories/Brc_Props.v
theories/Str_Model.v
theories/Str_Spec.v
theories/Str_Proofs.v
theories/Str_Props.v
theories/Div_Model.v
theories/Div_Spec.v
theories/Div_Proofs.v
theories/Div_Proofs2.v
theories/Div_Props.v
theories/Mil_Model.v
theories/Mil_Spec.v
theories/Mil_Proofs.v
theories/Mil_Proofs2.v
theories/Mil_Proofs3.v
theories/Mil_Proofs4.v
theories/Mil_Proofs5.v
theories/Mil_Proofs6.v
theories/Mil_Props.v
theories/Acc_Model.v
theories/Acc_Spec.v
theories/Acc_Proofs.v
theories/Acc_Props.v
theories/Ecp_Model.v
theories/Ecp_Spec.v
theories/Ecp_Proofs.v
theories/Ecp_Props.v
theories/Loc_Model.v
theories/Loc_Spec.v
theories/Loc_Proofs.v
theories/Loc_Props.v
theories/Fpu_Model.v
theories/Fpu_Spec.v
theories/Fpu_Proofs.v
theories/Fpu_Props.v
theories/Set_Model.v
theories/Set_Spec.v
theories/Set_Proofs.v
theories/Set_Props.v
theories/Brc_Props2.v
theories/Cur_Model.v
theories/Cur_Spec.v
theories/Cur_Proofs.v
theories/Cur_Proofs2.v
theories/Cur_Proofs3.v
theories/Cur_Proofs4.v
theories/Cur_Proofs5.v
theories/Cur_Props.v
theories/Set_Proofs2.v
theories/Dup_Model.v
theories/Dup_Spec.v
theories/Dup_Proofs.v
theories/Dup_Proofs2.v
theories/Dup_Proofs3.v
theories/Dup_Proofs4.v
theories/Dup_Props.v
theories/Pmp_Model.v
theories/Pmp_Spec.v
theories/Pmp_Proofs.v
theories/Pmp_Proofs2.v
theories/Pmp_Props.v
theories/Sec_Model.v
theories/Sec_Spec.v
theories/Sec_Proofs.v
theories/Sec_Props.v
theories/Nwy_Model.v
theories/Nwy_Spec.v
theories/Nwy_Proofs.v
theories/Nwy_Props.v
theories/Cur_Spec2.v
theories/Cur_Props2.v
theories/Dup_Spec2.v
theories/Dup_Props2.v
theories/Amp_Model.v
theories/Amp_Spec.v
theories/Amp_Proofs.v
theories/Amp_Props.v
theories/Wst_Model.v
theories/Wst_Spec.v
theories/Wst_Proofs.v
theories/Wst_Props.v
theories/Spa_Model.v
theories/Spa_Spec.v
theories/Spa_Proofs.v
theories/Spa_Props.v
theories/Inn_Model.v
theories/Inn_Spec.v
theories/Inn_Proofs.v
theories/Inn_Props.v
theories/Bcp_Model.v
theories/Bcp_Spec.v
theories/Bcp_Proofs.v
theories/Bcp_Proofs2.v
theories/Bcp_Proofs3.v
theories/Bcp_Proofs4.v
theories/Bcp_Props.v
theories/Smp_Model.v
theories/Smp_Spec.v
theories/Smp_Proofs.v
theories/Smp_Proofs2.v
theories/Smp_Props.v
theories/Hot_Model.v
theories/Hot_Spec.v
theories/Hot_Proofs.v
theories/Hot_Proofs2.v
theories/Hot_Proofs3.v
theories/Hot_Proofs4.v
theories/Hot_Props.v
theories/Ord_Model.v
theories/Ord_Spec.v
theories/Ord_Proofs.v
theories/Ord_Proofs2.v
theories/Ord_Props.v
theories/Bbs_Model.v
theories/Bbs_Spec.v
theories/Bbs_Proofs.v
theories/Bbs_Props.v
theories/Slv_Model.v
theories/Slv_Spec.v
theories/Slv_Proofs.v
theories/Slv_Props.v
theories/Sob_Model.v
theories/Sob_Spec.v
theories/Sob_Proofs.v
theories/Sob_Props.v
theories/Sch_Model.v
theories/Sch_Spec.v
theories/Sch_Proofs.v
theories/Sch_Props.v
theories/Cts_Model.v
theories/Cts_Spec.v
theories/Cts_Proofs.v
theories/Cts_Props.v
theories/Ifp_Model.v
theories/Ifp_Spec.v
theories/Ifp_Proofs.v
theories/Ifp_Props.v
theories/Nwx_Model.v
theories/Nwx_Spec.v
theories/Nwx_Proofs.v
theories/Nwx_Props.v
theories/Whn_Model.v
theories/Whn_Spec.v
theories/Whn_Proofs.v
theories/Whn_Props.v
theories/Nwc_Model.v
theories/Nwc_Spec.v
theories/Nwc_Proofs.v
theories/Nwc_Props.v
theories/Otx_Model.v
theories/Otx_Spec.v
theories/Otx_Proofs.v
theories/Otx_Props.v
theories/App_Model.v
theories/App_Spec.v
theories/App_Props.v
theories/Bpn_Model.v
theories/Bpn_Spec.v
theories/Bpn_Props.v
theories/Fps_Model.v
theories/Fps_Spec.v
theories/Fps_Props.v
theories/Cpy_Model.v
theories/Cpy_Spec.v
theories/Cpy_Proofs.v
theories/Cpy_Props.v
