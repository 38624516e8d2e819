-Q theories Verif
theories/Monitor.v
theories/MonitorLemmas.v
theories/Settle.v
theories/BQ_Model.v
theories/BQ_Spec.v
theories/BQ_Proofs.v
theories/BQ_Live.v
theories/BQ_More.v
theories/BQ_Props.v
theories/SQ_Model.v
theories/SQ_Spec.v
theories/SQ_Proofs.v
theories/SQ_More.v
theories/SQ_Props.v
theories/TQ_Model.v
theories/TQ_Spec.v
theories/TQ_Proofs.v
theories/TQ_For.v
theories/TQ_Props.v
theories/MonTrace.v
theories/SettleR.v
theories/LT_Model.v
theories/LT_Spec.v
theories/LT_Proofs.v
theories/LT_Props.v
theories/BR_Model.v
theories/BR_Spec.v
theories/BR_Proofs.v
theories/BR_Sim.v
theories/BR_Props.v
theories/MonWake.v
theories/CL_Model.v
theories/CL_Spec.v
theories/CL_Proofs.v
theories/CL_Results.v
theories/CL_Props.v
theories/ON_Model.v
theories/ON_Spec.v
theories/ON_Proofs.v
theories/ON_Props.v
theories/SM_Model.v
theories/SM_Spec.v
theories/SM_Inv.v
theories/SM_Proofs.v
theories/SM_Writer.v
theories/SM_Props.v
theories/V2_Model.v
theories/V2_Spec.v
theories/V2_Inv.v
theories/V2_Proofs.v
theories/V2_Limit.v
theories/V2_Props.v
theories/MX_Model.v
theories/MX_Spec.v
theories/MX_Proofs.v
theories/MX_Props.v
theories/LK_Model.v
theories/LK_Spec.v
theories/LK_Proofs.v
theories/LK_Props.v
theories/LA_Model.v
theories/LA_Spec.v
theories/LA_Proofs.v
theories/LA_Sys.v
theories/LA_SysProofs.v
theories/LA_Busy.v
theories/LA_Props.v
theories/SV_Model.v
theories/SV_Spec.v
theories/SV_Proofs.v
theories/SV_Props.v
theories/TM_Model.v
theories/TM_Spec.v
theories/TM_Proofs.v
theories/TM_Props.v
theories/SU_Model.v
theories/SU_Spec.v
theories/SU_Proofs.v
theories/SU_Props.v
theories/IT_Model.v
theories/IT_Spec.v
theories/IT_Proofs.v
theories/IT_More.v
theories/IT_Props.v
theories/JN_Model.v
theories/JN_Spec.v
theories/JN_Frag.v
theories/JN_Proofs.v
theories/JN_Timed.v
theories/JN_Props.v
theories/TS_Model.v
theories/TS_Spec.v
theories/TS_Proofs.v
theories/TS_Props.v
theories/FU_Model.v
theories/FU_Spec.v
theories/FU_Frag.v
theories/FU_Count.v
theories/FU_Proofs.v
theories/FU_More.v
theories/FU_Props.v
theories/EX_Model.v
theories/EX_Spec.v
theories/EX_Proofs.v
theories/EX_More.v
theories/EX_Props.v
theories/SC_Model.v
theories/SC_Spec.v
theories/SC_Proofs.v
theories/SC_Props.v
theories/WA_Model.v
theories/WA_Proofs.v
theories/WA_Props.v
theories/MK_Model.v
theories/MK_Props.v
theories/FC_Model.v
theories/FC_Proofs.v
theories/FC_Props.v
theories/FD_Model.v
theories/FD_Proofs.v
theories/FD_Props.v
theories/TG_Model.v
theories/TG_Spec.v
theories/TG_Proofs.v
theories/TG_Props.v
theories/SX_Model.v
theories/SX_Spec.v
theories/SX_Proofs.v
theories/SX_Props.v
theories/SY_Model.v
theories/SY_Proofs.v
theories/SY_Props.v
theories/WM_Model.v
theories/WM_Spec.v
theories/WM_Proofs.v
theories/WM_Props.v
theories/WC_Model.v
theories/WC_Spec.v
theories/WC_Proofs.v
theories/WC_Props.v
theories/WN_Model.v
theories/WN_Spec.v
theories/WN_Proofs.v
theories/WN_Props.v
theories/AS_Model.v
theories/AS_Spec.v
theories/AS_Proofs.v
theories/AS_Props.v
theories/TW_Model.v
theories/TW_Spec.v
theories/TW_Proofs.v
theories/TW_Props.v
theories/TR_Model.v
theories/TR_Spec.v
theories/TR_Proofs.v
theories/TR_Props.v
theories/TX_Model.v
theories/TX_Spec.v
theories/TX_Proofs.v
theories/TX_Inline.v
theories/TX_Props.v
theories/TH_Model.v
theories/TH_Spec.v
theories/TH_Proofs.v
theories/TH_Tree.v
theories/TH_More.v
theories/TH_Moves.v
theories/TH_Props.v
theories/WS_Model.v
theories/WS_Spec.v
theories/WS_Num.v
theories/WS_Proofs.v
theories/WS_Rest.v
theories/WS_Plain.v
theories/WS_Errors.v
theories/WS_Props.v
theories/WO_Model.v
theories/WO_Spec.v
theories/WO_Proofs.v
theories/WO_Bound.v
theories/WO_Props.v
theories/WI_Model.v
theories/WI_Spec.v
theories/WI_Proofs.v
theories/WI_Live.v
theories/WI_Props.v
theories/UW_Model.v
theories/UW_Spec.v
theories/UW_Proofs.v
theories/UW_Inv.v
theories/UW_Live.v
theories/UW_Props.v
theories/SR_Model.v
theories/SR_Spec.v
theories/SR_Proofs.v
theories/SR_Live.v
theories/SR_Asked.v
theories/SR_Props.v
theories/WS_Spec2.v
theories/WS_Prefer.v
theories/WS_Props2.v
theories/EC_Model.v
theories/EC_Spec.v
theories/EC_Inv.v
theories/EC_Props.v
theories/US_Model.v
theories/US_Spec.v
theories/US_Inv.v
theories/US_Props.v
theories/TK_Model.v
theories/TK_Spec.v
theories/TK_Inv.v
theories/TK_Props.v
theories/EL_Model.v
theories/EL_Spec.v
theories/EL_Inv.v
theories/EL_Props.v
theories/TE_Model.v
theories/TE_Spec.v
theories/TE_Proofs.v
theories/TE_Props.v
theories/CA_Model.v
theories/CA_Spec.v
theories/CA_Inv.v
theories/CA_Props.v
theories/TI_Model.v
theories/TI_Inv.v
theories/TI_Props.v
theories/XT_Model.v
theories/XT_Spec.v
theories/XT_Props.v
theories/QX_Model.v
theories/QX_Spec.v
theories/QX_Inv.v
theories/QX_Props.v
theories/GT_Model.v
theories/GT_Spec.v
theories/GT_Inv.v
theories/GT_Props.v
theories/VC_Model.v
theories/VC_Spec.v
theories/VC_Proofs.v
theories/VC_Props.v
theories/OV_Model.v
theories/OV_Spec.v
theories/OV_Inv.v
theories/OV_Launch.v
theories/OV_Props.v
theories/RC_Model.v
theories/RC_Spec.v
theories/RC_Inv.v
theories/RC_Term.v
theories/RC_Props.v
theories/OM_Model.v
theories/OM_Spec.v
theories/OM_Frames.v
theories/OM_Views.v
theories/OM_Atomic.v
theories/OM_Win.v
theories/OM_Epoch.v
theories/OM_Runs.v
theories/OM_Props.v
theories/WV_Model.v
theories/WV_Spec.v
theories/WV_Proofs.v
theories/WV_Runs.v
theories/WV_Props.v
theories/RV_Model.v
theories/RV_Spec.v
theories/RV_Proofs.v
theories/RV_Runs.v
theories/RV_Props.v
theories/XV_Model.v
theories/XV_Spec.v
theories/XV_Base.v
theories/XV_Proofs.v
theories/XV_Try.v
theories/XV_Wake.v
theories/XV_Runs.v
theories/XV_Props.v
theories/WR_Model.v
theories/WR_Spec.v
theories/WR_Proofs.v
theories/WR_Runs.v
theories/WR_Props.v
theories/WT_Model.v
theories/WT_Spec.v
theories/WT_Proofs.v
theories/WT_Props.v
theories/GI_Model.v
theories/GI_Spec.v
theories/GI_Proofs.v
theories/GI_Props.v
