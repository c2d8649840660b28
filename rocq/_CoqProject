-Q theories Verif
theories/Array_Model.v
theories/Array_Proof.v
theories/Array_Props.v
theories/BarCentral_Model.v
theories/BarCentral_Proof.v
theories/BarCentral_Props.v
theories/BarComb_Model.v
theories/BarComb_Proof.v
theories/BarComb_Props.v
theories/BarComb_Spec.v
theories/BarDissem_Model.v
theories/BarDissem_Proof.v
theories/BarDissem_Props.v
theories/BarMcs_Model.v
theories/BarMcs_Proof.v
theories/BarMcs_Props.v
theories/BarProg.v
theories/BarSpec.v
theories/BarTourn_Model.v
theories/BarTourn_Proof.v
theories/BarTourn_Props.v
theories/Bitmap_Hist.v
theories/Bitmap_Model.v
theories/Bitmap_Proof.v
theories/Bitmap_Props.v
theories/Bitmap_Spec.v
theories/BrLock_Model.v
theories/BrLock_Proof.v
theories/BrLock_Props.v
theories/ByteLock_Model.v
theories/ByteLock_Proof.v
theories/ByteLock_Props.v
theories/Cc_Model.v
theories/Cc_Proof.v
theories/Cc_Props.v
theories/Cc_Spec.v
theories/CohortPass_Proof.v
theories/CohortPass_Spec.v
theories/Cohort_Model.v
theories/Cohort_Proof.v
theories/Cohort_Props.v
theories/EcTime_Model.v
theories/EcTime_Proof.v
theories/EcTime_Props.v
theories/EcTso_Model.v
theories/EcTso_Proof.v
theories/EcTso_Props.v
theories/Ec_Model.v
theories/Ec_Proof.v
theories/Ec_Props.v
theories/ElideNone_Model.v
theories/ElideNone_Proof.v
theories/ElideNone_Props.v
theories/ElideRw_Model.v
theories/ElideRw_Proof.v
theories/ElideRw_Props.v
theories/ElideRw_Spec.v
theories/ElideSpin_Model.v
theories/ElideSpin_Proof.v
theories/ElideSpin_Props.v
theories/Elide_Model.v
theories/Elide_Proof.v
theories/Elide_Props.v
theories/EpochEnd_Proof.v
theories/EpochGrace_Proof.v
theories/EpochOnce_Proof.v
theories/EpochOwn_Proof.v
theories/EpochPlace_Proof.v
theories/EpochSync_Proof.v
theories/Epoch_Model.v
theories/Epoch_Proof.v
theories/Epoch_Props.v
theories/Epoch_Spec.v
theories/FifoMp_Model.v
theories/FifoMp_Proof.v
theories/FifoMp_Props.v
theories/FifoSp_Model.v
theories/FifoSp_Proof.v
theories/FifoSp_Props.v
theories/Helpers_Model.v
theories/Helpers_Proof.v
theories/Helpers_Props.v
theories/HpClient_Model.v
theories/HpClient_Proof.v
theories/HpEnd_Proof.v
theories/HpFifo_Model.v
theories/HpFifo_Proof.v
theories/HpFifo_Props.v
theories/HpFifo_Spec.v
theories/HpOnce_Proof.v
theories/HpPend_Proof.v
theories/HpSafe_Proof.v
theories/HpStack_Model.v
theories/HpStack_Proof.v
theories/HpStack_Props.v
theories/HpStack_Spec.v
theories/Hp_Model.v
theories/Hp_Proof.v
theories/Hp_Props.v
theories/Hp_Spec.v
theories/HsConcT_Proof.v
theories/HsConc_Model.v
theories/HsConc_Proof.v
theories/HsConc_Props.v
theories/HsConc_Spec.v
theories/HsGc_Proof.v
theories/HsInv_Proof.v
theories/HsOps_Proof.v
theories/HsSet_Proof.v
theories/Hs_Model.v
theories/Hs_Proof.v
theories/Hs_Props.v
theories/Hs_Spec.v
theories/HtConcT_Proof.v
theories/HtConc_Model.v
theories/HtConc_Proof.v
theories/HtConc_Props.v
theories/HtConc_Spec.v
theories/HtGc_Proof.v
theories/HtInv_Proof.v
theories/HtOps_Proof.v
theories/HtPack_Model.v
theories/HtPack_Proof.v
theories/HtPack_Props.v
theories/HtSet_Proof.v
theories/Ht_Model.v
theories/Ht_Proof.v
theories/Ht_Props.v
theories/Ht_Spec.v
theories/LfFifo_Proof.v
theories/LfFifo_Spec.v
theories/LfHpFifo_Proof.v
theories/LfHpFifo_Spec.v
theories/LfHpStack_Proof.v
theories/LfHpStack_Spec.v
theories/LfRing_Proof.v
theories/LfRing_Spec.v
theories/LfStack_Proof.v
theories/LfStack_Spec.v
theories/Lib.v
theories/Lin.v
theories/LinPast.v
theories/LockFree_Proof.v
theories/LockFree_Props.v
theories/LockFree_Spec.v
theories/LockProg.v
theories/LockSpec.v
theories/Obs.v
theories/PfLock_Model.v
theories/PfLock_Proof.v
theories/PfLock_Props.v
theories/Pr_Model.v
theories/Pr_Proof.v
theories/Pr_Props.v
theories/Pr_Spec.v
theories/QueueEnd_Proof.v
theories/QueueOp_Proof.v
theories/QueueRd_Proof.v
theories/QueueSeq_Proof.v
theories/Queue_Model.v
theories/Queue_Proof.v
theories/Queue_Props.v
theories/Queue_Spec.v
theories/RhsConc_Model.v
theories/RhsConc_Proof.v
theories/RhsConc_Props.v
theories/RhsConc_Spec.v
theories/RhsDel_Proof.v
theories/RhsGrow_Proof.v
theories/RhsInv_Proof.v
theories/RhsOps_Proof.v
theories/RhsProbe_Proof.v
theories/RhsRef_Proof.v
theories/RhsRh_Proof.v
theories/RhsSet_Proof.v
theories/RhsTr_Proof.v
theories/RhsWant_Proof.v
theories/Rhs_Model.v
theories/Rhs_Proof.v
theories/Rhs_Props.v
theories/Rhs_Spec.v
theories/RingBytes_Model.v
theories/RingBytes_Proof.v
theories/RingBytes_Props.v
theories/RingBytes_Spec.v
theories/RingMix_Model.v
theories/RingMix_Proof.v
theories/RingMix_Props.v
theories/RingMp_Model.v
theories/RingMp_Proof.v
theories/RingMp_Props.v
theories/RingSp_Model.v
theories/RingSp_Proof.v
theories/RingSp_Props.v
theories/Rtm.v
theories/Rtm_Proof.v
theories/RwCohort_Model.v
theories/RwCohort_Proof.v
theories/RwCohort_Props.v
theories/RwFairSpec.v
theories/RwLockRec_Model.v
theories/RwLockRec_Proof.v
theories/RwLockRec_Props.v
theories/RwLock_Model.v
theories/RwLock_Proof.v
theories/RwLock_Props.v
theories/RwProg.v
theories/SeqSpec.v
theories/Sequence_Model.v
theories/Sequence_Proof.v
theories/Sequence_Props.v
theories/SpinAnderson_Model.v
theories/SpinAnderson_Proof.v
theories/SpinAnderson_Props.v
theories/SpinCas_Model.v
theories/SpinCas_Proof.v
theories/SpinCas_Props.v
theories/SpinClh_Model.v
theories/SpinClh_Proof.v
theories/SpinClh_Props.v
theories/SpinDec_Model.v
theories/SpinDec_Proof.v
theories/SpinDec_Props.v
theories/SpinFas_Model.v
theories/SpinFas_Proof.v
theories/SpinFas_Props.v
theories/SpinHclh_Model.v
theories/SpinHclh_Proof.v
theories/SpinHclh_Props.v
theories/SpinHclh_Spec.v
theories/SpinMcs_Model.v
theories/SpinMcs_Proof.v
theories/SpinMcs_Props.v
theories/SpinTicketG_Model.v
theories/SpinTicketG_Proof.v
theories/SpinTicket_Model.v
theories/SpinTicket_Proof.v
theories/SpinTicket_Props.v
theories/StackNp_Model.v
theories/StackNp_Proof.v
theories/StackNp_Props.v
theories/Stack_Model.v
theories/Stack_Proof.v
theories/Stack_Props.v
theories/Stack_Spec.v
theories/SwLock_Model.v
theories/SwLock_Proof.v
theories/SwLock_Props.v
theories/SwLocked_Model.v
theories/SwLocked_Proof.v
theories/SwLocked_Props.v
theories/TfLock_Model.v
theories/TfLock_Proof.v
theories/TfLock_Props.v
theories/Tso.v
theories/TsoAnderson_Model.v
theories/TsoAnderson_Proof.v
theories/TsoAnderson_Props.v
theories/TsoBar_Model.v
theories/TsoBar_Proof.v
theories/TsoBar_Props.v
theories/TsoBar_Spec.v
theories/TsoClh_Model.v
theories/TsoClh_Proof.v
theories/TsoClh_Props.v
theories/TsoDec_Model.v
theories/TsoDec_Proof.v
theories/TsoDec_Props.v
theories/TsoDissemD_Model.v
theories/TsoDissemD_Proof.v
theories/TsoDissemD_Props.v
theories/TsoDissem_Model.v
theories/TsoDissem_Proof.v
theories/TsoDissem_Props.v
theories/TsoEpochOnce_Proof.v
theories/TsoEpoch_Model.v
theories/TsoEpoch_Proof.v
theories/TsoEpoch_Props.v
theories/TsoFifoMp_Model.v
theories/TsoFifoMp_Proof.v
theories/TsoFifoMp_Props.v
theories/TsoFifoMp_Spec.v
theories/TsoFifoSp_Model.v
theories/TsoFifoSp_Proof.v
theories/TsoFifoSp_Props.v
theories/TsoFifoSp_Spec.v
theories/TsoHp_Model.v
theories/TsoHp_Proof.v
theories/TsoHp_Props.v
theories/TsoHp_Spec.v
theories/TsoHs_Model.v
theories/TsoHs_Proof.v
theories/TsoHs_Props.v
theories/TsoHs_Spec.v
theories/TsoHt_Model.v
theories/TsoHt_Proof.v
theories/TsoHt_Props.v
theories/TsoHt_Spec.v
theories/TsoLock_Spec.v
theories/TsoMcs_Model.v
theories/TsoMcs_Proof.v
theories/TsoMcs_Props.v
theories/TsoQueue_Proof.v
theories/TsoQueue_Spec.v
theories/TsoRhs_Model.v
theories/TsoRhs_Proof.v
theories/TsoRhs_Props.v
theories/TsoRhs_Spec.v
theories/TsoRing_Model.v
theories/TsoRing_Proof.v
theories/TsoRing_Props.v
theories/TsoRing_Spec.v
theories/TsoRw_Model.v
theories/TsoRw_Proof.v
theories/TsoRw_Props.v
theories/TsoRw_Spec.v
theories/TsoRwfPf_Proof.v
theories/TsoRwfSw_Proof.v
theories/TsoRwfTf_Proof.v
theories/TsoRwf_Model.v
theories/TsoRwf_Proof.v
theories/TsoRwf_Props.v
theories/TsoRwf_Spec.v
theories/TsoSeq_Model.v
theories/TsoSeq_Proof.v
theories/TsoSeq_Props.v
theories/TsoSeq_Spec.v
theories/TsoSmr_Spec.v
theories/TsoSpin_Model.v
theories/TsoSpin_Proof.v
theories/TsoSpin_Props.v
theories/TsoSpmc_Model.v
theories/TsoSpmc_Proof.v
theories/TsoStack_Model.v
theories/TsoStack_Proof.v
theories/TsoStack_Props.v
theories/TsoTicket_Model.v
theories/TsoTicket_Proof.v
theories/TsoTicket_Props.v
