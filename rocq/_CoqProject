-Q theories Verif

theories/Base.v
theories/Bits_Model.v
theories/Bits_Proofs.v
theories/Bits_Props.v
theories/Bitmap_Model.v
theories/Bitmap_Proofs.v
theories/Bitmap_Props.v
theories/Algo_Model.v
theories/Algo_Proofs.v
theories/Algo_Props.v
theories/Dense_Model.v
theories/Dense_Spec.v
theories/Dense_Proofs.v
theories/Dense_Props.v
theories/DenseOps_Model.v
theories/DenseOps_Spec.v
theories/DenseOps_Proofs.v
theories/DenseOps_Props.v
theories/Edge_Model.v
theories/Edge_Spec.v
theories/Edge_Proofs.v
theories/Edge_Props.v
theories/GroupOps_Model.v
theories/GroupOps_Spec.v
theories/GroupOps_Proofs.v
theories/GroupOps_Props.v
theories/IdFilter_Model.v
theories/IdFilter_Spec.v
theories/IdFilter_Proofs.v
theories/IdFilter_Props.v
theories/Array_Model.v
theories/Array_Spec.v
theories/Array_Proofs.v
theories/ArrayIter_Proofs.v
theories/Array_Props.v
theories/ArrOps_Model.v
theories/ArrOps_Spec.v
theories/ArrOps_Proofs.v
theories/ArrOps_Props.v
theories/Search_Model.v
theories/Search_Spec.v
theories/Search_Proofs.v
theories/Search_Props.v
theories/Lru_Model.v
theories/Lru_Spec.v
theories/Lru_Proofs.v
theories/Lru_Props.v
theories/Overflow_Model.v
theories/Overflow_Spec.v
theories/Overflow_Proofs.v
theories/Overflow_Props.v
theories/EdgeOps_Model.v
theories/EdgeOps_Spec.v
theories/EdgeOps_Proofs.v
theories/EdgeOps_Props.v
theories/EdgeResize_Proofs.v
theories/Strings_Model.v
theories/Strings_Spec.v
theories/Strings_Proofs.v
theories/Strings_Props.v
theories/Frame_Model.v
theories/Frame_Spec.v
theories/Frame_Proofs.v
theories/Frame_Props.v
theories/Arena_Model.v
theories/Arena_Spec.v
theories/Arena_Proofs.v
theories/Arena_Props.v
theories/SBuf_Model.v
theories/SBuf_Spec.v
theories/SBuf_Proofs.v
theories/SBuf_Props.v
theories/Fp_Model.v
theories/Fp_Spec.v
theories/Fp_Proofs.v
theories/Fp_Props.v
theories/Cancel_Model.v
theories/Cancel_Spec.v
theories/Cancel_Proofs.v
theories/Cancel_Props.v
theories/Ref_Model.v
theories/Ref_Spec.v
theories/Ref_Proofs.v
theories/Ref_Props.v
theories/Cfg_Model.v
theories/Cfg_Spec.v
theories/Cfg_Proofs.v
theories/Cfg_Props.v
theories/Jag_Model.v
theories/Jag_Spec.v
theories/Jag_Proofs.v
theories/JagConcat_Proofs.v
theories/Jag_Props.v
theories/VisitOrder_Proofs.v
theories/Deep_Proofs.v
theories/Visit_Model.v
theories/Visit_Spec.v
theories/Visit_Proofs.v
theories/Visit_Props.v
theories/SlotsTree_Proofs.v
theories/Slots_Model.v
theories/Slots_Spec.v
theories/Slots_Proofs.v
theories/Slots_Props.v
theories/ArrEdge_Model.v
theories/ArrEdge_Spec.v
theories/ArrEdge_Proofs.v
theories/ArrEdge_Props.v
theories/ArrGroup_Model.v
theories/ArrGroup_Spec.v
theories/ArrGroup_Proofs.v
theories/ArrGroup_Split.v
theories/ArrGroup_Sparse.v
theories/ArrGroup_Map.v
theories/ArrGroup_Apply.v
theories/ArrGroup_Props.v
theories/Accum_Model.v
theories/Accum_Spec.v
theories/Accum_Lift.v
theories/Accum_Proofs.v
theories/Accum_Sort.v
theories/Accum_Props.v
theories/FullAcc_Model.v
theories/FullAcc_Spec.v
theories/FullAcc_Proofs.v
theories/FullAcc_More.v
theories/FullAcc_Cdf.v
theories/FullAcc_Props.v
theories/Forest_Model.v
theories/Forest_Spec.v
theories/Forest_Proofs.v
theories/Forest_Props.v
theories/ForestPt_Model.v
theories/ForestPt_Spec.v
theories/ForestPt_Proofs.v
theories/ForestPt_Props.v
theories/ForestBm_Model.v
theories/ForestBm_Spec.v
theories/ForestBm_Proofs.v
theories/ForestBm_Split.v
theories/ForestBm_Trees.v
theories/ForestBm_Build.v
theories/ForestBm_Eval.v
theories/ForestBm_Props.v
theories/ForestSi_Mid.v
theories/ForestSi_Model.v
theories/ForestSi_Spec.v
theories/ForestSi_Proofs.v
theories/ForestSi_Inst.v
theories/ForestSi_Build.v
theories/ForestSi_Props.v
theories/ForestEv_Model.v
theories/ForestEv_Spec.v
theories/ForestEv_Proofs.v
theories/ForestEv_Reg.v
theories/ForestEv_Loop.v
theories/ForestEv_Eval.v
theories/ForestEv_Props.v
theories/Arith_Model.v
theories/Arith_Spec.v
theories/Arith_Proofs.v
theories/Arith_Props.v
theories/Cast_Model.v
theories/Cast_Spec.v
theories/Cast_Proofs.v
theories/SpecF_Real.v
theories/Cast_Real.v
theories/Cast_Props.v
theories/FloatDiv_Model.v
theories/FloatDiv_Proofs.v
theories/FloatDiv_Props.v
theories/FrameIter_Model.v
theories/FrameIter_Spec.v
theories/FrameIter_Proofs.v
theories/FrameIter_Loop.v
theories/FrameIter_Main.v
theories/FrameIter_Props.v
theories/FrameThr_Model.v
theories/FrameThr_Spec.v
theories/FrameThr_Proofs.v
theories/FrameThr_Run.v
theories/FrameThr_Props.v
theories/ForestBt_Model.v
theories/ForestBt_Spec.v
theories/ForestBt_Proofs.v
theories/ForestBt_Eval.v
theories/ForestBt_Run.v
theories/ForestBt_Main.v
theories/ForestBt_Props.v
theories/Serial_Model.v
theories/Serial_Spec.v
theories/Serial_Proofs.v
theories/Serial_Round.v
theories/Serial_Total.v
theories/Serial_Hints.v
theories/Serial_Uses.v
theories/Serial_Meaning.v
theories/Serial_Props.v
theories/Peephole_Model.v
theories/Peephole_Spec.v
theories/Peephole_Proofs.v
theories/Peephole_Subst.v
theories/Peephole_Opt.v
theories/Peephole_Props.v
theories/Where_Model.v
theories/Where_Spec.v
theories/Where_Proofs.v
theories/Where_Dom.v
theories/Where_Main.v
theories/Where_Lazy.v
theories/Where_Once.v
theories/Where_Props.v
theories/Jump_Model.v
theories/Jump_Spec.v
theories/Jump_Proofs.v
theories/Jump_Run.v
theories/Jump_Top.v
theories/Jump_Loop.v
theories/Jump_Props.v
theories/Init_Model.v
theories/Init_Spec.v
theories/Init_Graph.v
theories/Init_Build.v
theories/Init_Exec.v
theories/Init_Proofs.v
theories/Init_Det.v
theories/Init_Proc.v
theories/Init_Props.v
theories/Ovl_Model.v
theories/Ovl_Spec.v
theories/Ovl_Proofs.v
theories/Ovl_Find.v
theories/Ovl_Props.v
theories/OpSig_Model.v
theories/OpSig_Spec.v
theories/OpSig_Proofs.v
theories/OpSig_Bind.v
theories/OpSig_Props.v
theories/Text_Model.v
theories/Text_Spec.v
theories/Text_Utf8.v
theories/Text_Proofs.v
theories/Text_Edit.v
theories/Text_Props.v
theories/OpReg_Model.v
theories/OpReg_Conc.v
theories/OpReg_Spec.v
theories/OpReg_Proofs.v
theories/OpReg_Seq.v
theories/OpReg_Decay.v
theories/OpReg_Thr.v
theories/OpReg_Snap.v
theories/OpReg_Fresh.v
theories/OpReg_Props.v
theories/Codec_Model.v
theories/Codec_Spec.v
theories/Codec_Proofs.v
theories/Codec_Arr.v
theories/Codec_Props.v
theories/While_Model.v
theories/While_Spec.v
theories/While_Fold.v
theories/While_Extract.v
theories/While_Make.v
theories/While_Proofs.v
theories/While_Accept.v
theories/While_Props.v
theories/Repr_Model.v
theories/Repr_Spec.v
theories/Repr_Parse.v
theories/Repr_Proofs.v
theories/Repr_Inj.v
theories/Repr_Stmt.v
theories/Repr_Sel.v
theories/Repr_Props.v
theories/Naming_Model.v
theories/Naming_Spec.v
theories/Naming_Proofs.v
theories/Naming_Props.v
theories/Curve_Model.v
theories/Curve_Spec.v
theories/Curve_Num.v
theories/Curve_Build.v
theories/Curve_Proofs.v
theories/Curve_Accept.v
theories/Curve_Props.v
theories/CurveText_Model.v
theories/CurveText_Spec.v
theories/CurveText_Proofs.v
theories/CurveText_Props.v
theories/Loader_Model.v
theories/Loader_Spec.v
theories/Loader_Proofs.v
theories/Loader_Comb.v
theories/Loader_Keys.v
theories/Loader_Props.v
theories/Listener_Model.v
theories/Listener_Spec.v
theories/Listener_Proofs.v
theories/Listener_Props.v
theories/Lambda_Model.v
theories/Lambda_Spec.v
theories/Lambda_Proofs.v
theories/Lambda_Main.v
theories/Lambda_Props.v
theories/OpPick_Model.v
theories/OpPick_Spec.v
theories/OpPick_Proofs.v
theories/OpPick_Main.v
theories/OpPick_Ops.v
theories/OpPick_Props.v
theories/Object_Model.v
theories/Object_Spec.v
theories/Object_Proofs.v
theories/Object_Main.v
theories/Object_Props.v
theories/SideOut_Model.v
theories/SideOut_Spec.v
theories/SideOut_Proofs.v
theories/SideOut_Main.v
theories/SideOut_Props.v
theories/SeqRange_Model.v
theories/SeqRange_Spec.v
theories/SeqRange_Proofs.v
theories/SeqRange_Props.v
theories/Format_Model.v
theories/Format_Spec.v
theories/Format_Proofs.v
theories/Format_Main.v
theories/Format_Props.v
theories/Dict_Model.v
theories/Dict_Spec.v
theories/Dict_Proofs.v
theories/Dict_Props.v
theories/Flat_Model.v
theories/Flat_Spec.v
theories/Flat_Proofs.v
theories/Flat_Props.v
theories/Logic_Model.v
theories/Logic_Spec.v
theories/Logic_Props.v
