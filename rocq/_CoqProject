-Q theories Verif
theories/Race_model.v
theories/Race_proofs.v
theories/ThreadGroups_model.v
theories/ThreadGroups_spec.v
theories/ThreadGroups_proofs.v
theories/ThreadGroups_proofs2.v
theories/ThreadGroups_proofs3.v
theories/ThreadGroups_props.v
theories/Base.v
theories/SAM_model.v
theories/SAM_spec.v
theories/SAM_proofs.v
theories/SAM_proofs2.v
theories/SAM_proofs3.v
theories/SAM_proofs4.v
theories/SAM_props.v
theories/Sparse_model.v
theories/Sparse_spec.v
theories/Sparse_proofs.v
theories/Sparse_proofs2.v
theories/Sparse_proofs3.v
theories/Sparse_proofs4.v
theories/Sparse_proofs5.v
theories/Sparse_proofs6.v
theories/Sparse_proofs7.v
theories/Sparse_proofs8.v
theories/Sparse_props.v
theories/MPC_model.v
theories/MPC_spec.v
theories/MPC_proofs.v
theories/MPC_proofs2.v
theories/MPC_proofs3.v
theories/MPC_proofs4.v
theories/MPC_props.v
theories/SAMpatch_model.v
theories/SAMpatch_spec.v
theories/SAMpatch_proofs.v
theories/SAMpatch_proofs2.v
theories/SAMpatch_proofs3.v
theories/SAMpatch_proofs4.v
theories/SAMpatch_proofs5.v
theories/SAMpatch_proofs6.v
theories/SAMpatch_props.v
theories/QcLra.v
theories/TimeStep_model.v
theories/TimeStep_spec.v
theories/TimeStep_proofs.v
theories/TimeStep_proofs2.v
theories/TimeStep_proofs3.v
theories/TimeStep_proofs4.v
theories/TimeStep_proofs5.v
theories/TimeStep_proofs6.v
theories/TimeStep_props.v
theories/ASMbc_model.v
theories/ASMbc_spec.v
theories/ASMbc_proofs.v
theories/ASMbc_proofs2.v
theories/ASMbc_proofs3.v
theories/ASMbc_proofs4.v
theories/ASMbc_proofs5.v
theories/ASMbc_props.v
theories/ASMnum_model.v
theories/ASMnum_spec.v
theories/ASMnum_proofs.v
theories/ASMnum_proofs2.v
theories/ASMnum_proofs4.v
theories/ASMnum_proofs5.v
theories/ASMnum_proofs6.v
theories/ASMnum_proofs7.v
theories/ASMnum_proofs3.v
theories/ASMnum_props.v
theories/Mat_model.v
theories/Mat_spec.v
theories/Mat_proofs.v
theories/Mat_proofs2.v
theories/Mat_proofs3.v
theories/Mat_proofs4.v
theories/Mat_proofs5.v
theories/Mat_proofs6.v
theories/Mat_proofs7.v
theories/Mat_proofs8.v
theories/Mat_props.v
theories/Vec_model.v
theories/Vec_spec.v
theories/Vec_proofs.v
theories/Vec_proofs2.v
theories/Vec_proofs3.v
theories/Vec_proofs4.v
theories/Vec_props.v
theories/Dyn_model.v
theories/Dyn_spec.v
theories/Dyn_proofs.v
theories/Dyn_proofs2.v
theories/Dyn_proofs3.v
theories/Dyn_proofs4.v
theories/Dyn_props.v
theories/AlgEq_model.v
theories/AlgEq_spec.v
theories/AlgEq_proofs.v
theories/AlgEq_proofs2.v
theories/AlgEq_proofs3.v
theories/AlgEq_proofs4.v
theories/AlgEq_proofs5.v
theories/AlgEq_proofs6.v
theories/AlgEq_proofs7.v
theories/AlgEq_proofs8.v
theories/AlgEq_props.v
theories/Cond_model.v
theories/Cond_spec.v
theories/Cond_proofs.v
theories/Cond_proofs2.v
theories/Cond_proofs3.v
theories/Cond_proofs4.v
theories/Cond_props.v
theories/Color_model.v
theories/Color_spec.v
theories/Color_proofs.v
theories/Color_proofs2.v
theories/Color_proofs3.v
theories/Color_props.v
theories/Glb_model.v
theories/Glb_spec.v
theories/Glb_proofs.v
theories/Glb_proofs2.v
theories/Glb_props.v
theories/RPoly.v
theories/Lagr_model.v
theories/Lagr_spec.v
theories/Lagr_proofs.v
theories/Lagr_props.v
theories/Cheb_model.v
theories/Cheb_spec.v
theories/Cheb_proofs.v
theories/Cheb_proofs2.v
theories/Cheb_props.v
theories/Lege_model.v
theories/Lege_spec.v
theories/Lege_proofs.v
theories/Lege_proofs2.v
theories/Lege_proofs3.v
theories/Lege_proofs4.v
theories/Lege_proofs5.v
theories/Lege_props.v
theories/Fun_model.v
theories/Fun_spec.v
theories/Fun_parse_model.v
theories/Fun_parse_spec.v
theories/Fun_proofs.v
theories/Fun_proofs2.v
theories/Fun_props.v
theories/Fun_parse_props.v
theories/Rst_model.v
theories/Rst_spec.v
theories/Rst_proofs.v
theories/Rst_proofs2.v
theories/Rst_props.v
theories/Exp_model.v
theories/Exp_spec.v
theories/Exp_proofs.v
theories/Exp_props.v
theories/Str_model.v
theories/Str_spec.v
theories/Str_proofs.v
theories/Str_proofs2.v
theories/Str_props.v
theories/Str_props2.v
theories/Str_props3.v
theories/Adap_model.v
theories/Adap_spec.v
theories/Adap_proofs.v
theories/Adap_proofs2.v
theories/Adap_props.v
theories/Adap_props2.v
theories/Gno_model.v
theories/Gno_spec.v
theories/Gno_proofs.v
theories/Gno_proofs2.v
theories/Gno_proofs3.v
theories/Gno_props.v
theories/Map_model.v
theories/Map_spec.v
theories/Map_proofs.v
theories/Map_proofs2.v
theories/Map_props.v
theories/Map_props2.v
theories/Sub_model.v
theories/Sub_spec.v
theories/Sub_proofs.v
theories/Sub_props.v
theories/Ddp_model.v
theories/Ddp_spec.v
theories/Ddp_proofs.v
theories/Ddp_props.v
theories/Ddg_model.v
theories/Ddg_spec.v
theories/Ddg_proofs.v
theories/Ddg_proofs2.v
theories/Ddg_proofs3.v
theories/Ddg_props.v
theories/Ddm_model.v
theories/Ddm_spec.v
theories/Ddm_proofs.v
theories/Ddm_props.v
theories/Tin_model.v
theories/Tin_spec.v
theories/Tin_proofs.v
theories/Tin_props.v
theories/Tin_proofs2.v
theories/Tin_proofs3.v
theories/Tin_props2.v
theories/Qua_model.v
theories/Qua_spec.v
theories/Qua_proofs.v
theories/Qua_props.v
theories/Ten_model.v
theories/Ten_spec.v
theories/Ten_proofs.v
theories/Ten_proofs2.v
theories/Ten_proofs3.v
theories/Ten_props.v
theories/Ten_proofs4.v
theories/Ten_spec2.v
theories/Ten_props2.v
