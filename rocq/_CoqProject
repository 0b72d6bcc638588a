-Q theories Verif
theories/Common.v
theories/Common_Proofs.v
theories/Ckpt_Model.v
theories/Ckpt_Spec.v
theories/Ckpt_Proofs.v
theories/Ckpt_Props.v
theories/Stage_Model.v
theories/Stage_Spec.v
theories/Stage_Proofs.v
theories/StageFiles_Proofs.v
theories/Stage_Props.v
theories/Signal_Model.v
theories/Signal_Props.v
theories/Timer_Model.v
theories/Timer_Props.v
theories/Config_Model.v
theories/Config_Spec.v
theories/Config_Proofs.v
theories/Config_Props.v
theories/Wiring_Model.v
theories/Wiring_Props.v
theories/Chunk_Model.v
theories/Chunk_Props.v
theories/Data_Model.v
theories/Data_Props.v
theories/Backup_Model.v
theories/Backup_Props.v
theories/Console_Model.v
theories/Console_Props.v
theories/Yaml_Model.v
theories/Yaml_Props.v
theories/Sampler_Model.v
theories/Sampler_Props.v
theories/Balance_Props.v
theories/Plan_Props.v
theories/Est_Model.v
theories/Est_Props.v
theories/Clip_Props.v
theories/Grad_Props.v
theories/Hist_Props.v
theories/Pipeline_Model.v
theories/Pipeline_Props.v
theories/Spins_Model.v
theories/Spins_Props.v
theories/Supercell_Model.v
theories/Supercell_Spec.v
theories/Supercell_Props.v
theories/Lin.v
theories/Geom_Model.v
theories/Geom_Spec.v
theories/Geom_Props.v
theories/Periodic_Props.v
theories/Density_Model.v
theories/Density_Props.v
theories/Ewald_Model.v
theories/Ewald_Props.v
theories/Interp_Spec.v
theories/Interp_Model.v
theories/Interp_Props.v
theories/Lap_Spec.v
theories/Jet.v
theories/Lap_Lang.v
theories/Lap_Model.v
theories/Lap_Props.v
theories/Lap_Examples.v
theories/Shape.v
theories/Sparse_Model.v
theories/Sparse_Spec.v
theories/Sparse_Lemmas.v
theories/Sparse_Layout.v
theories/Sparse_Dot.v
theories/Sparse_Rules.v
theories/Sparse_Props.v
theories/Sparse_Program.v
theories/Sparse_Examples.v
theories/Sr_Model.v
theories/Sr_Spec.v
theories/Sr_Lemmas.v
theories/Sr_Kernel.v
theories/Sr_Props.v
theories/Sr_More.v
theories/Sr_Prune.v
theories/Active_Model.v
theories/Active_Spec.v
theories/Active_Props.v
theories/Branch_Model.v
theories/Branch_Spec.v
theories/Branch_Lemmas.v
theories/Branch_Vary.v
theories/Branch_Fixed.v
theories/Roll_Model.v
theories/Roll_Spec.v
theories/Roll_Props.v
theories/Clean_Model.v
theories/Clean_Spec.v
theories/Clean_Props.v
theories/Dmc_Model.v
theories/Dmc_Spec.v
theories/Dmc_Props.v
theories/Dmc_Iter.v
theories/Pad_Model.v
theories/Pad_Props.v
theories/Quad_Spec.v
theories/Quad_Sphere.v
theories/Quad_Rot.v
theories/Quad_Model.v
theories/Quad_Oct.v
theories/Quad_Rule.v
theories/Quad_Ico.v
theories/Quad_Props.v
theories/Sr_Cond.v
theories/Ecp_Spec.v
theories/Ecp_Model.v
theories/Ecp_Lemmas.v
theories/Ecp_Props.v
theories/Det.v
theories/Wf_Model.v
theories/Wf_Spec.v
theories/Wf_Lemmas.v
theories/Wf_Logdet.v
theories/Wf_Props.v
theories/Bloch_Model.v
theories/Bloch_Props.v
theories/Bloch_Ecp.v
theories/Jastrow_Props.v
theories/Hall_Model.v
theories/Hall_Spec.v
theories/Vandermonde.v
theories/Det_T.v
theories/Hall_Lemmas.v
theories/Hall_Props.v
theories/Hall_Free.v
theories/Sph_Model.v
theories/Sph_Spec.v
theories/Sph_Ops.v
theories/Sph_Sym.v
theories/Sph_Props.v
theories/Sph_Level.v
theories/Sphere_Model.v
theories/Sphere_Spec.v
theories/Sphere_Props.v
theories/Rdm_Spec.v
theories/Rdm_Props.v
theories/Penalty_Props.v
theories/Pair_Model.v
theories/Pair_Spec.v
theories/Pair_Props.v
theories/Attn_Model.v
theories/Attn_Spec.v
theories/Attn_Props.v
theories/Ph_Spec.v
theories/Ph_Model.v
theories/Ph_Lemmas.v
theories/Ph_Chol.v
theories/Ph_Props.v
theories/Spin_Spec.v
theories/Spin_Model.v
theories/Spin_Props.v
theories/Elements_Model.v
theories/Sys_Model.v
theories/Sys_Props.v
theories/Cell_Model.v
theories/Cell_Props.v
theories/Move_Model.v
theories/Move_Props.v
theories/Gto_Model.v
theories/Gto_Spec.v
theories/Gto_Harm.v
theories/Gto_Props.v
theories/Hf_Model.v
theories/Hf_Props.v
theories/Hf_Periodic.v
theories/Kin_Spec.v
theories/Kin_Model.v
theories/Kin_Props.v
theories/Kin_Hydrogen.v
theories/Kfac_Spec.v
theories/Kfac_Model.v
theories/Kfac_Props.v
theories/Kfac_Curv.v
theories/Kfac_Step.v
theories/Mod_Model.v
theories/Mod_Props.v
theories/Loss_Spec.v
theories/Loss_Model.v
theories/Loss_Props.v
theories/Loss_Pen.v
theories/Loss_Spin.v
theories/Loss_Over.v
theories/Fl_Spec.v
theories/Fl_Det.v
theories/Fl_Model.v
theories/Fl_Slogdet.v
theories/Fl_Loop_Model.v
theories/Fl_Loop_Props.v
theories/Fl_Props.v
theories/Fl_Custom_Model.v
theories/Fl_Custom_Props.v
theories/Lpp_Spec.v
theories/Lpp_Model.v
theories/Lpp_Kin.v
theories/Lpp_Ecp.v
theories/Lpp_Ph.v
theories/Lpp_Route.v
theories/Lpp_Props.v
theories/Lpp_Cases.v
theories/Rem_Model.v
theories/Rem_Spec.v
theories/Rem_Names.v
theories/Rem_Props.v
theories/Rem_Calm.v
theories/Rem_Cases.v
theories/Gather_Model.v
theories/Gather_Spec.v
theories/Gather_Lemmas.v
theories/Gather_Props.v
theories/Gather_Reduce.v
theories/Gather_More.v
theories/Gather_Pointwise.v
theories/Gather_Cases.v
theories/Cx_Model.v
theories/Cx_Spec.v
theories/Cx_Lemmas.v
theories/Cx_Props.v
theories/Cx_Holo.v
theories/Cx_Binary.v
theories/Cx_Cases.v
theories/Mh_Spec.v
theories/Mh_Model.v
theories/Mh_Props.v
theories/Mh_Data.v
theories/Mh_Rest.v
theories/Axes_Spec.v
theories/Axes_Model.v
theories/Axes_Props.v
theories/Axes_Sphere.v
theories/Ad_Model.v
theories/Ad_Spec.v
theories/Ad_Lemmas.v
theories/Ad_Props.v
theories/Ad_Main.v
theories/Ad_Cases.v
theories/Ad_Examples.v
theories/Cli_Model.v
theories/Cli_Spec.v
theories/Cli_Props.v
theories/Cli_Examples.v
theories/Terms_Model.v
theories/Terms_Props.v
