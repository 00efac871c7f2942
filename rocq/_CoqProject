-Q theories Verif
theories/Base.v
theories/NdArray.v
theories/NdArray_proofs.v
theories/Config.v
theories/Spec.v
theories/Spec_ops.v
theories/Config_proofs.v
theories/Modify_proofs.v
theories/Legal_proofs.v
theories/Props_Config.v
theories/Model.v
theories/Space.v
theories/Spec_space.v
theories/Space_proofs.v
theories/Count_proofs.v
theories/Props_Space.v
theories/Render.v
theories/Render_proofs.v
theories/Props_Ids.v
theories/Term.v
theories/Equation.v
theories/System.v
theories/Spec_engine.v
theories/Term_proofs.v
theories/Equation_proofs.v
theories/System_proofs.v
theories/Prime_proofs.v
theories/Engine_proofs.v
theories/Order_proofs.v
theories/Props_Engine.v
theories/Ring.v
theories/Coef.v
theories/Spec_eom.v
theories/Eom_proofs.v
theories/Props_Eom.v
theories/Solvers.v
theories/Spec_solve.v
theories/Sysok_proofs.v
theories/Sparse_proofs.v
theories/Rows_proofs.v
theories/Dense_proofs.v
theories/LinSolve.v
theories/Props_Solve.v
theories/HModel.v
theories/Spec_model.v
theories/HModel_proofs.v
theories/Props_Model.v
theories/Cplx.v
theories/Physics.v
theories/Physics_proofs.v
theories/Props_Physics.v
theories/Spec_sym.v
theories/Sym_proofs.v
theories/Mirror_proofs.v
theories/Embed_proofs.v
theories/Hist_proofs.v
theories/Double_proofs.v
theories/Props_Sym.v
theories/Utils.v
theories/Mpi.v
theories/Spec_mpi.v
theories/Utils_proofs.v
theories/Props_Utils.v
theories/Mpi_proofs.v
theories/Props_Mpi.v
theories/Keys.v
theories/Keys_proofs.v
theories/Petsc.v
theories/Spec_petsc.v
theories/Petsc_proofs.v
theories/Disk_proofs.v
theories/Props_Petsc.v
theories/Cache.v
theories/Cache_proofs.v
theories/Brigade.v
theories/Brigade_proofs.v
theories/Props_Cache.v
theories/Checkpoint.v
theories/Spec_checkpoint.v
theories/Checkpoint_proofs.v
theories/Json_proofs.v
theories/Roots.v
theories/Roots_proofs.v
theories/Props_Checkpoint.v
theories/Logger.v
theories/Logger_proofs.v
theories/Props_Logger.v
theories/Toeplitz_proofs.v
theories/Weight_proofs.v
theories/Spec_spectral.v
theories/Energy_proofs.v
theories/Spectral_proofs.v
theories/Pivot_proofs.v
theories/Period_proofs.v
theories/Props_Spectral.v
theories/Spec_green.v
theories/Bounded_proofs.v
theories/Green_proofs.v
theories/Props_Green.v
theories/Spec_ma.v
theories/Ladder_proofs.v
theories/MA_proofs.v
theories/Props_MA.v
theories/Conv.v
theories/Spec_conv.v
theories/Conv_proofs.v
theories/Props_Conv.v
theories/Props_Pipeline.v
theories/Conc.v
theories/Spec_conc.v
theories/Interleave_proofs.v
theories/Rootdir_proofs.v
theories/Props_Conc.v
theories/Spec_self.v
theories/Self_proofs.v
theories/Props_Self.v
theories/Basis.v
theories/Spec_basis.v
theories/Basis_proofs.v
theories/Props_Basis.v
theories/Spec_cutoff.v
theories/Cutoff_proofs.v
theories/Props_Cutoff.v
theories/Lazy.v
theories/Spec_lazy.v
theories/Lazy_proofs.v
theories/Props_Lazy.v
theories/Args.v
theories/Spec_args.v
theories/Args_proofs.v
theories/Props_Args.v
theories/Spec_names.v
theories/Names_proofs.v
theories/Props_Names.v
theories/Tent_proofs.v
theories/Walk_proofs.v
theories/Reach_proofs.v
theories/Spec_extent.v
theories/Extent_proofs.v
theories/Props_Extent.v
theories/Full_proofs.v
theories/Spec_exact.v
theories/Exact_proofs.v
theories/Props_Exact.v
theories/Firsov_proofs.v
theories/Spec_firsov.v
theories/Props_Firsov.v
theories/Visual.v
theories/Spec_visual.v
theories/Visual_proofs.v
theories/Props_Visual.v
theories/Spec_moments.v
theories/Moments_proofs.v
theories/Props_Moments.v
theories/Spec_stable.v
theories/Stable_proofs.v
theories/Props_Stable.v
theories/Heap.v
theories/Heap_proofs.v
theories/Objects_proofs.v
theories/Build_proofs.v
theories/Separate_proofs.v
theories/Master_proofs.v
theories/Refine_proofs.v
theories/Spec_alias.v
theories/Alias_proofs.v
theories/Props_Aliasing.v
theories/Wick_proofs.v
theories/Spec_thermal.v
theories/Thermal_proofs.v
theories/Thermocalls_proofs.v
theories/Props_Thermal.v
theories/Spec_perturb.v
theories/Perturb_proofs.v
theories/Cold_proofs.v
theories/Props_Perturb.v
theories/Holo_proofs.v
theories/Contour_proofs.v
theories/Spec_sum.v
theories/Sum_proofs.v
theories/Props_Sum.v
theories/Spec_band.v
theories/Band_proofs.v
theories/Tail_proofs.v
theories/Props_Band.v
theories/Spec_pick.v
theories/Pick_proofs.v
theories/Nevan_proofs.v
theories/Fit_proofs.v
theories/Props_Pick.v
theories/Props_Fit.v
theories/Spec_ritz.v
theories/Ritz_proofs.v
theories/Props_Ritz.v
theories/Timing.v
theories/Spec_timing.v
theories/Timing_proofs.v
theories/Props_Timing.v
theories/Dual_proofs.v
theories/Spec_mix.v
theories/Mix_proofs.v
theories/Props_Mix.v
theories/Closed_proofs.v
theories/Props_Closed.v
theories/Adv_proofs.v
theories/AdvSelf_proofs.v
theories/Props_Adv.v
theories/Spec_calls.v
theories/CallOrder_proofs.v
theories/Props_CallOrder.v
theories/Spec_hom.v
theories/Hom_proofs.v
theories/Props_Hom.v
theories/Spec_neghop.v
theories/Neghop_proofs.v
theories/Props_Neghop.v
theories/Spec_units.v
theories/Units_proofs.v
theories/Props_Units.v
theories/Spec_blur.v
theories/Divided_proofs.v
theories/Blur_proofs.v
theories/Props_Blur.v
theories/Spec_interp.v
theories/Interp_proofs.v
theories/Props_Interp.v
theories/Memory.v
theories/Spec_memory.v
theories/Memory_proofs.v
theories/Props_Memory.v
theories/Single.v
theories/Spec_single.v
theories/Single_proofs.v
theories/Props_Single.v
theories/Curve.v
theories/Spec_curve.v
theories/Curve_proofs.v
theories/Props_Curve.v
theories/Assign.v
theories/Props_Assign.v
