-Q theories Verif

theories/Base.v
theories/ListX.v
theories/SortX.v
theories/Lin.v
theories/Gauss_model.v
theories/Gauss_arith.v
theories/Gauss_col.v
theories/Gauss_solve.v
theories/Gauss_rad.v
theories/Gauss_bar.v
theories/Spec_Gauss.v
theories/Gauss_props.v
theories/Props_Gauss.v
theories/Basis_model.v
theories/Basis_props.v
theories/Spec_Basis.v
theories/Props_Basis.v
theories/Spec_PH.v
theories/PH_model.v
theories/PH_core.v
theories/PH_step.v
theories/PH_lin.v
theories/PH_loop.v
theories/PH_clear.v
theories/PH_check.v
theories/PH_props.v
theories/Props_PH.v
theories/Spec_Simp.v
theories/Simp_model.v
theories/Simp_lists.v
theories/Simp_vr.v
theories/Simp_flag.v
theories/Simp_diff.v
theories/Simp_props.v
theories/Props_Simp.v
theories/Spec_Rips.v
theories/Rips_bd.v
theories/Rips_chain.v
theories/Rips_props.v
theories/Props_Rips.v
theories/Cover_model.v
theories/Spec_Cover.v
theories/Cover_grid.v
theories/Cover_nerve.v
theories/Cover_geom.v
theories/Props_Cover.v
theories/LC_model.v
theories/Spec_LC.v
theories/LC_props.v
theories/Props_LC.v
theories/SS_model.v
theories/Spec_SS.v
theories/SS_inv.v
theories/SS_page.v
theories/SS_cech.v
theories/Gauss_first.v
theories/SS_lift.v
theories/SS_zig.v
theories/SS_first.v
theories/SS_props.v
theories/Props_SS.v
theories/HP_model.v
theories/SS_fplift.v
theories/Props_Lift.v
theories/IK_model.v
theories/IK_rng.v
theories/IK_pivot.v
theories/IK_lin.v
theories/IK_phase.v
theories/IK_kphase.v
theories/IK_inv.v
theories/Spec_IK.v
theories/IK_loop.v
theories/IK_rel.v
theories/IK_unit.v
theories/IK_rloop.v
theories/IK_post.v
theories/IK_abs.v
theories/IK_relabs.v
theories/IK_quot.v
theories/IK_mph.v
theories/IK_props.v
theories/MPH_props.v
theories/Props_MPH.v
theories/Spec_Bars.v
theories/Bars.v
theories/MPH_bars.v
theories/Bars_weak.v
theories/Rips_bars.v
theories/Props_Bars.v
theories/HP_table.v
theories/Spec_MV.v
theories/Bars_complex.v
theories/SS_double.v
theories/Spec_E2.v
theories/Blocks.v
theories/SS_rows.v
theories/SS_glue.v
theories/SS_zero.v
theories/Spec_Cech.v
theories/SS_e2.v
theories/HP_row.v
theories/HP_gens.v
theories/HP_second.v
theories/HP_two.v
theories/Nerve_tables.v
theories/Bars_ends.v
theories/Bars_indep.v
theories/Nerve_ext.v
theories/Nerve_strict.v
theories/Nerve_result.v
theories/Nerve_higher.v
theories/Nerve_total.v
theories/Nerve_returns.v
theories/HP_shape.v
theories/HP_higher.v
theories/SS_rng.v
theories/HP_conv.v
theories/HP_ext.v
theories/HP_first.v
theories/HP_deg.v
theories/HP_diag.v
theories/HP_lift.v
theories/HP_refs.v
theories/HP_exto.v
theories/HP_all.v
theories/MV_two.v
theories/Props_Two.v
theories/Spec_Band.v
theories/MV_total.v
theories/Props_Total.v
theories/Spec_Nerve.v
theories/Nerve_bd.v
theories/Nerve_alg.v
theories/Nerve_e2.v
theories/Nerve_mv.v
theories/Nerve_err.v
theories/Nerve_twin.v
theories/Props_Nerve.v
theories/Spec_Zig.v
theories/HP_zig.v
theories/Zig_err.v
theories/Props_Zig.v
theories/HP_zero.v
theories/HP_pages.v
theories/Nerve_pages.v
theories/HP_perm.v
theories/HP_e2.v
theories/MV_cover.v
theories/Spec_Call.v
theories/MV_props.v
theories/MV_zero.v
theories/Props_E2.v
theories/Spec_Ext.v
theories/IK_broken.v
theories/IK_brinv.v
theories/IK_brloop.v
theories/IK_brbar.v
theories/IK_elder.v
theories/Ext_props.v
theories/Spec_Elder.v
theories/Ext_elder.v
theories/Two_col.v
theories/Spec_Two.v
theories/Two_fam.v
theories/Props_Ext.v
theories/Props_MV.v
theories/IK_tests.v
theories/Repo_tests.v
theories/Props_IK.v
theories/Sample_model.v
theories/Spec_Sample.v
theories/Sample_props.v
theories/Props_Sample.v
theories/Cloud_model.v
theories/Spec_Cloud.v
theories/Cloud_props.v
theories/Props_Cloud.v
theories/Spec_Symm.v
theories/Rips_scale.v
theories/Rips_order.v
theories/Rips_dup.v
theories/Symm_props.v
theories/Props_Symm.v
theories/Spec_Agree.v
theories/Agree_props.v
theories/Props_Agree.v
theories/Spec_Comp.v
theories/Rips_comp.v
theories/Comp_props.v
theories/Props_Comp.v
theories/Spec_Ends.v
theories/Rips_cone.v
theories/Props_Ends.v
theories/Spec_Euler.v
theories/PH_euler.v
theories/Rips_euler.v
theories/Props_Euler.v
theories/Spec_Stable.v
theories/Rips_stable.v
theories/Stable_props.v
theories/Props_Stable.v
theories/Stable_lin.v
theories/Stable_match.v
theories/Stable_bottle.v
theories/Stable_rips.v
theories/Props_Bottle.v
theories/Spec_Union.v
theories/Rips_union.v
theories/Union_props.v
theories/Props_Union.v
theories/Spec_Arith.v
theories/Arith_props.v
theories/Props_Arith.v
