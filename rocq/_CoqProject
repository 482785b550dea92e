-Q theories Verif
theories/Num.v
theories/Arr.v
theories/M_utils.v
theories/M_crps.v
theories/S_base.v
theories/L_num.v
theories/L_arr.v
theories/S_crps.v
theories/S_sample.v
theories/L_crps_arr.v
theories/L_crps_gu.v
theories/L_crps_real.v
theories/L_sort.v
theories/L_fin.v
theories/L_crps_row.v
theories/L_crps_roww.v
theories/L_axis.v
theories/L_crps_api.v
theories/L_crps_ens.v
theories/L_crps_nan.v
theories/L_crps_math.v
theories/L_crps_omit.v
theories/L_crps_call.v
theories/L_crps_more.v
theories/S_nan.v
theories/S_tw.v
theories/L_crps_del.v
theories/L_tw.v
theories/L_crps_unbias.v
theories/L_examples.v
theories/T_crps_value.v
theories/P_crps_value.v
theories/T_crps_inv.v
theories/P_crps_inv.v
theories/T_crps_nan.v
theories/P_crps_nan.v
theories/T_crps_tw.v
theories/P_crps_tw.v
theories/S_ow.v
theories/L_ow.v
theories/L_ow_api.v
theories/T_crps_ow.v
theories/P_crps_ow.v
theories/M_prob.v
theories/S_quant.v
theories/L_quant.v
theories/L_interval.v
theories/T_quant.v
theories/P_quant.v
theories/S_prob.v
theories/L_prob.v
theories/T_prob.v
theories/P_prob.v
theories/M_mv.v
theories/M_energy.v
theories/S_mv.v
theories/L_mv.v
theories/L_energy.v
theories/L_energy_api.v
theories/L_negdef.v
theories/L_kscore.v
theories/T_energy.v
theories/P_energy.v
theories/T_energy_w.v
theories/P_energy_w.v
theories/M_vario.v
theories/S_vario.v
theories/L_vario.v
theories/L_vario_api.v
theories/T_vario.v
theories/P_vario.v
theories/S_mvnum.v
theories/T_mvvalid.v
theories/P_mvvalid.v
theories/M_kernels.v
theories/S_kernels.v
theories/L_kernels.v
theories/L_kernels_api.v
theories/T_kernels.v
theories/P_kernels.v
theories/T_kvalid.v
theories/P_kvalid.v
theories/M_dss.v
theories/S_dss.v
theories/L_dss.v
theories/T_dss.v
theories/P_dss.v
theories/M_special.v
theories/M_stats.v
theories/M_closed.v
theories/M_logs.v
theories/S_param.v
theories/L_bcast.v
theories/L_closed.v
theories/T_pvalid.v
theories/P_pvalid.v
theories/M_registry.v
theories/S_registry.v
theories/T_registry.v
theories/P_registry.v
theories/L_equiv.v
theories/T_equiv.v
theories/P_equiv.v
theories/L_gauss.v
theories/L_rint.v
theories/S_dist.v
theories/L_nev.v
theories/L_cdf.v
theories/T_crpsint.v
theories/P_crpsint.v
theories/L_norm.v
theories/L_tc.v
theories/L_tcn.v
theories/T_crpsnorm.v
theories/P_crpsnorm.v
theories/S_logs.v
theories/L_logs.v
theories/T_clogs.v
theories/P_clogs.v
theories/S_dens.v
theories/L_dens.v
theories/L_fam.v
theories/L_gibbs.v
theories/L_mix.v
theories/L_logp.v
theories/T_logs.v
theories/P_logs.v
theories/T_logs2.v
theories/P_logs2.v
theories/S_disc.v
theories/L_disc.v
theories/T_logsd.v
theories/P_logsd.v
theories/S_cont.v
theories/L_improp.v
theories/L_gam.v
theories/L_tt.v
theories/T_logsc.v
theories/P_logsc.v
theories/L_crpsgen.v
theories/L_crpst.v
theories/T_crpst.v
theories/P_crpst.v
theories/L_crpsbeta.v
theories/T_crpsbeta.v
theories/P_crpsbeta.v
theories/L_crpslog.v
theories/L_gaussint.v
theories/L_crpsmix.v
theories/T_crpslog.v
theories/P_crpslog.v
theories/T_crpsmix.v
theories/P_crpsmix.v
theories/S_csg.v
theories/L_betagamma.v
theories/L_crpsgam.v
theories/T_crpsgam.v
theories/P_crpsgam.v
theories/S_euler.v
theories/S_float.v
theories/L_crpsgev.v
theories/L_euler.v
theories/L_crpsgum.v
theories/L_eulernum.v
theories/T_crpsgev.v
theories/P_crpsgev.v
theories/S_count.v
theories/L_count.v
theories/L_crpspois.v
theories/L_parseval.v
theories/L_crpsnb.v
theories/L_crpshyp.v
theories/T_crpsdisc.v
theories/P_crpsdisc.v
theories/S_mat.v
theories/M_mat.v
theories/L_det.v
theories/L_posdef.v
theories/S_dssmv.v
theories/M_dssmv.v
theories/L_dssmv.v
theories/L_dssmv_api.v
theories/T_dssmv.v
theories/P_dssmv.v
theories/S_corp.v
theories/M_corp.v
theories/L_corp.v
theories/T_corp.v
theories/P_corp.v
theories/S_binom.v
theories/M_binom.v
theories/L_binom.v
theories/L_binom_api.v
theories/L_hyploop.v
theories/T_binom.v
theories/P_binom.v
theories/L_score.v
theories/S_catalog.v
theories/L_catalog.v
theories/L_special.v
theories/T_catalog.v
theories/P_catalog.v
theories/T_special.v
theories/P_special.v
theories/L_cross.v
theories/T_cross.v
theories/P_cross.v
theories/S_catlogs.v
theories/L_catlogs.v
theories/T_catlogs.v
theories/P_catlogs.v
theories/M_backend.v
theories/L_backend.v
theories/T_backend.v
theories/P_backend.v
theories/S_missing.v
theories/L_missing.v
theories/T_missing.v
theories/P_missing.v
theories/L_stab.v
theories/T_stab.v
theories/P_stab.v
theories/M_torch.v
theories/S_torch.v
theories/L_torch.v
theories/T_torch.v
theories/P_torch.v
theories/M_band.v
theories/S_band.v
theories/L_band.v
theories/T_band.v
theories/P_band.v
theories/M_nanmv.v
theories/L_nanmv.v
theories/T_nanmv.v
theories/P_nanmv.v
theories/S_wprop.v
theories/L_wprop.v
theories/T_wprop.v
theories/P_wprop.v
theories/M_round.v
theories/S_round.v
theories/L_round.v
theories/L_round2.v
theories/L_round3.v
theories/T_round.v
theories/P_round.v
theories/M_round2.v
theories/S_round2.v
theories/L_round4.v
theories/L_round5.v
theories/L_round6.v
theories/T_round2.v
theories/P_round2.v
theories/S_metric.v
theories/L_metric.v
theories/T_metric.v
theories/P_metric.v
theories/M_round3.v
theories/L_round7.v
theories/L_round8.v
theories/T_round3.v
theories/P_round3.v
theories/S_split.v
theories/L_split.v
theories/T_split.v
theories/P_split.v
theories/L_unbias2.v
theories/T_unbias.v
theories/P_unbias.v
theories/S_law.v
theories/L_law.v
theories/T_law.v
theories/P_law.v
theories/M_round4.v
theories/S_round4.v
theories/L_round9.v
theories/T_round4.v
theories/P_round4.v
theories/M_round5.v
theories/S_round5.v
theories/L_round10.v
theories/L_round11.v
theories/T_round5.v
theories/P_round5.v
theories/S_kmetric.v
theories/L_kmetric.v
theories/T_kmetric.v
theories/P_kmetric.v
theories/S_emetric.v
theories/L_emetric.v
theories/T_emetric.v
theories/P_emetric.v
theories/M_round6.v
theories/S_round6.v
theories/L_round12.v
theories/T_round6.v
theories/P_round6.v
theories/M_round7.v
theories/L_round13.v
theories/T_round7.v
theories/P_round7.v
theories/M_round8.v
theories/L_round14.v
theories/T_round8.v
theories/P_round8.v
theories/M_round9.v
theories/L_round15.v
theories/T_round9.v
theories/P_round9.v
theories/M_round10.v
theories/L_round16.v
theories/T_round10.v
theories/P_round10.v
theories/M_round11.v
theories/L_round17.v
theories/T_round11.v
theories/P_round11.v
theories/M_round12.v
theories/S_round7.v
theories/L_round18.v
theories/T_round12.v
theories/P_round12.v
theories/M_round13.v
theories/S_round8.v
theories/L_round19.v
theories/T_round13.v
theories/P_round13.v
theories/M_round14.v
theories/S_round9.v
theories/L_round20.v
theories/T_round14.v
theories/P_round14.v
theories/M_round15.v
theories/S_round10.v
theories/L_round21.v
theories/T_round15.v
theories/P_round15.v
theories/M_round16.v
theories/L_round22.v
theories/T_round16.v
theories/P_round16.v
