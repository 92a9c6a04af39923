-Q theories Verif
theories/Base.v
theories/Np.v
theories/Rng.v
theories/Mat.v
theories/M_mjp.v
theories/SpecMjp.v
theories/L_list.v
theories/L_path.v
theories/L_part.v
theories/L_path2.v
theories/L_occ.v
theories/L_demo.v
theories/P_mjp_path.v
theories/L_f64.v
theories/L_rng.v
theories/L_mat.v
theories/L_sim.v
theories/L_bridge.v
theories/SpecLin.v
theories/L_unif.v
theories/L_bridge2.v
theories/L_mutate.v
theories/L_prop.v
theories/L_ppp.v
theories/L_stat.v
theories/L_lindemo.v
theories/L_bridge3.v
theories/L_race.v
theories/L_simdemo.v
theories/L_prop2.v
theories/P_mjp_sim.v
theories/M_inf.v
theories/SpecInf.v
theories/L_inf.v
theories/L_inf2.v
theories/P_inf.v
theories/M_bf.v
theories/SpecBf.v
theories/L_bf.v
theories/L_bf2.v
theories/L_bf3.v
theories/P_bf.v
theories/M_adapt.v
theories/SpecAdapt.v
theories/L_adapt.v
theories/L_adapt2.v
theories/P_adapt.v
theories/M_ars.v
theories/SpecArs.v
theories/L_ars.v
theories/L_ars2.v
theories/L_ars3.v
theories/P_ars.v
theories/M_hit.v
theories/L_hit.v
theories/SpecHit.v
theories/L_hit2.v
theories/L_hit3.v
theories/L_hit4.v
theories/L_hit5.v
theories/L_hit6.v
theories/L_hit7.v
theories/L_hit8.v
theories/L_hit9.v
theories/P_hit.v
theories/M_path.v
theories/SpecPath.v
theories/L_sde.v
theories/L_sde2.v
theories/L_sde3.v
theories/P_sde.v
theories/M_skel.v
theories/SpecSkel.v
theories/L_skel.v
theories/L_skel2.v
theories/L_skel3.v
theories/L_skel4.v
theories/L_skel5.v
theories/L_skel6.v
theories/L_skel7.v
theories/P_skel.v
theories/M_seed.v
theories/SpecSeed.v
theories/L_seed.v
theories/L_seed2.v
theories/L_seed3.v
theories/L_seed4.v
theories/P_seed.v
theories/M_models.v
theories/SpecModels.v
theories/L_models.v
theories/L_models2.v
theories/L_models3.v
theories/P_models.v
theories/M_sw.v
theories/L_sw.v
theories/SpecSw.v
theories/L_sw2.v
theories/L_sw3.v
theories/L_sw4.v
theories/L_sw5.v
theories/L_sw6.v
theories/L_sw7.v
theories/M_chain.v
theories/L_sw8.v
theories/L_sw9.v
theories/SpecChain.v
theories/L_sw10.v
theories/L_sw11.v
theories/L_sw12.v
theories/L_sw13.v
theories/L_swdemo.v
theories/P_sw.v
theories/M_mcem.v
theories/SpecEm.v
theories/L_em.v
theories/L_em2.v
theories/L_em3.v
theories/L_em4.v
theories/L_em5.v
theories/L_em6.v
theories/L_em7.v
theories/P_em.v
theories/L_step.v
theories/L_step2.v
theories/L_sw14.v
theories/M_ito.v
theories/SpecIto.v
theories/L_ito.v
theories/L_step3.v
theories/L_ito2.v
theories/L_ito3.v
theories/L_itodemo.v
theories/P_ito.v
theories/L_repart.v
theories/L_heat.v
theories/L_heat2.v
theories/L_heat3.v
theories/L_heat4.v
theories/L_heat5.v
theories/SpecTrail.v
theories/L_trail.v
theories/SpecCan.v
theories/L_can.v
theories/L_can2.v
theories/L_can3.v
theories/L_can4.v
theories/P_chain.v
theories/SpecSupport.v
theories/L_can5.v
theories/L_can6.v
theories/L_can7.v
theories/P_support.v
theories/SpecLaw.v
theories/L_law.v
theories/L_law2.v
theories/SpecCoin.v
theories/L_law3.v
theories/L_law4.v
theories/L_law5.v
theories/L_law6.v
theories/SpecFactory.v
theories/L_law7.v
theories/P_law.v
theories/SpecFdd.v
theories/L_fdd1.v
theories/L_fdd2.v
theories/L_fdd3.v
theories/L_fdd4.v
theories/L_fdd5.v
theories/L_fdd6.v
theories/P_fdd.v
theories/L_anch.v
theories/L_fwd1.v
theories/L_fwd2.v
theories/L_fwd3.v
theories/L_fwd4.v
theories/L_fwd5.v
theories/L_fwd6.v
theories/L_fwd7.v
theories/L_gibbs.v
theories/M_prior.v
theories/L_prior.v
theories/M_euler.v
theories/L_euler.v
theories/P_prior.v
theories/P_euler.v
theories/L_esc.v
theories/L_heat6.v
theories/SpecEsc.v
theories/L_esc2.v
theories/L_esc3.v
theories/P_esc.v
theories/SpecGauss.v
theories/L_gauss.v
theories/L_gauss2.v
theories/L_gauss3.v
theories/P_gauss.v
theories/SpecArg.v
theories/L_arg.v
theories/L_arg2.v
theories/L_arg3.v
theories/P_arg.v
theories/M_est.v
theories/SpecEst.v
theories/L_est2.v
theories/L_est.v
theories/L_est3.v
theories/P_est.v
theories/L_gibbs2.v
theories/L_bess.v
theories/SpecBess.v
theories/L_bess2.v
theories/L_euler2.v
theories/P_bess.v
theories/SpecLay.v
theories/L_lay.v
theories/L_lay2.v
theories/L_lay3.v
theories/L_lay4.v
theories/P_lay.v
theories/L_ars4.v
theories/L_ars5.v
theories/L_ars6.v
theories/L_ars7.v
theories/L_ars8.v
theories/P_ars2.v
theories/SpecAnch.v
theories/L_anc.v
theories/L_anc2.v
theories/L_anc3.v
theories/L_anc4.v
theories/P_anch.v
theories/M_full.v
theories/SpecFull.v
theories/L_full.v
theories/L_full2.v
theories/L_full3.v
theories/L_full4.v
theories/L_full5.v
theories/P_full.v
theories/L_irr.v
theories/L_irr2.v
theories/L_irr3.v
theories/SpecIrr.v
theories/L_irr4.v
theories/L_irr5.v
theories/L_irr6.v
theories/P_irr.v
theories/L_exact.v
theories/L_exact2.v
theories/SpecExact.v
theories/L_exact3.v
theories/L_exact4.v
theories/L_exact5.v
theories/P_exact.v
theories/L_em8.v
theories/SpecExact2.v
theories/L_exact6.v
theories/L_exact7.v
theories/L_exact8.v
theories/L_exact9.v
theories/L_exact10.v
theories/L_exact11.v
theories/P_exact2.v
theories/M_edges.v
theories/L_edges.v
theories/P_edges.v
theories/SpecExact3.v
theories/L_exact12.v
theories/L_exact13.v
theories/P_exact3.v
theories/L_rate.v
theories/L_rate2.v
theories/P_rate.v
theories/SpecJobs.v
theories/L_jobs.v
theories/L_jobs2.v
theories/L_jobs3.v
theories/L_jobs4.v
theories/P_jobs.v
theories/SpecWalk.v
theories/L_walk.v
theories/L_walk2.v
theories/P_walk.v
theories/SpecRedraw.v
theories/L_redraw.v
theories/L_redraw2.v
theories/L_redraw3.v
theories/P_redraw.v
theories/L_bess3.v
theories/L_redraw4.v
theories/L_redraw5.v
theories/SpecJumps.v
theories/L_jumps1.v
theories/L_jumps2.v
theories/L_jumps3.v
theories/P_jumps.v
theories/L_est4.v
theories/SpecLouis.v
theories/L_louis.v
theories/L_louis2.v
theories/P_louis.v
theories/L_prog1.v
theories/L_prog2.v
theories/SpecProg.v
theories/L_prog3.v
theories/L_prog4.v
theories/L_prog5.v
theories/L_prog6.v
theories/P_prog.v
theories/SpecCost.v
theories/L_cost.v
theories/P_cost.v
theories/L_cost2.v
theories/L_prog7.v
theories/L_degen.v
theories/P_degen.v
theories/SpecObj.v
theories/L_obj.v
theories/L_obj2.v
theories/P_obj.v
theories/L_obj3.v
theories/L_est5.v
theories/P_est2.v
theories/L_obj4.v
theories/SpecMvprop.v
theories/L_mvprop.v
theories/P_mvprop.v
