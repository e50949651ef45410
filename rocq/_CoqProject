-Q theories Verif
theories/Base.v
theories/Sched.v
theories/IntSort_Model.v
theories/IntSort_Proofs.v
theories/IntSort_Main.v
theories/Prop_IntSort.v
theories/Prefix_Model.v
theories/Prefix_Proofs.v
theories/Prop_Prefix.v
theories/Bits_Model.v
theories/Bits_Proofs.v
theories/Coord_Model.v
theories/Coord_Proofs.v
theories/Coord_Geo.v
theories/Coord_Torus.v
theories/Prop_Coord.v
theories/Tree_Model.v
theories/Cover.v
theories/Tree_Proofs.v
theories/Tree_Build.v
theories/Tree_Plan.v
theories/Tree_Run.v
theories/Girg_Model.v
theories/Girg_Proofs.v
theories/Girg_Num.v
theories/Prop_Girg.v
theories/Ieee.v
theories/ProbE_Girg.v
theories/ProbE_Law.v
theories/Prop_Ieee.v
theories/Prop_ProbIeee.v
theories/Sampling_Model.v
theories/Sampling_Proofs.v
theories/Prop_Sampling.v
theories/Scaling_Model.v
theories/Scaling_Lazy.v
theories/Scaling_Loops.v
theories/Scaling_Thr.v
theories/Scaling_Search.v
theories/Scaling_Inst.v
theories/Scaling_Total.v
theories/Scaling_Integral.v
theories/Prop_Scaling.v
theories/Hyp_Model.v
theories/Hyp_Math.v
theories/Hyp_Angle.v
theories/Hyp_Levels.v
theories/Hyp_Build.v
theories/Hyp_Run.v
theories/Hyp_Filter.v
theories/Hyp_Gen.v
theories/Hyp_Sched.v
theories/Hyp_Threads.v
theories/Prop_Hyp.v
theories/Dbg_Base.v
theories/HypDbg_Model.v
theories/HypDbg_Proofs.v
theories/HypDbg_Gen.v
theories/Prop_HypDbg.v
theories/Prop_Hyp2.v
theories/HypIn_Model.v
theories/Prop_HypIn.v
theories/Cli_Model.v
theories/Cli_Proofs.v
theories/Prop_Cli.v
theories/Extra_Model.v
theories/Prop_Extra.v
theories/Prob_Spec.v
theories/Prob.v
theories/Prob_Events.v
theories/Prob_Girg.v
theories/Prob_Law.v
theories/Prob_Hrg.v
theories/Prob_HrgLaw.v
theories/Prop_Prob.v
theories/Prop_ProbHrg.v
theories/Run_Model.v
theories/Run_Proofs.v
theories/Prop_Run.v
theories/HrgRun_Model.v
theories/Prop_HrgRun.v
theories/Scaling_Det.v
theories/Prop_Repro.v
theories/Embed_Model.v
theories/Embed_Proofs.v
theories/Prop_Embed.v
theories/Mean.v
theories/Prop_Mean.v
theories/GirgDbg_Model.v
theories/GirgDbg_Proofs.v
theories/Prop_GirgDbg.v
theories/Cost_Touch.v
theories/Prop_Cost.v
theories/GirgCost_Model.v
theories/GirgCost_Proofs.v
theories/GirgCost_Count.v
theories/Prop_Work.v
theories/ScaleDbg_Model.v
theories/ScaleDbg_Proofs.v
theories/Prop_ScaleDbg.v
theories/Prop_HypSym.v
theories/Mean_Cells.v
theories/Draws_Law.v
theories/Draws_Bound.v
theories/Draws_Mean.v
theories/Prop_Draws.v
theories/Prop_IeeeLog.v
theories/Prop_Nested.v
theories/Prop_Flavour.v
theories/HypF_Model.v
theories/HypF_Exact.v
theories/HypF_Build.v
theories/HypF_Run.v
theories/HypF_Gen.v
theories/HypF_Err.v
theories/HypF_Ieee.v
theories/Prop_HypIeee.v
theories/HypInF_Model.v
theories/Prop_HypInIeee.v
theories/HypCost_Calls.v
theories/HypCost_Mean.v
theories/Prop_HypCost.v
theories/HypWork_Model.v
theories/HypWork_Proofs.v
theories/Prop_HypWork.v
theories/SampleF_Proofs.v
theories/Prop_SampleIeee.v
theories/HypDraws_Law.v
theories/HypDraws_Bound.v
theories/HypDraws_Mean.v
theories/Prop_HypDraws.v
theories/Law_Any.v
theories/Prop_Loss.v
theories/Prop_EndDegree.v
theories/Prop_HypDrop.v
theories/Mean_Reg.v
theories/Prop_MeanDegree.v
theories/Prop_NodeDegree.v
theories/Prop_HypDegree.v
theories/Prop_NodeLaw.v
