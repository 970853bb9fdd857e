-Q theories Verif

theories/Base.v
theories/Spec_Graph.v
theories/L_Base.v
theories/L_Graph.v
theories/M_Structure.v
theories/L_Pairing.v
theories/L_MakeTree.v
theories/L_Program.v
theories/Spec_Program.v
theories/L_ProgramValid.v
theories/L_Center.v
theories/L_Prop1.v
theories/Properties_Structure.v
theories/Spec_Sum.v
theories/L_Sum.v
theories/M_Rand.v
theories/L_Rand.v
theories/M_SampleTree.v
theories/L_JitSet.v
theories/L_RemoveEdge.v
theories/L_SampleTree.v
theories/L_TreeMCMC.v
theories/Spec_Trees.v
theories/L_AllTrees.v
theories/Properties_SampleTree.v
theories/L_Rose.v
theories/Spec_Outline.v
theories/L_PrintTree.v
theories/L_Order.v
theories/M_EstimateTree.v
theories/Spec_MST.v
theories/L_Estimate.v
theories/Properties_Structure2.v
theories/M_Util.v
theories/L_Sampler.v
theories/L_Quantize.v
theories/Spec_Ragged.v
theories/L_Ragged.v
theories/M_Config.v
theories/M_Strings.v
theories/L_Config.v
theories/L_Config2.v
theories/Properties_Util.v
theories/M_Schedule.v
theories/Spec_Schedule.v
theories/L_Schedule.v
theories/Properties_Schedule.v
theories/M_Array.v
theories/M_Training.v
theories/Spec_Joint.v
theories/L_Asg.v
theories/L_BP.v
theories/Spec_Stats.v
theories/L_Stats.v
theories/L_Trainer.v
theories/L_BPVec.v
theories/Spec_Conditional.v
theories/L_AddRow.v
theories/L_Conditional.v
theories/Spec_EdgeLogits.v
theories/L_EdgeLogits.v
theories/M_Parallel.v
theories/L_Parallel.v
theories/Properties_Training.v
theories/Spec_Gibbs.v
theories/L_Gibbs.v
theories/Spec_Model.v
theories/L_Train.v
theories/M_Ensemble.v
theories/Spec_Ensemble.v
theories/L_Ensemble.v
theories/L_Ensemble2.v
theories/Properties_Training2.v
theories/M_Serving.v
theories/Spec_Serving.v
theories/L_Server.v
theories/L_Inward.v
theories/L_Logprob.v
theories/L_Serve1.v
theories/Properties_Serving.v
theories/L_Draws.v
theories/L_Sample.v
theories/L_SampleCounts.v
theories/L_Serve2.v
theories/Properties_Sampling.v
theories/L_Path.v
theories/L_Marginals.v
theories/L_MargPost.v
theories/L_Serve3.v
theories/L_Median.v
theories/L_Entropy.v
theories/L_Corr.v
theories/Spec_Summary.v
theories/L_Summary.v
theories/L_Draw2.v
theories/L_Observed.v
theories/Properties_Marginals.v
theories/M_EnsembleServer.v
theories/L_Shuffle.v
theories/L_EnsServe.v
theories/L_EnsServe2.v
theories/M_Repaired.v
theories/L_Repaired.v
theories/L_Repaired2.v
theories/Properties_Ensemble.v
theories/M_Format.v
theories/Spec_Strings.v
theories/L_Strings.v
theories/L_Strings2.v
theories/Spec_Schema.v
theories/L_Dict.v
theories/L_Schema.v
theories/L_Import.v
theories/L_Import2.v
theories/M_Groups.v
theories/Spec_Groups.v
theories/L_Groups.v
theories/L_Groups2.v
theories/Properties_Format.v
theories/Spec_Guess.v
theories/L_Guess.v
theories/L_Guess2.v
theories/Spec_Checks.v
theories/L_Schema2.v
theories/Properties_Guess.v
theories/M_DataServer.v
theories/Spec_DataServer.v
theories/L_DataServer.v
theories/L_DataServer2.v
theories/L_DataServer3.v
theories/L_DataServer4.v
theories/L_DataServer5.v
theories/M_Repaired2.v
theories/Spec_Median.v
theories/L_DataServer6.v
theories/Properties_DataServer.v
theories/M_Validate.v
theories/Spec_Validate.v
theories/L_Validate.v
theories/L_Validate2.v
theories/M_Repaired3.v
theories/L_Repaired3.v
theories/L_Validate3.v
theories/Properties_Validate.v
theories/M_Cache.v
theories/Spec_Cache.v
theories/L_Cache.v
theories/M_Repaired4.v
theories/L_Repaired4.v
theories/L_Observed2.v
theories/Properties_Cache.v
theories/M_Generate.v
theories/Spec_Generate.v
theories/L_Generate.v
theories/L_Generate2.v
theories/L_Generate3.v
theories/L_GenerateEx.v
theories/Properties_Generate.v
theories/Spec_Epoch.v
theories/L_Epoch.v
theories/Spec_Evidence.v
theories/L_Evidence.v
theories/L_Evidence2.v
theories/L_Evidence3.v
theories/Properties_Posterior.v
theories/M_Workflow.v
theories/Spec_Workflow.v
theories/L_Workflow.v
theories/Properties_Workflow.v
theories/L_Doeblin.v
theories/L_TreeReach.v
theories/L_Converge.v
theories/L_Converge2.v
theories/Properties_Converge.v
theories/M_Float32.v
theories/M_Train32.v
theories/Spec_Float32.v
theories/L_Float32.v
theories/L_Sample32.v
theories/L_Train32.v
theories/L_Train32b.v
theories/L_Train32c.v
theories/L_Train32d.v
theories/L_Train32e.v
theories/L_Train32f.v
theories/L_Train32g.v
theories/L_Train32h.v
theories/L_Train32i.v
theories/L_Train32j.v
theories/L_Repair7.v
theories/M_Serving32.v
theories/Spec_Serving32.v
theories/L_Serving32a.v
theories/L_Serving32b.v
theories/L_Serving32c.v
theories/L_Serving32d.v
theories/L_Serving32e.v
theories/L_Serving32f.v
theories/M_Repaired8.v
theories/L_Serving32g.v
theories/L_Repair8.v
theories/M_Sample32.v
theories/M_Repaired9.v
theories/L_ServeSample.v
theories/L_ServeSample2.v
theories/L_ServeSample3.v
theories/L_Repair9.v
theories/M_Marg32.v
theories/M_Repaired10.v
theories/Spec_Marg32.v
theories/L_Marg32.v
theories/L_Marg32b.v
theories/L_Marg32c.v
theories/L_Repair10.v
theories/Spec_Accuracy.v
theories/L_Acc1.v
theories/L_Acc2.v
theories/L_Acc3.v
theories/L_Acc4.v
theories/L_Acc5.v
theories/L_Acc6.v
theories/L_Acc7.v
theories/M_Profile.v
theories/Spec_Profile.v
theories/L_Profile.v
theories/Properties_Profile.v
theories/Properties_Float.v
theories/M_Main.v
theories/L_Main.v
theories/Properties_Main.v
theories/M_Commands.v
theories/Spec_Commands.v
theories/L_Commands.v
theories/Properties_Commands.v
theories/M_Plot.v
theories/Spec_Plot.v
theories/L_Plot1.v
theories/L_Plot2.v
theories/L_Plot3.v
theories/L_Plot4.v
theories/M_Plot2.v
theories/Spec_Svg.v
theories/L_Plot5.v
theories/M_Repaired6.v
theories/M_Repaired7.v
theories/L_Plot6.v
theories/L_Plot7.v
theories/L_Svg.v
theories/M_Repaired5.v
theories/L_Repaired5.v
theories/M_Layout.v
theories/Spec_Layout.v
theories/L_Layout.v
theories/Properties_Plot.v
theories/M_Join.v
theories/Spec_Join.v
theories/L_Join.v
theories/L_Join2.v
theories/L_Join3.v
theories/Properties_Join.v
theories/L_Law1.v
theories/L_Law2.v
theories/L_Law3.v
theories/Spec_Law.v
theories/L_Law4.v
theories/L_Law5.v
theories/L_Law6.v
theories/L_Grid.v
theories/L_Grid2.v
theories/L_Grid3.v
theories/Properties_Law.v
theories/Spec_TrainLaw.v
theories/L_TLaw1.v
theories/L_TLaw2.v
theories/L_TLaw3.v
theories/L_TLaw4.v
theories/L_TLaw5.v
theories/L_TLaw6.v
theories/L_TLaw7.v
theories/Properties_TrainLaw.v
theories/M_SampleTree32.v
theories/Spec_Tree32.v
theories/L_Tree32a.v
theories/L_Tree32b.v
theories/L_Tree32c.v
theories/L_Tree32d.v
theories/Properties_Tree32.v
theories/M_Logits32.v
theories/Spec_Logits32.v
theories/L_Logits32a.v
theories/L_Logits32b.v
theories/L_Logits32c.v
theories/L_Logits32d.v
theories/L_Logits32e.v
theories/L_Logits32f.v
theories/Properties_Logits32.v
theories/M_EstimateTree32.v
theories/M_Run32.v
theories/Spec_Run32.v
theories/L_EstTree32.v
theories/L_Run32a.v
theories/L_Run32b.v
theories/L_Run32c.v
theories/Properties_Run32.v
theories/Spec_RunLaw32.v
theories/L_RunLaw32a.v
theories/L_RunLaw32b.v
theories/L_RunLaw32c.v
theories/L_RunLaw32d.v
theories/L_RunLaw32e.v
theories/L_RunLaw32f.v
theories/L_RunLaw32g.v
theories/Properties_RunLaw32.v
theories/M_Ensemble32.v
theories/Spec_Ensemble32.v
theories/L_Ensemble32a.v
theories/L_Ensemble32b.v
theories/L_Ensemble32c.v
theories/Properties_Ensemble32.v
theories/M_EnsSample32.v
theories/Spec_EnsSample32.v
theories/L_EnsSample32.v
theories/Properties_EnsSample32.v
theories/M_JoinFiles.v
theories/Spec_JoinFiles.v
theories/L_JoinFiles.v
theories/Properties_JoinFiles.v
theories/M_Tables.v
theories/Spec_Tables.v
theories/L_Tables.v
theories/Properties_Tables.v
theories/M_Options.v
theories/L_Options.v
theories/Properties_Options.v
theories/M_Pickle.v
theories/Spec_Pickle.v
theories/L_Pickle.v
theories/Properties_Pickle.v
theories/L_Param.v
theories/Properties_Param.v
