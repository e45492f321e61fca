-Q theories Verif
theories/Machine.v
theories/MachineFacts.v
theories/Jit.v
theories/ShadowSpec.v
theories/JitFacts.v
theories/JitPushPop.v
theories/History.v
theories/RegFrame.v
theories/ZeroWord.v
theories/Threads.v
theories/Runtime.v
theories/Witness.v
theories/Opts.v
theories/FrameVal.v
theories/Capacity.v
theories/Dfs.v
theories/Binary.v
theories/CallGraph.v
theories/InterProc.v
theories/MemPasses.v
theories/Pipeline.v
theories/RegNames.v
theories/BlockLive.v
theories/ExSem.v
theories/ExCode.v
theories/P_Snippets.v
theories/P_Runtime.v
theories/P_CallGraph.v
theories/P_Regs.v
theories/SafePaths.v
theories/P_Paths.v
theories/Reach.v
theories/Lowering.v
theories/P_Lower.v
theories/FastPath.v
theories/Decision.v
theories/P_Instr.v
theories/Components.v
theories/P_Cfg.v
theories/Heap.v
theories/HeapFacts.v
theories/HeapRun.v
theories/P_Heap.v
theories/P_HeapFlow.v
theories/P_HeapLoop.v
theories/Util.v
theories/P_Util.v
theories/FullRun.v
theories/Whole.v
theories/P_Whole.v
theories/Sites.v
theories/SiteEx.v
theories/P_Sites.v
theories/P_SiteUse.v
theories/Writes.v
theories/P_Writes.v
theories/P_HeapPass.v
theories/P_Run.v
theories/Order.v
theories/Activation.v
theories/PlanCode.v
theories/ActRun.v
theories/Follow.v
theories/P_Activation.v
theories/SkipList.v
theories/Report.v
theories/P_Config.v
theories/DeadRegs.v
theories/P_Tail.v
theories/RegRun.v
theories/P_RegRun.v
theories/FullMode.v
theories/P_Full.v
theories/P_Follow.v
theories/Tree.v
theories/TreeFacts.v
theories/P_Tree.v
theories/P_Options.v
theories/FullExec.v
theories/FullExecFacts.v
theories/P_FullExec.v
theories/FullSame.v
theories/P_FullSame.v
theories/FullBack.v
theories/P_FullBack.v
theories/LightReg.v
theories/LightSame.v
theories/LightFollow.v
theories/P_LightSame.v
theories/LightDet.v
theories/P_LightAll.v
theories/CfTool.v
theories/P_CfTool.v
theories/Tools.v
theories/P_Tools.v
theories/Scripts.v
theories/P_Scripts.v
