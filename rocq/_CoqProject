-Q theories Verif
theories/M_Base.v
theories/M_Data.v
theories/M_Mem.v
theories/M_Heed.v
theories/M_Duck.v
theories/M_Graph.v
theories/M_Regex.v
theories/M_Lexer.v
theories/M_Parser.v
theories/M_Display.v
theories/M_Interp.v
theories/M_Hosts.v
theories/S_Order.v
theories/S_Str.v
theories/S_Store.v
theories/S_Codec.v
theories/S_Graph.v
theories/S_GraphHist.v
theories/P_Ord.v
theories/P_Hist.v
theories/P_Mem.v
theories/Prop_Mem.v
theories/P_Codec.v
theories/P_Heed.v
theories/P_HeedHist.v
theories/P_HeedMore.v
theories/Prop_Heed.v
theories/M_Txn.v
theories/S_Txn.v
theories/P_Txn.v
theories/P_TxnRem.v
theories/Prop_Txn.v
theories/P_Duck.v
theories/Prop_Duck.v
theories/M_DuckTxn.v
theories/P_DuckTxn.v
theories/Prop_DuckTxn.v
theories/P_Agree.v
theories/Prop_Agree.v
theories/P_Graph.v
theories/P_GraphHist.v
theories/Prop_Graph.v
theories/Prop_GraphHist.v
theories/S_Lexer.v
theories/P_Str.v
theories/P_Regex.v
theories/P_Lexer.v
theories/P_LexMore.v
theories/Prop_Lexer.v
theories/S_Parser.v
theories/P_Parser.v
theories/Prop_Parser.v
theories/S_Display.v
theories/P_Display.v
theories/P_Reread.v
theories/Prop_Display.v
theories/S_Interp.v
theories/P_Interp.v
theories/P_InterpMore.v
theories/P_InterpStores.v
theories/P_Crash.v
theories/P_Sim.v
theories/P_InterpProps.v
theories/Prop_Interp.v
theories/P_Script.v
theories/Prop_Script.v
theories/S_Port.v
theories/P_Port.v
theories/Prop_Port.v
theories/S_Hosts.v
theories/P_Hosts.v
theories/P_Apps.v
theories/M_Lig.v
theories/S_Lig.v
theories/P_Lig.v
theories/Prop_Lig.v
theories/Prop_Hosts.v
theories/Prop_Apps.v
theories/M_Conc.v
theories/S_Conc.v
theories/P_Conc.v
theories/Prop_Conc.v
theories/P_ConcMore.v
theories/Prop_ConcMore.v
theories/M_Open.v
theories/S_Open.v
theories/P_Open.v
theories/Prop_Open.v
theories/S_Filter.v
theories/P_Filter.v
theories/Prop_Filter.v
theories/S_Equiv.v
theories/P_Equiv.v
theories/Prop_Equiv.v
theories/M_Derive.v
theories/S_Derive.v
theories/P_Derive.v
theories/Prop_Derive.v
theories/M_Serde.v
theories/S_Json.v
theories/P_Serde.v
theories/Prop_Serde.v
theories/P_Print.v
theories/Prop_Print.v
theories/S_Names.v
theories/P_Names.v
theories/Prop_Names.v
theories/S_Look.v
theories/P_Look.v
theories/Prop_Look.v
theories/M_Bytes.v
theories/P_Bytes.v
theories/Prop_Bytes.v
theories/S_Rename.v
theories/P_Rename.v
theories/Prop_Rename.v
theories/M_Debug.v
theories/S_Errors.v
theories/P_Debug.v
theories/P_Literal.v
theories/P_Errors.v
theories/P_Texts.v
theories/Prop_Errors.v
theories/S_Calm.v
theories/P_Calm.v
theories/Prop_Calm.v
theories/S_Undo.v
theories/P_Undo.v
theories/Prop_Undo.v
theories/M_Redb.v
theories/S_Redb.v
theories/P_Redb.v
theories/Prop_Redb.v
theories/S_Wander.v
theories/P_Wander.v
theories/P_WanderStores.v
theories/P_WanderDet.v
theories/P_WanderReal.v
theories/P_WanderRun.v
theories/Prop_Wander.v
theories/M_HeedBytes.v
theories/S_HeedBytes.v
theories/P_HeedBytes.v
theories/Prop_HeedBytes.v
theories/S_Depth.v
theories/P_Depth.v
theories/Prop_Depth.v
theories/S_Space.v
theories/P_Space.v
theories/P_Space2.v
theories/Prop_Space.v
theories/S_CalmOn.v
theories/P_CalmOn.v
theories/Prop_CalmOn.v
theories/S_Trouble.v
theories/Prop_Trouble.v
theories/S_GraphLaws.v
theories/P_GraphLaws.v
theories/Prop_GraphLaws.v
theories/S_Rewrite.v
theories/P_Rewrite.v
theories/P_RewriteLaws.v
theories/Prop_Rewrite.v
theories/S_Dump.v
theories/P_Dump.v
theories/Prop_Dump.v
theories/S_Template.v
theories/P_Template.v
theories/Prop_Template.v
theories/S_Opaque.v
theories/P_Opaque.v
theories/Prop_Opaque.v
theories/S_Footprint.v
theories/P_Footprint.v
theories/Prop_Footprint.v
theories/S_Monotone.v
theories/P_Monotone.v
theories/Prop_Monotone.v
theories/P_ConcFoot.v
theories/Prop_ConcFoot.v
theories/M_Lines.v
theories/S_Lines.v
theories/P_Lines.v
theories/P_LinesCount.v
theories/Prop_Lines.v
theories/S_ConcSee.v
theories/P_ConcSee.v
theories/Prop_ConcSee.v
theories/M_TxnConc.v
theories/S_TxnConc.v
theories/P_TxnConc.v
theories/P_TxnSee.v
theories/Prop_TxnConc.v
theories/S_Contract.v
theories/P_Contract.v
theories/Prop_Contract.v
theories/M_DuckReal.v
theories/S_DuckReal.v
theories/P_DuckReal.v
theories/Prop_DuckReal.v
theories/M_HeedRel.v
theories/P_HeedRel.v
theories/Prop_HeedRel.v
theories/Prop_RealScripts.v
theories/S_Again.v
theories/P_Again.v
theories/Prop_Again.v
theories/S_Deaths.v
theories/P_Deaths.v
theories/P_DeathRun.v
theories/Prop_Deaths.v
theories/S_Failing.v
theories/P_Failing.v
theories/P_FailRun.v
theories/Prop_Failing.v
theories/M_Commands.v
theories/S_Commands.v
theories/P_Commands.v
theories/Prop_Commands.v
theories/S_Retry.v
theories/P_Retry.v
theories/P_RetryPlain.v
theories/Prop_Retry.v
theories/P_HeedIds.v
theories/Prop_HeedIds.v
theories/M_HostConc.v
theories/S_HostConc.v
theories/P_HostConc.v
theories/P_HostLmdb.v
theories/Prop_HostConc.v
theories/S_AnyRetry.v
theories/P_AnyRetry.v
theories/Prop_AnyRetry.v
theories/S_Isolated.v
theories/P_Isolated.v
theories/Prop_Isolated.v
theories/S_ConcFail.v
theories/P_ConcFail.v
theories/Prop_ConcFail.v
theories/S_Fair.v
theories/P_Fair.v
theories/Prop_Fair.v
theories/S_Gens.v
theories/P_Gens.v
theories/P_GensRetry.v
theories/Prop_Gens.v
theories/S_Apart.v
theories/P_Apart.v
theories/Prop_Apart.v
theories/S_Demand.v
theories/P_Demand.v
theories/Prop_Demand.v
theories/P_Alike.v
theories/S_Lives.v
theories/Prop_Lives.v
theories/P_InTurn.v
theories/Prop_InTurn.v
theories/V_Tests.v
theories/P_Rerun.v
theories/Prop_Rerun.v
theories/S_Frame.v
theories/P_Frame.v
theories/Prop_Frame.v
