-Q theories Verif
theories/Ord.v
theories/OrdFacts.v
theories/BTree.v
theories/BTreeFacts.v
theories/Graph.v
theories/SpecGraph.v
theories/GraphFacts.v
theories/Tx.v
theories/TxMachine.v
theories/SpecTx.v
theories/TxFacts.v
theories/TxMachineFacts.v
theories/TxInv.v
theories/TxHist.v
theories/Demo.v
theories/Interval.v
theories/SpecInterval.v
theories/IntervalFacts.v
theories/DemoInterval.v
theories/TreeCalls.v
theories/SpecTreeCalls.v
theories/TreeCallsFacts.v
theories/P_TreeCalls.v
theories/TreePanics.v
theories/SpecTreePanics.v
theories/TreePanicsFacts.v
theories/P_TreePanics.v
theories/Date.v
theories/DateFacts.v
theories/Proxy.v
theories/SpecProxy.v
theories/ProxyFacts.v
theories/Lazy.v
theories/SpecLazy.v
theories/LazyFacts.v
theories/Prog.v
theories/SpecProg.v
theories/ProgFacts.v
theories/ProgFrame.v
theories/ProgTx.v
theories/ProgOps.v
theories/ProgTerm.v
theories/ProgRes.v
theories/Path.v
theories/PathOrd.v
theories/Cli.v
theories/SpecCli.v
theories/PathFacts.v
theories/P_Graph.v
theories/CliFacts.v
theories/P_Tx.v
theories/P_Interval.v
theories/P_Date.v
theories/P_Proxy.v
theories/P_Lazy.v
theories/P_Prog.v
theories/P_Ops.v
theories/P_Res.v
theories/P_Cli.v
theories/Plugin.v
theories/SpecPlugin.v
theories/PluginFacts.v
theories/P_Plugin.v
theories/PluginScripts.v
theories/P_Scripts.v
theories/SpecPlugins.v
theories/PluginsFacts.v
theories/P_Plugins.v
theories/ProxyThreads.v
theories/SpecProxyThreads.v
theories/ProxyThreadsFacts.v
theories/P_ProxyThreads.v
theories/Utf8.v
theories/SpecUtf8.v
theories/Utf8Facts.v
theories/Regex.v
theories/SpecRegex.v
theories/RegexFacts.v
theories/CliMain.v
theories/P_Regex.v
theories/SpecMain.v
theories/P_Main.v
theories/Args.v
theories/SpecArgs.v
theories/ArgsFacts.v
theories/P_Args.v
theories/ProgTrace.v
theories/SpecTrace.v
theories/TraceFacts.v
theories/TraceLeaks.v
theories/P_Trace.v
theories/ProgEvents.v
theories/SpecEvents.v
theories/EventFacts.v
theories/EventProgs.v
theories/P_Events.v
theories/SpecAvoid.v
theories/AvoidFacts.v
theories/P_Avoid.v
theories/SpecPending.v
theories/PendingFacts.v
theories/RewriteFacts.v
theories/P_Pending.v
theories/Multi.v
theories/SpecMulti.v
theories/MultiFacts.v
theories/P_Multi.v
theories/Logs.v
theories/SpecLogs.v
theories/P_Logs.v
theories/LazyGraph.v
theories/SpecLazyGraph.v
theories/LazyGraphFacts.v
theories/P_LazyGraph.v
theories/Guards.v
theories/SpecGuards.v
theories/GuardsFacts.v
theories/P_Guards.v
theories/Drops.v
theories/SpecDrops.v
theories/DropsFacts.v
theories/P_Drops.v
theories/Reenter.v
theories/SpecReenter.v
theories/ReenterFacts.v
theories/P_Reenter.v
theories/Cells.v
theories/SpecCells.v
theories/CellsFacts.v
theories/P_Cells.v
theories/Unwind.v
theories/SpecUnwind.v
theories/UnwindFacts.v
theories/P_Unwind.v
theories/SpecCalls.v
theories/CallsFacts.v
theories/CallsCells.v
theories/CallsProgs.v
theories/CallsDet.v
theories/P_Calls.v
theories/SpecCrash.v
theories/CrashFacts.v
theories/P_Crash.v
theories/LazySchema.v
theories/SpecLazySchema.v
theories/LazySchemaFacts.v
theories/P_LazySchema.v
theories/RepoTests.v
theories/UserCalls.v
theories/SpecUserCalls.v
theories/UserCallsFacts.v
theories/P_UserCalls.v
theories/SpecProgDrops.v
theories/ProgDropsFacts.v
theories/P_ProgDrops.v
theories/Stdout.v
theories/SpecStdout.v
theories/StdoutFacts.v
theories/P_Stdout.v
theories/PluginCalls.v
theories/SpecPluginCalls.v
theories/PluginCallsFacts.v
theories/P_PluginCalls.v
theories/P_Counts.v
theories/P_Escapes.v
theories/SpecSpelling.v
theories/P_Spelling.v
theories/Process.v
theories/P_Process.v
