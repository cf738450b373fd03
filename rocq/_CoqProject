-Q theories Verif
theories/Base.v
theories/BaseProofs.v
theories/Ptr.v
theories/PtrSpec.v
theories/PtrProofs.v
theories/P_Ptr.v
theories/Native.v
theories/Value.v
theories/ValueSpec.v
theories/ValueProofs.v
theories/OrderProofs.v
theories/HashProofs.v
theories/P_Value.v
theories/Lock.v
theories/LockSpec.v
theories/LockProofs.v
theories/P_Lock.v
theories/Iter.v
theories/IterSpec.v
theories/IterProofs.v
theories/P_Iter.v
theories/Err.v
theories/Seq.v
theories/SeqSpec.v
theories/SeqProofs.v
theories/P_Seq.v
theories/Ops.v
theories/OpsSpec.v
theories/OpsProofs.v
theories/OpsProofs2.v
theories/OpsProofs3.v
theories/P_Ops.v
theories/Vm.v
theories/VmProofs.v
theories/VmSpec.v
theories/P_Vm.v
theories/Graph.v
theories/GraphSpec.v
theories/GraphProofs.v
theories/P_Graph.v
theories/Peep.v
theories/PeepSpec.v
theories/PeepProofs.v
theories/PeepProofs2.v
theories/P_Peep.v
theories/Disp.v
theories/DispSpec.v
theories/DispProofs.v
theories/P_Disp.v
theories/Heap.v
theories/HeapProofs.v
theories/Coll.v
theories/CollSpec.v
theories/CollProofs.v
theories/CollProofs2.v
theories/CollProofs3.v
theories/P_Coll.v
theories/Hof.v
theories/HofSpec.v
theories/HofProofs.v
theories/P_Hof.v
theories/Scan.v
theories/ScanSpec.v
theories/ScanProofs.v
theories/ScanProofs2.v
theories/ScanProofs3.v
theories/ScanProofs4.v
theories/P_Scan.v
theories/Memo.v
theories/MemoSpec.v
theories/MemoProofs.v
theories/P_Memo.v
theories/Copy.v
theories/CopySpec.v
theories/CopyProofs.v
theories/P_Copy.v
theories/Pattern.v
theories/PatternSpec.v
theories/PatternProofs.v
theories/PatternProofs2.v
theories/P_Pattern.v
theories/StrSpec.v
theories/Str.v
theories/StrProofs.v
theories/StrProofs2.v
theories/StrProofs3.v
theories/P_Str.v
theories/Lang.v
theories/LangSpec.v
theories/LangCheck.v
theories/Compile.v
theories/CompGraph.v
theories/CompGraph2.v
theories/CompFlow.v
theories/CompInv.v
theories/CompUnf.v
theories/CompSim1.v
theories/CompSim2.v
theories/CompSim3.v
theories/CompSim4.v
theories/CompLv.v
theories/CompSim5.v
theories/CompSim6.v
theories/CompSim7.v
theories/CompWf.v
theories/Lit.v
theories/LangProofs.v
theories/CompileSpec.v
theories/CompileProofs.v
theories/P_Compile.v
theories/Combi.v
theories/CombiSpec.v
theories/CombiProofs.v
theories/P_Combi.v
theories/Opt.v
theories/OptSpec.v
theories/OptProofs.v
theories/OptProofs2.v
theories/OptProofs3.v
theories/OptProofs4.v
theories/OptProofs5.v
theories/OptProofs6.v
theories/OptProofs7.v
theories/P_Opt.v
theories/Math.v
theories/P_Math.v
theories/RecHash.v
theories/RecHashSpec.v
theories/RecHashProofs.v
theories/P_RecHash.v
theories/Incr.v
theories/IncrSpec.v
theories/IncrProofs.v
theories/IncrProofs2.v
theories/P_Incr.v
theories/Resolve.v
theories/ResolveSpec.v
theories/ResolveProofs.v
theories/ResolveProofs2.v
theories/P_Resolve.v
theories/Parse.v
theories/ParseSpec.v
theories/ParseProofs.v
theories/ParseSound.v
theories/ParseComp.v
theories/ParseTerm.v
theories/ParseLine.v
theories/P_Parse.v
theories/Repr.v
theories/ReprSpec.v
theories/ReprLex.v
theories/ReprProofs.v
theories/ReprProofs2.v
theories/P_Repr.v
theories/TypeOf.v
theories/TypeOfSpec.v
theories/P_TypeOf.v
theories/Show.v
theories/ShowSpec.v
theories/ShowProofs.v
theories/P_Show.v
theories/Report.v
theories/ReportSpec.v
theories/ReportProofs.v
theories/ReportProofs2.v
theories/P_Report.v
theories/Struct.v
theories/StructSpec.v
theories/StructProofs.v
theories/StructProofs2.v
theories/StructProofs3.v
theories/P_Struct.v
theories/Syntax.v
theories/SyntaxSpec.v
theories/SyntaxProofs.v
theories/P_Syntax.v
theories/Cli.v
theories/CliSpec.v
theories/CliProofs.v
theories/P_Cli.v
theories/ReplRun.v
theories/Repl.v
theories/ReplSpec.v
theories/ReplProofs.v
theories/P_Repl.v
theories/LateBind.v
theories/LateSpec.v
theories/LateProofs.v
theories/P_Late.v
theories/Disasm.v
theories/DisasmSpec.v
theories/DisasmProofs.v
theories/P_Disasm.v
theories/ReplIo.v
theories/ReplIoSpec.v
theories/ReplIoProofs.v
theories/P_ReplIo.v
