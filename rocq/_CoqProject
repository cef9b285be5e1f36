-Q theories Verif
theories/Base.v
theories/Machine.v
theories/Ports.v
theories/PortsProofs.v
theories/PortsLive.v
theories/PortsTerm.v
theories/PortsExec.v
theories/P_Ports.v
theories/Brigade.v
theories/BrigadeProofs.v
theories/Graph.v
theories/Build.v
theories/BuildProofs.v
theories/BuildMore.v
theories/BuildMain.v
theories/BuildTerm.v
theories/P_Build.v
theories/P_Brigade.v
theories/Env.v
theories/Visitor.v
theories/VisitorProofs.v
theories/Hash.v
theories/P_Hash.v
theories/Pass.v
theories/Run.v
theories/Walk.v
theories/Fold.v
theories/P_Fold.v
theories/Traverse.v
theories/TraverseProofs.v
theories/ReduceProofs.v
theories/P_Traverse.v
theories/Construct.v
theories/Fabricate.v
theories/P_Fabricate.v
theories/Free.v
theories/P_Free.v
theories/Reserve.v
theories/P_Reserve.v
theories/Containers.v
theories/P_Containers.v
theories/Partition.v
theories/P_Partition.v
theories/Filter.v
theories/P_Filter.v
theories/Kill.v
theories/P_Kill.v
theories/P_Killed.v
theories/Induce.v
theories/P_Induce.v
theories/Mutate.v
theories/P_Mutate.v
theories/Merge.v
theories/MergeProofs.v
theories/P_Merge.v
theories/Dedup.v
theories/DedupProofs.v
theories/P_Dedup.v
theories/Errs.v
theories/P_Errs.v
theories/Infer.v
theories/P_Infer.v
theories/P_Sig.v
theories/Compose.v
theories/P_Compose.v
theories/Postpone.v
theories/P_Postpone.v
theories/Props.v
theories/Split.v
theories/P_Split.v
theories/Stretch.v
theories/StretchProofs.v
theories/P_Stretch.v
theories/Spread.v
theories/SpreadProofs.v
theories/P_Spread.v
theories/Errlog.v
theories/P_Errlog.v
theories/Abort.v
theories/P_Abort.v
theories/Context.v
theories/P_Context.v
theories/PortsFair.v
theories/P_Fair.v
theories/Locks.v
theories/P_Locks.v
theories/Declare.v
theories/P_Declare.v
theories/FreeOom.v
theories/P_FreeOom.v
theories/Search.v
theories/P_Search.v
theories/Lists.v
theories/P_Lists.v
theories/P_ListsLocal.v
theories/Status.v
theories/P_Status.v
theories/Crews.v
theories/P_Crews.v
theories/MergeFree.v
theories/P_MergeFree.v
theories/Init.v
theories/P_Init.v
theories/Ops.v
theories/P_Ops.v
theories/P_OpsKeep.v
theories/P_OpsEdge.v
theories/MutateFree.v
theories/P_MutateFree.v
theories/BrigadeFail.v
theories/P_BrigadeFail.v
theories/P_SpreadOnce.v
theories/Wrap.v
theories/P_Wrap.v
theories/MakeFree.v
theories/P_MakeFree.v
theories/SplitFree.v
theories/P_SplitFree.v
theories/MapFree.v
theories/P_MapFree.v
theories/InduceFree.v
theories/P_InduceFree.v
theories/Assumptions.v
