-Q theories Verif
theories/DisjointSet/Model.v
theories/DisjointSet/Spec.v
theories/DisjointSet/Proofs.v
theories/DisjointSet/Properties.v
theories/HashSet/Model.v
theories/HashSet/Spec.v
theories/HashSet/Proofs.v
theories/HashSet/Properties.v
theories/BijectiveMap/Model.v
theories/BijectiveMap/Spec.v
theories/BijectiveMap/Proofs.v
theories/BijectiveMap/Properties.v
theories/Worklist/Model.v
theories/Worklist/Spec.v
theories/Worklist/Proofs.v
theories/Worklist/Properties.v
theories/MathUtil/Model.v
theories/MathUtil/Spec.v
theories/MathUtil/Proofs.v
theories/MathUtil/Properties.v
theories/FilePath/Model.v
theories/FilePath/Proofs.v
theories/FilePath/Properties.v
theories/Tarjan/Model.v
theories/Tarjan/Spec.v
theories/Tarjan/Proofs.v
theories/Tarjan/Properties.v
theories/Bits/Model.v
theories/Bits/Spec.v
theories/Bits/Proofs.v
theories/Bits/Proofs2.v
theories/Bits/Proofs3.v
theories/Bits/Properties.v
theories/Unroll/Model.v
theories/Unroll/Spec.v
theories/Unroll/Proofs.v
theories/Unroll/Properties.v
theories/CommandGraph/Model.v
theories/CommandGraph/Spec.v
theories/CommandGraph/Proofs.v
theories/CommandGraph/Proofs2.v
theories/CommandGraph/Properties.v
theories/Region/Model.v
theories/Region/Spec.v
theories/Region/Proofs.v
theories/Region/Proofs2.v
theories/Region/Proofs3.v
theories/Region/Proofs4.v
theories/Region/Proofs5.v
theories/Region/Proofs6.v
theories/Region/Proofs7.v
theories/Region/Proofs8.v
theories/Region/Proofs9.v
theories/Region/Properties.v
theories/Region/Properties2.v
theories/Traverser/Model.v
theories/Traverser/Spec.v
theories/Traverser/Proofs.v
theories/Traverser/Proofs2.v
theories/Traverser/Proofs3.v
theories/Traverser/Proofs4.v
theories/Traverser/Proofs5.v
theories/Traverser/Proofs6.v
theories/Traverser/Proofs7.v
theories/Traverser/Proofs8.v
theories/Traverser/Proofs9.v
theories/Traverser/Proofs10.v
theories/Traverser/Proofs11.v
theories/Traverser/Proofs12.v
theories/Traverser/Script.v
theories/Traverser/Properties.v
theories/Andersen/Model.v
theories/Andersen/Spec.v
theories/Andersen/Proofs.v
theories/Andersen/Proofs2.v
theories/Andersen/Proofs3.v
theories/Andersen/Proofs4.v
theories/Andersen/Proofs5.v
theories/Andersen/Properties.v
theories/Andersen/WModel.v
theories/Andersen/WProofs.v
theories/Andersen/WProofs2.v
theories/Andersen/WProofs3.v
theories/Andersen/WProofs4.v
theories/Andersen/WProofs5.v
theories/Andersen/WProofs6.v
theories/Andersen/WProofs7.v
theories/Andersen/WProofs8.v
theories/Andersen/WProofs9.v
theories/Andersen/WProofs10.v
theories/Andersen/WProofs11.v
theories/Andersen/WProperties.v
theories/Andersen/WProofs12.v
theories/Andersen/WProperties2.v
theories/Rvsdg/Model.v
theories/Rvsdg/Spec.v
theories/Rvsdg/Sem.v
theories/Rvsdg/Wf.v
theories/Rvsdg/ListFacts.v
theories/Rvsdg/WfFacts.v
theories/Rvsdg/Det.v
theories/Dne/Model.v
theories/Dne/Spec.v
theories/Dne/ProofsMark.v
theories/Dne/Rel.v
theories/Dne/ProofsList.v
theories/Dne/ProofsNode.v
theories/Dne/ProofsGamma.v
theories/Dne/ProofsTheta.v
theories/Dne/ProofsLambda.v
theories/Dne/ProofsIds.v
theories/Dne/ProofsShrink.v
theories/Dne/ProofsAlive.v
theories/Dne/ProofsMain.v
theories/Dne/ProofsKeep.v
theories/Dne/Properties.v
theories/Dne/Examples.v
theories/Rvsdg/Sim.v
theories/Rvsdg/Args.v
theories/Rvsdg/Refine.v
theories/Rvsdg/Chase.v
theories/Ivr/Model.v
theories/Ivr/ProofsRel.v
theories/Ivr/Spec.v
theories/Ivr/ProofsWf.v
theories/Ivr/ProofsMain.v
theories/Ivr/Properties.v
theories/Ivr/Examples.v
theories/Rvsdg/Divert.v
theories/Ivr/GammaModel.v
theories/Ivr/GammaProofs.v
theories/Rvsdg/Local.v
theories/Rvsdg/Run.v
theories/Cne/Model.v
theories/Cne/Spec.v
theories/Cne/ProofsSem.v
theories/Cne/ProofsState.v
theories/Cne/Just.v
theories/Cne/JustView.v
theories/Cne/Pre.v
theories/Cne/ProofsPart.v
theories/Cne/ProofsSimple.v
theories/Cne/ProofsOuts.v
theories/Cne/ProofsSubs.v
theories/Cne/ProofsMain.v
theories/Cne/ProofsFresh.v
theories/Cne/Bug.v
theories/Cne/Properties.v
theories/Cne/TotalSimple.v
theories/Cne/TotalOuts.v
theories/Cne/TotalMain.v
theories/Cne/PropertiesTotal.v
theories/BinOp/Model.v
theories/BinOp/Spec.v
theories/BinOp/Proofs.v
theories/BinOp/Proofs2.v
theories/BinOp/Proofs3.v
theories/BinOp/Properties.v
theories/Types/Model.v
theories/Types/Spec.v
theories/Types/Proofs.v
theories/Types/Proofs2.v
theories/Types/Properties.v
theories/Trace/Model.v
theories/Trace/Spec.v
theories/Trace/ProofsOwners.v
theories/Trace/ProofsOrder.v
theories/Trace/ProofsThrough.v
theories/Trace/ProofsStep.v
theories/Trace/ProofsMain.v
theories/Trace/ProofsCache.v
theories/Trace/ProofsStops.v
theories/Trace/Properties.v
theories/Construct/Model.v
theories/Construct/Spec.v
theories/Construct/ProofsSets.v
theories/Construct/ProofsSim.v
theories/Construct/ProofsWf.v
theories/Construct/ProofsTotal.v
theories/Construct/ProofsFun.v
theories/Construct/Properties.v
theories/Cfg/Model.v
theories/Cfg/Spec.v
theories/Cfg/ProofsBase.v
theories/Cfg/ProofsStraighten.v
theories/Cfg/ProofsComplete.v
theories/Cfg/ProofsPurge.v
theories/Cfg/ProofsPrune.v
theories/Cfg/ProofsSsa1.v
theories/Cfg/ProofsSsa2.v
theories/Cfg/ProofsSsa3.v
theories/Cfg/ProofsCheck.v
theories/Cfg/Reducible.v
theories/Cfg/Properties.v
theories/Aggregation/Model.v
theories/Aggregation/Spec.v
theories/Aggregation/ProofsRun.v
theories/Aggregation/ProofsInv.v
theories/Aggregation/ProofsStep.v
theories/Aggregation/ProofsAcyclic.v
theories/Aggregation/ProofsLoops.v
theories/Aggregation/ProofsAggregate.v
theories/Aggregation/ProofsTop.v
theories/Aggregation/ProofsNormalize.v
theories/Aggregation/ProofsScc.v
theories/Aggregation/Properties.v
theories/Memory/Model.v
theories/Memory/Spec.v
theories/Memory/Proofs.v
theories/Memory/ProofsMain.v
theories/Memory/ProofsAlloca.v
theories/Memory/Properties.v
theories/ScalarEvolution/Model.v
theories/ScalarEvolution/Spec.v
theories/ScalarEvolution/Proofs.v
theories/ScalarEvolution/Proofs2.v
theories/ScalarEvolution/Proofs3.v
theories/ScalarEvolution/Proofs4.v
theories/ScalarEvolution/Proofs5.v
theories/ScalarEvolution/Proofs6.v
theories/ScalarEvolution/Proofs7.v
theories/ScalarEvolution/Proofs8.v
theories/ScalarEvolution/Properties.v
theories/ScalarEvolution/TripModel.v
theories/ScalarEvolution/TripSpec.v
theories/ScalarEvolution/TripProofs.v
theories/ScalarEvolution/TripProofs2.v
theories/ScalarEvolution/TripProofs3.v
theories/ScalarEvolution/TripProperties.v
theories/AliasQuery/Model.v
theories/AliasQuery/Spec.v
theories/AliasQuery/ProofsTrace.v
theories/AliasQuery/ProofsEscape.v
theories/AliasQuery/ProofsQuery.v
theories/AliasQuery/Properties.v
theories/AliasQuery/ModelGep.v
theories/AliasQuery/SpecGep.v
theories/AliasQuery/PropertiesGep.v
theories/AliasQuery/ModelPtg.v
theories/AliasQuery/PropertiesPtg.v
theories/LocalRegion/Model.v
theories/LocalRegion/Spec.v
theories/LocalRegion/Facts.v
theories/Unswitch/Model.v
theories/Unswitch/Spec.v
theories/Unswitch/Proofs1.v
theories/Unswitch/Proofs2.v
theories/Unswitch/Proofs3.v
theories/Unswitch/Proofs4.v
theories/Unswitch/Proofs5.v
theories/Unswitch/Proofs6.v
theories/Unswitch/Proofs7.v
theories/Unswitch/Properties.v
theories/IfConv/Model.v
theories/IfConv/Spec.v
theories/IfConv/Proofs1.v
theories/IfConv/Proofs2.v
theories/IfConv/Proofs3.v
theories/IfConv/Proofs4.v
theories/IfConv/Proofs5.v
theories/IfConv/Properties.v
theories/Sinking/Model.v
theories/Sinking/Spec.v
theories/Sinking/Proofs1.v
theories/Sinking/Proofs2.v
theories/Sinking/Proofs3.v
theories/Sinking/Properties.v
theories/LocalRegion/Run.v
theories/Hoisting/Model.v
theories/Hoisting/Spec.v
theories/Hoisting/Proofs1.v
theories/Hoisting/Proofs2.v
theories/Hoisting/Proofs3.v
theories/Hoisting/Proofs4.v
theories/Hoisting/Properties.v
theories/Destruct/Model.v
theories/Destruct/Spec.v
theories/Destruct/Proofs1.v
theories/Destruct/Proofs2.v
theories/Destruct/Proofs3.v
theories/Destruct/Proofs4.v
theories/Destruct/Proofs5.v
theories/Destruct/Proofs6.v
theories/Destruct/Proofs7.v
theories/Destruct/Proofs8.v
theories/Destruct/Proofs9.v
theories/Destruct/Properties.v
theories/Inlining/Model.v
theories/Inlining/Spec.v
theories/Inlining/Proofs1.v
theories/Inlining/Proofs2.v
theories/Inlining/Proofs3.v
theories/Inlining/Proofs4.v
theories/Inlining/Proofs5.v
theories/Inlining/Properties.v
theories/Domtree/Model.v
theories/Domtree/Spec.v
theories/Domtree/Proofs1.v
theories/Domtree/Proofs2.v
theories/Domtree/Proofs3.v
theories/Domtree/Properties.v
theories/PredTrace/Model.v
theories/PredTrace/Spec.v
theories/PredTrace/Proofs1.v
theories/PredTrace/Proofs2.v
theories/PredTrace/Examples.v
theories/PredTrace/Proofs3.v
theories/PredTrace/Proofs4.v
theories/PredTrace/Examples2.v
theories/CfgOrder/Model.v
theories/CfgOrder/Spec.v
theories/CfgOrder/Proofs1.v
theories/CfgOrder/Proofs2.v
theories/CfgOrder/Examples.v
theories/ThetaGamma/Model.v
theories/ThetaGamma/Spec.v
theories/ThetaGamma/Proofs.v
theories/ThetaGamma/Examples.v
theories/CallRedirect/Model.v
theories/CallRedirect/Spec.v
theories/CallRedirect/Proofs.v
theories/CallRedirect/Examples.v
theories/IoBarrier/Model.v
theories/IoBarrier/Spec.v
theories/IoBarrier/Proofs.v
theories/IoBarrier/Examples.v
theories/LoadChain/Model.v
theories/LoadChain/Spec.v
theories/LoadChain/Proofs.v
theories/LoadChain/Examples.v
theories/AllocaSplit/Model.v
theories/AllocaSplit/Spec.v
theories/AllocaSplit/Proofs.v
theories/AllocaSplit/Examples.v
