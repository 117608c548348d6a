-Q theories Verif
theories/Again.v
theories/Alike.v
theories/AnswerProofs.v
theories/Answers.v
theories/ArithProofs.v
theories/Base.v
theories/Bbs.v
theories/BbsProofs.v
theories/Blank.v
theories/Build.v
theories/Chance.v
theories/ChanceProofs.v
theories/Cheat.v
theories/CheatProofs.v
theories/Checks.v
theories/Checks2.v
theories/Chosen.v
theories/ChosenProofs.v
theories/ChosenTree.v
theories/ChosenTreeProofs.v
theories/Claims.v
theories/Clauses.v
theories/Commit.v
theories/Complete.v
theories/Complete2.v
theories/Compose.v
theories/Copies.v
theories/CopyEx.v
theories/CopyProofs.v
theories/Cred.v
theories/Custom.v
theories/CustomProofs.v
theories/DictProofs.v
theories/Distrib.v
theories/EffectProofs.v
theories/Equiv.v
theories/Ex.v
theories/ExObj.v
theories/ExPair.v
theories/ExSession.v
theories/ExTree.v
theories/ExUnlink.v
theories/Expr.v
theories/Extract.v
theories/Failed.v
theories/FailedProofs.v
theories/Forge.v
theories/Forgery.v
theories/ForgeryProofs.v
theories/ForgerySig.v
theories/ForgerySigProofs.v
theories/Fork.v
theories/Forking.v
theories/Frame.v
theories/GenProofs.v
theories/Gt.v
theories/Heap.v
theories/HeapProofs.v
theories/History.v
theories/Honest.v
theories/IdProofs.v
theories/IdProofs2.v
theories/IdProofs3.v
theories/IdProofs4.v
theories/IdProofs5.v
theories/IdProofs6.v
theories/Ident.v
theories/Keeps.v
theories/Ktruth.v
theories/Leak.v
theories/Lib.v
theories/Lin.v
theories/Mixed.v
theories/MixedLink.v
theories/MixedNone.v
theories/MixedOr.v
theories/MixedOrLink.v
theories/MixedOrProofs.v
theories/MixedOrProofs2.v
theories/MixedOrSound.v
theories/MixedProofs.v
theories/MixedProofs2.v
theories/MixedSound.v
theories/MsgProofs.v
theories/MsgSpec.v
theories/NameFacts.v
theories/Names.v
theories/Nested.v
theories/NestedLink.v
theories/NestedProofs.v
theories/NestedProofs2.v
theories/NestedProofs3.v
theories/NestedSim.v
theories/NestedSimProofs.v
theories/NestedSound.v
theories/ObjBuild.v
theories/ObjFrame.v
theories/ObjProofs.v
theories/ObjRefine.v
theories/ObjRefine2.v
theories/ObjShare.v
theories/Objects.v
theories/Occur.v
theories/Opening.v
theories/OrMore.v
theories/Oracle.v
theories/OracleMany.v
theories/OracleManyProofs.v
theories/OraclePrim.v
theories/OracleProofs.v
theories/OracleTree.v
theories/OracleTreeProofs.v
theories/OracleTreeSim.v
theories/OracleTreeSimProofs.v
theories/OracleTreeZk.v
theories/OracleZk.v
theories/OracleZkProofs.v
theories/PairFacts.v
theories/PairFacts2.v
theories/Pairings.v
theories/Places.v
theories/Prims.v
theories/Prims2.v
theories/Process.v
theories/PropAnswer.v
theories/PropArith.v
theories/PropBbs.v
theories/PropCheat.v
theories/PropChosen.v
theories/PropChosenTree.v
theories/PropComplete.v
theories/PropCompose.v
theories/PropCopies.v
theories/PropCred.v
theories/PropCustom.v
theories/PropEffect.v
theories/PropFailed.v
theories/PropForgery.v
theories/PropForgerySig.v
theories/PropFork.v
theories/PropHeap.v
theories/PropId.v
theories/PropMixed.v
theories/PropMixedOr.v
theories/PropMore.v
theories/PropMsg.v
theories/PropName.v
theories/PropNested.v
theories/PropNestedSim.v
theories/PropObj.v
theories/PropOr.v
theories/PropOracle.v
theories/PropOracleMany.v
theories/PropOraclePrim.v
theories/PropOracleTree.v
theories/PropOracleTreeSim.v
theories/PropOracleZk.v
theories/PropPair.v
theories/PropPrim.v
theories/PropPrim2.v
theories/PropRange.v
theories/PropRefuse.v
theories/PropRequest.v
theories/PropSession.v
theories/PropSound.v
theories/PropSource.v
theories/PropTalk.v
theories/PropTreeWi.v
theories/PropTreeZk.v
theories/PropTutorial.v
theories/PropUnlink.v
theories/PropWi.v
theories/PropWire.v
theories/PropWrong.v
theories/PropZk.v
theories/PropZk2.v
theories/Proth.v
theories/Prove.v
theories/Provers.v
theories/Rands.v
theories/RangeC.v
theories/RangeS.v
theories/RangeS2.v
theories/RangeX.v
theories/Refuse.v
theories/Renamed.v
theories/Request.v
theories/RequestProofs.v
theories/Reuse.v
theories/Runs.v
theories/Second.v
theories/Session.v
theories/SessionProofs.v
theories/Shapes.v
theories/Sharing.v
theories/Sigma.v
theories/SimIndep.v
theories/Sound.v
theories/Sound2.v
theories/Sound3.v
theories/Sound4.v
theories/SourceEx.v
theories/SourceProofs.v
theories/Sources.v
theories/Spec.v
theories/Stmt.v
theories/Supply.v
theories/Talk.v
theories/Total.v
theories/Total2.v
theories/Total3.v
theories/Total4.v
theories/Tree.v
theories/TreeWi.v
theories/TreeWiProofs.v
theories/TreeZk.v
theories/TreeZkProofs.v
theories/Tutorial.v
theories/TutorialProofs.v
theories/TutorialSpec.v
theories/Unlink.v
theories/UnlinkProofs.v
theories/Used.v
theories/UsedProofs.v
theories/Utils.v
theories/Val.v
theories/Validate.v
theories/Verify.v
theories/Views.v
theories/WiCouple.v
theories/WiProofs.v
theories/WiTree.v
theories/Wire.v
theories/Wire2.v
theories/World.v
theories/Wrong.v
theories/ZkPre.v
theories/ZkTree.v
theories/ZqFacts.v
theories/ZqWorld.v
