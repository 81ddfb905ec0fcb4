-Q theories Verif
theories/Terms.v
theories/UnifySpec.v
theories/TermsProof.v
theories/UnifyModel.v
theories/UnifyProof.v
theories/MatchModel.v
theories/MatchProof.v
theories/TrailModel.v
theories/TrailProof.v
theories/LongStrModel.v
theories/LongStrProof.v
theories/PropUnifyEx.v
theories/PropUnify.v
theories/PropMatch.v
theories/BitsProof.v
theories/MetaModel.v
theories/MetaProof.v
theories/MetaWordProof.v
theories/SortProof.v
theories/SubsumeModel.v
theories/SubsumeSpec.v
theories/SubsumeProof.v
theories/SubsumeTop.v
theories/ClauseMetaProof.v
theories/PropSubsumeEx.v
theories/PropSubsume.v
theories/Semantics.v
theories/SemProof.v
theories/BuildModel.v
theories/BuildProof.v
theories/RenameSpec.v
theories/RenameProof.v
theories/DeriveModel.v
theories/InstModel.v
theories/DeriveSpec.v
theories/DeriveProof.v
theories/TautProof.v
theories/PropDeriveEx.v
theories/PropDerive.v
theories/CutModel.v
theories/CutSpec.v
theories/CutProof.v
theories/DupModel.v
theories/DupProof.v
theories/SimpModel.v
theories/SimpSpec.v
theories/SimpProof.v
theories/PropCutEx.v
theories/PropCut.v
theories/RewriteModel.v
theories/RewriteSpec.v
theories/RewriteProof.v
theories/PropRewriteEx.v
theories/PropRewrite.v
theories/ShapeProof.v
theories/InstProof.v
theories/SearchModel.v
theories/SearchProof.v
theories/PropSearchEx.v
theories/PropInst.v
theories/PropSearch.v
theories/Word64.v
theories/AllocModel.v
theories/AllocSpec.v
theories/AllocProof.v
theories/EncModel.v
theories/EncSpec.v
theories/EncProof.v
theories/PropAllocEx.v
theories/PropAlloc.v
theories/PropEnc.v
theories/DateModel.v
theories/DateSpec.v
theories/DateProof.v
theories/PropDate.v
theories/VecModel.v
theories/VecSpec.v
theories/VecProof.v
theories/PropVec.v
theories/HistModel.v
theories/HistSpec.v
theories/HistProof.v
theories/PropHist.v
theories/QueueModel.v
theories/QueueSpec.v
theories/QueueProof.v
theories/PropQueueEx.v
theories/PropQueue.v
theories/PoolModel.v
theories/PoolSpec.v
theories/PoolProof.v
theories/PropPool.v
theories/HashModel.v
theories/HashSpec.v
theories/HashProof.v
theories/PropHash.v
theories/LockModel.v
theories/LockSpec.v
theories/LockProof.v
theories/PropLockEx.v
theories/PropLock.v
theories/CmpModel.v
theories/CmpSpec.v
theories/CmpProof.v
theories/PropCmp.v
theories/ArithModel.v
theories/ArithSpec.v
theories/ArithRealSpec.v
theories/ArithProof.v
theories/ArithFloat.v
theories/PropArith.v
theories/ClausModel.v
theories/ClausSpec.v
theories/ClausProof.v
theories/ClausMini.v
theories/ClausSk.v
theories/ClausDist.v
theories/ClausEnd.v
theories/ClausProp.v
theories/PropClaus.v
theories/VarModel.v
theories/VarSpec.v
theories/VarProof.v
theories/VarSteps.v
theories/VarAlloc.v
theories/VarFree.v
theories/VarEnd.v
theories/PropVar.v
theories/OrdModel.v
theories/OrdSpec.v
theories/OrdProof.v
theories/OrdThm.v
theories/OrdEnd.v
theories/PropOrd.v
theories/TtModel.v
theories/TtSpec.v
theories/TtProof.v
theories/TtShape.v
theories/TtChain.v
theories/TtSeek.v
theories/TtAdd.v
theories/TtDel.v
theories/TtEnd.v
theories/PropTt.v
theories/SelModel.v
theories/SelSpec.v
theories/SelProof.v
theories/SelThm.v
theories/SelEnd.v
theories/PropSel.v
theories/QyModel.v
theories/QySpec.v
theories/QyTree.v
theories/QyFetch.v
theories/QyPick.v
theories/QyHist.v
theories/QyOps.v
theories/QyRun.v
theories/PropQy.v
theories/AnsModel.v
theories/AnsSpec.v
theories/AnsSign.v
theories/AnsSound.v
theories/AnsReg.v
theories/PropAns.v
theories/QkModel.v
theories/QkSpec.v
theories/QkProof.v
theories/PropQk.v
theories/StrModel.v
theories/StrSpec.v
theories/StrBase.v
theories/StrProof.v
theories/StrEnc.v
theories/StrFree.v
theories/StrHist.v
theories/PropStr.v
theories/PrfModel.v
theories/PrfSpec.v
theories/PrfBase.v
theories/PrfRec.v
theories/PrfOp.v
theories/PrfPrint.v
theories/PrfProof.v
theories/PrfRole.v
theories/PropPrf.v
theories/AgModel.v
theories/AgSpec.v
theories/AgBase.v
theories/AgProof.v
theories/AgEnd.v
theories/AgRun.v
theories/AgHint.v
theories/PropAg.v
theories/RdModel.v
theories/RdSpec.v
theories/RdBase.v
theories/RdProof.v
theories/RdConv.v
theories/RdEnd.v
theories/PropRd.v
theories/DmpModel.v
theories/DmpSpec.v
theories/DmpCrc.v
theories/DmpBase.v
theories/DmpProof.v
theories/PropDmp.v
theories/PmModel.v
theories/PmSpec.v
theories/PmBase.v
theories/PmProof.v
theories/PropPm.v
theories/BfModel.v
theories/BfSpec.v
theories/BfProof.v
theories/PropBf.v
theories/PtModel.v
theories/PtSpec.v
theories/PtBase.v
theories/PtJson.v
theories/PtProof.v
theories/PtPlain.v
theories/PropPt.v
theories/JsModel.v
theories/JsSpec.v
theories/JsBase.v
theories/JsTerm.v
theories/JsCore.v
theories/JsRead.v
theories/JsMain.v
theories/PropJs.v
theories/FkModel.v
theories/FkSpec.v
theories/FkProof.v
theories/PropFk.v
theories/AtModel.v
theories/AtSpec.v
theories/AtProof.v
theories/PropAt.v
theories/PpModel.v
theories/DimModel.v
theories/PpSpec.v
theories/PpProof.v
theories/DimProof.v
theories/PropPp.v
theories/PickModel.v
theories/PickSpec.v
theories/PickProof.v
theories/PickRun.v
theories/PickInv.v
theories/PickFair.v
theories/PickMore.v
theories/PropPick.v
theories/RefModel.v
theories/RefSpec.v
theories/RefProof.v
theories/RefLink.v
theories/RefVals.v
theories/RefInv.v
theories/RefOps.v
theories/RefMore.v
theories/PropRef.v
theories/NormModel.v
theories/NormSpec.v
theories/NormProof.v
theories/NormEnd.v
theories/NormStop.v
theories/PropNorm.v
theories/LogModel.v
theories/LogSpec.v
theories/LogRw.v
theories/LogProof.v
theories/LogStrong.v
theories/LogUsed.v
theories/PropLog.v
theories/ScanModel.v
theories/ScanSpec.v
theories/ScanProof.v
theories/PropScan.v
theories/SineModel.v
theories/SineSpec.v
theories/SineProof.v
theories/SineLoop.v
theories/SineEnd.v
theories/PropSine.v
theories/HixModel.v
theories/HixSpec.v
theories/HixProof.v
theories/HixLoop.v
theories/HixEnd.v
theories/PropHix.v
theories/LdModel.v
theories/LdSpec.v
theories/LdProof.v
theories/LdTop.v
theories/PropLd.v
theories/GhModel.v
theories/GhProof.v
theories/PropGh.v
theories/RsModel.v
theories/RsProof.v
theories/PropRs.v
theories/JnModel.v
theories/PropJn.v
theories/RpModel.v
theories/PropRp.v
theories/PropRc.v
theories/JfModel.v
theories/PropJf.v
theories/DocModel.v
theories/PropDoc.v
theories/CsvModel.v
theories/PropCsv.v
