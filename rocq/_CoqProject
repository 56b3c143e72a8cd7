-Q theories Verif
theories/Base.v
theories/Bytes.v
theories/UleModel.v
theories/UleSpec.v
theories/LeCodecModel.v
theories/LeCodecProofs.v
theories/LeAccProofs.v
theories/UleWf.v
theories/PropsLeaf.v
theories/MgrModel.v
theories/MgrSpec.v
theories/MgrProofs.v
theories/PropsMgr.v
theories/MvccModel.v
theories/MvccSpec.v
theories/StackProofs.v
theories/MvccGc.v
theories/MvccRow.v
theories/MvccApply.v
theories/MvccAsync.v
theories/MvccSys.v
theories/MvccSync.v
theories/MvccRead.v
theories/MvccErase.v
theories/MvccRun.v
theories/MvccRca.v
theories/PropsMvcc.v
theories/RowCountModel.v
theories/RowCountProofs.v
theories/PropsCount.v
theories/UpdBcastModel.v
theories/PropsUpd.v
theories/LtTreeModel.v
theories/RangeBufModel.v
theories/LtModel.v
theories/LtSpec.v
theories/LtTreeProofs.v
theories/RangeBufProofs.v
theories/LtProofs.v
theories/LtEscalate.v
theories/WfgModel.v
theories/LtSysModel.v
theories/WfgProofs.v
theories/LtSysProofs.v
theories/LtSysSteps.v
theories/KeyCmp.v
theories/LtUser.v
theories/LtDeadlock.v
theories/PropsLt.v
theories/PropsRangeBuf.v
theories/X1764Model.v
theories/X1764Spec.v
theories/X1764Proofs.v
theories/PropsX1764.v
theories/MhsModel.v
theories/MhsProofs.v
theories/MhsHoles.v
theories/BlkAllocModel.v
theories/BlkAllocProofs.v
theories/BlkTableModel.v
theories/BlkTableProofs.v
theories/WbufModel.v
theories/WbufProofs.v
theories/TransCodecModel.v
theories/TransCodecProofs.v
theories/BlkTableInv.v
theories/BlkTableOpen.v
theories/FtDiskModel.v
theories/FtDiskSpec.v
theories/FtDiskInv.v
theories/FtDiskProofs.v
theories/FtDiskRun.v
theories/FtDiskExec.v
theories/BlkSpec.v
theories/PropsAlloc.v
theories/PropsDisk.v
theories/LogModel.v
theories/LogSpec.v
theories/LogProofs.v
theories/LogCursor.v
theories/LogTorn.v
theories/PropsLog.v
theories/LgrModel.v
theories/LgrSpec.v
theories/LgrInv.v
theories/LgrProofs.v
theories/LgrSteps.v
theories/PropsLgr.v
theories/RbModel.v
theories/RbSpec.v
theories/RbProofs.v
theories/RbInv.v
theories/RbSteps.v
theories/RbHist.v
theories/RbCodecModel.v
theories/RbCodecProofs.v
theories/PropsRb.v
theories/KOrd.v
theories/PivotModel.v
theories/PivotProofs.v
theories/PropsPivot.v
theories/FtModel.v
theories/FtSpec.v
theories/FtSeg.v
theories/FtRows.v
theories/FtInv.v
theories/FtPut.v
theories/FtOps.v
theories/FtOps2.v
theories/FtOps3.v
theories/FtQuery.v
theories/FtSys.v
theories/PropsFt.v
theories/FtShort.v
theories/FtScore.v
theories/PropsShort.v
theories/XidsModel.v
theories/XidsProofs.v
theories/MsgBufModel.v
theories/MsgBufSpec.v
theories/MsgBufProofs.v
theories/MsgBufInv.v
theories/MsgBufRun.v
theories/PropsMsgBuf.v
theories/PkModel.v
theories/PkProofs.v
theories/PropsPk.v
theories/OmtModel.v
theories/OmtSpec.v
theories/OmtProofs.v
theories/OmtOps.v
theories/OmtIter.v
theories/PropsOmt.v
theories/RecModel.v
theories/RecSpec.v
theories/RecIdeal.v
theories/RecFiles.v
theories/RecSim.v
theories/RecBlock.v
theories/RecReplay.v
theories/RecRun.v
theories/RecSteps.v
theories/RecCkpt.v
theories/RecCrash.v
theories/RecRow.v
theories/RecLeaf.v
theories/RecExec.v
theories/PropsRec.v
theories/CtModel.v
theories/CtSpec.v
theories/CtProofs.v
theories/CtInv.v
theories/CtImg.v
theories/CtCut.v
theories/CtPend.v
theories/PropsCt.v
theories/PropsFrag.v
theories/CurModel.v
theories/CurSpec.v
theories/CurProofs.v
theories/CurTree.v
theories/CurRun.v
theories/PropsCur.v
theories/OrkModel.v
theories/OrkProofs.v
theories/DbModel.v
theories/DbSpec.v
theories/DbSpecProofs.v
theories/DbProj.v
theories/DbInv.v
theories/DbReplay.v
theories/DbRun.v
theories/PropsDb.v
theories/DbCurModel.v
theories/DbCurProofs.v
theories/DbCurStay.v
theories/PropsDbCur.v
theories/MulModel.v
theories/MulSpec.v
theories/MulProofs.v
theories/MulUpd.v
theories/MulTop.v
theories/MulPut.v
theories/PropsMul.v
theories/HotModel.v
theories/HotSpec.v
theories/HotProofs.v
theories/HotRow.v
theories/HotTop.v
theories/HotAll.v
theories/PropsHot.v
theories/BldModel.v
theories/BldSpec.v
theories/BldProofs.v
theories/BldInv.v
theories/PropsBld.v
theories/FrwModel.v
theories/FrwSpec.v
theories/FrwProofs.v
theories/FrwTop.v
theories/FrwSnap.v
theories/PropsFrw.v
theories/LdrModel.v
theories/LdrSpec.v
theories/LdrSort.v
theories/LdrHeap.v
theories/LdrMerge.v
theories/PropsLdr.v
theories/LdrtModel.v
theories/LdrtSpec.v
theories/LdrtProofs.v
theories/PropsLdrt.v
theories/QueModel.v
theories/PropsQue.v
theories/HopModel.v
theories/HopSpec.v
theories/HopProofs.v
theories/PropsHop.v
theories/RwlModel.v
theories/PropsRwl.v
theories/PctModel.v
theories/PropsPct.v
theories/KibModel.v
theories/PropsKib.v
theories/CronModel.v
theories/PropsCron.v
theories/SubModel.v
theories/PropsSub.v
theories/WksModel.v
theories/PropsWks.v
theories/TplModel.v
theories/PropsTpl.v
theories/BjmModel.v
theories/PropsBjm.v
theories/ArnModel.v
theories/PropsArn.v
