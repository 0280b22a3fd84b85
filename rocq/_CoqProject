-Q theories Verif
theories/Prelude.v
theories/SeqModel.v
theories/SeqSpec.v
theories/SeqHeap.v
theories/SeqProofs.v
theories/SeqUser.v
theories/SeqSort.v
theories/SeqMore.v
theories/SeqEx.v
theories/SeqProps.v
theories/OrdModel.v
theories/OrdTree.v
theories/OrdHeap.v
theories/OrdRot.v
theories/OrdIns.v
theories/OrdLink.v
theories/OrdExt.v
theories/OrdExt2.v
theories/OrdExt3.v
theories/OrdTrav.v
theories/Layer.v
theories/LayerBase.v
theories/OrdIdx.v
theories/OrdSpec.v
theories/OrdLook.v
theories/OrdRank.v
theories/OrdPoint.v
theories/OrdLayer.v
theories/OrdOk.v
theories/PosIdx.v
theories/PosOk.v
theories/SeqIdx.v
theories/RndModel.v
theories/RndProofs.v
theories/RndRot.v
theories/RndOps.v
theories/RndMore.v
theories/RndMove.v
theories/RndIdx.v
theories/HashModel.v
theories/HashIdx.v
theories/HashHeap.v
theories/HashAlg.v
theories/HashLink.v
theories/HashLay.v
theories/HashOps.v
theories/HashRead.v
theories/HashUndo.v
theories/HashSpec.v
theories/HashPoint.v
theories/HashPlace.v
theories/HashRehash.v
theories/HashLayer.v
theories/HashOk.v
theories/HashSeq.v
theories/HashView.v
theories/Container.v
theories/ContOk.v
theories/Stack.v
theories/View.v
theories/Down.v
theories/HashExact.v
theories/ContSpec.v
theories/Iops.v
theories/Up.v
theories/History.v
theories/Client.v
theories/ContEx.v
theories/ContProps.v
theories/Focus.v
theories/Keyed.v
theories/RangeProps.v
theories/RndProps.v
theories/OrdProps.v
theories/Transfer.v
theories/HashProps.v
theories/Word.v
theories/Composite.v
theories/CompProps.v
theories/Match.v
theories/Save.v
theories/SaveList.v
theories/SaveSeq.v
theories/RndLoad.v
theories/HashEq.v
theories/HashEqProps.v
theories/Conv.v
theories/Pair.v
theories/PairProps.v
theories/Copy.v
theories/CopyOrd.v
theories/CopyPos.v
theories/CopyHash.v
theories/CopyOk.v
theories/CopyProps.v
theories/SaveOrd.v
theories/Serial.v
theories/SerialOk.v
theories/SerialProps.v
theories/KeyedProps.v
theories/ListProps.v
theories/SpliceBase.v
theories/Splice.v
theories/SpliceRnd.v
theories/Compare.v
theories/Many.v
theories/ManyOk.v
theories/ManyProps.v
theories/Safe.v
theories/SafeSpec.v
theories/SafeOk.v
theories/SafeSim.v
theories/SafeProps.v
theories/Alloc.v
theories/AllocProofs.v
theories/AllocOps.v
theories/AllocProps.v
theories/Inv.v
theories/InvOk.v
theories/InvProps.v
theories/Threads.v
theories/ThreadsOk.v
theories/ThreadsSerial.v
theories/ThreadsProps.v
theories/Handle.v
theories/HandleProps.v
