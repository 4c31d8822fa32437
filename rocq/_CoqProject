-Q theories Verif
theories/Base.v
theories/PermSolve.v
theories/Block.v
theories/Spec.v
theories/Cut.v
theories/CutProof.v
theories/Array.v
theories/ArrayProof.v
theories/Batch.v
theories/Exclusive.v
theories/Wrappers.v
theories/Associative.v
theories/LawsProof.v
theories/BatchProof.v
theories/ExclusiveProof.v
theories/WrappersProof.v
theories/AssociativeProof.v
theories/TmLen.v
theories/BTree.v
theories/BTreeProof.v
theories/Arch.v
theories/ArchProof.v
theories/PArray.v
theories/PBTree.v
theories/PArch.v
theories/Hasher.v
theories/PHasher.v
theories/KMin.v
theories/PKMin.v
theories/Lock.v
theories/PLock.v
theories/SeqConc.v
theories/PSeqConc.v
theories/RefCount.v
theories/PRefCount.v
theories/Get.v
theories/GetProof.v
theories/PGet.v
theories/Decorations.v
theories/OrderProof.v
theories/PDeco.v
theories/PLrfu.v
theories/Profiled.v
theories/PProfiler.v
theories/Config.v
theories/PConfig.v
theories/Stream.v
theories/PStream.v
theories/IOVec.v
theories/IOVecProof.v
theories/PIOVec.v
theories/ByteStream.v
theories/ByteStreamProof.v
theories/PByteStream.v
theories/Compressed.v
theories/CompressedProof.v
theories/PCompressed.v
theories/Calls.v
theories/Inclusive.v
theories/InclusiveProof.v
theories/PInclusive.v
theories/Bincode.v
theories/Socket.v
theories/PSocket.v
theories/Sim.v
theories/SimProof.v
theories/PSim.v
theories/PSimGet.v
theories/Builder.v
theories/PBuilder.v
theories/Guards.v
theories/PGuards.v
theories/Overflow.v
theories/POverflow.v
theories/Linear.v
theories/PLinear.v
theories/ProfConc.v
theories/PProfConc.v
theories/Clones.v
theories/PClones.v
theories/Nest.v
theories/PNest.v
theories/AssocConc.v
theories/PAssocConc.v
theories/PAssocGet.v
theories/LrfuF32.v
theories/PLrfuF32.v
theories/PAssocPop.v
theories/Lazy.v
theories/PLazy.v
theories/Repr.v
theories/ReprProof.v
theories/Minus.v
theories/Alike.v
theories/PRepr.v
theories/ReprGet.v
theories/GetAlike.v
theories/PReprGet.v
theories/WriteBack.v
theories/PWriteBack.v
theories/Levels.v
theories/PLevels.v
theories/Moving.v
theories/PMoving.v
theories/Stamps.v
theories/PStamps.v
theories/Crash.v
theories/PCrash.v
theories/Stack.v
theories/PStack.v
theories/Wait.v
theories/PWait.v
theories/Times.v
theories/PTimes.v
theories/Buffers.v
theories/PBuffers.v
theories/GuardConc.v
theories/PGuardConc.v
theories/PStill.v
theories/Accept.v
theories/PAccept.v
theories/Backs.v
theories/PBacks.v
theories/InPlace.v
theories/PInPlace.v
theories/GuardCrash.v
theories/PGuardCrash.v
theories/Backlog.v
theories/PBacklog.v
theories/Spur.v
theories/PSpur.v
theories/Remote.v
theories/PRemote.v
theories/Quota.v
theories/PQuota.v
theories/PQuotaMut.v
theories/CompFull.v
theories/PCompFull.v
theories/Faults.v
theories/PFaults.v
theories/StreamFaults.v
theories/PStreamFaults.v
theories/PStreamFlush.v
