-Q theories Verif

theories/Base/Bytes.v
theories/Model/Types.v
theories/Model/Machine.v
theories/Model/Varint.v
theories/Model/Out.v
theories/Model/In.v
theories/Model/Options.v
theories/Model/Loops.v
theories/Model/Protocol.v
theories/Model/Pb.v
theories/Model/PbNative.v
theories/Spec/RpcQueue.v
theories/Model/Rpc.v
theories/Spec/Leb128.v
theories/Spec/Wire.v
theories/Spec/Grammar.v
theories/Spec/PbWire.v
theories/Spec/PbMerge.v
theories/Proofs/VarintP.v
theories/Proofs/OutP.v
theories/Proofs/InBase.v
theories/Proofs/InSafe.v
theories/Proofs/InLocal.v
theories/Proofs/InPrior.v
theories/Proofs/InAlloc.v
theories/Proofs/InRound.v
theories/Proofs/InHost.v
theories/Proofs/InGrammar.v
theories/Proofs/InFuel.v
theories/Proofs/ProtoP.v
theories/Proofs/PbOut.v
theories/Proofs/PbParse.v
theories/Proofs/PbIn.v
theories/Proofs/PbRead.v
theories/Proofs/PbRound.v
theories/Proofs/PbAlloc.v
theories/Thm/Demo.v
theories/Thm/Varints.v
theories/Thm/Output.v
theories/Thm/Input.v
theories/Thm/Grammar.v
theories/Thm/Items.v
theories/Thm/Const.v
theories/Thm/Protocol.v
theories/Thm/Pb.v
theories/Thm/PbInput.v
theories/Thm/PbNative.v
theories/Model/BigEndian.v
theories/Thm/BigEndian.v
theories/Model/ToBytes.v
theories/Thm/ToBytes.v
theories/Spec/Fips180.v
theories/Model/Sha.v
theories/Thm/Sha.v
theories/Spec/Hex.v
theories/Model/Literals.v
theories/Thm/Hex.v
theories/Proofs/RpcP.v
theories/Thm/Rpc.v
theories/Thm/RpcQueue.v
theories/Model/Apply.v
theories/Thm/Apply.v
theories/Model/Traits.v
theories/Thm/Traits.v
theories/Model/Dispatch.v
theories/Thm/Dispatch.v
theories/Proofs/Script.v
theories/Thm/Growth.v
theories/Model/Raw.v
theories/Thm/Raw.v
theories/Model/Duplex.v
theories/Spec/Fifo.v
theories/Thm/Duplex.v
theories/Spec/Torn.v
theories/Thm/Failure.v
theories/Thm/Resource.v
theories/Spec/Compat.v
theories/Thm/Compat.v
theories/Spec/PbStd.v
theories/Thm/PbStd.v
theories/Model/SelfRef.v
theories/Thm/SelfRef.v
theories/Spec/PbBreak.v
theories/Thm/PbBreak.v
theories/Thm/Options.v
theories/Thm/Reencode.v
theories/Spec/Whole.v
theories/Thm/Nulls.v
theories/Spec/Fault.v
theories/Thm/Errors.v
theories/Model/Heap.v
theories/Proofs/HeapP.v
theories/Proofs/HeapLoud.v
theories/Thm/Heap.v
theories/Spec/PbGrammar.v
theories/Proofs/PbLang.v
theories/Thm/PbLang.v
theories/Model/Custom.v
theories/Spec/CustomWire.v
theories/Proofs/CustomP.v
theories/Proofs/CustomIn.v
theories/Proofs/CustomRound.v
theories/Proofs/CustomOrder.v
theories/Thm/Custom.v
theories/Proofs/CustomThrow.v
theories/Thm/CustomThrow.v
theories/Model/Alias.v
theories/Spec/Copies.v
theories/Proofs/AliasP.v
theories/Proofs/AliasLen.v
theories/Thm/Alias.v
theories/Model/Seek.v
theories/Spec/File.v
theories/Proofs/SeekP.v
theories/Thm/Seek.v
theories/Model/Cost.v
theories/Thm/Cost.v
theories/Thm/PbHold.v
theories/Model/PbCost.v
theories/Thm/PbCost.v
theories/Thm/PbStack.v
theories/Model/PbMoves.v
theories/Thm/PbMoves.v
theories/Model/PbHeap.v
theories/Proofs/PbHeapP.v
theories/Thm/PbHeap.v
theories/Model/RpcThrow.v
theories/Thm/RpcThrow.v
theories/Model/ConstCalls.v
theories/Thm/ConstCalls.v
theories/Thm/Vectors.v
theories/Model/Mixed.v
theories/Spec/MixedWire.v
theories/Proofs/MixedP.v
theories/Proofs/MixedRound.v
theories/Thm/Mixed.v
theories/Model/CustomSeek.v
theories/Spec/CustomFile.v
theories/Proofs/CustomSeekOut.v
theories/Proofs/CustomSeekTidy.v
theories/Proofs/CustomSeekIn.v
theories/Proofs/CustomSeekRound.v
theories/Thm/CustomSeek.v
theories/Model/Surrogate.v
theories/Spec/SurrogateWire.v
theories/Proofs/SurrogateP.v
theories/Proofs/SurrogateIn.v
theories/Proofs/SurrogateRound.v
theories/Proofs/SurrogateFuel.v
theories/Thm/Surrogate.v
theories/Proofs/MixedNull.v
theories/Thm/MixedNull.v
theories/Model/OutCost.v
theories/Spec/Visits.v
theories/Proofs/OutCostP.v
theories/Thm/OutCost.v
theories/Model/RpcCo.v
theories/Thm/RpcCo.v
theories/Model/Narrow.v
theories/Proofs/NarrowP.v
theories/Proofs/NarrowSafe.v
theories/Thm/Narrow.v
theories/Model/SignedSize.v
theories/Proofs/SignedP.v
theories/Thm/SignedSize.v
theories/Model/PbNarrow.v
theories/Proofs/PbNarrowP.v
theories/Thm/PbNarrow.v
theories/Model/Pieces.v
theories/Proofs/InStable.v
theories/Thm/Pieces.v
theories/Model/PbPieces.v
theories/Thm/PbPieces.v
theories/Model/RpcPieces.v
theories/Thm/RpcPieces.v
theories/Model/CustomPieces.v
theories/Proofs/CustomStable.v
theories/Thm/CustomPieces.v
theories/Thm/FitExact.v
theories/Model/PbAgain.v
theories/Thm/PbAgain.v
theories/Model/InAgain.v
theories/Thm/InAgain.v
theories/Thm/RetryBits.v
theories/Model/OutAgain.v
theories/Thm/OutAgain.v
theories/Model/MixedAgain.v
theories/Thm/MixedAgain.v
theories/Thm/Dirty.v
theories/Thm/BitUnion.v
theories/Thm/Again.v
theories/Thm/MixedAgainRead.v
