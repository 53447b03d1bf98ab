-Q theories Verif
theories/Base.v
theories/Vec.v
theories/Backend.v
theories/Segment.v
theories/Coll.v
theories/StdAlg.v
theories/Algo.v
theories/Stride.v
theories/Access.v
theories/Info.v
theories/Callable.v
theories/Holder.v
theories/Slots.v
theories/ProofBase.v
theories/ProofVec.v
theories/ProofBackend.v
theories/ProofOps.v
theories/ProofOps2.v
theories/ProofSeg.v
theories/Spec.v
theories/SpecAlg.v
theories/SpecAcc.v
theories/ProofMap.v
theories/ProofView.v
theories/ProofAlgo.v
theories/ProofAlgo2.v
theories/ProofAlgo3.v
theories/ProofAlgo4.v
theories/ProofAlgo5.v
theories/ProofAlgo6.v
theories/ProofColl.v
theories/ProofAlgo7.v
theories/ProofIns.v
theories/ProofEach.v
theories/ProofErase.v
theories/ProofRange.v
theories/ProofRange2.v
theories/ProofEq.v
theories/ProofCopy.v
theories/Reach.v
theories/SpecHist.v
theories/SpecFail.v
theories/SpecInfo.v
theories/SpecStore.v
theories/SpecHold.v
theories/ProofReach.v
theories/ProofObs.v
theories/ProofProp.v
theories/ProofProp2.v
theories/ProofProp3.v
theories/ProofProp4.v
theories/ProofProp5.v
theories/ProofHist.v
theories/ProofFail.v
theories/ProofInfo.v
theories/ProofStore.v
theories/ProofSlots.v
theories/ProofHold.v
theories/ProofGrow.v
theories/ProofAccess.v
theories/ProofOwn.v
theories/Demo.v
theories/Properties1.v
theories/Properties2.v
theories/Properties3.v
theories/Properties4.v
theories/Properties5.v
theories/Properties6.v
theories/Properties7.v
theories/Properties8.v
theories/Properties9.v
theories/Properties10.v
theories/Properties11.v
theories/Properties12.v
theories/Properties13.v
theories/Properties14.v
theories/ProofCost.v
theories/ProofCost2.v
theories/ProofCost3.v
theories/ProofCost4.v
theories/ProofCost5.v
theories/Properties15.v
theories/ProofRecover.v
theories/Properties16.v
theories/Properties17.v
theories/Read.v
theories/Properties18.v
theories/Types.v
theories/SpecTypes.v
theories/ProofNever.v
theories/Properties19.v
theories/Properties20.v
theories/Properties21.v
theories/Properties22.v
theories/ProofCost6.v
theories/ProofCost7.v
theories/ProofCost8.v
theories/SpecCalls.v
theories/ProofCalls.v
theories/ProofCalls2.v
theories/ProofCalls3.v
theories/Properties23.v
theories/Properties24.v
theories/Properties25.v
theories/Loops.v
theories/SpecObj.v
theories/Functors.v
theories/ProofObj.v
theories/ProofObj2.v
theories/ProofObj3.v
theories/SpecShuffle.v
theories/ProofShuffle.v
theories/Properties28.v
theories/Properties29.v
theories/SpecTxn.v
theories/Properties30.v
theories/Local.v
theories/SpecLocal.v
theories/ProofLocal.v
theories/Properties31.v
theories/Properties26.v
theories/Properties27.v
theories/Walk.v
theories/SpecWalk.v
theories/ProofWalk.v
theories/Properties32.v
theories/SpecVia.v
theories/SpecRoom.v
theories/ProofRoom.v
theories/ProofVia.v
theories/Properties33.v
theories/Properties34.v
theories/WalkStd.v
theories/SpecStd.v
theories/ProofStd.v
theories/Properties35.v
theories/End.v
theories/SpecEnd.v
theories/ProofEnd.v
theories/Properties36.v
theories/Into.v
theories/SpecInto.v
theories/ProofInto.v
theories/Properties37.v
theories/Two.v
theories/SpecTwo.v
theories/ProofTwo.v
theories/Properties38.v
theories/Many.v
theories/SpecMany.v
theories/ProofMany.v
theories/Properties39.v
theories/SpecRead.v
theories/Properties40.v
theories/Body.v
theories/SpecBody.v
theories/ProofBody.v
theories/Properties41.v
theories/Overload.v
theories/SpecOver.v
theories/Properties42.v
theories/Properties43.v
theories/OverPos.v
theories/Properties44.v
theories/TwoLocal.v
theories/Properties45.v
theories/LocalConv.v
theories/Properties46.v
theories/Properties47.v
theories/Pair.v
theories/SpecPair.v
theories/Properties48.v
theories/Properties49.v
theories/Grow.v
theories/Properties50.v
theories/Each.v
theories/Properties51.v
