-Q theories Verif
theories/Base.v
theories/ArrayUtil.v
theories/SimdTab.v
theories/Simd.v
theories/SimdM.v
theories/SimdU.v
theories/SimdX.v
theories/SimdI.v
theories/SimdD.v
theories/ArrMem.v
theories/ArrMemC.v
theories/SimdE.v
theories/SimdP.v
theories/SimdB.v
theories/SimdR.v
theories/SimdQ.v
theories/PropsSimd.v
theories/PropsSimdB.v
theories/BitUtil.v
theories/BitsetC.v
theories/ArrayC.v
theories/RunC.v
theories/RunD.v
theories/Convert.v
theories/MixedI.v
theories/MixedU.v
theories/MixedA.v
theories/MixedN.v
theories/Containers.v
theories/RArray.v
theories/RBinary.v
theories/RPoint.v
theories/RRange.v
theories/RQuery.v
theories/RStat.v
theories/RShift.v
theories/Bytes.v
theories/Serial.v
theories/SerialP.v
theories/Heap.v
theories/Frozen.v
theories/FrozenP.v
theories/Iter.v
theories/IterP.v
theories/CBitset.v
theories/Spec.v
theories/FormatSpec.v
theories/SpecI.v
theories/Obs.v
theories/DerivedS.v
theories/Hist.v
theories/Derived.v
theories/Samples.v
theories/FormatP.v
theories/DerivedI.v
theories/SpecB.v
theories/DerivedB.v
theories/Cow.v
theories/CowH.v
theories/CowQ.v
theories/Art.v
theories/ArtS.v
theories/ArtN.v
theories/ArtW.v
theories/ArtT.v
theories/ArtU.v
theories/ArtI.v
theories/ArtR.v
theories/ArtL.v
theories/ArtH.v
theories/ArtZ.v
theories/R64.v
theories/R64P.v
theories/R64Q.v
theories/R64K.v
theories/R64C.v
theories/R64R.v
theories/R64F.v
theories/R64B.v
theories/R64N.v
theories/R64H.v
theories/R64Z.v
theories/R64I.v
theories/ArtV.v
theories/R64S.v
theories/R64V.v
theories/Spec64.v
theories/Hist64.v
theories/Spec64Z.v
theories/R64ZV.v
theories/Derived64Z.v
theories/FormatSpec64.v
theories/SpecArt.v
theories/ArtM.v
theories/Derived64.v
theories/Derived64S.v
theories/Map64.v
theories/Map64P.v
theories/Map64A.v
theories/Map64Q.v
theories/Map64C.v
theories/SpecMap.v
theories/Map64I.v
theories/Map64S.v
theories/Map64T.v
theories/Map64U.v
theories/Map64N.v
theories/HistMap.v
theories/DerivedMap.v
theories/DerivedK.v
theories/RunMem.v
theories/RunMemB.v
theories/SpecRun.v
theories/DerivedRun.v
theories/PropsSet.v
theories/PropsQuery.v
theories/PropsRange.v
theories/PropsUpdate.v
theories/PropsKernel.v
theories/PropsSerial.v
theories/PropsIter.v
theories/PropsBitset.v
theories/PropsCow.v
theories/PropsR64.v
theories/PropsR64S.v
theories/PropsMap64.v
theories/PropsR64Z.v
theories/PropsRun.v
theories/SpecCpp.v
theories/RCpp.v
theories/RCppP.v
theories/SpecText.v
theories/Text.v
theories/PropsCpp.v
theories/PropsText.v
theories/SpecTab.v
theories/TabMem.v
theories/TabTwo.v
theories/PropsTab.v
theories/SpecArr.v
theories/ArrBlk.v
theories/PropsArr.v
theories/ShrinkMem.v
theories/PropsShrink.v
theories/SpecOwn.v
theories/OwnC.v
theories/OwnN.v
theories/OwnL.v
theories/OwnH.v
theories/PropsOwn.v
