-Q theories Verif
theories/Base.v
theories/Spec.v
theories/Layout.v
theories/SpecFacts.v
theories/LayoutFacts.v
theories/Views.v
theories/ViewsFacts.v
theories/ViewsFacts2.v
theories/ViewsFacts3.v
theories/Kernels.v
theories/Access.v
theories/HeapFacts.v
theories/KernelFacts.v
theories/OpFacts.v
theories/AccessFacts.v
theories/Reduce.v
theories/Einsum.v
theories/EinsumParse.v
theories/Chain.v
theories/ChainFacts.v
theories/ViewsFacts4.v
theories/ReduceFacts.v
theories/EinsumFacts.v
theories/EinsumFacts2.v
theories/EinsumFacts3.v
theories/EinsumFacts4.v
theories/EinsumFacts5.v
theories/EinsumFacts6.v
theories/PropsViews.v
theories/PropsOps.v
theories/EinsumFacts8.v
theories/EinsumFacts7.v
theories/PropsReduce.v
theories/PropsEinsum.v
theories/Iter.v
theories/PropsIter.v
theories/Nested.v
theories/PropsNew.v
theories/SpecGrad.v
theories/Autograd.v
theories/GradMath.v
theories/GradFacts.v
theories/GradFacts2.v
theories/GradFacts3.v
theories/GradFacts4.v
theories/GradFacts5.v
theories/PropsGrad.v
theories/PropsGrad2.v
theories/Numeric.v
theories/NumericFacts.v
theories/PropsNumeric.v
theories/Owner.v
theories/OwnerFacts.v
theories/PropsOwner.v
theories/Simd.v
theories/SimdFacts.v
theories/SimdOps.v
theories/SimdRed.v
theories/SimdSop.v
theories/PropsSimd.v
theories/Vendor.v
theories/VendorFacts.v
theories/PropsVendor.v
theories/Vdsp.v
theories/VdspFacts.v
theories/PropsVdsp.v
theories/PropsEinsumView.v
theories/Print.v
theories/PropsPrint.v
theories/Word.v
theories/PropsWord.v
theories/PropsAssign.v
theories/Prog.v
theories/PropsProg.v
theories/SpecRef.v
theories/RefFacts.v
theories/RefFacts2.v
theories/PropsRef.v
theories/PropsFloatMax.v
theories/PropsBcast.v
theories/PropsAssign2.v
theories/FloatErr.v
theories/FloatSum.v
theories/PropsFloatSum.v
theories/Param.v
theories/Exact.v
theories/FloatDot.v
theories/PropsFloatDot.v
theories/PropsEmpty.v
theories/WordViews.v
theories/PropsWordViews.v
theories/PropsFloatRange.v
theories/PropsRequests.v
theories/PropsNdIter.v
theories/PropsEllipsis.v
theories/Builds.v
theories/BuildsFacts.v
theories/PropsBuilds.v
theories/Pointers.v
theories/PointersFacts.v
theories/PropsPointers.v
theories/Ints.v
theories/IntsFacts.v
theories/IntsGrow.v
theories/IntsProg.v
theories/IntsFacts2.v
theories/PropsInts.v
theories/PropsNew2.v
theories/Blackbox.v
theories/BlackboxProg.v
theories/BlackboxGrad.v
theories/PropsParam.v
theories/PropsParam2.v
theories/WordOps.v
theories/PropsWordOps.v
theories/PropsWordRoom.v
theories/SpecFlow.v
theories/FlowFacts.v
theories/FlowFacts2.v
theories/PropsFlow.v
theories/BuildsGrad.v
theories/BuildsGradFacts.v
theories/BuildsGradFacts2.v
theories/BuildsGradFacts3.v
theories/BuildsGradFacts4.v
theories/PropsBuildsGrad.v
theories/BlackboxKern.v
theories/SpecCert.v
theories/FloatCert.v
theories/PropsCert.v
theories/PropsTrain.v
theories/Almost.v
theories/PropsAlmost.v
theories/BlackboxSimd.v
theories/NeonGrad.v
theories/PropsNeonCert.v
theories/Cast.v
theories/CastFacts.v
theories/PropsCast.v
theories/PropsAgree.v
theories/Conform.v
theories/ConformOps.v
theories/ConformLinalg.v
theories/ConformGrad.v
theories/Observe.v
theories/PropsObserve.v
theories/ConformUnits.v
theories/ConformDocs.v
theories/PropsSimdBcast.v
theories/Random.v
theories/PropsRandom.v
theories/Align.v
theories/PropsAlign.v
theories/Bench.v
theories/PropsBench.v
theories/SimdAssign.v
theories/PropsSimdAssign.v
theories/SimdPointers.v
theories/PropsSimdPointers.v
theories/PropsShared.v
theories/PropsSimdNan.v
theories/PropsGradOrder.v
