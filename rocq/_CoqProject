-Q theories Verif

theories/Bound.v
theories/BoundFacts.v
theories/Util.v
theories/Itv.v
theories/ItvFacts.v
theories/ItvFacts2.v
theories/ItvHistory.v
theories/PropItv.v
theories/OctMat.v
theories/OctIdx.v
theories/OctClose.v
theories/OctWalk.v
theories/OctInc.v
theories/OctStrong.v
theories/OctGeom.v
theories/OctGeom2.v
theories/PropOctClosure.v
theories/Linexpr.v
theories/Oct.v
theories/OctFacts.v
theories/OctFacts2.v
theories/OctFacts3.v
theories/OctForget.v
theories/PropOctLattice.v
theories/PropOctBox.v
theories/OctResize.v
theories/OctResize2.v
theories/OctResize3.v
theories/OctExpand.v
theories/OctFold.v
theories/PropOctResize.v
theories/LinexprFacts.v
theories/OctTransfer.v
theories/OctUexpr.v
theories/OctGuard.v
theories/OctGuard2.v
theories/OctGuard3.v
theories/OctGuard4.v
theories/OctGuard5.v
theories/OctQuery.v
theories/OctAssign.v
theories/OctAssign2.v
theories/OctAssign3.v
theories/OctAssign4.v
theories/OctAssign5.v
theories/OctAssign6.v
theories/OctAssignArr.v
theories/OctSubst.v
theories/OctSubst2.v
theories/OctSubstArr.v
theories/PropOctTransfer.v
theories/PropOctArr.v
theories/PropOctInv.v
theories/ItvLin.v
theories/ItvLinFacts.v
theories/ItvLinExact.v
theories/ItvLinCons.v
theories/ItvLinInt.v
theories/ItvLinApi.v
theories/PropItvLin.v
theories/Box.v
theories/BoxizeFacts.v
theories/BoxFacts.v
theories/BoxDims.v
theories/BoxOps.v
theories/BoxMeet.v
theories/BoxGen.v
theories/PropBox.v
theories/ApCore.v
theories/ApCoreFacts.v
theories/ApCoreEq.v
theories/ApCoreDim.v
theories/PropApCore.v
theories/Generic.v
theories/GenericFacts.v
theories/BoxSubst.v
theories/PropGeneric.v
theories/ApCheck.v
theories/PropApCheck.v
theories/ApTexpr.v
theories/TexprSem.v
theories/PropTexpr.v
theories/PropTexprTest.v
theories/ItvTree.v
theories/ItvTreeFacts.v
theories/FloatFmt.v
theories/ItvTreeFlags.v
theories/ItvTreeApi.v
theories/ItvTreeApiFacts.v
theories/PropItvTree.v
theories/Hc4.v
theories/Hc4Facts.v
theories/BoxTree.v
theories/PropBoxTree.v
theories/ApEnv.v
theories/ApEnvFacts.v
theories/ApEnvFacts2.v
theories/PropApEnv.v
theories/PkCone.v
theories/PkVec.v
theories/PkCherni.v
theories/PkCherniFacts.v
theories/PkRank.v
theories/PkCherniRay.v
theories/PkSpec.v
theories/PropPkCherni.v
theories/PkFarkas.v
theories/PkSimplify.v
theories/PkSimplifyFacts.v
theories/PkSimplifyThm.v
theories/PkSimplifyEnd.v
theories/PkMinimize.v
theories/PropPkMinimize.v
theories/PkPoly.v
theories/PkPolyFacts.v
theories/PkPolyLeq.v
theories/PkPolyMeet.v
theories/PkPolyTop.v
theories/PkLin.v
theories/PkOps.v
theories/PkRepr.v
theories/PkAssign.v
theories/PkAssignA.v
theories/PkMatrix.v
theories/PkEmb.v
theories/PkDims.v
theories/PkProj.v
theories/PkFold.v
theories/PropPkPoly.v
theories/PropPkAssign.v
theories/PropPkDims.v
theories/PkUser.v
theories/PkCanon.v
theories/PkCanonFacts.v
theories/PkCanonConv.v
theories/PkCanonNrm.v
theories/PkCanonUniq.v
theories/PkCanonHon.v
theories/PkCanonEq.v
theories/PkCanonClos.v
theories/PkCanonOps.v
theories/PropPkCanon.v
theories/PkUserRow.v
theories/PkUserCons.v
theories/PkUserBound.v
theories/PkUserMeet.v
theories/PkUserGen.v
theories/PkUserSat.v
theories/PropPkUser.v
theories/PkWiden.v
theories/PkWidenTop.v
theories/PropPkWiden.v
theories/PkArray.v
theories/PkArrayFacts.v
theories/PkCanonOps2.v
theories/PkCanonAdd.v
theories/PkCanonArr.v
theories/PropPkArray.v
theories/PropPkBuilt.v
theories/RedProd.v
theories/RedProdFacts.v
theories/PropRedProd.v
theories/PropRedProdCst.v
theories/PkLinUser.v
theories/PropPkLin.v
theories/Abs1.v
theories/Abs1Facts.v
theories/Abs1Ops.v
theories/Abs1Fold.v
theories/Abs1Lin.v
theories/Abs1Inst.v
theories/Abs1InstPk.v
theories/Abs1InstOct.v
theories/PropAbs1.v
theories/PropAbs1Lin.v
theories/PropAbs1Oct.v
theories/OctTree.v
theories/OctGen.v
theories/PropOctTree.v
theories/PropOctGen.v
theories/PkApprox.v
theories/PropPkApprox.v
theories/PkEq.v
theories/PropPkEq.v
theories/Disj.v
theories/DisjFacts.v
theories/PropDisj.v
theories/Named.v
theories/PropNamed.v
theories/GenericTree.v
theories/TreeShape.v
theories/PkTree.v
theories/PropPkTree.v
theories/BoxSubstTree.v
theories/PropGenericTree.v
theories/Hash.v
theories/PropHash.v
theories/PkHash.v
theories/PropPkHash.v
