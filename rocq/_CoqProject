-Q theories Verif
theories/Prelude.v
theories/Coef.v
theories/Spec.v
theories/SpecProofs.v
theories/OrderSpec.v
theories/PairVec.v
theories/PairVecProofs.v
theories/Mono.v
theories/MonoProofs.v
theories/Heap.v
theories/HeapProofs.v
theories/HeapMulProofs.v
theories/MonoStruct.v
theories/MonoStructProofs.v
theories/Poly.v
theories/PolyMulProofs.v
theories/PolyCmpProofs.v
theories/Library.v
theories/LibraryProofs.v
theories/ZZ.v
theories/QQ.v
theories/NumSpec.v
theories/ZZProofs.v
theories/QQProofs.v
theories/Zp.v
theories/ZpProofs.v
theories/Props_Num.v
theories/Props_Mono.v
theories/Props_Poly.v
theories/Div.v
theories/DivProofs.v
theories/PolyDivProofs.v
theories/Props_Div.v
theories/Pack.v
theories/PackProofs.v
theories/PackLayout.v
theories/PackMulProofs.v
theories/Props_Pack.v
theories/Registry.v
theories/RegistryProofs.v
theories/Props_Registry.v
theories/SpecOps.v
theories/SpecOpsProofs.v
theories/PolyOps.v
theories/MonoOpsProofs.v
theories/PolyOpsGen.v
theories/PolyOpsProofs.v
theories/PolyOps2Proofs.v
theories/ConvertProofs.v
theories/PolyOps3Proofs.v
theories/ConvertQQ.v
theories/SortProofs.v
theories/Props_Ops.v
theories/Prem.v
theories/PremProofs.v
theories/Props_Prem.v
theories/AF.v
theories/Groebner.v
theories/MonoGcdProofs.v
theories/GroebnerProofs.v
theories/BuchProofs.v
theories/BuchLoop.v
theories/GroebnerFinal.v
theories/GroebnerZZ.v
theories/GroebnerSpec.v
theories/GroebnerZZProofs.v
theories/IdealProofs.v
theories/Props_Groebner.v
theories/GcdDom.v
theories/GcdPoly.v
theories/GcdMath.v
theories/Gcd.v
theories/GcdHom.v
theories/GcdLex.v
theories/GcdZpProofs.v
theories/GcdCont.v
theories/GcdRep.v
theories/GcdTerm.v
theories/GcdProofs.v
theories/GcdMain.v
theories/SqfMath.v
theories/Sqf.v
theories/SqfProofs.v
theories/Props_Gcd.v
theories/SqfBasis.v
theories/SqfBasisProofs.v
theories/Props_Basis.v
theories/Dense.v
theories/DenseWord.v
theories/DensePoly.v
theories/DenseMul.v
theories/DenseDiv.v
theories/DenseGcd.v
theories/DenseFuel.v
theories/DenseSparse.v
theories/Props_Dense.v
theories/UGcd.v
theories/RootBound.v
theories/UGcdBase.v
theories/UGcdProofs.v
theories/UGcdMod.v
theories/UGcdCrt.v
theories/UGcdHeu.v
theories/UGcdMain.v
theories/Props_UGcd.v
theories/ExtGcd.v
theories/ExtGcdProofs.v
theories/DivExact.v
theories/ExtGcdZZ.v
theories/ExtGcdLex.v
theories/Props_ExtGcd.v
theories/Graph.v
theories/GraphMath.v
theories/GraphMcs.v
theories/GraphMcsM.v
theories/GraphProofs.v
theories/GraphMcs1.v
theories/GraphBranch.v
theories/Props_Graph.v
theories/Interval.v
theories/Props_Interval.v
theories/Uspensky.v
theories/UspMath.v
theories/UspBase.v
theories/UspTrans.v
theories/UspIso.v
theories/UspList.v
theories/UspVec.v
theories/UspBound.v
theories/UspTop.v
theories/UspTerm.v
theories/UspTermV.v
theories/UspSqf.v
theories/UspAb.v
theories/Props_Real.v
theories/Charset.v
theories/CharsetSpec.v
theories/CharsetWf.v
theories/CharsetProofs.v
theories/Props_Charset.v
theories/Factor.v
theories/FactorBase.v
theories/FactorUni.v
theories/FactorSqf.v
theories/FactorRen.v
theories/FactorOne.v
theories/FactorMulti.v
theories/FactorWang.v
theories/FactorQQ.v
theories/Props_Factor.v
theories/Uroot.v
theories/UrootBase.v
theories/UrootProofs.v
theories/Props_Root.v
theories/Realroot.v
theories/RealrootBase.v
theories/RealrootSpec.v
theories/RealrootProofs.v
theories/Props_Realroot.v
theories/ResSpec.v
theories/ResDet.v
theories/ResMath.v
theories/ResChain.v
theories/Resultant.v
theories/ResProofs.v
theories/ResInit.v
theories/ResSyl.v
theories/ResBez.v
theories/ResBezProofs.v
theories/ResTop.v
theories/ResDisc.v
theories/Props_Res.v
theories/FzpMath.v
theories/FactorZp.v
theories/FzpDdf.v
theories/FactorZpBase.v
theories/Props_FactorZp.v
theories/Props_FactorZp2.v
theories/Hensel.v
theories/HenselMath.v
theories/HenselBase.v
theories/HenselDiv.v
theories/HenselStep.v
theories/HenselTree.v
theories/HenselBuild.v
theories/Props_Hensel.v
theories/Props_Recomb.v
theories/Props_Recomb2.v
