-Q theories Verif
theories/Bits.v
theories/SpecBits.v
theories/BitsBase.v
theories/BitsOnes.v
theories/BitsProofs.v
theories/BitsLeft.v
theories/Visit.v
theories/VisitProofs.v
theories/PropBits.v
theories/Expr.v
theories/Simp.v
theories/Sem.v
theories/ExprBase.v
theories/Wf.v
theories/RPowProofs.v
theories/SimpProofs.v
theories/SimpProofs2.v
theories/SimpMono.v
theories/EvalC.v
theories/SpecEval.v
theories/EvalCProofs.v
theories/SpecRat.v
theories/RatProofs.v
theories/SpecAbs.v
theories/SmartProofs.v
theories/AbsProofs.v
theories/RatValue.v
theories/PropSimp.v
theories/SpecMv.v
theories/MvBase.v
theories/Comp.v
theories/Mapping.v
theories/CompProofs.v
theories/CompProofs2.v
theories/GradeProofs.v
theories/MappingProofs.v
theories/ProductProofs.v
theories/LinProofs.v
theories/OuterProofs.v
theories/GumProofs.v
theories/SpecAlg.v
theories/Clifford.v
theories/Clifford2.v
theories/Clifford3.v
theories/SpecOrder.v
theories/OrderProofs.v
theories/Ops.v
theories/SpecProd.v
theories/AlgProofs.v
theories/AlgProofs2.v
theories/Lazy.v
theories/PresProofs.v
theories/SpecLazy.v
theories/TagProofs.v
theories/LazyProofs.v
theories/LazyProofs2.v
theories/CanonProofs.v
theories/PolyProofs.v
theories/Api.v
theories/SpecApi.v
theories/ApiProofs.v
theories/Extra.v
theories/SpecExtra.v
theories/ApiProofs2.v
theories/ApiProofs3.v
theories/PropComp.v
theories/PropProducts.v
theories/PropLazy.v
theories/PropApi.v
theories/Clifford4.v
theories/Clifford5.v
theories/ExtraProofs.v
theories/PropExtra.v
theories/ForEach.v
theories/Copy.v
theories/Build.v
theories/SpecUtil.v
theories/UtilProofs.v
theories/CopyProofs.v
theories/SpecCopy.v
theories/CopyProofs2.v
theories/BuildProofs.v
theories/PropUtil.v
theories/Wick.v
theories/SpecGeneral.v
theories/Wick2.v
theories/DetProofs.v
theories/General.v
theories/GenDet.v
theories/GenSum.v
theories/GenMul.v
theories/Spaces.v
theories/SpecSpaces.v
theories/GenApi.v
theories/VecProofs.v
theories/Models.v
theories/ModelProofs.v
theories/PropGeneral.v
theories/TransProofs.v
theories/PropTranslate.v
theories/Grade.v
theories/SpecGrade.v
theories/KeepProofs.v
theories/KeepProofs2.v
theories/KeepProofs3.v
theories/KeepProofs4.v
theories/KeepProofs5.v
theories/PropGrade.v
theories/Norm.v
theories/SpecNorm.v
theories/NormProofs.v
theories/NormProofs2.v
theories/NormProofs3.v
theories/NormProofs4.v
theories/NormProofs5.v
theories/NormProofs6.v
theories/NormProofs7.v
theories/UnitProofs.v
theories/PropNorm.v
theories/Geo.v
theories/SpecGeo.v
theories/GaProofs.v
theories/GeoProofs.v
theories/GaRound.v
theories/GeoApi.v
theories/GeoApi2.v
theories/GeoApi3.v
theories/GaInverse.v
theories/PropGeo.v
theories/PropGeo2.v
theories/Meet.v
theories/SpecMeet.v
theories/SpecMeet2.v
theories/JoinMath.v
theories/MeetProofs.v
theories/MeetMath.v
theories/MeetMath2.v
theories/MeetMath3.v
theories/MeetMath4.v
theories/MeetProofs2.v
theories/MeetProofs3.v
theories/MeetProofs4.v
theories/MeetProofs5.v
theories/MeetProofs6.v
theories/PropMeet.v
theories/PropMeet2.v
theories/PropMeet3.v
theories/PropMeet4.v
theories/MeetProofs7.v
theories/PropMeet6.v
theories/PropMeet5.v
theories/PropCopy.v
theories/Write.v
theories/SpecWrite.v
theories/WriteProofs.v
theories/WriteProofs2.v
theories/PropWrite.v
theories/SpecTotal.v
theories/TotalProofs.v
theories/TotalProofs2.v
theories/TotalProofs3.v
theories/TotalProofs4.v
theories/TotalProofs5.v
theories/TotalProofs6.v
theories/TotalProofs7.v
theories/TotalProofs8.v
theories/TotalProofs9.v
theories/TotalProofs10.v
theories/TotalProofs11.v
theories/TotalProofs12.v
theories/TotalProofs13.v
theories/PropTerm.v
theories/Algebras.v
theories/AlgebraProofs.v
theories/AlgebraApi.v
theories/AlgebraApi2.v
theories/AlgebraApi3.v
theories/PropAlgebras.v
theories/PropDyn.v
theories/PropDyn2.v
theories/PropDyn3.v
theories/PropDyn4.v
theories/PropDyn5.v
theories/PropEval.v
theories/PropEval2.v
