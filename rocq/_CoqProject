-Q theories Verif
theories/FinSum.v
theories/L_Atoms1.v
theories/L_Atoms2.v
theories/L_Atoms3.v
theories/L_Atoms4.v
theories/L_Atoms5.v
theories/L_Atoms6.v
theories/L_Atoms7.v
theories/L_Atoms8.v
theories/L_Boxes.v
theories/L_Bruhat.v
theories/L_Bruhat2.v
theories/L_Cached.v
theories/L_Count.v
theories/L_Count2.v
theories/L_Count3.v
theories/L_CountCache.v
theories/L_Destand.v
theories/L_Destand2.v
theories/L_DiagUnprime1.v
theories/L_DiagUnprime2.v
theories/L_DiagUnprime3.v
theories/L_DiagUnprime4.v
theories/L_DiagUnprime5.v
theories/L_Dual.v
theories/L_Dual2.v
theories/L_Dual3.v
theories/L_DualOps.v
theories/L_Expand1.v
theories/L_Expand2.v
theories/L_Expand3.v
theories/L_Expand4.v
theories/L_Expand5.v
theories/L_Expand6.v
theories/L_Expand7.v
theories/L_FState1.v
theories/L_FState10.v
theories/L_FState2.v
theories/L_FState3.v
theories/L_FState4.v
theories/L_FState5.v
theories/L_FState6.v
theories/L_FState7.v
theories/L_FState8.v
theories/L_FState9.v
theories/L_Families.v
theories/L_Families2.v
theories/L_Fill.v
theories/L_Fomin.v
theories/L_FominB.v
theories/L_FominSym.v
theories/L_FominWords.v
theories/L_FominZeta.v
theories/L_FromSGrowth.v
theories/L_FromSkew.v
theories/L_Generate.v
theories/L_Grass1.v
theories/L_Grass2.v
theories/L_Grass3.v
theories/L_Grass4.v
theories/L_Grass5.v
theories/L_Grass6.v
theories/L_Grass7.v
theories/L_Growth.v
theories/L_HeckeEquiv.v
theories/L_HeckeOnto.v
theories/L_HeckeOnto2.v
theories/L_HeckeOnto3.v
theories/L_IBruhat.v
theories/L_ILittle1.v
theories/L_ILittle2.v
theories/L_Insertion1.v
theories/L_Insertion2.v
theories/L_Insertion3.v
theories/L_Insertion4.v
theories/L_Insertion5.v
theories/L_Insertion6.v
theories/L_Insertion7.v
theories/L_Insertion8.v
theories/L_InvLen.v
theories/L_InvLen2.v
theories/L_InvLen3.v
theories/L_InvLen4.v
theories/L_InvLen5.v
theories/L_InvLen6.v
theories/L_KOG1.v
theories/L_KOG2.v
theories/L_KOG3.v
theories/L_KOG4.v
theories/L_KOG5.v
theories/L_KOG6.v
theories/L_Kostka.v
theories/L_Levels.v
theories/L_LevelsInst.v
theories/L_Little1.v
theories/L_Little2.v
theories/L_Little3.v
theories/L_LittleGen.v
theories/L_Multi1.v
theories/L_Multi2.v
theories/L_Multi3.v
theories/L_Multi4.v
theories/L_Num.v
theories/L_OpRemove.v
theories/L_Operators.v
theories/L_Operators2.v
theories/L_Operators3.v
theories/L_PartBasic.v
theories/L_PartCorners.v
theories/L_PartEnum.v
theories/L_PartMore.v
theories/L_Partitions.v
theories/L_Peaks.v
theories/L_Perm.v
theories/L_PermActs.v
theories/L_PermDem.v
theories/L_PermEnum1.v
theories/L_PermEnum2.v
theories/L_PermEnum3.v
theories/L_PermEnum4.v
theories/L_PermEnum5.v
theories/L_PermEnum6.v
theories/L_PermGen.v
theories/L_PermGroth1.v
theories/L_PermGroth2.v
theories/L_PermGroth3.v
theories/L_PermGroth4.v
theories/L_PermGroth5.v
theories/L_PermGroth6.v
theories/L_PermGroth7.v
theories/L_PermLen.v
theories/L_PermMisc.v
theories/L_PermWord.v
theories/L_PolySubst.v
theories/L_Polynomials.v
theories/L_QP.v
theories/L_RPP1.v
theories/L_RPP2.v
theories/L_RPP3.v
theories/L_RPP4.v
theories/L_RPP5.v
theories/L_RPP6.v
theories/L_Refined.v
theories/L_Rims1.v
theories/L_Rims2.v
theories/L_Rims3.v
theories/L_Rref.v
theories/L_SGrowth.v
theories/L_SGrowth2.v
theories/L_SGrowth3.v
theories/L_Semi.v
theories/L_Semi2.v
theories/L_Semi3.v
theories/L_Semi4.v
theories/L_Semi5.v
theories/L_Shape.v
theories/L_ShiftTri.v
theories/L_SkewKey.v
theories/L_Slow.v
theories/L_Standard.v
theories/L_Strips.v
theories/L_Strips2.v
theories/L_Strips3.v
theories/L_Sym1.v
theories/L_Sym10.v
theories/L_Sym11.v
theories/L_Sym2.v
theories/L_Sym3.v
theories/L_Sym4.v
theories/L_Sym5.v
theories/L_Sym6.v
theories/L_Sym7.v
theories/L_Sym8.v
theories/L_Sym9.v
theories/L_SymMul.v
theories/L_SymPoly.v
theories/L_TabCrystal1.v
theories/L_TabCrystal2.v
theories/L_TabCrystal3.v
theories/L_Tableaux.v
theories/L_Trans1.v
theories/L_Trans2.v
theories/L_Trans3.v
theories/L_Trans4.v
theories/L_Trans5.v
theories/L_Trans6.v
theories/L_VST.v
theories/L_VSTMoves.v
theories/L_Vectors.v
theories/L_VectorsSpec.v
theories/L_WordCrystal1.v
theories/L_WordCrystal2.v
theories/L_Words.v
theories/L_Words2.v
theories/M_Atoms.v
theories/M_Boxes.v
theories/M_Bruhat.v
theories/M_Cached.v
theories/M_Copieri.v
theories/M_CountCache.v
theories/M_Crystal.v
theories/M_DiagUnprime.v
theories/M_Dual.v
theories/M_Expansion.v
theories/M_Expansion2.v
theories/M_FState.v
theories/M_Families.v
theories/M_FromSGrowth.v
theories/M_FromSkew.v
theories/M_Generate.v
theories/M_Grass.v
theories/M_ILittle.v
theories/M_Insertion.v
theories/M_Inter.v
theories/M_InvWords.v
theories/M_KOG.v
theories/M_Levels.v
theories/M_Little.v
theories/M_Operators.v
theories/M_Partitions.v
theories/M_Perm.v
theories/M_PermEnum.v
theories/M_PermGen.v
theories/M_PermGroth.v
theories/M_PolyHash.v
theories/M_Polynomials.v
theories/M_RPP.v
theories/M_Refined.v
theories/M_Rims.v
theories/M_Rref.v
theories/M_SGrowth.v
theories/M_Semistandard.v
theories/M_SkewKey.v
theories/M_Slow.v
theories/M_Strips.v
theories/M_Symmetric.v
theories/M_TabCrystal.v
theories/M_Tableaux.v
theories/M_Transposed.v
theories/M_VST.v
theories/M_VSTMoves.v
theories/M_Vectors.v
theories/M_WordCrystal.v
theories/M_Words.v
theories/P_Atoms.v
theories/P_Boxes.v
theories/P_Bruhat.v
theories/P_Cached.v
theories/P_Copieri.v
theories/P_Count.v
theories/P_CountCache.v
theories/P_Crystal.v
theories/P_DiagUnprime.v
theories/P_Dual.v
theories/P_Expansion.v
theories/P_Expansion2.v
theories/P_FState.v
theories/P_Families.v
theories/P_FpfGrass.v
theories/P_FromSGrowth.v
theories/P_FromSkew.v
theories/P_Generate.v
theories/P_Grass.v
theories/P_HeckeEquiv.v
theories/P_HeckeOnto.v
theories/P_ILittle.v
theories/P_Insertion.v
theories/P_Inter.v
theories/P_InvGrass.v
theories/P_InvWords.v
theories/P_KOG.v
theories/P_Levels.v
theories/P_Little.v
theories/P_Multi.v
theories/P_Operators.v
theories/P_Partitions.v
theories/P_Perm.v
theories/P_PermEnum.v
theories/P_PermGroth.v
theories/P_Polynomials.v
theories/P_QP.v
theories/P_RPP.v
theories/P_Refined.v
theories/P_Rims.v
theories/P_Rref.v
theories/P_SGrowth.v
theories/P_SGrowthCut.v
theories/P_Semistandard.v
theories/P_SkewKey.v
theories/P_Standard.v
theories/P_Standardize.v
theories/P_Strips.v
theories/P_Symmetric.v
theories/P_Symmetry.v
theories/P_TabCrystal.v
theories/P_Tableaux.v
theories/P_Transposed.v
theories/P_Unprime.v
theories/P_VST.v
theories/P_VSTMoves.v
theories/P_VSTWeight.v
theories/P_Vectors.v
theories/P_WordCrystal.v
theories/P_Words.v
theories/PyBase.v
theories/S_Atoms.v
theories/S_Bruhat.v
theories/S_DiagUnprime.v
theories/S_Dual.v
theories/S_Expansion.v
theories/S_FState.v
theories/S_Generate.v
theories/S_Grass.v
theories/S_HeckeEquiv.v
theories/S_Insertion.v
theories/S_Inter.v
theories/S_InvWords.v
theories/S_KOG.v
theories/S_Levels.v
theories/S_Little.v
theories/S_Multi.v
theories/S_Operators.v
theories/S_Partitions.v
theories/S_Perm.v
theories/S_PermGroth.v
theories/S_Polynomials.v
theories/S_RPP.v
theories/S_Refined.v
theories/S_Rims.v
theories/S_Rref.v
theories/S_SGrowth.v
theories/S_SGrowthCut.v
theories/S_Semistandard.v
theories/S_SkewKey.v
theories/S_Standard.v
theories/S_Standardize.v
theories/S_Strips.v
theories/S_Symmetric.v
theories/S_TabCrystal.v
theories/S_Tableaux.v
theories/S_Transposed.v
theories/S_Unprime.v
theories/S_VST.v
theories/S_VSTMoves.v
theories/S_Vectors.v
theories/S_Words.v
