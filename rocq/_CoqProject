-Q theories Verif
theories/RealStruct.v
theories/M_Simd.v
theories/P_Simd.v
theories/M_Swizzle.v
theories/P_Swizzle.v
theories/Props_Simd.v
theories/M_Vec.v
theories/M_Mat.v
theories/Spec.v
theories/P_Vec.v
theories/P_Det.v
theories/Props_Vec.v
theories/P_Mat.v
theories/P_Mat2.v
theories/Props_Mat.v
theories/P_Bareiss.v
theories/M_Cross.v
theories/P_Cross.v
theories/Props_Det.v
theories/M_LU.v
theories/P_Tri.v
theories/P_LU.v
theories/P_LU2.v
theories/Props_LU.v
theories/M_QR.v
theories/P_QR.v
theories/Props_QR.v
theories/M_SVD.v
theories/P_SVD2.v
theories/P_SVD.v
theories/P_SVDres.v
theories/P_SVDone.v
theories/P_SVDsolve.v
theories/Props_SVD.v
theories/M_Geom.v
theories/P_Geom.v
theories/Props_Geom.v
theories/M_Quat.v
theories/SpecQuat.v
theories/M_Transform.v
theories/P_Transform.v
theories/P_Quat.v
theories/Props_Transform.v
theories/P_Rot.v
theories/Props_Quat.v
theories/P_Rot2.v
theories/Props_Rotation.v
theories/P_Proj.v
theories/Props_Proj.v
theories/P_View.v
theories/P_View2.v
theories/Props_View.v
theories/M_Trig.v
theories/P_Trig.v
theories/P_TrigD.v
theories/Props_Trig.v
theories/M_Const.v
theories/P_Const.v
theories/Props_Const.v
theories/M_Unroll.v
theories/Props_Unroll.v
theories/M_Stream.v
theories/P_Stream.v
theories/Props_Stream.v
theories/M_Float.v
theories/P_Float.v
theories/P_FloatD.v
theories/Props_Float.v
theories/M_Int.v
theories/Props_Int.v
theories/M_FloatN.v
theories/P_FloatN.v
theories/Props_FloatN.v
theories/M_FloatS.v
theories/Props_FloatS.v
theories/M_Random.v
theories/Props_Random.v
theories/M_Types.v
theories/Props_Types.v
theories/M_FloatC.v
theories/Props_FloatC.v
theories/Props_FloatL.v
theories/M_Complex.v
theories/P_Complex.v
theories/Props_Complex.v
theories/M_QRC.v
theories/P_QRC.v
theories/Props_QRC.v
theories/M_SVDC.v
theories/P_SVDC2.v
theories/P_SVDC.v
theories/P_SVDCres.v
theories/P_QRC2.v
theories/P_SVDCone.v
theories/P_SVDCsolve.v
theories/Props_SVDC.v
theories/P_SVDstop.v
theories/P_SVDthree.v
theories/Props_Stop.v
theories/P_Box.v
theories/P_SVDbox.v
theories/P_SVDfour.v
theories/Props_Stop4.v
theories/M_FloatLU.v
theories/P_FloatLU.v
theories/P_FloatTri.v
theories/P_FloatDec.v
theories/P_FloatSolve.v
theories/Props_FloatLU.v
theories/M_FloatQR.v
theories/P_Norm.v
theories/P_FloatQR.v
theories/P_FloatHH.v
theories/P_FloatQRL.v
theories/Props_FloatQR.v
theories/P_FloatQRF.v
theories/Props_FloatQRF.v
theories/M_FloatQRS.v
theories/P_FloatQRS.v
theories/Props_FloatQRS.v
theories/M_FloatQ.v
theories/Props_FloatQ.v
theories/M_FloatSVD.v
theories/P_FloatSVD.v
theories/Props_FloatSVD.v
theories/M_FloatBezier.v
theories/Props_FloatBezier.v
theories/M_FloatDet.v
theories/Props_FloatDet.v
theories/M_FloatGeo.v
theories/Props_FloatGeo.v
theories/M_FloatTriangle.v
theories/Props_FloatTriangle.v
theories/M_FloatRay.v
theories/Props_FloatRay.v
theories/M_FloatQM.v
theories/Props_FloatQM.v
theories/Props_FloatQB.v
theories/M_FloatOrtho.v
theories/Props_FloatOrtho.v
theories/Props_FloatPersp.v
theories/M_FloatRot.v
theories/Props_FloatRot.v
