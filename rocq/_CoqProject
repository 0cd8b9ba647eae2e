-Q theories Verif
theories/FloatFuns.v
theories/Num.v
theories/M_LP.v
theories/M_Homogr.v
theories/S_Geom.v
theories/P_LP.v
theories/P_LP2.v
theories/P_LP3.v
theories/P_LP4.v
theories/P_LP5.v
theories/C_LP.v
theories/S_Homogr.v
theories/P_Homogr.v
theories/P_Homogr2.v
theories/P_Homogr3.v
theories/C_Homogr.v
theories/M_Seg.v
theories/S_Seg.v
theories/P_Seg.v
theories/P_Seg2.v
theories/P_Seg3.v
theories/P_Seg4.v
theories/C_Seg.v
theories/M_Circle.v
theories/S_Circle.v
theories/P_Circle.v
theories/P_Circle2.v
theories/P_Circle3.v
theories/P_Circle4.v
theories/C_Circle.v
theories/M_Poly.v
theories/M_FRect.v
theories/S_Poly.v
theories/S_FRect.v
theories/P_BB.v
theories/P_Grid.v
theories/P_Grid2.v
theories/P_Grid3.v
theories/P_FRect.v
theories/P_FRect2.v
theories/C_FRect.v
theories/P_Poly.v
theories/P_Poly2.v
theories/P_Poly3.v
theories/P_Poly4.v
theories/P_Poly5.v
theories/P_Poly6.v
theories/P_Poly7.v
theories/C_Poly.v
theories/M_Misc.v
theories/S_Misc.v
theories/P_Misc.v
theories/P_Misc2.v
theories/C_Misc.v
theories/M_Ellipse.v
theories/S_Ellipse.v
theories/P_Ellipse.v
theories/P_Ellipse2.v
theories/C_Ellipse.v
theories/S_Ellipse2.v
theories/P_Ellipse3.v
theories/C_Ellipse2.v
theories/C_LP2.v
theories/M_Draw.v
theories/C_Draw.v
theories/M_Hull.v
theories/S_Hull.v
theories/P_Hull.v
theories/C_Hull.v
theories/M_Pip.v
theories/S_Pip.v
theories/P_Parity.v
theories/P_Pip.v
theories/P_Pip2.v
theories/P_Pip3.v
theories/C_Pip.v
theories/M_Svg.v
theories/S_Svg.v
theories/P_Svg.v
theories/P_Svg2.v
theories/P_Svg3.v
theories/P_Svg4.v
theories/C_Svg.v
theories/M_Map.v
theories/S_Map.v
theories/P_Map.v
theories/C_Map.v
theories/M_Offset.v
theories/S_Offset.v
theories/P_Offset.v
theories/P_Offset2.v
theories/C_Offset.v
theories/P_Bisector.v
theories/C_Offset2.v
theories/S_Extra.v
theories/C_Extra.v
theories/S_Rect2.v
theories/P_Rect2.v
theories/C_Rect2.v
theories/S_Min.v
theories/P_Min.v
theories/C_Min.v
theories/S_Tan.v
theories/P_Tan.v
theories/C_Tan.v
theories/C_Pip2.v
theories/M_Four.v
theories/S_Four.v
theories/P_Four.v
theories/C_Four.v
theories/C_Pip3.v
theories/M_Fmt.v
theories/M_SvgOut.v
theories/S_Xml.v
theories/P_Fmt.v
theories/P_Xml.v
theories/S_SvgOut.v
theories/P_SvgOut.v
theories/M_SvgIn.v
theories/S_SvgIn.v
theories/P_SvgIn.v
theories/C_SvgOut.v
theories/C_Mark.v
theories/M_Arrow.v
theories/C_Arrow.v
theories/C_Offset3.v
theories/M_Inter.v
theories/S_Inter.v
theories/P_Inter.v
theories/C_Inter.v
theories/S_Rect3.v
theories/P_Rect3.v
theories/P_Rect4.v
theories/C_Rect3.v
theories/S_SvgOut2.v
theories/C_SvgOut2.v
theories/S_EllImage.v
theories/P_EllImage.v
theories/M_Variant.v
theories/S_Variant.v
theories/P_Variant.v
theories/C_Ellipse3.v
theories/C_Variant.v
theories/M_EllOpt.v
theories/S_EllOpt.v
theories/P_EllOpt.v
theories/C_EllOpt.v
theories/M_Stream.v
theories/S_Stream.v
theories/P_Stream.v
theories/C_Stream.v
theories/M_LineDraw.v
theories/P_LineDraw.v
theories/C_LineDraw.v
theories/S_Float.v
theories/P_Float.v
theories/C_Float.v
theories/S_FloatZ.v
theories/P_FloatZ.v
theories/P_FloatZ2.v
theories/C_FloatZ.v
theories/S_FloatR.v
theories/P_FloatR.v
theories/P_FloatE.v
theories/P_FloatE2.v
theories/P_FloatH.v
theories/C_FloatR.v
theories/S_FloatL.v
theories/P_FloatL.v
theories/P_FloatL2.v
theories/P_FloatL3.v
theories/C_FloatL.v
theories/M_Interop.v
theories/S_Interop.v
theories/C_Interop.v
theories/M_Square.v
theories/S_Square.v
theories/P_Square.v
theories/C_Square.v
theories/P_FloatP.v
theories/C_FloatP.v
theories/M_Ctor.v
theories/C_Ctor.v
theories/M_Conv.v
theories/C_Conv.v
theories/P_FloatX.v
theories/C_FloatX.v
theories/P_FloatG.v
theories/C_FloatG.v
theories/P_FloatC.v
theories/P_FloatC2.v
theories/P_FloatC3.v
theories/C_FloatC.v
theories/P_FloatN.v
theories/C_FloatN.v
theories/C_FloatI.v
