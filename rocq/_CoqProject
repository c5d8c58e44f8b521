-Q theories Verif
theories/Base.v
theories/M_Fea.v
theories/S_Integral.v
theories/P_Integral.v
theories/S_Fem.v
theories/P_Fea.v
theories/P_Geom.v
theories/M_Post.v
theories/M_Section.v
theories/M_Stress.v
theories/P_Extrap.v
theories/P_Elem.v
theories/T_Fea.v
theories/S_Section.v
theories/S_Post.v
theories/P_Section.v
theories/P_Totals.v
theories/P_Post.v
theories/P_Yield.v
theories/T_Section.v
theories/S_Warp.v
theories/P_Warp.v
theories/P_Warp2.v
theories/P_Warp3.v
theories/P_Warp4.v
theories/P_Warp5.v
theories/P_Warp6.v
theories/P_Warp7.v
theories/P_Warp8.v
theories/P_Warp9.v
theories/P_WarpEx.v
theories/P_Warp10.v
theories/S_Stress.v
theories/P_Stress.v
theories/P_Stress2.v
theories/T_Warp.v
theories/T_Stress.v
theories/M_Init.v
theories/S_Init.v
theories/P_Init.v
theories/T_Init.v
theories/M_Props.v
theories/M_Bisect.v
theories/M_Plastic.v
theories/S_Plastic.v
theories/P_Ridge.v
theories/P_Plastic.v
theories/P_Plastic2.v
theories/P_Clip.v
theories/P_Shape.v
theories/P_Plastic3.v
theories/P_Plastic4.v
theories/S_Shape.v
theories/P_Plastic5.v
theories/P_Plastic6.v
theories/P_Plastic7.v
theories/T_Plastic.v
theories/M_Solver.v
theories/S_Solver.v
theories/P_Solver.v
theories/T_Solver.v
theories/M_State.v
theories/S_State.v
theories/P_State.v
theories/P_State2.v
theories/P_State3.v
theories/P_State4.v
theories/P_State5.v
theories/T_State.v
theories/T_StateSolver.v
theories/M_Geometry.v
theories/S_Geometry.v
theories/P_Geometry.v
theories/P_Geometry2.v
theories/P_Geometry3.v
theories/P_Geometry4.v
theories/P_Geometry5.v
theories/P_Geometry6.v
theories/P_Geometry7.v
theories/P_Geometry8.v
theories/P_Geometry9.v
theories/P_ShiftPoints.v
theories/T_Geometry.v
theories/M_SetOps.v
theories/S_SetOps.v
theories/P_SetOps.v
theories/T_SetOps.v
theories/T_SetOps2.v
theories/M_Library.v
theories/S_Library.v
theories/P_Library.v
theories/P_Library2.v
theories/P_Library3.v
theories/P_Library4.v
theories/P_Library5.v
theories/P_Library6.v
theories/P_Library7.v
theories/P_Library8.v
theories/P_Library9.v
theories/P_Library10.v
theories/T_Library.v
theories/M_Concrete.v
theories/S_Concrete.v
theories/P_Concrete.v
theories/P_Concrete2.v
theories/P_Concrete3.v
theories/P_Concrete4.v
theories/P_Concrete5.v
theories/P_Concrete6.v
theories/P_Concrete7.v
theories/P_Concrete8.v
theories/P_Concrete9.v
theories/P_Concrete10.v
theories/P_Concrete11.v
theories/P_Concrete12.v
theories/P_Concrete13.v
theories/T_Concrete.v
theories/T_Concrete2.v
theories/M_Nastran.v
theories/S_Nastran.v
theories/P_Nastran.v
theories/P_Nastran2.v
theories/P_Nastran3.v
theories/T_Nastran.v
theories/T_Nastran2.v
theories/M_Fibre.v
theories/S_Fibre.v
theories/P_Fibre.v
theories/P_Fibre2.v
theories/T_Fibre.v
theories/M_Bridge.v
theories/S_Bridge.v
theories/P_Bridge.v
theories/T_Bridge.v
theories/M_StressPost.v
theories/S_StressPost.v
theories/P_StressPost.v
theories/P_StressPost2.v
theories/T_StressPost.v
theories/M_Draw.v
theories/S_Draw.v
theories/P_Draw.v
theories/T_Draw.v
theories/M_Display.v
theories/S_Display.v
theories/P_Display.v
theories/T_Display.v
theories/S_FromPoints.v
theories/P_FromPoints.v
theories/T_FromPoints.v
theories/M_Plots.v
theories/S_Plots.v
theories/P_Plots.v
theories/P_Plots2.v
theories/T_Plots.v
theories/P_Plots3.v
theories/P_Mask.v
theories/P_Plots4.v
theories/T_Plots2.v
theories/S_Outline.v
theories/P_Outline.v
theories/P_Outline2.v
theories/P_Outline3.v
theories/T_Outline.v
theories/S_Similar.v
theories/P_Similar.v
theories/P_Similar2.v
theories/P_Similar3.v
theories/T_Similar.v
theories/S_PlasticForms.v
theories/P_PlasticForms.v
theories/P_PlasticForms2.v
theories/P_PlasticForms3.v
theories/T_PlasticForms.v
theories/P_PlasticForms4.v
theories/T_PlasticForms2.v
theories/T_PlasticForms3.v
theories/S_Rects.v
theories/P_Rects.v
theories/T_Rects.v
theories/S_Composite.v
theories/T_Composite.v
theories/M_Perimeter.v
theories/S_Perimeter.v
theories/P_Perimeter.v
theories/P_Perimeter2.v
theories/T_Perimeter.v
theories/S_StressImage.v
theories/P_Similar4.v
theories/P_Similar5.v
theories/T_StressImage.v
theories/S_Refine.v
theories/P_Refine.v
theories/T_Refine.v
theories/M_Load.v
theories/T_Load.v
theories/S_Prandtl.v
theories/P_Green.v
theories/P_Prandtl.v
theories/P_Prandtl2.v
theories/T_Prandtl.v
theories/S_Shear.v
theories/P_Shear.v
theories/P_Shear2.v
theories/T_Shear.v
theories/S_Hollow.v
theories/P_Hollow.v
theories/P_Hollow2.v
theories/P_Hollow3.v
theories/T_Hollow.v
theories/S_Converge.v
theories/P_Converge.v
theories/S_Grid.v
theories/P_Grid.v
theories/T_Converge.v
theories/P_Converge2.v
theories/S_Grid2.v
theories/P_Grid2.v
theories/T_Converge2.v
theories/S_Error.v
theories/P_Error.v
theories/T_Error.v
theories/P_ShearCentre.v
theories/T_ShearCentre.v
theories/M_PlotContext.v
theories/T_PlotContext.v
theories/T_Rects2.v
theories/S_Clt.v
theories/T_Clt.v
theories/S_Plates.v
theories/T_Rects3.v
theories/T_NastranPlates.v
theories/T_NastranHexa.v
theories/S_Holes.v
theories/T_Holes.v
