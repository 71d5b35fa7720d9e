-Q theories Verif
theories/Base.v
theories/LabelLUT_Model.v
theories/LabelLUT_Spec.v
theories/LabelLUT_Proofs.v
theories/LabelLUT_Properties.v
theories/Orbit.v
theories/GraphRank.v
theories/Euler.v
theories/Links.v
theories/FaceInv.v
theories/GeoMap_Model.v
theories/Conj.v
theories/GeoMap_Views.v
theories/GeoMap_SInv.v
theories/GeoMap_Remove.v
theories/GeoMap_MergeEdges.v
theories/GeoMap_SplitEdge.v
theories/GeoMap_Loops.v
theories/GeoMap_MInv.v
theories/GeoMap_Gone.v
theories/GeoMap_Bridge.v
theories/GeoMap_MergeFaces.v
theories/GeoMap_Subdiv.v
theories/GeoMap_Init.v
theories/GeoMap_Area.v
theories/GeoMap_Embed.v
theories/GeoMap_Initialize.v
theories/GeoMap_Sort.v
theories/Angle_Proofs.v
theories/GeoMap_Flags.v
theories/GeoMap_Move.v
theories/GeoMap_History.v
theories/GeoMap_Geometry.v
theories/GeoMap_AreaInv.v
theories/GeoMap_Spec.v
theories/GeoMap_Facts.v
theories/GeoMap_Results.v
theories/GeoMap_Results2.v
theories/GeoMap_Results3.v
theories/GeoMap_IterModel.v
theories/GeoMap_Results4.v
theories/SigmaArray.v
theories/GeoMap_Examples.v
theories/GeoMap_Results5.v
theories/GeoMap_Hooks.v
theories/GeoMap_Properties.v
theories/Map2D_Model.v
theories/Map2D_Spec.v
theories/Map2D_Proofs.v
theories/Map2D_Properties.v
theories/Filter_Model.v
theories/Filter_Spec.v
theories/Filter_Proofs.v
theories/Filter_GeoMap.v
theories/Filter_Properties.v
theories/Scanlines_Model.v
theories/Scanlines_Spec.v
theories/Scanlines_Proofs.v
theories/ScanPoly_Model.v
theories/ScanPoly_Spec.v
theories/ScanPoly_Proofs.v
theories/Scanlines_Properties.v
theories/Image_Model.v
theories/Image_Proofs.v
theories/Crack_Model.v
theories/Crack_Spec.v
theories/Crack_Proofs.v
theories/Crack_Properties.v
theories/CrackFollow_Model.v
theories/CrackFollow_Spec.v
theories/CrackFollow_Static.v
theories/CrackFollow_Loop.v
theories/CrackFollow_Map.v
theories/CrackFollow_Inv.v
theories/CrackFollow_Proofs.v
theories/CrackFollow_Results.v
theories/CrackFollow_Properties.v
theories/Polygon_Model.v
theories/Polygon_Spec.v
theories/Polygon_Proofs.v
theories/Polygon_Results.v
theories/Polygon_Properties.v
theories/DartPosition_Model.v
theories/DartPosition_Spec.v
theories/DartPosition_Proofs.v
theories/DartPosition_Properties.v
theories/Simplify_Model.v
theories/Simplify_Spec.v
theories/Simplify_Proofs.v
theories/Simplify_Properties.v
theories/Contains_Model.v
theories/Contains_Spec.v
theories/Contains_Proofs.v
theories/Contains_GeoMap.v
theories/Contains_Properties.v
theories/Hull_Model.v
theories/Hull_Spec.v
theories/Hull_Proofs.v
theories/Hull_Results.v
theories/Hull_Properties.v
theories/Dsl_Model.v
theories/Dsl_Spec.v
theories/Dsl_Proofs.v
theories/Dsl_Tangent.v
theories/Dsl_Properties.v
theories/Pack_Model.v
theories/Pack_Proofs.v
theories/Pack_Properties.v
theories/Pyramid_Model.v
theories/Pyramid_Spec.v
theories/Pyramid_Proofs.v
theories/Pyramid_Properties.v
theories/Utils_Model.v
theories/Utils_Spec.v
theories/Utils_Bridges.v
theories/Utils_Results.v
theories/Utils_Protect.v
theories/Utils_Trace.v
theories/Utils_Nodes.v
theories/Utils_Merge.v
theories/Utils_Complete.v
theories/Utils_Bulk.v
theories/Utils_Examples.v
theories/Utils_Properties.v
theories/Move_Results.v
theories/Move_Properties.v
theories/LabelImage_Model.v
theories/LabelImage_Spec.v
theories/LabelImage_Loops.v
theories/LabelImage_Cover.v
theories/LabelImage_Cache.v
theories/LabelImage_Inv.v
theories/LabelImage_Steps.v
theories/LabelImage_Remove.v
theories/LabelImage_Pass.v
theories/LabelImage_Contour.v
theories/LabelImage_Setup.v
theories/LabelImage_Switch.v
theories/LabelImage_Relabel.v
theories/LabelImage_Results.v
theories/LabelImage_Main.v
theories/LabelImage_Examples.v
theories/LabelImage_Properties.v
theories/Copy_Model.v
theories/Copy_Spec.v
theories/Copy_Proofs.v
theories/Copy_Results.v
theories/Copy_Main.v
theories/Copy_Properties.v
theories/FaceStats_Model.v
theories/FaceStats_Spec.v
theories/FaceStats_Boxes.v
theories/FaceStats_Proofs.v
theories/FaceStats_Keep.v
theories/FaceStats_Main.v
theories/FaceStats_Examples.v
theories/FaceStatsCopy.v
theories/FaceStats_Properties.v
theories/CellMap_Model.v
theories/CellMap_Spec.v
theories/CellMap_Scan.v
theories/CellMap_Proofs.v
theories/CellMap_Main.v
theories/CellMap_Init.v
theories/CellMap_InitProofs.v
theories/CellMap_Check.v
theories/CellMap_Examples.v
theories/CellMap_Properties.v
theories/CellSigma_Spec.v
theories/CellSigma_Proofs.v
theories/CellSigma_Results.v
theories/CellLink_Spec.v
theories/CellLink_Proofs.v
theories/CellLink_Main.v
theories/CellLink_Results.v
theories/CellLink_Check.v
theories/CellSigma_Examples.v
theories/CellSigma_Properties.v
theories/CellFace_Spec.v
theories/CellFace_Walk.v
theories/CellFace_Main.v
theories/CellFace_Step.v
theories/CellFace_Results.v
theories/CellFace_Examples.v
theories/CellFace_Properties.v
theories/CellStart_Spec.v
theories/CellStart_Walk.v
theories/CellStart_Ends.v
theories/CellStart_Init.v
theories/CellStart_Results.v
theories/CellStart_Examples.v
theories/CellStart_Properties.v
theories/CellContour_Spec.v
theories/CellContour_Orbit.v
theories/CellContour_Phi.v
theories/CellContour_Find.v
theories/CellContour_View.v
theories/CellContour_Cut.v
theories/CellContour_Step.v
theories/CellContour_Leave.v
theories/CellContour_Results.v
theories/CellContour_Examples.v
theories/CellContour_Properties.v
theories/CellCall_Careful.v
theories/CellCall_Base.v
theories/CellCall_Main.v
theories/CellCall_Results.v
theories/CellCall_Properties.v
theories/CellThresh_Model.v
theories/CellThresh_Spec.v
theories/CellThresh_Comps.v
theories/CellThresh_Types.v
theories/CellThresh_Draw.v
theories/CellThresh_Paint.v
theories/CellThresh_Edges.v
theories/CellThresh_Loop.v
theories/CellThresh_Loops.v
theories/CellThresh_All.v
theories/CellThresh_Results.v
theories/CellThresh_Examples.v
theories/CellThresh_Corner.v
theories/CellThresh_Properties.v
theories/CellTotal_Spec.v
theories/CellTotal_Anchor.v
theories/CellTotal_Init.v
theories/CellTotal_Results.v
theories/CellTotal_Properties.v
theories/CellJordan_Parity.v
theories/CellJordan_Owner.v
theories/CellJordan_Class.v
theories/CellJordan_Border.v
theories/CellJordan_Spec.v
theories/CellJordan_Results.v
theories/CellJordan_Image.v
theories/CellJordan_Examples.v
theories/CellJordan_Properties.v
theories/CellPlane_Spec.v
theories/CellPlane_Owner.v
theories/CellPlane_Class.v
theories/CellPlane_Start.v
theories/CellPlane_Cut.v
theories/CellPlane_Leave.v
theories/CellPlane_Join.v
theories/CellPlane_Results.v
theories/CellPlane_Examples.v
theories/CellPlane_Properties.v
theories/CellEuler_Spec.v
theories/CellEuler_Step.v
theories/CellEuler_Clear.v
theories/CellEuler_Linked.v
theories/CellEuler_Parts.v
theories/CellEuler_Examples.v
theories/CellEuler_Properties.v
theories/CellStats_Model.v
theories/CellStats_Spec.v
theories/CellStats_Step.v
theories/CellStats_Main.v
theories/CellStats_Chain.v
theories/CellStats_Inv.v
theories/CellStats_Start.v
theories/CellStats_Results.v
theories/CellStats_Examples.v
theories/CellStats_Properties.v
theories/CellPyr_Model.v
theories/CellPyr_Spec.v
theories/CellPyr_Ends.v
theories/CellPyr_Main.v
theories/CellPyr_Levels.v
theories/CellPyr_Examples.v
theories/CellPyr_Properties.v
theories/CellThin_Model.v
theories/CellThin_Spec.v
theories/CellThin_Pixel.v
theories/CellThin_Edge.v
theories/CellThin_Move.v
theories/CellThin_Examples.v
theories/CellThin_Properties.v
theories/CellCopy_Model.v
theories/CellCopy_Spec.v
theories/CellCopy_Proofs.v
theories/CellCopy_Examples.v
theories/CellCopy_Properties.v
theories/Intersect_Model.v
theories/Intersect_Spec.v
theories/Intersect_Proofs.v
theories/Intersect_Properties.v
theories/Saddle_Model.v
theories/Saddle_Spec.v
theories/Saddle_Proofs.v
theories/Saddle_Properties.v
theories/CellAuto_Model.v
theories/CellAuto_Spec.v
theories/CellAuto_Proofs.v
theories/CellAuto_Properties.v
theories/PyIndex_Model.v
theories/PyIndex_Spec.v
theories/PyIndex_Proofs.v
theories/PyIndex_Properties.v
theories/EdgeMark_Model.v
theories/EdgeMark_Spec.v
theories/EdgeMark_Proofs.v
theories/EdgeMark_Properties.v
