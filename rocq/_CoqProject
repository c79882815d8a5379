-Q theories Verif

theories/M_Bytes.v
theories/L_Bytes.v
theories/M_Pack2D.v
theories/L_Pack2D.v
theories/M_RemoteGeom.v
theories/L_RemoteGeom.v
theories/P_Codecs.v
theories/M_Transport.v
theories/S_Transport.v
theories/L_Transport.v
theories/P_Transport.v
theories/M_Reader.v
theories/S_Reader.v
theories/L_Reader.v
theories/P_Reader.v
theories/M_Util.v
theories/S_Util.v
theories/L_Util.v
theories/P_Util.v
theories/M_RealBase.v
theories/L_RealBase.v
theories/M_Grid.v
theories/S_Grid.v
theories/L_Grid.v
theories/L_Coarse.v
theories/L_Coarse2.v
theories/P_Grid.v
theories/M_Coord.v
theories/S_Coord.v
theories/L_Coord.v
theories/P_Coord.v
theories/M_Sample.v
theories/S_Sample.v
theories/L_Sample.v
theories/P_Sample.v
theories/L_ListX.v
theories/M_MeshIf.v
theories/S_MeshIf.v
theories/L_MeshIf.v
theories/L_MeshIf2.v
theories/L_MeshIf3.v
theories/P_MeshIf.v
theories/M_Rma.v
theories/L_Rma.v
theories/M_Exchange.v
theories/S_Exchange.v
theories/L_Exchange.v
theories/M_ExchangeMesh.v
theories/L_ExchangeMesh.v
theories/L_ExchangeEnd.v
theories/P_Exchange.v
theories/M_Halo.v
theories/S_Halo.v
theories/L_HaloCells.v
theories/L_Halo.v
theories/L_Halo2.v
theories/L_Halo3.v
theories/P_Halo.v
theories/M_LinePlane.v
theories/S_LinePlane.v
theories/L_LinePlane.v
theories/P_LinePlane.v
theories/M_Composite.v
theories/S_Composite.v
theories/L_CompCells.v
theories/L_Composite.v
theories/L_CompEnd.v
theories/L_CompSetup.v
theories/P_Composite.v
theories/M_Loop.v
theories/S_Loop.v
theories/L_Loop.v
theories/M_Bary.v
theories/S_Bary.v
theories/L_Bary.v
theories/L_Bary2.v
theories/L_Bary3.v
theories/P_Bary.v
theories/M_NewtonGen.v
theories/M_NewtonMap.v
theories/S_Newton.v
theories/S_NewtonM.v
theories/L_Newton.v
theories/L_Newton2.v
theories/P_Newton.v
theories/M_NewtonBind.v
theories/S_NewtonBind.v
theories/L_NewtonBind.v
theories/L_NewtonBind2.v
theories/L_NewtonMap.v
theories/P_NewtonBind.v
theories/M_Regular.v
theories/S_Regular.v
theories/L_Regular.v
theories/L_Regular2.v
theories/L_Regular3.v
theories/L_Regular4.v
theories/P_Regular.v
theories/M_Pic.v
theories/S_Pic.v
theories/L_Pic.v
theories/P_Pic.v
theories/M_Jacobi.v
theories/S_Jacobi.v
theories/L_Jacobi.v
theories/M_Basis.v
theories/S_Basis.v
theories/S_Basis2.v
theories/L_Basis1.v
theories/L_Basis2.v
theories/L_Basis3.v
theories/L_Basis4.v
theories/L_Basis5.v
theories/L_Basis6.v
theories/P_Basis.v
theories/M_FieldProject.v
theories/S_FieldProject.v
theories/L_FieldProject.v
theories/P_FieldProject.v
theories/M_Reader2.v
theories/S_Reader2.v
theories/L_Reader2.v
theories/L_Reader3.v
theories/P_Reader2.v
theories/M_Sol.v
theories/S_Sol.v
theories/L_Sol.v
theories/L_Sol2.v
theories/L_Sol3.v
theories/L_Sol4.v
theories/L_Sol5.v
theories/L_BigO.v
theories/L_Expint.v
theories/L_Sol6.v
theories/P_Sol.v
theories/M_Fluid.v
theories/S_Fluid.v
theories/L_Fluid.v
theories/L_Fluid2.v
theories/L_Fluid3.v
theories/L_Fluid4.v
theories/L_Fluid5.v
theories/L_Fluid6.v
theories/P_Fluid.v
theories/M_Plane.v
theories/S_Plane.v
theories/L_Plane.v
theories/P_Plane.v
theories/M_Euler.v
theories/S_Euler.v
theories/L_Euler.v
theories/P_Euler.v
theories/M_Diffusion.v
theories/S_Diffusion.v
theories/L_Diffusion.v
theories/P_Diffusion.v
theories/M_PartSys.v
theories/P_PartSys.v
theories/M_Neutral.v
theories/S_Neutral.v
theories/L_Neutral.v
theories/P_Neutral.v
theories/M_BaryField.v
theories/S_BaryField.v
theories/L_BaryField.v
theories/L_BaryField2.v
theories/L_BaryField3.v
theories/L_BaryField4.v
theories/P_BaryField.v
theories/M_Implicit.v
theories/S_Implicit.v
theories/L_Implicit.v
theories/P_Implicit.v
theories/M_Params.v
theories/S_Params.v
theories/L_Params.v
theories/P_Params.v
theories/M_Generic3D.v
theories/S_Generic3D.v
theories/L_Generic3D.v
theories/L_Generic3D2.v
theories/L_Generic3D3.v
theories/P_Generic3D.v
theories/M_BBox.v
theories/S_BBox.v
theories/L_BBox.v
theories/L_BBox2.v
theories/P_BBox.v
theories/M_Halo3D.v
theories/S_Halo3D.v
theories/L_Halo3D.v
theories/P_Halo3D.v
theories/M_Rounds.v
theories/L_Rounds.v
theories/P_Rounds.v
theories/M_Writer.v
theories/P_Writer.v
theories/M_Driver.v
theories/L_Driver.v
theories/P_Driver.v
theories/M_HaloExt3.v
theories/S_HaloExt3.v
theories/L_HaloExt3.v
theories/L_HaloExt3b.v
theories/L_HaloExt3c.v
theories/L_HaloExt3d.v
theories/P_HaloExt3.v
theories/M_HexGeom.v
theories/S_HexGeom.v
theories/L_HexGeom.v
theories/P_HexGeom.v
theories/M_Vtk.v
theories/S_Vtk.v
theories/L_Vtk.v
theories/P_Vtk.v
theories/M_FieldHelp.v
theories/S_FieldHelp.v
theories/L_FieldHelp.v
theories/P_FieldHelp.v
theories/M_BoundaryData.v
theories/S_BoundaryData.v
theories/L_BoundaryData.v
theories/L_BoundaryData2.v
theories/P_BoundaryData.v
theories/S_Subdomain.v
theories/M_Subdomain.v
theories/P_Subdomain.v
theories/M_Launch.v
theories/S_Launch.v
theories/L_Launch.v
theories/P_Launch.v
theories/M_Journey.v
theories/S_Journey.v
theories/L_Journey.v
theories/L_Journey2.v
theories/P_Journey.v
theories/P_Journey2.v
theories/M_FieldEval.v
theories/S_FieldEval.v
theories/L_FieldEval.v
theories/P_FieldEval.v
theories/S_FieldEval2.v
theories/P_FieldEval2.v
theories/P_FieldEval3.v
theories/M_CurvedMap.v
theories/L_CurvedMap.v
theories/P_CurvedMap.v
theories/M_FieldDeposit.v
theories/S_FieldDeposit.v
theories/L_FieldDeposit.v
theories/P_FieldDeposit.v
theories/P_FieldDeposit2.v
theories/M_Double.v
theories/S_Double.v
theories/L_Double.v
theories/L_Double2.v
theories/L_Double3.v
theories/P_Double.v
theories/P_Double2.v
theories/P_Double3.v
theories/M_DoubleGrid.v
theories/S_DoubleGrid.v
theories/L_DoubleGrid.v
theories/P_DoubleGrid.v
theories/M_ChargedInit.v
theories/S_ChargedInit.v
theories/L_ChargedInit.v
theories/P_ChargedInit.v
theories/M_DoubleTime.v
theories/S_DoubleTime.v
theories/L_DoubleTime.v
theories/P_DoubleTime.v
theories/M_DoubleExpr.v
theories/M_NewtonGenD.v
theories/M_NewtonD.v
theories/S_NewtonD.v
theories/L_DoubleExpr.v
theories/L_NewtonD.v
theories/P_NewtonD.v
theories/M_BorisD.v
theories/S_BorisD.v
theories/L_DoubleExpr2.v
theories/L_BorisD.v
theories/P_BorisD.v
theories/M_IoniseD.v
theories/S_IoniseD.v
theories/P_IoniseD.v
theories/M_SumD.v
theories/S_SumD.v
theories/L_SumD.v
theories/P_SumD.v
theories/M_CoordD.v
theories/S_CoordD.v
theories/L_CoordD.v
theories/P_CoordD.v
theories/M_BaryD.v
theories/S_BaryD.v
theories/L_BaryD.v
theories/P_BaryD.v
theories/M_BasisD.v
theories/S_BasisD.v
theories/L_BasisD.v
theories/L_BasisD2.v
theories/L_BasisD3.v
theories/P_BasisD.v
theories/M_EvalD.v
theories/S_EvalD.v
theories/L_EvalD.v
theories/L_EvalD2.v
theories/P_EvalD.v
theories/M_ProjectD.v
theories/S_ProjectD.v
theories/L_ProjectD.v
theories/P_ProjectD.v
theories/M_PyrD.v
theories/S_PyrD.v
theories/L_PyrD.v
theories/P_PyrD.v
