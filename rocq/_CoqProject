-Q theories Verif
theories/Spec.v
theories/M_Term.v
theories/M_Ideal.v
theories/P_Term.v
theories/P_Ideal.v
theories/P_Bridge.v
theories/T_Ideal.v
theories/M_Slice.v
theories/M_Partition.v
theories/P_Msm1.v
theories/P_Msm2.v
theories/P_Msm3.v
theories/P_Msm4.v
theories/P_Msm5.v
theories/M_Msm.v
theories/P_Part.v
theories/P_Indep.v
theories/P_Proj.v
theories/P_Split.v
theories/M_Tasks.v
theories/Spec_Slice.v
theories/Spec_Run.v
theories/P_Process.v
theories/P_Run.v
theories/P_Tasks.v
theories/P_Valid.v
theories/T_Slice.v
theories/M_Api.v
theories/P_Corner.v
theories/P_Decomp.v
theories/P_Translator.v
theories/P_Internal.v
theories/Spec_Api.v
theories/P_Api.v
theories/P_Api2.v
theories/P_Api3.v
theories/P_Api4.v
theories/P_Api5.v
theories/T_Api.v
theories/M_Hilbert.v
theories/Spec_Hilbert.v
theories/P_Hil1.v
theories/P_Hil2.v
theories/P_Hil3.v
theories/P_Hil4.v
theories/P_Hil5.v
theories/P_Hil6.v
theories/P_Hil7.v
theories/P_Hil8.v
theories/T_Hilbert.v
theories/M_Dim.v
theories/Spec_Dim.v
theories/P_Dim.v
theories/P_Dim2.v
theories/T_Dim.v
theories/M_Opt.v
theories/P_Opt1.v
theories/P_Opt2.v
theories/P_Opt3.v
theories/P_Opt4.v
theories/P_Opt5.v
theories/Spec_Opt.v
theories/P_Opt6.v
theories/P_Opt7.v
theories/P_Opt8.v
theories/P_Opt9.v
theories/P_Indep2.v
theories/T_Opt.v
theories/M_SqFree.v
theories/Spec_SqFree.v
theories/P_SqFree.v
theories/P_SqFree2.v
theories/P_SqFree3.v
theories/P_SqFree4.v
theories/P_SqFree5.v
theories/P_SqFree6.v
theories/P_SqFree7.v
theories/T_SqFree.v
theories/M_Euler.v
theories/Spec_Euler.v
theories/Spec_EulerCfg.v
theories/P_Euler1.v
theories/P_Euler2.v
theories/P_Euler3.v
theories/P_Euler4.v
theories/P_Euler5.v
theories/P_Euler6.v
theories/P_Euler7.v
theories/P_Euler8.v
theories/P_Euler9.v
theories/T_Euler.v
theories/M_Poly.v
theories/Spec_Poly.v
theories/P_Poly.v
theories/P_Poly2.v
theories/P_Poly3.v
theories/T_Poly.v
theories/M_Names.v
theories/Spec_Names.v
theories/P_Names.v
theories/P_Names2.v
theories/T_Names.v
theories/M_IO.v
theories/Spec_IO.v
theories/P_IO.v
theories/P_IO2.v
theories/P_IO3.v
theories/P_IO4.v
theories/P_IO5.v
theories/P_IO6.v
theories/P_IO7.v
theories/P_IO8.v
theories/P_IO9.v
theories/P_IO10.v
theories/T_IO.v
theories/M_Frob.v
theories/Spec_Frob.v
theories/P_Frob.v
theories/P_Frob2.v
theories/T_Frob.v
theories/M_Arena.v
theories/Spec_Arena.v
theories/P_Arena.v
theories/P_Arena2.v
theories/P_Arena3.v
theories/P_Arena4.v
theories/T_Arena.v
theories/M_Intersect.v
theories/Spec_Intersect.v
theories/P_Intersect.v
theories/P_Intersect2.v
theories/P_Intersect3.v
theories/T_Intersect.v
theories/M_Transform.v
theories/Spec_Transform.v
theories/P_Transform.v
theories/P_Transform2.v
theories/P_Transform3.v
theories/P_Transform4.v
theories/P_Transform5.v
theories/P_Transform6.v
theories/M_Actions.v
theories/Spec_Actions.v
theories/P_Actions.v
theories/T_Transform.v
theories/M_Scarf.v
theories/M_Bigatti.v
theories/Spec_Bigatti.v
theories/Spec_Scarf.v
theories/P_Scarf1.v
theories/P_Bigatti1.v
theories/P_Bigatti2.v
theories/P_Bigatti3.v
theories/P_Bigatti4.v
theories/P_Bigatti5.v
theories/P_Finish.v
theories/P_Bigatti6.v
theories/P_Generic.v
theories/T_Bigatti.v
theories/P_Tree.v
theories/P_Deform1.v
theories/P_Deform2.v
theories/P_Scarf2.v
theories/P_Scarf3.v
theories/M_Orderer.v
theories/M_ScarfFacade.v
theories/Spec_Orderer.v
theories/P_Orderer.v
theories/P_Scarf4.v
theories/T_Scarf.v
theories/T_Orderer.v
theories/M_IOPoly.v
theories/Spec_IOPoly.v
theories/P_IOPoly.v
theories/P_IOPoly2.v
theories/P_IOPoly3.v
theories/P_IOPoly4.v
theories/T_IOPoly.v
theories/M_Cli.v
theories/Spec_Cli.v
theories/P_Cli1.v
theories/P_Cli2.v
theories/P_Cli3.v
theories/P_Cli4.v
theories/P_Cli5.v
theories/P_Cli6.v
theories/P_Cli7.v
theories/P_Cli8.v
theories/T_Cli.v
theories/M_Analyze.v
theories/Spec_Analyze.v
theories/P_Analyze.v
theories/T_Analyze.v
theories/M_Cli2.v
theories/Spec_Cli2.v
theories/P_Detect.v
theories/P_Cli9.v
theories/P_Cli10.v
theories/T_Cli2.v
theories/M_Cli3.v
theories/Spec_Cli3.v
theories/P_Cli11.v
theories/P_Cli12.v
theories/P_Cli13.v
theories/T_Cli3.v
theories/M_Generate.v
theories/M_Lattice.v
theories/Spec_Lattice.v
theories/P_Lattice.v
theories/P_Lattice2.v
theories/P_Lattice3.v
theories/P_Lattice4.v
theories/P_Lattice5.v
theories/M_Main.v
theories/Spec_Main.v
theories/P_Main.v
theories/P_Main2.v
theories/P_Main3.v
theories/P_Main4.v
theories/T_Main.v
theories/Spec_Generate.v
theories/P_Generate.v
theories/P_Generate2.v
theories/P_Generate3.v
theories/P_Generate4.v
theories/P_Generate5.v
theories/T_Generate.v
theories/M_Matrix.v
theories/Spec_Matrix.v
theories/P_Matrix.v
theories/P_Matrix2.v
theories/P_Matrix3.v
theories/P_Matrix4.v
theories/P_Matrix5.v
theories/P_Matrix6.v
theories/P_Matrix7.v
theories/P_Matrix8.v
theories/P_Matrix9.v
theories/T_Matrix.v
theories/T_Lattice.v
theories/P_Main5.v
theories/T_Main2.v
theories/M_Display.v
theories/Spec_Display.v
theories/P_Display.v
theories/P_Display2.v
theories/T_Display.v
theories/M_Help.v
theories/Spec_Help.v
theories/P_Help.v
theories/T_Help.v
theories/M_Count.v
theories/Spec_Count.v
theories/P_Count.v
theories/P_Count2.v
theories/P_Count3.v
theories/T_Count.v
theories/M_SatBinom.v
theories/Spec_SatBinom.v
theories/Spec_SatBinom2.v
theories/P_SatBinom.v
theories/P_SatBinom2.v
theories/P_SatBinom3.v
theories/T_SatBinom.v
theories/M_Mlfb.v
theories/Spec_Mlfb.v
theories/P_Mlfb.v
theories/P_Mlfb2.v
theories/P_Mlfb3.v
theories/T_Mlfb.v
theories/M_Mlfb2.v
theories/Spec_Mlfb2.v
theories/P_Mlfb4.v
theories/P_Mlfb5.v
theories/T_Mlfb2.v
theories/M_Planes.v
theories/Spec_Planes.v
theories/P_Planes.v
theories/P_Planes2.v
theories/P_Planes3.v
theories/P_Planes4.v
theories/T_Planes.v
theories/M_Index.v
theories/P_Index.v
theories/P_Index2.v
theories/T_Index.v
theories/M_Seq.v
theories/Spec_Seq.v
theories/P_Seq.v
theories/T_Seq.v
