-Q theories Verif
theories/Base.v
theories/Node.v
theories/Num.v
theories/Prim.v
theories/Cons.v
theories/Geom.v
theories/Constr.v
theories/Layout.v
theories/Solver.v
theories/MplUtils.v
theories/Ui.v
theories/Inst.v
theories/Spec.v
theories/Heap.v
theories/HeapSpec.v
theories/TreeLemmas.v
theories/NodeProofs.v
theories/HeapProofs.v
theories/HeapEffect.v
theories/HeapCopy.v
theories/P_Heap.v
theories/CounterProofs.v
theories/P_Node.v
theories/PrimProofs.v
theories/CtorProofs.v
theories/DofProofs.v
theories/P_Prim.v
theories/ConsSpec.v
theories/ConsProofs.v
theories/TransProofs.v
theories/Trans2Proofs.v
theories/CstrProofs.v
theories/CstrR.v
theories/P_Cons.v
theories/GeomSpec.v
theories/GeomProofs.v
theories/P_Geom.v
theories/P_Angle.v
theories/CompProofs.v
theories/P_Comp.v
theories/GridProofs.v
theories/P_Grid.v
theories/LayoutSpec.v
theories/LayoutProofs.v
theories/UpdateProofs.v
theories/ReadySpec.v
theories/ReadyProofs.v
theories/ShippedProofs.v
theories/ShippedDims.v
theories/ShippedArrays.v
theories/ShippedSpec.v
theories/GrowProofs.v
theories/NeatProofs.v
theories/HistProofs.v
theories/WholeProofs.v
theories/P_Layout.v
theories/SizeSpec.v
theories/SizeProofs.v
theories/SizeShipped.v
theories/P_Size.v
theories/SolverSpec.v
theories/SolverProofs.v
theories/AffineProofs.v
theories/BlendProofs.v
theories/AffineShipped.v
theories/P_Solver.v
theories/P_Converged.v
theories/HistWf.v
theories/AllocProofs.v
theories/P_Wf.v
theories/AffineList.v
theories/KindProofs.v
theories/AffineLayout.v
theories/P_Affine.v
theories/MplSpec.v
theories/MplProofs.v
theories/P_Mpl.v
theories/UiSpec.v
theories/P_Ui.v
theories/P_Default.v
theories/EndSpec.v
theories/EndProofs.v
theories/P_End.v
theories/HeapLayout.v
theories/HeapLayoutSpec.v
theories/HeapTree.v
theories/HeapHist.v
theories/HeapUpdate.v
theories/HeapLater.v
theories/P_HeapLayout.v
theories/HeapSolve.v
theories/HeapSolveProofs.v
theories/P_HeapSolve.v
theories/ExprSpec.v
theories/ExprProofs.v
theories/PureProofs.v
theories/LikeProofs.v
theories/P_Expr.v
theories/LsqSpec.v
theories/Lsq.v
theories/Backend.v
theories/BackendSpec.v
theories/BackendProofs.v
theories/BackendAffine.v
theories/GlobalProofs.v
theories/BackendLocal.v
theories/BackendOrder.v
theories/P_Backend.v
theories/P_Same.v
theories/StationSpec.v
theories/Station.v
theories/P_Station.v
theories/MoveSpec.v
theories/MoveProofs.v
theories/MoveSolve.v
theories/P_Move.v
theories/P_Ideal.v
theories/MinSpec.v
theories/P_Min.v
theories/Index.v
theories/IndexSpec.v
theories/P_Index.v
theories/Pytree.v
theories/PytreeSpec.v
theories/PytreeProofs.v
theories/P_Pytree.v
theories/GridEndSpec.v
theories/P_GridEnd.v
theories/ImpliedSpec.v
theories/P_Implied.v
theories/Repr.v
theories/ReprSpec.v
theories/P_Repr.v
theories/UiFig.v
theories/UiFigSpec.v
theories/P_Fig.v
theories/RoomSpec.v
theories/RoomProofs.v
theories/P_Room.v
theories/P_RoomCase.v
theories/P_Target.v
theories/P_Measure.v
theories/Tangent.v
theories/OneStep.v
theories/OneStepSpec.v
theories/OneStepLayout.v
theories/DrawSpec.v
theories/P_Draw.v
theories/P_OneStep.v
theories/AspectSpec.v
theories/Aspect.v
theories/AspectStep.v
theories/P_Aspect.v
theories/AspectHSpec.v
theories/AspectH.v
theories/P_AspectH.v
theories/ScaleSpec.v
theories/ScaleProofs.v
theories/P_Scale.v
theories/ScaleCons.v
theories/ScaleComp.v
theories/UnitSpec.v
theories/UnitProofs.v
theories/UnitLayout.v
theories/P_Unit.v
theories/P_Outcome.v
theories/UnitSolve.v
theories/P_UnitSolve.v
theories/TurnSpec.v
theories/TurnProofs.v
theories/P_Turn.v
theories/P_Pinned.v
theories/P_Stable.v
theories/P_Parts.v
theories/MirrorSpec.v
theories/MirrorProofs.v
theories/P_Mirror.v
