-Q theories Verif

theories/Admis_Model.v
theories/Admis_Proofs.v
theories/Admis_Spec.v
theories/Admis_Thm.v
theories/Artvisc_Model.v
theories/Artvisc_Proofs.v
theories/Artvisc_Spec.v
theories/Artvisc_Thm.v
theories/Atmos_Model.v
theories/Atmos_Proofs.v
theories/Atmos_Spec.v
theories/Atmos_Thm.v
theories/Basis_Model.v
theories/Basis_Proofs.v
theories/Basis_Spec.v
theories/Basis_Thm.v
theories/Bc_Model.v
theories/Bc_Proofs.v
theories/Bc_Spec.v
theories/Bc_Thm.v
theories/Connection2_Proofs.v
theories/Connection3_Proofs.v
theories/Connection_Model.v
theories/Connection_Proofs.v
theories/Connection_Spec.v
theories/Connection_Thm.v
theories/Container_Model.v
theories/Container_Proofs.v
theories/Container_Spec.v
theories/Container_Thm.v
theories/Csv_Model.v
theories/Csv_Proofs.v
theories/Csv_Spec.v
theories/Csv_Thm.v
theories/Doublet_Model.v
theories/Doublet_Proofs.v
theories/Doublet_Proofs2.v
theories/Doublet_Spec.v
theories/Doublet_Thm.v
theories/Expr_Model.v
theories/Expr_Proofs.v
theories/Expr_Spec.v
theories/Expr_Thm.v
theories/Extr_Model.v
theories/Extr_Proofs1.v
theories/Extr_Proofs2.v
theories/Extr_Spec.v
theories/Extr_Thm.v
theories/Factory_Model.v
theories/Factory_Thm.v
theories/Filter_Model.v
theories/Filter_Proofs.v
theories/Filter_Spec.v
theories/Filter_Thm.v
theories/Free_Model.v
theories/Free_Proofs1.v
theories/Free_Proofs2.v
theories/Free_Proofs3.v
theories/Free_Proofs4.v
theories/Free_Spec.v
theories/Free_Thm.v
theories/Gas_Model.v
theories/Gas_Spec.v
theories/Gas_Thm.v
theories/GeomPred_Model.v
theories/GeomPred_Proofs.v
theories/GeomPred_Spec.v
theories/GeomPred_Thm.v
theories/Hil_Eval.v
theories/Hil_Exec.v
theories/Hil_Exit.v
theories/Hil_Lex.v
theories/Hil_Model.v
theories/Hil_Proofs.v
theories/Hil_Spec.v
theories/Hil_Thm.v
theories/History_Model.v
theories/History_Proofs.v
theories/History_Spec.v
theories/History_Thm.v
theories/Integral_Model.v
theories/Integral_Proofs1.v
theories/Integral_Proofs2.v
theories/Integral_Proofs3.v
theories/Integral_Spec.v
theories/Integral_Thm.v
theories/Iter_Model.v
theories/Iter_Proofs.v
theories/Iter_Proofs2.v
theories/Iter_Proofs3.v
theories/Iter_Proofs4.v
theories/Iter_Proofs5.v
theories/Iter_Spec.v
theories/Iter_Thm.v
theories/Jac_Model.v
theories/Jac_Proofs1.v
theories/Jac_Proofs10.v
theories/Jac_Proofs11.v
theories/Jac_Proofs2.v
theories/Jac_Proofs3.v
theories/Jac_Proofs4.v
theories/Jac_Proofs5.v
theories/Jac_Proofs6.v
theories/Jac_Proofs7.v
theories/Jac_Proofs8.v
theories/Jac_Proofs9.v
theories/Jac_Spec.v
theories/Jac_Thm.v
theories/Join_Model.v
theories/Join_Proofs1.v
theories/Join_Proofs2.v
theories/Join_Proofs3.v
theories/Join_Proofs4.v
theories/Join_Proofs5.v
theories/Join_Proofs6.v
theories/Join_Proofs7.v
theories/Join_Spec.v
theories/Join_Thm.v
theories/Layer_Model.v
theories/Layer_Proofs.v
theories/Layer_Thm.v
theories/Linearized_Model.v
theories/Linearized_Proofs.v
theories/Linearized_Spec.v
theories/Linearized_Thm.v
theories/ListUtil.v
theories/Loop.v
theories/March_Model.v
theories/March_Proofs.v
theories/March_Proofs2.v
theories/March_Spec.v
theories/March_Thm.v
theories/Math_Model.v
theories/Math_Proofs.v
theories/Math_Spec.v
theories/Math_Thm.v
theories/Mesh_Model.v
theories/Mesh_Proofs.v
theories/Mesh_Proofs10.v
theories/Mesh_Proofs2.v
theories/Mesh_Proofs3.v
theories/Mesh_Proofs4.v
theories/Mesh_Proofs5.v
theories/Mesh_Proofs6.v
theories/Mesh_Proofs7.v
theories/Mesh_Proofs8.v
theories/Mesh_Proofs9.v
theories/Mesh_Spec.v
theories/Mesh_Thm.v
theories/Mutual_Model.v
theories/Mutual_Proofs.v
theories/Mutual_Spec.v
theories/Mutual_Thm.v
theories/Namespace_Model.v
theories/Namespace_Proofs.v
theories/Namespace_Spec.v
theories/Namespace_Thm.v
theories/Outcome.v
theories/Pbasis_Model.v
theories/Pbasis_Proofs.v
theories/Pbasis_Thm.v
theories/Pde_Model.v
theories/Pde_Proofs.v
theories/Pde_Spec.v
theories/Pde_Thm.v
theories/Quad_Model.v
theories/Quad_Proofs.v
theories/Quad_Proofs2.v
theories/Quad_Spec.v
theories/Quad_Thm.v
theories/RSum.v
theories/Report_Model.v
theories/Report_Spec.v
theories/Report_Thm.v
theories/Row_Model.v
theories/Row_Proofs.v
theories/Row_Spec.v
theories/Row_Thm.v
theories/Simplex_Model.v
theories/Simplex_Proofs.v
theories/Simplex_Proofs2.v
theories/Simplex_Proofs3.v
theories/Simplex_Spec.v
theories/Simplex_Thm.v
theories/Smooth_Model.v
theories/Smooth_Proofs1.v
theories/Smooth_Proofs2.v
theories/Smooth_Spec.v
theories/Smooth_Thm.v
theories/Snap_Model.v
theories/Snap_Proofs1.v
theories/Snap_Proofs2.v
theories/Snap_Proofs3.v
theories/Snap_Proofs4.v
theories/Snap_Spec.v
theories/Snap_Thm.v
theories/Spatial_Model.v
theories/Spatial_Proofs.v
theories/Spatial_Proofs2.v
theories/Spatial_Proofs3.v
theories/Spatial_Proofs4.v
theories/Spatial_Proofs5.v
theories/Spatial_Proofs6.v
theories/Spatial_Spec.v
theories/Spatial_Thm.v
theories/Stopwatch_Model.v
theories/Stopwatch_Proofs.v
theories/Stopwatch_Spec.v
theories/Stopwatch_Thm.v
theories/Storage_Model.v
theories/Storage_Proofs.v
theories/Storage_Spec.v
theories/Storage_Thm.v
theories/Stress_Proofs.v
theories/Stress_Spec.v
theories/Stress_Thm.v
theories/Sweep_Model.v
theories/Sweep_Proofs1.v
theories/Sweep_Proofs2.v
theories/Sweep_Proofs3.v
theories/Sweep_Proofs4.v
theories/Sweep_Proofs5.v
theories/Sweep_Proofs6.v
theories/Sweep_Spec.v
theories/Sweep_Thm.v
theories/Tensor_Model.v
theories/Tensor_Proofs.v
theories/Tensor_Spec.v
theories/Tensor_Thm.v
theories/Tree_Flood.v
theories/Tree_Model.v
theories/Tree_Neighbors.v
theories/Tree_Proofs.v
theories/Tree_Spec.v
theories/Tree_Thm.v
theories/Trim_Model.v
theories/Trim_Proofs1.v
theories/Trim_Proofs2.v
theories/Trim_Proofs3.v
theories/Trim_Proofs4.v
theories/Trim_Proofs5.v
theories/Trim_Proofs6.v
theories/Trim_Proofs7.v
theories/Trim_Spec.v
theories/Trim_Thm.v
theories/Update_Model.v
theories/Update_Proofs1.v
theories/Update_Proofs10.v
theories/Update_Proofs11.v
theories/Update_Proofs12.v
theories/Update_Proofs2.v
theories/Update_Proofs3.v
theories/Update_Proofs4.v
theories/Update_Proofs5.v
theories/Update_Proofs6.v
theories/Update_Proofs7.v
theories/Update_Proofs8.v
theories/Update_Proofs9.v
theories/Update_Spec.v
theories/Update_Thm.v
theories/Vertex_Model.v
theories/Vertex_Proofs.v
theories/Vertex_Proofs2.v
theories/Vertex_Proofs3.v
theories/Vertex_Proofs4.v
theories/Vertex_Spec.v
theories/Vertex_Thm.v
theories/Vis_Model.v
theories/Vis_Proofs1.v
theories/Vis_Proofs2.v
theories/Vis_Spec.v
theories/Vis_Thm.v
theories/Visc_Model.v
theories/Visc_Proofs1.v
theories/Visc_Proofs2.v
theories/Visc_Proofs3.v
theories/Visc_Proofs4.v
theories/Visc_Proofs5.v
theories/Visc_Spec.v
theories/Visc_Thm.v
